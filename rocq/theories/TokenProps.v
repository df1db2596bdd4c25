(* C34: paired tokens stay paired through moves and never dangle. *)
From Coq Require Import List Bool Arith.
Import ListNotations.
From Verif Require Import Base TokenModel TokenSpec TokenProofs.

Definition tview (s : res state) (n : nat) : option (list (option (option nat))) :=
  match s with Ok s => Some (map (toks s) (seq 0 n)) | _ => None end.
(* Two pairs made in the two ways, a move, an assignment onto a paired token, a destruction. *)
Definition tex : list op := [New 0; New 1; PairWith 0 1; New 2; MakeHandle 0 2; FromHandle 3 0; MoveNew 4 1; MoveAssign 3 0; Delete 4].
Example tex_legal : legals empty tex /\ tview (run empty tex) 5 = Some [Some None; Some None; Some None; Some None; None].
Proof.
  split; [|vm_compute; reflexivity]. vm_compute. repeat split; try discriminate; try (exists 2; repeat split; (reflexivity || discriminate)).
Qed.
Example tex_pairs : tview (run empty (firstn 7 tex)) 5 = Some [Some (Some 4); Some None; Some (Some 3); Some (Some 2); Some (Some 0)] /\
  tview (run empty (firstn 8 tex)) 5 = Some [Some None; Some None; Some None; Some (Some 4); Some (Some 3)].
Proof. split; reflexivity. Qed.

(* After every legal history a token is paired with at most one token, another one, which lives
   and is paired with it. *)
Theorem C34_symmetric : forall s, reachable s -> consistent (worldOf s).
Proof. exact reachable_consistent. Qed.
Print Assumptions C34_symmetric.

(* Each legal call is defined and changes the pairs as it should: those of a token moved from
   follow it, those of a token destroyed or assigned to disappear, the others stay.  Only
   pairWith throws, when one of the tokens is paired. *)
Theorem C34_effect : forall s o, reachable s -> legal s o ->
  match step s o with
  | Ok s' => same (worldOf s') (effect (hands s) o (worldOf s))
  | Throw => exists a b c, o = PairWith a b /\ (paired (worldOf s) a c \/ paired (worldOf s) b c)
  | UB => False
  end.
Proof. exact step_reachable. Qed.
Print Assumptions C34_effect.

Theorem C34_pair_throws : forall s a b, paired (worldOf s) a b -> forall c, toks s c <> None ->
  step s (PairWith a c) = Throw /\ step s (PairWith c a) = Throw.
Proof. exact pair_throws. Qed.
Print Assumptions C34_pair_throws.

(* std::swap exchanges the tokens in a and b, whatever they are paired with. *)
Theorem C34_swap : forall s tmp a b, reachable s -> toks s tmp = None -> alive (worldOf s) a -> alive (worldOf s) b -> a <> b ->
  exists s', run s [MoveNew tmp a; MoveAssign a b; MoveAssign b tmp; Delete tmp] = Ok s' /\
    same (worldOf s') (mkW (alive (worldOf s)) (fun x y => paired (worldOf s) (exch a b x) (exch a b y))).
Proof. exact swap_reachable. Qed.
Print Assumptions C34_swap.
Example swap_paired : tview (run empty ([New 0; New 1; New 2; PairWith 0 2] ++ [MoveNew 9 0; MoveAssign 0 1; MoveAssign 1 9; Delete 9])) 3
  = Some [Some None; Some (Some 2); Some (Some 1)].
Proof. reflexivity. Qed.
Example swap_each_other : tview (run empty ([New 0; New 1; PairWith 0 1] ++ [MoveNew 9 0; MoveAssign 0 1; MoveAssign 1 9; Delete 9])) 2
  = Some [Some (Some 1); Some (Some 0)].
Proof. reflexivity. Qed.

(* Moving a token into itself loses its pair (which C34_effect says too, [moved P a a] being P without a). *)
Theorem C34_self_move_refuted : exists s, reachable s /\ paired (worldOf s) 0 1 /\
  exists s', step s (MoveAssign 0 0) = Ok s' /\ forall b, ~ paired (worldOf s') 0 b /\ ~ paired (worldOf s') 1 b.
Proof.
  eexists. split; [eapply (legals_reachable empty [New 0; New 1; PairWith 0 1]); [apply r_empty| |reflexivity]|].
  - vm_compute. repeat split; discriminate.
  - split; [reflexivity|]. eexists. split; [reflexivity|]. intros b. split; discriminate.
Qed.
Print Assumptions C34_self_move_refuted.
(* What [legal] leaves out is needed.  pairWith accepts to pair a token with itself; when it moves, the token moved from is not unpaired. *)
Theorem C34_self_pair_refuted : exists s, run empty [New 0; PairWith 0 0; MoveNew 1 0] = Ok s /\
  paired (worldOf s) 0 1 /\ paired (worldOf s) 1 0 /\ alive (worldOf s) 0.
Proof. eexists. split; [reflexivity|]. split; [reflexivity|]. split; [reflexivity|]. discriminate. Qed.
Print Assumptions C34_self_pair_refuted.
(* A handle does not follow its token: used twice through two handles, or after its token got
   paired, the relation is not symmetric and the first partner dangles once the second dies. *)
Theorem C34_handle_refuted : (exists s, run empty [New 0; MakeHandle 0 0; New 1; PairWith 0 1; FromHandle 2 0] = Ok s /\
    paired (worldOf s) 1 0 /\ paired (worldOf s) 0 2 /\ paired (worldOf s) 2 0) /\
  (exists s, run empty [New 0; MakeHandle 0 0; New 1; PairWith 0 1; FromHandle 2 0; Delete 0] = Ok s /\
    paired (worldOf s) 1 0 /\ ~ alive (worldOf s) 0) /\
  run empty [New 0; MakeHandle 0 0; New 1; PairWith 0 1; FromHandle 2 0; Delete 0; Delete 1] = UB /\
  run empty [New 0; MakeHandle 0 0; MoveNew 1 0; Delete 0; FromHandle 2 0] = UB.
Proof.
  split; [eexists; split; [reflexivity|]; repeat split; reflexivity|].
  split; [eexists; split; [reflexivity|]; split; [reflexivity|intros H; now apply H]|].
  split; reflexivity.
Qed.
Print Assumptions C34_handle_refuted.
