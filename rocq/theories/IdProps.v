(* C44: identifiers are unique and time is monotone. *)
From Coq Require Import List Bool Arith ZArith.
Import ListNotations.
From Verif Require Import IdModel IdSpec IdProofs.
Local Open Scope Z_scope.

(* Two threads in the constructor at once, then moves and a destruction. *)
Definition iview (r : outcome) (n : nat) : option (list cell * list (nat * Z)) :=
  match r with Next s o => Some (map (objs s) (seq 0 n), o) | _ => None end.
Lemma iview_out r n c o : iview r n = Some (c, o) -> exists s, r = Next s o /\ map (objs s) (seq 0 n) = c.
Proof. destruct r as [| |s o0]; cbn [iview]; intros H; try discriminate. injection H as <- <-. exists s. split; reflexivity. Qed.
Definition iex : list event := [Start 1 0; Start 2 1; Go 2; Go 2; Go 2; Go 2; Go 1; Go 1; Go 1; Go 1; Go 1; Go 2]%nat.
Definition iex2 : list event := [MoveNew 2 0; Start 1 3; Go 1; Go 1; Go 1; Go 1; Go 1; MoveAssign 1 3; Delete 0]%nat.
Example iex_run : iview (run init iex) 2 = Some ([Live 1; Live 0], [(1%nat, 1); (2%nat, 0)]).
Proof. reflexivity. Qed.
Example iex2_run : iview (run init (iex ++ iex2)) 4 = Some ([Free; Live 2; Live 1; Live (-1)], [(1%nat, 1); (2%nat, 0); (1%nat, 2)]).
Proof. reflexivity. Qed.
(* The mutex excludes the second thread. *)
Example iex_blocked : run init ([Start 1 0; Start 2 1; Go 2; Go 1]%nat) = Blocked.
Proof. reflexivity. Qed.

(* In every interleaving of constructors, moves and destructions, all the ids given are different;
   an object has the id -1 or one that was given, and no two objects have the same id, -1 apart. *)
Theorem C44_unique : forall es s outs, history es s outs ->
  NoDup (map snd outs) /\ (forall i, In i (map snd outs) -> 0 <= i) /\
  (forall a i, hasId s a i -> i = -1 \/ In i (map snd outs)) /\
  (forall a b i, hasId s a i -> hasId s b i -> i <> -1 -> a = b).
Proof. exact unique. Qed.
Print Assumptions C44_unique.

(* An object created after another one has a larger id. *)
Theorem C44_order : forall es1 es2 s1 o1 s2 o2 t i j, history es1 s1 o1 -> pcs s1 t = Idle -> run s1 es2 = Next s2 o2 ->
  In i (map snd o1) -> In (t, j) o2 -> i < j.
Proof. exact order. Qed.
Print Assumptions C44_order.

(* An id stays with its object and follows it when it is moved from. *)
Theorem C44_follow : forall es s outs e s' o a i, history es s outs -> step s e = Next s' o -> hasId s a i -> i <> -1 ->
  forall b, hasId s' b i <-> follow e a = Some b.
Proof. exact follows. Qed.
Print Assumptions C44_follow.

(* An id which no object has any more is never given again. *)
Theorem C44_never_reused : forall es2 es1 s1 o1 s2 o2 i, history es1 s1 o1 -> In i (map snd o1) -> (forall a, ~ hasId s1 a i) ->
  run s1 es2 = Next s2 o2 -> forall a, ~ hasId s2 a i.
Proof. exact lost. Qed.
Print Assumptions C44_never_reused.
Example lost_case : exists s o, history (iex ++ [Delete 0]%nat) s o /\ In 1 (map snd o) /\ objs s 0 = Free /\ objs s 1 = Live 0.
Proof.
  destruct (iview_out (run init (iex ++ [Delete 0]%nat)) 2 [Free; Live 0] [(1%nat, 1); (2%nat, 0)] eq_refl) as [s [R V]].
  injection V as V0 V1. exists s, [(1%nat, 1); (2%nat, 0)]. split; [exact R|]. split; [left; reflexivity|]. split; assumption.
Qed.

(* The constructors under way cannot be stuck. *)
Theorem C44_progress : forall es s outs t, history es s outs -> pcs s t <> Idle -> exists t', step s (Go t') <> Blocked.
Proof. exact progress. Qed.
Print Assumptions C44_progress.

(* The counter does not overflow in the first 2^31 - 1 creations... *)
Theorem C44_no_overflow : forall es, creations es <= intMax -> run init es <> Undefined.
Proof. exact no_overflow. Qed.
Print Assumptions C44_no_overflow.
(* ...but the next one can be undefined. *)
Theorem C44_overflow_refuted : exists es, creations es = intMax + 1 /\ run init es = Undefined.
Proof. exact overflow. Qed.
Print Assumptions C44_overflow_refuted.

(* Objects moved from all have the same id; an object assigned to itself loses its id. *)
Theorem C44_moved_from_refuted : exists es s outs a b i, history es s outs /\ a <> b /\ hasId s a i /\ hasId s b i.
Proof.
  destruct (iview_out (run init (iex ++ [MoveNew 2 0; MoveNew 3 1]%nat)) 2 [Live (-1); Live (-1)] [(1%nat, 1); (2%nat, 0)] eq_refl) as [s [R V]].
  injection V as V0 V1. exists (iex ++ [MoveNew 2 0; MoveNew 3 1]%nat), s, [(1%nat, 1); (2%nat, 0)], 0%nat, 1%nat, (-1).
  split; [exact R|]. split; [discriminate|]. split; assumption.
Qed.
Print Assumptions C44_moved_from_refuted.
Theorem C44_self_move_refuted : exists es s outs s' o a i, history es s outs /\ hasId s a i /\ i <> -1 /\
  step s (MoveAssign a a) = Next s' o /\ hasId s' a (-1).
Proof.
  destruct (iview_out (run init iex) 1 [Live 1] [(1%nat, 1); (2%nat, 0)] eq_refl) as [s [R V]].
  injection V as V0. exists iex, s, [(1%nat, 1); (2%nat, 0)].
  exists (mkS (mutex s) (idc s) (pcs s) (upd (upd (objs s) 0%nat (Live 1)) 0%nat (Live (-1)))), [], 0%nat, 1.
  split; [exact R|]. split; [exact V0|]. split; [discriminate|]. split; [cbn [step]; rewrite V0; reflexivity|reflexivity].
Qed.
Print Assumptions C44_self_move_refuted.

(* Objects that were not moved from are compared by address, and ordered, by their ids. *)
Theorem C44_compare : forall es s outs a b i j, history es s outs -> hasId s a i -> hasId s b j -> i <> -1 -> j <> -1 ->
  (idEqual (Some i) (Some j) = true <-> a = b) /\
  (idLess (Some i) (Some j) = true \/ a = b \/ idLess (Some j) (Some i) = true) /\
  ~ (idLess (Some i) (Some j) = true /\ idLess (Some j) (Some i) = true).
Proof. exact compare_ids. Qed.
Print Assumptions C44_compare.
Theorem C44_compare_trans : forall i j k, idLess (Some i) (Some j) = true -> idLess (Some j) (Some k) = true -> idLess (Some i) (Some k) = true.
Proof. exact idLess_trans. Qed.
Print Assumptions C44_compare_trans.
(* With null pointers IdLess is not a strict weak order: null is equivalent to everything. *)
Theorem C44_compare_null_refuted : exists x y z,
  idLess x y = false /\ idLess y x = false /\ idLess y z = false /\ idLess z y = false /\ idLess x z = true.
Proof. exact idLess_null. Qed.
Print Assumptions C44_compare_null_refuted.

(* The clock counts the steps modulo 2^64: by one at each of the first 2^64 - 1 steps. *)
Theorem C44_clock : forall n, advances n ticks0 = Z.of_nat n mod two64.
Proof. exact clock. Qed.
Print Assumptions C44_clock.
Theorem C44_clock_step : forall n, Z.of_nat n + 1 < two64 ->
  advances n ticks0 = Z.of_nat n /\ advances (Datatypes.S n) ticks0 = advances n ticks0 + 1.
Proof. exact clock_step. Qed.
Print Assumptions C44_clock_step.
Example clock_ex : advances 3 ticks0 = 3.
Proof. reflexivity. Qed.
Theorem C44_clock_wrap_refuted : exists n, advances (Datatypes.S n) ticks0 < advances n ticks0.
Proof. exact clock_wrap. Qed.
Print Assumptions C44_clock_wrap_refuted.

(* A robot or collision function executes its time dependent update exactly when the clock moved
   since the previous call, once however many ticks there were, if there were less than 2^64. *)
Theorem C44_follower : forall gaps x, 0 <= x < two64 -> Forall (fun n => Z.of_nat n < two64) gaps ->
  done (frun (attach x) (flat_map gap gaps)) = due gaps.
Proof. exact follower_due. Qed.
Print Assumptions C44_follower.
Example follower_ex : done (frun (attach 5) (flat_map gap [1; 0; 3; 1; 0]%nat)) = 3%nat /\ due [1; 0; 3; 1; 0]%nat = 3%nat.
Proof. split; reflexivity. Qed.
(* The integrated time is then shorter than the time of the clock: three ticks, one integration. *)
Theorem C44_follower_late_refuted : exists gaps x, 0 <= x < two64 /\
  Z.of_nat (done (frun (attach x) (flat_map gap gaps))) < now (frun (attach x) (flat_map gap gaps)) - x.
Proof. exists [3%nat], 0. split; [split; [discriminate|reflexivity]|reflexivity]. Qed.
Print Assumptions C44_follower_late_refuted.
Theorem C44_follower_wrap_refuted : forall x, 0 <= x < two64 -> exists n, n <> 0%nat /\ done (frun (attach x) (gap n)) = 0%nat.
Proof. exact follower_late. Qed.
Print Assumptions C44_follower_wrap_refuted.
