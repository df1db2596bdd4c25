(* C11: VariableCountingVector. [good L spOf]: every super-variable is a sequence of
   atoms (VarCountingSpec.v); the calls of [h] denote the calls [ah] on atoms. *)
Require Import ZArith List Bool Lia.
Require Import Verif.Base Verif.RangeModel Verif.RangeCountingModel Verif.RangeCountingSpec.
Require Import Verif.SpaceModel Verif.VarCountingModel Verif.VarCountingSpec.
Require Import Verif.VarCountingProofs4 Verif.VarCountingProofs5.
Import ListNotations.
Local Open Scope Z_scope.

(* No history runs into undefined behaviour, and variables() lists exactly the atoms
   added more often than removed: as maximal parts when split is off, as disjoint parts
   otherwise. *)
Theorem C11_variables : forall L spOf base h ah split, good L spOf -> Forall2 (denotes L) h ah ->
  exists s outs s' vs ps, vcrun spOf base (vc_init split) h = Ok (s, outs) /\
    variables spOf base s = Ok (s', vs) /\ listed L vs ps /\
    forall k, pieces (of_sup k ps) (fun x => 0 < aspec ah k x) /\
      (split = false -> canonical (of_sup k ps) (fun x => 0 < aspec ah k x)).
Proof. intros L spOf base h ah split G. exact (c11_variables L spOf base G h ah split). Qed.

(* The returned flags tell whether that set of atoms changes. *)
Theorem C11_add_flag : forall L spOf base h ah split s outs v q, good L spOf -> Forall2 (denotes L) h ah ->
  vcrun spOf base (vc_init split) h = Ok (s, outs) -> made_of L v q ->
  exists s' b, vc_add s v = Ok (s', b) /\
    (b = true <-> exists x, In_range q x /\ aspec ah (c_sup v) x = 0).
Proof. intros L spOf base h ah split s outs v q G. exact (c11_add L spOf base G h ah split s outs v q). Qed.

Theorem C11_remove_flag : forall L spOf base h ah split s outs v q, good L spOf -> Forall2 (denotes L) h ah ->
  vcrun spOf base (vc_init split) h = Ok (s, outs) -> made_of L v q -> 0 < dim q ->
  exists s' o, vc_remove s v = Ok (s', o) /\
    (o = None <-> exists x, In_range q x /\ aspec ah (c_sup v) x = 0) /\
    (o = Some true <-> (forall x, In_range q x -> 1 <= aspec ah (c_sup v) x) /\
                       exists x, In_range q x /\ aspec ah (c_sup v) x = 1).
Proof. intros L spOf base h ah split s outs v q G. exact (c11_remove L spOf base G h ah split s outs v q). Qed.

Theorem C11_disjoint : forall L spOf base h ah split s outs, good L spOf -> Forall2 (denotes L) h ah ->
  vcrun spOf base (vc_init split) h = Ok (s, outs) ->
  (isDisjointUnion s = true <-> forall k x, aspec ah k x <= 1).
Proof. intros L spOf base h ah split s outs G. exact (c11_disjoint L spOf base G h ah split s outs). Qed.

(* With split on, the first call of variables() separates atoms that are counted
   differently ... *)
Theorem C11_split_first_call : forall L spOf base h ah, good L spOf -> Forall2 (denotes L) h ah ->
  (forall o, In o h -> o <> CVariables) ->
  exists s outs s' vs ps, vcrun spOf base (vc_init true) h = Ok (s, outs) /\
    variables spOf base s = Ok (s', vs) /\ listed L vs ps /\
    (forall k, pieces (of_sup k ps) (fun x => 0 < aspec ah k x)) /\
    (forall k q, In (k, q) ps -> forall x y, In_range q x -> In_range q y -> aspec ah k x = aspec ah k y).
Proof. intros L spOf base h ah G. exact (c11_split_first L spOf base G h ah). Qed.

(* ... and, when nothing was removed, every part lies inside or outside each added
   variable. *)
Theorem C11_split_refines_adds : forall L spOf base h ah, good L spOf -> Forall2 (denotes L) h ah ->
  (forall o, In o h -> exists v, o = CAdd v) ->
  exists s outs s' vs ps, vcrun spOf base (vc_init true) h = Ok (s, outs) /\
    variables spOf base s = Ok (s', vs) /\ listed L vs ps /\
    (forall k, pieces (of_sup k ps) (fun x => 0 < aspec ah k x)) /\
    (forall k q p, In (AAdd k q) ah -> In (k, p) ps ->
       (forall x, In_range p x -> In_range q x) \/ (forall x, In_range p x -> ~ In_range q x)).
Proof. intros L spOf base h ah G. exact (c11_split_refines L spOf base G h ah). Qed.

(* simple(), with adds only: a part flagged simple is one of the added variables. *)
Theorem C11_simple_adds : forall L spOf base h ah, good L spOf -> Forall2 (denotes L) h ah ->
  (forall o, In o h -> (exists v, o = CAdd v) \/ o = CVariables) ->
  exists s outs s1 vs s2 fl, vcrun spOf base (vc_init false) h = Ok (s, outs) /\
    variables spOf base s = Ok (s1, vs) /\ simple spOf base s = Ok (s2, fl) /\ length fl = length vs /\
    forall i v, nth_error vs i = Some v -> nth_error fl i = Some true ->
      exists q, In (AAdd (c_sup v) q) ah /\ made_of L v q.
Proof. intros L spOf base h ah G. exact (c11_simple_adds L spOf base G h ah). Qed.

Local Arguments Z.add : simpl never.
Local Arguments Z.sub : simpl never.
Local Arguments Z.mul : simpl never.

(* ---------- a concrete case: a vector x of 44 scalars, and an SO3-like y ---------- *)
Definition exL : layout := mkLayout (fun k a => if Nat.eqb k 0 then a else 3 * a) (fun k a => if Nat.eqb k 0 then a else 4 * a)
  (fun k a => if Nat.eqb k 0 then a else 3 * a) (fun k => if Nat.eqb k 0 then 44 else 2).
Definition exSp (k : nat) : space := if Nat.eqb k 0 then mkSpace 44 44 44 Euclidean else mkSpace 6 8 6 Unspecified.
Definition exB (k : nat) : bool := true.
Example ex_good : good exL exSp.
Proof. intros k. unfold exL, exSp. simpl. destruct (Nat.eqb k 0); simpl; repeat split; intros; lia. Qed.
Definition exX (a b : Z) : cvar := mkCV 0 (mkSpace a a a Euclidean) (mkSpace (b - a) (b - a) (b - a) Euclidean).
Definition exY (a b : Z) : cvar := mkCV 1 (mkSpace (3 * a) (4 * a) (3 * a) Unspecified)
  (mkSpace (3 * (b - a)) (4 * (b - a)) (3 * (b - a)) Unspecified).
Definition rg (a b : Z) : Range := mkRange a (b - a).
Lemma exX_made a b : 0 <= a -> a <= b -> b <= 44 -> made_of exL (exX a b) (rg a b).
Proof. intros. unfold made_of, exX, exL, rg, rend. simpl. lia. Qed.
Lemma exY_made a b : 0 <= a -> a <= b -> b <= 2 -> made_of exL (exY a b) (rg a b).
Proof. intros. unfold made_of, exY, exL, rg, rend. simpl. lia. Qed.

Ltac den := repeat first [apply Forall2_nil | apply Forall2_cons; [first [exact I | split; [reflexivity|
  first [apply exX_made | apply exY_made]; lia]]|]].
Definition exh : list vcop := [CAdd (exX 0 4); CAdd (exX 2 8); CVariables; CAdd (exY 1 2); CRemove (exX 0 4); CRemove (exX 0 4)].
Definition exah : list aop := [AAdd 0 (rg 0 4); AAdd 0 (rg 2 8); AVars; AAdd 1 (rg 1 2); ARemove 0 (rg 0 4); ARemove 0 (rg 0 4)].
Example ex_denotes : Forall2 (denotes exL) exh exah.
Proof. unfold exh, exah. den. Qed.
Example ex_variables : exists s outs s' vs,
  vcrun exSp exB (vc_init false) exh = Ok (s, outs) /\ variables exSp exB s = Ok (s', vs) /\
  outs = [CBool true; CBool true; CVars [exX 0 8]; CBool true; CBool true; CThrow] /\
  map (fun v => (c_sup v, mSize (c_shift v), rSize (c_space v))) vs = [(0%nat, 2, 6); (1%nat, 3, 4)].
Proof. eexists _, _, _, _. split; [|split; [|split]]; vm_compute; reflexivity. Qed.

(* ---------- where the documentation is wrong ---------- *)
(* With split on, a later add of an already present part does not refresh variables():
   a part whose atoms are counted differently is returned as one. *)
Theorem C11_split_pieces_refuted : exists L spOf base h ah s outs s' vs ps k q x y,
  good L spOf /\ Forall2 (denotes L) h ah /\ vcrun spOf base (vc_init true) h = Ok (s, outs) /\
  variables spOf base s = Ok (s', vs) /\ listed L vs ps /\
  In (k, q) ps /\ In_range q x /\ In_range q y /\ aspec ah k x <> aspec ah k y.
Proof.
  exists exL, exSp, exB, [CAdd (exX 0 4); CVariables; CAdd (exX 1 2)], [AAdd 0 (rg 0 4); AVars; AAdd 0 (rg 1 2)].
  eexists _, _, _, _, [(0%nat, rg 0 4)], 0%nat, (rg 0 4), 0, 1.
  split; [exact ex_good|]. split; [den|]. split; [vm_compute; reflexivity|]. split; [vm_compute; reflexivity|].
  split; [split; [repeat constructor; simpl; unfold rend; simpl; lia|repeat constructor]|].
  split; [left; reflexivity|]. split; [unfold In_range; simpl; lia|]. split; [unfold In_range; simpl; lia|].
  vm_compute. discriminate.
Qed.

(* "When using only add, [simple()] is exact": it is not. x[6:8) is added once and meets
   no other added part, yet is flagged false. *)
Theorem C11_simple_exact_refuted : exists L spOf base h ah s outs s1 vs s2 fl v q,
  good L spOf /\ Forall2 (denotes L) h ah /\ (forall o, In o h -> exists w, o = CAdd w) /\
  vcrun spOf base (vc_init false) h = Ok (s, outs) /\
  variables spOf base s = Ok (s1, vs) /\ simple spOf base s = Ok (s2, fl) /\
  nth_error vs 1 = Some v /\ nth_error fl 1 = Some false /\
  made_of L v q /\ In (AAdd (c_sup v) q) ah /\
  forall q', In (AAdd (c_sup v) q') ah -> q' <> q -> rend q' < start q \/ rend q < start q'.
Proof.
  exists exL, exSp, exB, [CAdd (exX 0 2); CAdd (exX 2 4); CAdd (exX 6 8)], [AAdd 0 (rg 0 2); AAdd 0 (rg 2 4); AAdd 0 (rg 6 8)].
  eexists _, _, _, _, _, _, _, (rg 6 8).
  split; [exact ex_good|]. split; [den|]. split.
  { intros o [<-|[<-|[<-|[]]]]; eauto. }
  split; [vm_compute; reflexivity|]. split; [vm_compute; reflexivity|]. split; [vm_compute; reflexivity|]. split; [vm_compute; reflexivity|]. split; [vm_compute; reflexivity|].
  split; [apply (exX_made 6 8); lia|]. split; [simpl; auto|].
  intros q' [E|[E|[E|[]]]] N; inversion E; subst; unfold rend; simpl; try lia. congruence.
Qed.

(* simple() is not conservative: the penalty of 10 for a removal can be compensated.
   x[0:2) is flagged true although it was never added in one go. *)
Definition c11h : list vcop := CAdd (exX 0 44) :: CAdd (exX 0 1) :: CAdd (exX 1 2) ::
  map (fun i => CAdd (exX (4 * i) (4 * i + 2))) [1; 2; 3; 4; 5; 6; 7; 8; 9; 10] ++ [CRemove (exX 0 44)].
Definition c11ah : list aop := AAdd 0 (rg 0 44) :: AAdd 0 (rg 0 1) :: AAdd 0 (rg 1 2) ::
  map (fun i => AAdd 0 (rg (4 * i) (4 * i + 2))) [1; 2; 3; 4; 5; 6; 7; 8; 9; 10] ++ [ARemove 0 (rg 0 44)].
Theorem C11_simple_conservative_refuted : exists L spOf base h ah s outs s1 vs s2 fl v q,
  good L spOf /\ Forall2 (denotes L) h ah /\ vcrun spOf base (vc_init false) h = Ok (s, outs) /\
  variables spOf base s = Ok (s1, vs) /\ simple spOf base s = Ok (s2, fl) /\
  nth_error vs 0 = Some v /\ nth_error fl 0 = Some true /\ made_of L v q /\
  forall q', In (AAdd (c_sup v) q') ah -> q' <> q.
Proof.
  exists exL, exSp, exB, c11h, c11ah. eexists _, _, _, _, _, _, _, (rg 0 2).
  split; [exact ex_good|]. split; [unfold c11h, c11ah; cbn [map app]; den|].
  split; [vm_compute; reflexivity|]. split; [vm_compute; reflexivity|]. split; [vm_compute; reflexivity|].
  split; [vm_compute; reflexivity|]. split; [vm_compute; reflexivity|]. split; [unfold made_of, rend; simpl; lia|].
  intros q' H E. subst. simpl in H. repeat destruct H as [H|H]; try discriminate H. destruct H.
Qed.

(* Sub-variables of a non-Euclidean variable whose spaces are not aligned in the three
   coordinate systems violate the assertion of update() (cpp:108), although each of them
   can be built: two parts are apart in one coordinate system and adjacent in another. *)
Theorem C11_aligned_needed_refuted : exists spOf base v w s outs,
  subv spOf 0 (c_space v) (c_shift v) = Ok v /\ subv spOf 0 (c_space w) (c_shift w) = Ok w /\
  vcrun spOf base (vc_init false) [CAdd v; CAdd w] = Ok (s, outs) /\ variables spOf base s = UB.
Proof.
  exists (fun _ => mkSpace 2 3 2 Unspecified), (fun _ => true),
    (mkCV 0 (mkSpace 0 0 0 Euclidean) (mkSpace 1 1 1 Euclidean)), (mkCV 0 (mkSpace 1 2 1 Unspecified) (mkSpace 1 1 1 Euclidean)).
  eexists _, _. repeat split; reflexivity.
Qed.

Print Assumptions C11_variables.
Print Assumptions C11_add_flag.
Print Assumptions C11_remove_flag.
Print Assumptions C11_disjoint.
Print Assumptions C11_split_first_call.
Print Assumptions C11_split_refines_adds.
Print Assumptions C11_simple_adds.
Print Assumptions C11_split_pieces_refuted.
Print Assumptions C11_simple_exact_refuted.
Print Assumptions C11_simple_conservative_refuted.
Print Assumptions C11_aligned_needed_refuted.
