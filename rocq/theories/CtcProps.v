(* C58: contacts between two frames. *)
Require Import Reals List Bool ZArith Arith Lia Lra.
Require Import Verif.ConeModel Verif.DfModel Verif.CtcModel Verif.CtcSpec Verif.CtcProofs.
Import ListNotations.
Local Open Scope R_scope.

(* The two transformations of a contact change the coordinates from a frame to the other one, and are inverse of each
   other; the points of the first frame are the ones given. *)
Theorem C58_transformations : forall (str : Type) (f1 f2 : frame str) (ps : list ptr) (amb : Z) (x : v3),
  orthonormal (p_rot (f_pos str f1)) -> orthonormal (p_rot (f_pos str f2)) ->
  let c := newContact str f1 f2 ps amb in
  place (f_pos str f1) (place (c_x12 str c) x) = place (f_pos str f2) x /\
  place (f_pos str f2) (place (c_x21 str c) x) = place (f_pos str f1) x /\
  place (c_x12 str c) (place (c_x21 str c) x) = x /\ place (c_x21 str c) (place (c_x12 str c) x) = x /\ c_p1 str c = ps.
Proof.
  intros str f1 f2 ps amb x A B c. split; [apply x12_place; exact A|]. split; [apply x21_place; assumption|]. destruct (x21_inv str f1 f2 ps amb x A B) as [C D]. auto.
Qed.
Print Assumptions C58_transformations.

(* A point of the second frame is the same physical point as the one of the first frame exactly when the point and the
   transformation commute; *)
Theorem C58_points : forall (str : Type) (f1 f2 : frame str) (ps : list ptr) (amb : Z) (k : nat) (p : ptr),
  orthonormal (p_rot (f_pos str f1)) -> orthonormal (p_rot (f_pos str f2)) -> nth_error ps k = Some p ->
  let c := newContact str f1 f2 ps amb in
  exists p', nth_error (c_p2 str c) k = Some p' /\
    (place (f_pos str f2) (p_tr p') = place (f_pos str f1) (p_tr p) <-> place p (p_tr (c_x21 str c)) = place (c_x21 str c) (p_tr p)).
Proof. exact points_iff. Qed.
Print Assumptions C58_points.
(* this is so, for the orientation as well, when the frames have the same orientation and the point has the one of the frame *)
Theorem C58_points_partial : forall (str : Type) (f1 f2 : frame str) (ps : list ptr) (amb : Z) (k : nat) (p : ptr) (x : v3),
  orthonormal (p_rot (f_pos str f1)) -> orthonormal (p_rot (f_pos str f2)) -> nth_error ps k = Some p ->
  p_rot p = mkM3 (mkV3 1 0 0) (mkV3 0 1 0) (mkV3 0 0 1) -> p_rot (f_pos str f1) = p_rot (f_pos str f2) ->
  exists p', nth_error (c_p2 str (newContact str f1 f2 ps amb)) k = Some p' /\ place (f_pos str f2) (place p' x) = place (f_pos str f1) (place p x).
Proof. exact points_all. Qed.
Print Assumptions C58_points_partial.

Definition quarter : m3 := mkM3 (mkV3 0 1 0) (mkV3 (-1) 0 0) (mkV3 0 0 1).
Definition unturned : m3 := mkM3 (mkV3 1 0 0) (mkV3 0 1 0) (mkV3 0 0 1).
Example quarter_orthonormal : orthonormal quarter.
Proof. intros [x y z]. unfold place, coordinates, quarter. cbn. split; f_equal; ring. Qed.
Example unturned_orthonormal : orthonormal unturned.
Proof. intros [x y z]. unfold place, coordinates, unturned. cbn. split; f_equal; ring. Qed.
Definition hand : frame nat := mkFrame nat 1%nat 10%nat (mkPT unturned (mkV3 0 0 0)).
Definition table : frame nat := mkFrame nat 2%nat 20%nat (mkPT quarter (mkV3 5 0 0)).
Theorem C58_points_refuted : exists (f1 f2 : frame nat) (p p' : ptr),
  orthonormal (p_rot (f_pos nat f1)) /\ orthonormal (p_rot (f_pos nat f2)) /\ p_rot p = unturned /\
  c_p2 nat (newContact nat f1 f2 [p] 0) = [p'] /\ place (f_pos nat f2) (p_tr p') <> place (f_pos nat f1) (p_tr p).
Proof.
  exists hand, table, (mkPT unturned (mkV3 1 0 0)). eexists. split; [exact unturned_orthonormal|]. split; [exact quarter_orthonormal|]. split; [reflexivity|]. split; [reflexivity|].
  intros H. apply (f_equal vx) in H. cbn in H. repeat (unfold dot3 in H; cbn in H). lra.
Qed.
Print Assumptions C58_points_refuted.

(* operator== is the equality of the five fields. *)
Theorem C58_equal : forall (str : Type) (slt seq : str -> str -> bool), total_order slt seq -> forall a b : ident str, id_eq str seq a b = true <-> a = b.
Proof. exact id_eq_spec. Qed.
Print Assumptions C58_equal.
(* operator< is a total order on the ids with the same ambiguity number, *)
Theorem C58_order_partial : forall (str : Type) (slt seq : str -> str -> bool), total_order slt seq -> forall (z : Z) (a b c : ident str),
  j_amb str a = z -> j_amb str b = z -> j_amb str c = z ->
  id_lt str slt seq a a = false /\ (id_lt str slt seq a b = true -> id_lt str slt seq b c = true -> id_lt str slt seq a c = true) /\
  (id_lt str slt seq a b = true \/ a = b \/ id_lt str slt seq b a = true).
Proof. exact order_partial. Qed.
Print Assumptions C58_order_partial.
(* and, if no name of a second robot is the name of a second frame, an order for which ids that only differ by the
   ambiguity number are equivalent; *)
Theorem C58_apart_partial : forall (str : Type) (slt seq : str -> str -> bool), total_order slt seq -> forall ok : ident str -> Prop,
  (forall a b, ok a -> ok b -> j_r2 str a <> j_f2 str b) -> forall a b c, ok a -> ok b -> ok c ->
  id_lt str slt seq a a = false /\ (id_lt str slt seq a b = true -> id_lt str slt seq b c = true -> id_lt str slt seq a c = true) /\
  (id_lt str slt seq a c = true -> id_lt str slt seq a b = true \/ id_lt str slt seq b c = true) /\
  (id_lt str slt seq a b = false -> id_lt str slt seq b a = false ->
   j_r1 str a = j_r1 str b /\ j_f1 str a = j_f1 str b /\ j_r2 str a = j_r2 str b /\ j_f2 str a = j_f2 str b).
Proof. exact apart_weak. Qed.
Print Assumptions C58_apart_partial.
(* so two contacts that only differ by it cannot both be in a set, whatever the numbers; *)
Theorem C58_ambiguity_refuted : forall (str : Type) (slt seq : str -> str -> bool), total_order slt seq -> forall (r1 f1 r2 f2 : str) (z z' : Z), r2 <> f2 ->
  id_lt str slt seq (mkIdent str r1 f1 r2 f2 z) (mkIdent str r1 f1 r2 f2 z') = false /\ id_lt str slt seq (mkIdent str r1 f1 r2 f2 z') (mkIdent str r1 f1 r2 f2 z) = false.
Proof. intros str slt seq H r1 f1 r2 f2 z z' N. split; apply ambiguity_ignored; assumption. Qed.
Print Assumptions C58_ambiguity_refuted.
(* in general it is not an order: two ids can each be before the other. *)
Theorem C58_order_refuted : forall (str : Type) (slt seq : str -> str -> bool), total_order slt seq -> forall x y : str, x <> y ->
  (exists a b : ident str, id_lt str slt seq a b = true /\ id_lt str slt seq b a = true) /\ ~ strict_weak (id_lt str slt seq).
Proof.
  intros str slt seq H. assert (G : forall x y : str, slt x y = true -> (exists a b : ident str, id_lt str slt seq a b = true /\ id_lt str slt seq b a = true) /\ ~ strict_weak (id_lt str slt seq)).
  { intros x y L. destruct (not_asym str slt seq H x y L) as [A B]. split; [eauto|]. intros (I & T & _). specialize (T _ _ _ A B). rewrite I in T. discriminate. }
  intros x y N. destruct H as (H1 & H2 & H3 & H4). destruct (H4 x y) as [L|[L|L]]; [eapply G; eauto|contradiction|eapply G; eauto].
Qed.
Print Assumptions C58_order_refuted.

(* ---- a concrete case ---- *)
Example nat_total : total_order Nat.ltb Nat.eqb.
Proof.
  split; [intros; apply Nat.eqb_eq|]. split; [intros; apply Nat.ltb_irrefl|]. split.
  - intros a b c H K. apply Nat.ltb_lt in H, K. apply Nat.ltb_lt. lia.
  - intros a b. rewrite !Nat.ltb_lt. lia.
Qed.
Example order_case : id_lt nat Nat.ltb Nat.eqb (mkIdent nat 1%nat 10%nat 2%nat 20%nat 0) (mkIdent nat 1%nat 10%nat 2%nat 21%nat 0) = true /\
  id_lt nat Nat.ltb Nat.eqb (mkIdent nat 1%nat 10%nat 2%nat 20%nat 0) (mkIdent nat 1%nat 10%nat 2%nat 20%nat 7) = false /\ id_eq nat Nat.eqb (mkIdent nat 1%nat 10%nat 2%nat 20%nat 0) (mkIdent nat 1%nat 10%nat 2%nat 20%nat 7) = false.
Proof. repeat split. Qed.
Example transformation_case : place (f_pos nat hand) (place (c_x12 nat (newContact nat hand table [] 0)) (mkV3 1 2 3)) = mkV3 3 1 3.
Proof. unfold place, newContact, hand, table. cbn. repeat (unfold dot3; cbn). f_equal; ring. Qed.
Example points_case : exists p', nth_error (c_p2 nat (newContact nat hand (mkFrame nat 2%nat 20%nat (mkPT unturned (mkV3 5 0 0))) [mkPT unturned (mkV3 1 0 0)] 0)) 0 = Some p' /\
  p_tr p' = mkV3 (-4) 0 0.
Proof. eexists. split; [reflexivity|]. apply ConeProofs.v3_eq; cbn; repeat (unfold dot3; cbn); ring. Qed.
