(* C56: the linearised friction cone. *)
Require Import Reals List Lra.
Require Import Verif.ConeModel Verif.ConeSpec Verif.ConeProofs Verif.ConeProofs2.
Import ListNotations.
Local Open Scope R_scope.

(* There are as many generators as asked for; they are unit vectors on the boundary of the friction cone of
   coefficient |mu| around the normal of the frame, whatever the direction. *)
Theorem C56_generators : forall (E : m3) (n : nat) (mu d : R), framed E -> d = 1 \/ d = - 1 ->
  length (frictionCone E n mu d) = n /\ forall g, In g (frictionCone E n mu d) -> norm3 g = 1 /\ on_cone (row2 E) (Rabs mu) g.
Proof. exact generators. Qed.
Print Assumptions C56_generators.

(* Soundness: a combination with non-negative coefficients is in the friction cone. *)
Theorem C56_sound : forall (E : m3) (n : nat) (mu d : R) (ls : list R), framed E -> d = 1 \/ d = - 1 -> Forall (fun l => 0 <= l) ls ->
  in_cone (row2 E) (Rabs mu) (combine3 ls (frictionCone E n mu d)).
Proof. exact combinations. Qed.
Print Assumptions C56_sound.

(* Precision: the forces of the friction cone of coefficient mu cos(pi/n) are such combinations. *)
Theorem C56_precise : forall (E : m3) (n : nat) (mu d : R) (f : v3), framed E -> d = 1 \/ d = - 1 -> (3 <= n)%nat -> 0 < mu ->
  in_cone (row2 E) (mu * cos (PI / INR n)) f ->
  exists ls, length ls = n /\ Forall (fun l => 0 <= l) ls /\ combine3 ls (frictionCone E n mu d) = f.
Proof. exact inner. Qed.
Print Assumptions C56_precise.

(* The generators of the reversed frame with the reversed direction are the opposite vectors, one by one: the same
   coefficients give opposite forces to two bodies in contact. *)
Theorem C56_opposite : forall (E : m3) (n : nat) (mu : R), frictionCone (mscale (-1) E) n mu (-1) = map vopp (frictionCone E n mu 1).
Proof. exact opposite. Qed.
Print Assumptions C56_opposite.

(* The direction alone does not reverse the cone. *)
Theorem C56_direction_refuted : exists (E : m3) (n : nat) (mu : R), framed E /\ 0 < mu /\ frictionCone E n mu (-1) <> map vopp (frictionCone E n mu 1).
Proof.
  exists (mkM3 (mkV3 1 0 0) (mkV3 0 1 0) (mkV3 0 0 1)), 1%nat, 1. assert (F : framed (mkM3 (mkV3 1 0 0) (mkV3 0 1 0) (mkV3 0 0 1))).
  { unfold framed, norm3, along. cbn. rewrite !Rmult_0_r, !Rmult_0_l, !Rmult_1_l, !Rplus_0_l, !Rplus_0_r, sqrt_1. auto. }
  split; [exact F|]. split; [lra|]. rewrite !cone_list by auto. cbn [seq map]. intros H. injection H as _ _ H. cbn in H. pose proof (cos_atan_pos 1). lra.
Qed.
Print Assumptions C56_direction_refuted.

(* With two generators no friction cone, however narrow, is contained in what they span. *)
Theorem C56_two_refuted : forall (E : m3) (mu d k : R), framed E -> d = 1 \/ d = - 1 -> 0 < k ->
  exists f, in_cone (row2 E) k f /\ forall ls, combine3 ls (frictionCone E 2 mu d) <> f.
Proof. exact two_refuted. Qed.
Print Assumptions C56_two_refuted.

(* ---- a concrete case: a tilted frame, four generators, coefficient 1 ---- *)
Definition tilted : m3 := mkM3 (mkV3 1 0 0) (mkV3 0 (4 / 5) (- (3 / 5))) (mkV3 0 (3 / 5) (4 / 5)).
Example tilted_frame : framed tilted.
Proof.
  unfold framed, norm3, along, tilted. cbn. replace (1 * 1 + 0 * 0 + 0 * 0) with 1 by ring. replace (0 * 0 + 3 / 5 * (3 / 5) + 4 / 5 * (4 / 5)) with 1 by field.
  rewrite sqrt_1. repeat split; ring.
Qed.
Example tilted_force : in_cone (row2 tilted) (1 * cos (PI / INR 4)) (mkV3 (1 / 2) (3 / 5) (4 / 5)).
Proof.
  replace (PI / INR 4) with (PI / 4) by (cbn; field). rewrite cos_PI4. unfold in_cone, norm3, tangential, along. cbn.
  replace (0 * (1 / 2) + 3 / 5 * (3 / 5) + 4 / 5 * (4 / 5)) with 1 by field.
  replace ((1 / 2 - 1 * 0) * (1 / 2 - 1 * 0) + (3 / 5 - 1 * (3 / 5)) * (3 / 5 - 1 * (3 / 5)) + (4 / 5 - 1 * (4 / 5)) * (4 / 5 - 1 * (4 / 5))) with (1 / 2 * (1 / 2)) by field.
  rewrite sqrt_square by lra. assert (sqrt 2 <= 2). { rewrite <- (sqrt_square 2) at 2 by lra. apply sqrt_le_1; lra. }
  assert (0 < sqrt 2) by (apply sqrt_lt_R0; lra). apply (Rmult_le_reg_r (sqrt 2)); [lra|]. replace (1 * (1 / sqrt 2) * 1 * sqrt 2) with 1 by (field; lra). lra.
Qed.
Example tilted_combination : exists ls, length ls = 4%nat /\ Forall (fun l => 0 <= l) ls /\ combine3 ls (frictionCone tilted 4 1 1) = mkV3 (1 / 2) (3 / 5) (4 / 5).
Proof. apply C56_precise; [exact tilted_frame|auto|auto|lra|exact tilted_force]. Qed.
