(* C61: the distances of CollisionFunction. *)
Require Import Reals List Bool Arith ZArith Lia Lra.
Require Import Verif.Base Verif.ConeModel Verif.DfModel Verif.CtcModel Verif.CtcSpec Verif.FrModel Verif.FrSpec Verif.PlSpec Verif.ColModel Verif.ColSpec Verif.ColProofs.
Import ListNotations.
Local Open Scope R_scope.

(* The outputs have one row for each pair of hulls added since the last reset. *)
Theorem C61_size : forall (hulls : nat -> hull) (dt tiny : R) (tick : Z) (ops : list colop) (g : scene) (s : cfn), krun hulls dt tiny (newCfn tick) (ops ++ [KUpdate g]) = Ok s ->
  exists v J ve na, x_value s = Some v /\ x_jac s = Some J /\ x_vel s = Some ve /\ x_nacc s = Some na /\
  let n := length (pairs hulls [] ops) in length v = n /\ length J = n /\ length ve = n /\ length na = n.
Proof. exact size_ok. Qed.
Print Assumptions C61_size.
(* An update is defined if and only if the pairs from the third on have no robot that can move; otherwise it reads after the end of an array of two points. *)
Theorem C61_defined_partial : forall (hulls : nat -> hull) (dt tiny : R) (tick : Z) (ops : list colop) (g : scene) (s : cfn), krun hulls dt tiny (newCfn tick) ops = Ok s ->
  ((exists s', kstep hulls dt tiny s (KUpdate g) = Ok s') <-> forall i p, nth_error (pairs hulls [] ops) i = Some p -> (2 <= i)%nat -> h_dof (hulls (fst p)) = 0%nat) /\
  (kstep hulls dt tiny s (KUpdate g) = UB <-> exists i p, nth_error (pairs hulls [] ops) i = Some p /\ (2 <= i)%nat /\ (0 < h_dof (hulls (fst p)))%nat).
Proof. exact defined_ok. Qed.
Print Assumptions C61_defined_partial.
(* The value is the signed distance; it is the smallest positive number when the hulls touch. *)
Theorem C61_value : forall (hulls : nat -> hull) (dt tiny : R) (tick : Z) (ops : list colop) (g : scene) (s : cfn) (i h1 h2 : nat),
  krun hulls dt tiny (newCfn tick) (ops ++ [KUpdate g]) = Ok s -> nth_error (pairs hulls [] ops) i = Some (h1, h2) ->
  (forall v, signed (z_close g h1 h2) v -> row (x_value s) i = Some v) /\ (fst (fst (z_close g h1 h2)) = 0 -> row (x_value s) i = Some tiny).
Proof. exact value_ok. Qed.
Print Assumptions C61_value.
(* The Jacobian times the velocities of the joints of all the robots is the velocity. *)
Theorem C61_jacobian : forall (hulls : nat -> hull) (dt tiny : R) (tick : Z) (ops : list colop) (g : scene) (s : cfn) (i h1 h2 : nat) (nd : nat -> nat) (q : nat -> nat -> R) (robots : list nat),
  krun hulls dt tiny (newCfn tick) (ops ++ [KUpdate g]) = Ok s -> nth_error (pairs hulls [] ops) i = Some (h1, h2) -> NoDup robots ->
  (forall h, h = h1 \/ h = h2 -> (0 < h_dof (hulls h))%nat -> In (h_robot (hulls h)) robots /\ weighted (nd (h_robot (hulls h))) (q (h_robot (hulls h))) (b_jac (z_body g h)) = b_vel (z_body g h)) ->
  exists J v, row (x_jac s) i = Some J /\ row (x_vel s) i = Some v /\ product nd q J robots = v.
Proof. exact jacobian_ok. Qed.
Print Assumptions C61_jacobian.
(* For hulls whose frames are those of their bodies, the velocity is that of the closest points of the bodies, along the normal. *)
Theorem C61_velocity_partial : forall (hulls : nat -> hull) (dt tiny : R) (tick : Z) (ops : list colop) (g : scene) (s : cfn) (i h1 h2 : nat) (v : R),
  krun hulls dt tiny (newCfn tick) (ops ++ [KUpdate g]) = Ok s -> nth_error (pairs hulls [] ops) i = Some (h1, h2) -> (0 < h_dof (hulls h1))%nat ->
  (forall h, h = h1 \/ h = h2 -> orthonormal (p_rot (b_pos (z_body g h))) /\ h_x (hulls h) = still) -> (h_dof (hulls h2) = 0%nat -> b_vel (z_body g h2) = (mkV3 0 0 0, mkV3 0 0 0)) ->
  signed (z_close g h1 h2) v ->
  row (x_vel s) i = Some (scalar (normal (z_close g h1 h2) v) (diff (velocity_at (z_body g h1) (snd (fst (z_close g h1 h2)))) (velocity_at (z_body g h2) (snd (z_close g h1 h2))))).
Proof. exact velocity_exact_both. Qed.
Print Assumptions C61_velocity_partial.
(* It is the derivative of the distance, when the closest points slide on the hulls orthogonally to the normal (smooth hulls). *)
Theorem C61_derivative_partial : forall (hulls : nat -> hull) (dt tiny : R) (tick : Z) (ops : list colop) (g : R -> scene) (t : R) (s : cfn) (i h1 h2 : nat) (P0 P1 : R -> v3) (a b : v3),
  krun hulls dt tiny (newCfn tick) (ops ++ [KUpdate (g t)]) = Ok s -> nth_error (pairs hulls [] ops) i = Some (h1, h2) -> (0 < h_dof (hulls h1))%nat ->
  (forall h, h = h1 \/ h = h2 -> orthonormal (p_rot (b_pos (z_body (g t) h))) /\ h_x (hulls h) = still) -> (h_dof (hulls h2) = 0%nat -> b_vel (z_body (g t) h2) = (mkV3 0 0 0, mkV3 0 0 0)) ->
  (forall u, z_close (g u) h1 h2 = (distance (P0 u) (P1 u) * distance (P0 u) (P1 u), P0 u, P1 u) /\ 0 < distance (P0 u) (P1 u)) ->
  derives P0 t a -> derives P1 t b ->
  scalar (diff (P0 t) (P1 t)) (diff a (velocity_at (z_body (g t) h1) (P0 t))) = 0 -> scalar (diff (P0 t) (P1 t)) (diff b (velocity_at (z_body (g t) h2) (P1 t))) = 0 ->
  exists value velocity, row (x_vel s) i = Some velocity /\ derivable_pt_lim value t velocity /\
    forall u s', krun hulls dt tiny (newCfn tick) (ops ++ [KUpdate (g u)]) = Ok s' -> row (x_value s') i = Some (value u).
Proof.
  intros hulls dt tiny tick ops g t s i h1 h2 P0 P1 a b H N P O B C A0 A1 X Y.
  assert (SG : forall u, signed (z_close (g u) h1 h2) (distance (P0 u) (P1 u))) by (intros u; destruct (C u) as (E & L); rewrite E; left; split; [apply Rmult_lt_0_compat; exact L|split; reflexivity]).
  exists (fun u => distance (P0 u) (P1 u)). eexists. split; [exact (velocity_exact_both _ _ _ _ _ _ _ _ _ _ _ H N P O B (SG t))|]. split.
  - destruct (C t) as (E & L). rewrite E. cbn [fst snd normal].
    match goal with |- derivable_pt_lim _ _ ?x => replace x with (scalar (times (/ distance (P0 t) (P1 t)) (diff (P0 t) (P1 t))) (diff a b)) end.
    + exact (distance_derivative _ _ _ _ _ A0 A1 L).
    + generalize dependent (velocity_at (z_body (g t) h1) (P0 t)). generalize dependent (velocity_at (z_body (g t) h2) (P1 t)). intros y Y x X.
      assert (Z : forall k w z, scalar (times k w) z = k * scalar w z) by (intros; unfold scalar, times; cbn; ring). rewrite !Z. f_equal.
      assert (F : forall w z z', scalar w (diff z z') = scalar w z - scalar w z') by (intros; unfold scalar, diff; cbn; ring). rewrite !F in *. lra.
  - intros u s' H'. apply (value_ok _ _ _ _ _ _ _ _ _ _ H' N). apply SG.
Qed.
Print Assumptions C61_derivative_partial.
(* For bodies that do not turn this holds whatever the frames of the hulls; *)
Theorem C61_translation_partial : forall (hulls : nat -> hull) (dt tiny : R) (tick : Z) (ops : list colop) (g : scene) (s : cfn) (i h1 h2 : nat) (v : R),
  krun hulls dt tiny (newCfn tick) (ops ++ [KUpdate g]) = Ok s -> nth_error (pairs hulls [] ops) i = Some (h1, h2) -> (0 < h_dof (hulls h1))%nat ->
  (forall h, h = h1 \/ h = h2 -> fst (b_vel (z_body g h)) = mkV3 0 0 0) -> (h_dof (hulls h2) = 0%nat -> snd (b_vel (z_body g h2)) = mkV3 0 0 0) -> signed (z_close g h1 h2) v ->
  row (x_vel s) i = Some (scalar (normal (z_close g h1 h2) v) (diff (snd (b_vel (z_body g h1))) (snd (b_vel (z_body g h2))))).
Proof. exact velocity_translation. Qed.
Print Assumptions C61_translation_partial.
(* and the normal acceleration has the accelerations of the bodies and the change of the normal between two ticks. *)
Theorem C61_acceleration_translation_partial : forall (hulls : nat -> hull) (dt tiny : R) (tick : Z) (ops : list colop) (g1 g2 : scene) (s : cfn) (i h1 h2 : nat) (v1 v2 : R) (a : nat -> v3),
  krun hulls dt tiny (newCfn tick) ((ops ++ [KUpdate g1]) ++ [KUpdate g2]) = Ok s -> nth_error (pairs hulls [] ops) i = Some (h1, h2) -> (0 < h_dof (hulls h1))%nat ->
  (forall t, krun hulls dt tiny (newCfn tick) ops = Ok t -> x_tick t <> z_tick g1) -> z_tick g1 <> z_tick g2 ->
  (forall h, h = h1 \/ h = h2 -> fst (b_vel (z_body g2 h)) = mkV3 0 0 0 /\ forall x, z_pacc g2 h x = a h) ->
  (h_dof (hulls h2) = 0%nat -> snd (b_vel (z_body g2 h2)) = mkV3 0 0 0 /\ a h2 = mkV3 0 0 0) ->
  signed (z_close g1 h1 h2) v1 -> signed (z_close g2 h1 h2) v2 ->
  let n1 := normal (z_close g1 h1 h2) v1 in let n2 := normal (z_close g2 h1 h2) v2 in
  row (x_nacc s) i = Some (scalar n2 (diff (a h1) (a h2)) + scalar (times (/ dt) (diff n2 n1)) (diff (snd (b_vel (z_body g2 h1))) (snd (b_vel (z_body g2 h2))))).
Proof. exact nacc_two. Qed.
Print Assumptions C61_acceleration_translation_partial.
(* For the first pair, with a second hull that does not move, the normal acceleration is that of the closest point of the first body. *)
Theorem C61_acceleration_first_partial : forall (hulls : nat -> hull) (dt tiny : R) (tick : Z) (ops : list colop) (g1 g2 : scene) (s : cfn) (h1 h2 : nat) (v1 v2 : R),
  krun hulls dt tiny (newCfn tick) ((ops ++ [KUpdate g1]) ++ [KUpdate g2]) = Ok s -> nth_error (pairs hulls [] ops) 0 = Some (h1, h2) -> (0 < h_dof (hulls h1))%nat -> h_dof (hulls h2) = 0%nat ->
  (forall t, krun hulls dt tiny (newCfn tick) ops = Ok t -> x_tick t <> z_tick g1) -> z_tick g1 <> z_tick g2 ->
  orthonormal (p_rot (b_pos (z_body g2 h1))) -> h_x (hulls h1) = still ->
  signed (z_close g1 h1 h2) v1 -> signed (z_close g2 h1 h2) v2 ->
  let n1 := normal (z_close g1 h1 h2) v1 in let n2 := normal (z_close g2 h1 h2) v2 in let p := snd (fst (z_close g2 h1 h2)) in
  row (x_nacc s) 0 = Some (scalar n2 (z_pacc g2 h1 (coordinates (p_rot (b_pos (z_body g2 h1))) (diff p (p_tr (b_pos (z_body g2 h1)))))) + scalar (times (/ dt) (diff n2 n1)) (velocity_at (z_body g2 h1) p)).
Proof. exact nacc_first. Qed.
Print Assumptions C61_acceleration_first_partial.

(* ---- a scene: the first body turns around z at the origin, the second one, which can move too, turns around z at (3,0,0); the closest
   points are (1,0,0) and (2,0,0) ---- *)
Definition axis : v3 := mkV3 0 0 1.
Definition unit : m3 := mkM3 (mkV3 1 0 0) (mkV3 0 1 0) (mkV3 0 0 1).
Definition spin (w : v3) (v : v3) (r : v3) : body := mkBody (mkPT unit r) (w, v) (mkV3 0 0 0, mkV3 0 0 0) (fun _ => (w, v)).
Definition free (k : nat) : hull := mkHull k 1 still.
Definition world (tick : Z) (w1 w2 v1 : v3) : scene :=
  mkScene tick (fun h => if Nat.eqb h 0 then spin w1 v1 (mkV3 0 0 0) else spin w2 (mkV3 0 0 0) (mkV3 3 0 0))
    (fun h x => if Nat.eqb h 0 then mkV3 0 0 0 else mkV3 (- vx x) (- vy x) 0) (fun _ _ => (1, mkV3 1 0 0, mkV3 2 0 0)).
Lemma dist_one : distance (mkV3 1 0 0) (mkV3 2 0 0) = 1.
Proof. unfold distance. cbn. match goal with |- sqrt ?x = _ => replace x with (1 * 1) by ring end. apply sqrt_square. lra. Qed.
Lemma unit_orth : orthonormal unit.
Proof. intros [a b c]. unfold place, coordinates, unit. cbn. split; f_equal; ring. Qed.
Definition first_pair (tick : Z) (w1 w2 v1 : v3) := KAdd 0 1 :: [KUpdate (world tick w1 w2 v1)].
Lemma world_signed tick w1 w2 v1 h1 h2 : signed (z_close (world tick w1 w2 v1) h1 h2) 1.
Proof. cbn. rewrite dist_one. left. lra. Qed.
Lemma dist_1 tiny : dist tiny 1 = 1.
Proof. unfold dist. destruct (Rle_dec 0 1); [|lra]. rewrite sqrt_1. destruct (Req_EM_T 1 0); lra. Qed.
Example C61_case : exists s, krun free 1 1 (newCfn 0) ([KAdd 0 1] ++ [KUpdate (world 0 axis axis (mkV3 1 0 0))]) = Ok s /\ nth_error (pairs free [] [KAdd 0 1]) 0 = Some (0%nat, 1%nat) /\
  (0 < h_dof (free 0))%nat /\ (forall h, orthonormal (p_rot (b_pos (z_body (world 0 axis axis (mkV3 1 0 0)) h))) /\ h_x (free h) = still) /\ signed (z_close (world 0 axis axis (mkV3 1 0 0)) 0 1) 1 /\
  row (x_value s) 0 = Some 1 /\ row (x_vel s) 0 = Some (-1).
Proof.
  eexists. split; [reflexivity|]. split; [reflexivity|]. split; [cbn; lia|]. split; [intros h; split; [cbn; destruct (Nat.eqb h 0); apply unit_orth|reflexivity]|].
  split; [apply world_signed|]. cbn [row x_value x_vel nth_error map]. rewrite dist_1. split; [reflexivity|]. f_equal. repeat (unfold dot3; cbn). rewrite ?dist_1. field.
Qed.
Example C61_two_ticks : exists s, krun free 1 1 (newCfn 0) (([KAdd 0 1] ++ [KUpdate (world 1 axis axis (mkV3 1 0 0))]) ++ [KUpdate (world 2 axis axis (mkV3 1 0 0))]) = Ok s.
Proof. eexists. reflexivity. Qed.

(* the first body moves away, its closest point is (1 - u^2, 0, 0) at the time u *)
Definition away (u : R) : scene :=
  mkScene 0 (fun h => if Nat.eqb h 0 then spin axis (mkV3 (-2 * u) 0 0) (mkV3 (- (u * u)) 0 0) else spin (mkV3 0 0 0) (mkV3 0 0 0) (mkV3 3 0 0))
    (fun _ _ => mkV3 0 0 0) (fun _ _ => ((1 + u * u) * (1 + u * u), mkV3 (1 - u * u) 0 0, mkV3 2 0 0)).
Lemma away_distance u : distance (mkV3 (1 - u * u) 0 0) (mkV3 2 0 0) = 1 + u * u.
Proof. unfold distance. cbn. match goal with |- sqrt ?x = _ => replace x with ((1 + u * u) * (1 + u * u)) by ring end. apply sqrt_square. nra. Qed.
Definition fixed_second (k : nat) : hull := mkHull k (1 - k) still.
Example C61_derivative_case : let hulls := fixed_second in let P0 u := mkV3 (1 - u * u) 0 0 in let P1 (u : R) := mkV3 2 0 0 in
  (exists s, krun hulls 1 1 (newCfn 0) ([KAdd 0 1] ++ [KUpdate (away 1)]) = Ok s) /\ nth_error (pairs hulls [] [KAdd 0 1]) 0 = Some (0%nat, 1%nat) /\
  (forall h, orthonormal (p_rot (b_pos (z_body (away 1) h))) /\ h_x (hulls h) = still) /\ b_vel (z_body (away 1) 1%nat) = (mkV3 0 0 0, mkV3 0 0 0) /\
  (forall u, z_close (away u) 0%nat 1%nat = (distance (P0 u) (P1 u) * distance (P0 u) (P1 u), P0 u, P1 u) /\ 0 < distance (P0 u) (P1 u)) /\
  derives P0 1 (mkV3 (-2) 0 0) /\ derives P1 1 (mkV3 0 0 0) /\
  scalar (diff (P0 1) (P1 1)) (diff (mkV3 (-2) 0 0) (velocity_at (z_body (away 1) 0%nat) (P0 1))) = 0 /\ scalar (diff (P0 1) (P1 1)) (diff (mkV3 0 0 0) (velocity_at (z_body (away 1) 1%nat) (P1 1))) = 0.
Proof.
  cbv zeta. split; [eexists; reflexivity|]. split; [reflexivity|]. split; [intros h; split; [cbn; destruct (Nat.eqb h 0); apply unit_orth|reflexivity]|]. split; [reflexivity|].
  split; [intros u; rewrite away_distance; split; [reflexivity|nra]|].
  split; [|split; [split; [|split]; cbn; apply derivable_pt_lim_const|split; unfold scalar, velocity_at, rigid, diff; cbn; ring]].
  split; [|split]; cbn; try apply derivable_pt_lim_const.
  replace (-2) with (0 - (1 * 1 + 1 * 1)) by ring. apply (derivable_pt_lim_minus (fun _ => 1) (fun u => u * u)); [apply derivable_pt_lim_const|].
  exact (derivable_pt_lim_mult (fun u => u) (fun u => u) 1 1 1 (derivable_pt_lim_id 1) (derivable_pt_lim_id 1)).
Qed.

(* ---- what does not hold ---- *)
(* Three pairs: undefined. *)
Theorem C61_third_refuted : exists (hulls : nat -> hull) (dt tiny : R) (g : scene),
  krun hulls dt tiny (newCfn 0) [KAdd 0 1; KAdd 0 2; KAdd 0 3; KUpdate g] = UB.
Proof. exists free, 1, 1, (world 0 axis axis (mkV3 0 0 0)). reflexivity. Qed.
Print Assumptions C61_third_refuted.
(* A hull whose frame is not that of its body: the coordinates in the frame are used as coordinates in the body. *)
Definition shifted (k : nat) : hull := mkHull k (1 - k) (mkPT unit (mkV3 0 1 0)).
Theorem C61_frame_refuted : exists (hulls : nat -> hull) (dt tiny v : R) (g : scene) (s : cfn), krun hulls dt tiny (newCfn 0) ([KAdd 0 1] ++ [KUpdate g]) = Ok s /\
  orthonormal (p_rot (b_pos (z_body g 0%nat))) /\ h_dof (hulls 1%nat) = 0%nat /\ b_vel (z_body g 1%nat) = (mkV3 0 0 0, mkV3 0 0 0) /\ signed (z_close g 0%nat 1%nat) v /\
  row (x_vel s) 0 <> Some (scalar (normal (z_close g 0%nat 1%nat) v) (diff (velocity_at (z_body g 0%nat) (snd (fst (z_close g 0%nat 1%nat)))) (velocity_at (z_body g 1%nat) (snd (z_close g 0%nat 1%nat))))).
Proof.
  exists shifted, 1, 1, 1, (world 0 axis (mkV3 0 0 0) (mkV3 0 0 0)). eexists. split; [reflexivity|]. split; [apply unit_orth|]. split; [reflexivity|]. split; [reflexivity|]. split; [apply world_signed|].
  cbn [row x_vel nth_error map]. intros H. injection H as H. repeat (unfold scalar, dot3 in H; cbn in H). rewrite ?dist_1 in H. lra.
Qed.
Print Assumptions C61_frame_refuted.
(* Two hulls that turn: the acceleration of the second one is taken at the closest point of the first one. *)
Theorem C61_points_refuted : exists (hulls : nat -> hull) (dt tiny v : R) (g : scene) (s : cfn), krun hulls dt tiny (newCfn 0) ([KAdd 0 1] ++ [KUpdate g]) = Ok s /\ z_tick g = 0%Z /\
  (forall h, orthonormal (p_rot (b_pos (z_body g h))) /\ h_x (hulls h) = still) /\ signed (z_close g 0%nat 1%nat) v /\
  let at_point h p := z_pacc g h (coordinates (p_rot (b_pos (z_body g h))) (diff p (p_tr (b_pos (z_body g h))))) in
  row (x_nacc s) 0 <> Some (scalar (normal (z_close g 0%nat 1%nat) v) (diff (at_point 0%nat (snd (fst (z_close g 0%nat 1%nat)))) (at_point 1%nat (snd (z_close g 0%nat 1%nat))))).
Proof.
  exists free, 1, 1, 1, (world 0 (mkV3 0 0 0) axis (mkV3 0 0 0)). eexists. split; [reflexivity|]. split; [reflexivity|]. split; [intros h; split; [cbn; destruct (Nat.eqb h 0); apply unit_orth|reflexivity]|]. split; [apply world_signed|].
  cbv zeta. cbn [row x_nacc nth_error map z_tick world x_tick newCfn Z.eqb]. intros H. injection H as H. repeat (unfold scalar, dot3 in H; cbn in H). rewrite ?dist_1 in H. lra.
Qed.
Print Assumptions C61_points_refuted.
(* At the first tick after a pair was added the previous normal is zero: a body that moves at a constant velocity without turning gets a
   normal acceleration. *)
Theorem C61_first_tick_refuted : exists (hulls : nat -> hull) (tiny v : R) (g : scene) (s : cfn), krun hulls (1/100) tiny (newCfn 0) ([KAdd 0 1] ++ [KUpdate g]) = Ok s /\ z_tick g = 1%Z /\
  (forall h, fst (b_vel (z_body g h)) = mkV3 0 0 0) /\ (forall h x, h = 0%nat \/ h = 1%nat -> h_dof (hulls h) <> 0%nat -> z_pacc g h x = mkV3 0 0 0) /\ signed (z_close g 0%nat 1%nat) v /\ row (x_nacc s) 0 = Some (-100).
Proof.
  exists (fun k => mkHull k (1 - k) still), 1, 1, (world 1 (mkV3 0 0 0) (mkV3 0 0 0) (mkV3 1 0 0)). eexists. split; [reflexivity|]. split; [reflexivity|]. split; [intros h; cbn; destruct (Nat.eqb h 0); reflexivity|].
  split; [intros h x [->| ->] Z; [reflexivity|exfalso; apply Z; reflexivity]|]. split; [apply world_signed|].
  apply (f_equal (@Some R)). repeat (unfold scalar, dot3; cbn). rewrite ?dist_1. field.
Qed.
Print Assumptions C61_first_tick_refuted.
