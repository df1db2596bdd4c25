(* C36, C37, C38, C40: clamped dynamics, velocity damper, one-step dynamics. *)
From Coq Require Import List Bool Arith QArith Lqa Lia.
Import ListNotations.
From Verif Require Import Base DynModel DynSpec DynProofs DynProofs2.
Local Open Scope Q_scope.

(* ---- C36 ---- *)
Example clamp_ex : (do c <- clampedVectors [-1; -2; 0] [1; 2; 4]; do m <- clampedImpl 3 c; clampedValue m [1 # 2; -8; 4]) = Ok [(1 # 2) * (- (2) / - (8)); -8 * (- (2) / - (8)); 4 * (- (2) / - (8))].
Proof. vm_compute. reflexivity. Qed.
Example clamp_ex_value : Forall2 Qeq [(1 # 2) * (- (2) / - (8)); -8 * (- (2) / - (8)); 4 * (- (2) / - (8))] [1 # 8; - (2); 1].
Proof. repeat constructor; reflexivity. Qed.

(* The value of the wrapped dynamics is multiplied by a factor between 0 and 1 that brings it within
   the bounds, the largest such factor. *)
Theorem C36_scaled : forall n c m v, clampedImpl n c = Ok m -> length v = n -> exists s out, clampedValue m v = Ok out /\ length out = n /\
  0 <= s /\ s <= 1 /\ (forall i, at_ i out == s * at_ i v) /\ fits (expand n (c_min c)) (expand n (c_max c)) v s /\
  (forall s', 0 <= s' -> s' <= 1 -> fits (expand n (c_min c)) (expand n (c_max c)) v s' -> s' <= s).
Proof. exact clamped_ok. Qed.
Print Assumptions C36_scaled.

Theorem C36_inside_unchanged : forall n c m v, clampedImpl n c = Ok m -> length v = n -> fits (expand n (c_min c)) (expand n (c_max c)) v 1 ->
  exists out, clampedValue m v = Ok out /\ length out = n /\ forall i, at_ i out == at_ i v.
Proof. exact clamped_identity. Qed.
Print Assumptions C36_inside_unchanged.

(* Bounds are accepted exactly when the minimum is not positive, the maximum not negative and the
   sizes match. *)
Theorem C36_bounds : (forall mn mx n, (mn <= 0 /\ 0 <= mx /\ exists c, clampedScalars mn mx = Ok c /\ clampedImpl n c = Ok (repeat mn n, repeat mx n)) \/
    ((0 < mn \/ mx < 0) /\ clampedScalars mn mx = Throw)) /\
  (forall mn mx n, match (do c <- clampedVectors mn mx; clampedImpl n c) with
    | Ok m => m = (mn, mx) /\ length mn = n /\ length mx = n /\ (forall i, at_ i mn <= 0) /\ (forall i, 0 <= at_ i mx)
    | Throw => length mn <> n \/ length mx <> n \/ (exists i, 0 < at_ i mn) \/ (exists i, at_ i mx < 0)
    | UB => False end).
Proof. split; [exact scalars_accepted|exact vectors_accepted]. Qed.
Print Assumptions C36_bounds.

(* With a maximum alone the minimum is its opposite. *)
Theorem C36_symmetric :
  (forall mx n, (0 <= mx /\ exists c, clampedScalar mx = Ok c /\ clampedImpl n c = Ok (repeat (- mx) n, repeat mx n)) \/
    (mx < 0 /\ clampedScalar mx = Throw)) /\
  (forall mx n, match (do c <- clampedVector mx; clampedImpl n c) with
    | Ok m => m = (map Qopp mx, mx) /\ length mx = n /\ (forall i, 0 <= at_ i mx)
    | Throw => length mx <> n \/ (exists i, at_ i mx < 0)
    | UB => False end).
Proof. split; [exact scalar_accepted|exact vector_accepted]. Qed.
Print Assumptions C36_symmetric.
Example symmetric_ex : (do c <- clampedVector [1; 2]; clampedImpl 2 c) = Ok ([-(1); -(2)], [1; 2]).
Proof. reflexivity. Qed.

(* ---- C40 ---- *)
Example onestep_ex : Forall2 Qeq (oneStepValue (Two, 1 # 2) [1; 0] [0; 3] [2; -1]) [0; -20].
Proof. repeat constructor; reflexivity. Qed.

(* If the function is driven by the value over one time step it reaches the right-hand side: with a
   constant velocity at order one, a constant acceleration at order two. *)
Theorem C40_reaches : forall dt p rhs f v i, length f = length rhs -> (i < length rhs)%nat ->
  (oneStepCheck One dt = Ok p -> at_ i f + dt * at_ i (oneStepValue p rhs f v) == at_ i rhs) /\
  (oneStepCheck Two dt = Ok p -> length v = length rhs -> at_ i f + dt * at_ i v + dt * dt / 2 * at_ i (oneStepValue p rhs f v) == at_ i rhs).
Proof. intros dt p rhs f v i L Hi. split; intros; [now apply oneStep_one|now apply oneStep_two]. Qed.
Print Assumptions C40_reaches.

(* Applied again and again at order two the function stays at the right-hand side at each step, but
   the velocity changes sign at each step and does not decrease. *)
Theorem C40_trajectory : forall dt p rhs (f v : nat -> list Q) i, oneStepCheck Two dt = Ok p -> (i < length rhs)%nat ->
  (forall k, length (f k) = length rhs /\ length (v k) = length rhs) ->
  (forall k, at_ i (f (S k)) == at_ i (f k) + dt * at_ i (v k) + dt * dt / 2 * at_ i (oneStepValue p rhs (f k) (v k))) ->
  (forall k, at_ i (v (S k)) == at_ i (v k) + dt * at_ i (oneStepValue p rhs (f k) (v k))) ->
  (forall k, at_ i (f (S k)) == at_ i rhs) /\ (forall k, at_ i (v (S (S k))) == - at_ i (v (S k))).
Proof. exact oneStep_trajectory2. Qed.
Print Assumptions C40_trajectory.

Theorem C40_parameters : forall o dt, (exists p, oneStepCheck o dt = Ok p) <-> (o = One \/ o = Two) /\ 0 < dt.
Proof. exact oneStep_rejects. Qed.
Print Assumptions C40_parameters.

(* ---- C37 ---- *)
(* A damper for two components with the same parameters; di = 2, ds = 1, xsi = 1. *)
Definition dconf : config := mkConf [2] [1] [1] [0].
Definition damp (dt : option Q) : damper := mkDamper dt false [2] [1] [1] 1000.
Definition dcomps : list comp := [mkComp 1 2 0 (- / (2 - 1)) (Some (- / (2 - 1) * 1)) false; mkComp 1 2 0 (- / (2 - 1)) (Some (- / (2 - 1) * 1)) false].
Example damp_ex : isotropic 2 1 1 0 = Ok dconf /\ anisotropic [2] [1] [1] (Some [0]) = Ok dconf /\ newDamper None dconf 1000 = Ok (damp None) /\
  damperImpl 2 (damp None) = Ok dcomps.
Proof. repeat split; reflexivity. Qed.
Example damp_ex_values : let out := valuesAt (damp None) LOWER_THAN dcomps [10; 10] (fun _ => [17 # 2; 7]) (fun _ => [0; 0]) 3 in
  match out with [Some x; Some y] => x == 1 # 2 /\ y == 1000 | _ => False end.
Proof. vm_compute. split; reflexivity. Qed.

(* What the constraint says, for a fixed damping: within the interaction distance the distance d
   must not decrease faster than xsi (d - ds) / (di - ds) - for the velocity after the step dt at
   order two; further away the bound is the big number. *)
Theorem C37_constraint : forall di ds xsi o cf dt big p n cs t i r (f v : nat -> list Q),
  anisotropic di ds xsi o = Ok cf -> newDamper dt cf big = Ok p -> damperImpl n p = Ok cs -> (i < n)%nat -> t = GREATER_THAN \/ t = LOWER_THAN ->
  length r = n -> (forall k, length (f k) = n /\ length (v k) = n) -> ~ at_ 0 xsi == 0 ->
  let d k := distance t (at_ i r) (at_ i (f k)) in
  forall k x, exists b, nth_error (valuesAt p t cs r f v k) i = Some (Some b) /\
    (param di i < d k -> b == match t with LOWER_THAN => big | _ => - big end) /\
    (d k <= param di i -> (satisfies t x b <-> - (param xsi i * (d k - param ds i) / (param di i - param ds i)) <=
       match dt with Some dt => rate t (at_ i (v k)) + dt * rate t x | None => rate t x end)).
Proof. intros di ds xsi o cf dt big p n cs t i r f v H1 H2 H3 Hi T Lr Lf N. apply (fixed_value di ds xsi o cf dt big p n cs t i r f v); auto. apply (isAuto_f _ _ _ _ _ H2); [eapply aniso_xsi; eassumption|exact N]. Qed.
Print Assumptions C37_constraint.

(* Safety at order one and two.  Missing from the full statement: outside of the interaction
   distance the function must not cross the interaction zone in one step. *)
Theorem C37_safe_first_order_partial : forall di ds xsi o cf big p n cs t i r (f v : nat -> list Q) h (x : nat -> Q),
  anisotropic di ds xsi o = Ok cf -> newDamper None cf big = Ok p -> damperImpl n p = Ok cs -> (i < n)%nat -> t = GREATER_THAN \/ t = LOWER_THAN ->
  length r = n -> (forall k, length (f k) = n /\ length (v k) = n) -> ~ at_ 0 xsi == 0 ->
  let d k := distance t (at_ i r) (at_ i (f k)) in
  0 < h -> h * param xsi i <= param di i - param ds i ->
  (forall k b, nth_error (valuesAt p t cs r f v k) i = Some (Some b) -> satisfies t (x k) b) ->
  (forall k, at_ i (f (S k)) == at_ i (f k) + h * x k) ->
  (forall k, param di i < d k -> - (param di i - param ds i) <= h * rate t (x k)) ->
  param ds i <= d 0%nat -> forall k, param ds i <= d k.
Proof.
  intros di ds xsi o cf big p n cs t i r f v h x H1 H2 H3 Hi T Lr Lf N. cbv zeta. intros.
  apply (fixed_first di ds xsi o cf None big p n cs t i r f v H1 H2 H3 Hi T Lr Lf h x); auto. apply (isAuto_f _ _ _ _ _ H2); [eapply aniso_xsi; eassumption|exact N].
Qed.
Print Assumptions C37_safe_first_order_partial.
Theorem C37_safe_second_order_partial : forall di ds xsi o cf big p n cs t i r (f v : nat -> list Q) h (x : nat -> Q),
  anisotropic di ds xsi o = Ok cf -> newDamper (Some h) cf big = Ok p -> damperImpl n p = Ok cs -> (i < n)%nat -> t = GREATER_THAN \/ t = LOWER_THAN ->
  length r = n -> (forall k, length (f k) = n /\ length (v k) = n) -> ~ at_ 0 xsi == 0 ->
  let d k := distance t (at_ i r) (at_ i (f k)) in
  h * param xsi i <= param di i - param ds i ->
  (forall k b, nth_error (valuesAt p t cs r f v k) i = Some (Some b) -> satisfies t (x k) b) ->
  (forall k, at_ i (v (S k)) == at_ i (v k) + h * x k) ->
  (forall k, at_ i (f (S k)) == at_ i (f k) + h * at_ i (v (S k))) ->
  (forall k, param di i < d k -> - (param di i - param ds i) <= h * rate t (at_ i (v (S k)))) ->
  param ds i <= d 0%nat -> forall k, param ds i <= d k.
Proof.
  intros di ds xsi o cf big p n cs t i r f v h x H1 H2 H3 Hi T Lr Lf N. cbv zeta. intros.
  apply (fixed_second di ds xsi o cf (Some h) big p n cs t i r f v H1 H2 H3 Hi T Lr Lf h x); auto. apply (isAuto_f _ _ _ _ _ H2); [eapply aniso_xsi; eassumption|exact N].
Qed.
Print Assumptions C37_safe_second_order_partial.
(* When the function moves with a constant acceleration over each step, a step three times smaller
   is enough, if the velocity the function enters the zone with is at most twice the one allowed. *)
Theorem C37_safe_constant_acceleration_partial : forall di ds xsi o cf big p n cs t i r (f v : nat -> list Q) h (x : nat -> Q),
  anisotropic di ds xsi o = Ok cf -> newDamper (Some h) cf big = Ok p -> damperImpl n p = Ok cs -> (i < n)%nat -> t = GREATER_THAN \/ t = LOWER_THAN ->
  length r = n -> (forall k, length (f k) = n /\ length (v k) = n) -> ~ at_ 0 xsi == 0 ->
  let d k := distance t (at_ i r) (at_ i (f k)) in
  let slow k := - (2 * param xsi i * (d k - param ds i) / (param di i - param ds i)) <= rate t (at_ i (v k)) in
  3 * (h * param xsi i) <= param di i - param ds i ->
  (forall k b, nth_error (valuesAt p t cs r f v k) i = Some (Some b) -> satisfies t (x k) b) ->
  (forall k, at_ i (v (S k)) == at_ i (v k) + h * x k) ->
  (forall k, at_ i (f (S k)) == at_ i (f k) + h * at_ i (v k) + h * h / 2 * x k) ->
  (forall k, param di i < d k -> param ds i <= d (S k) /\ slow (S k)) ->
  param ds i <= d 0%nat -> slow 0%nat -> forall k, param ds i <= d k.
Proof.
  intros di ds xsi o cf big p n cs t i r f v h x H1 H2 H3 Hi T Lr Lf N. cbv zeta. intros.
  apply (fixed_exact di ds xsi o cf (Some h) big p n cs t i r f v H1 H2 H3 Hi T Lr Lf h x); auto. apply (isAuto_f _ _ _ _ _ H2); [eapply aniso_xsi; eassumption|exact N].
Qed.
Print Assumptions C37_safe_constant_acceleration_partial.

Definition qn (k : nat) : Q := inject_Z (Z.of_nat k).
Lemma qn_ge k : 0 <= qn k.
Proof. unfold qn. change 0 with (inject_Z 0). rewrite <- Zle_Qle. lia. Qed.
Lemma qn_S k : qn (S k) == qn k + 1.
Proof. unfold qn. rewrite Nat2Z.inj_succ. unfold Z.succ. rewrite inject_Z_plus. reflexivity. Qed.
Definition d1 : list comp := [mkComp 1 2 0 (- / (2 - 1)) (Some (- / (2 - 1) * 1)) false].

(* Without it the statement is false: from outside of the interaction zone one step may cross it. *)
Theorem C37_jump_refuted : exists (f v : nat -> list Q) (x : nat -> Q),
  (forall k, length (f k) = 1 /\ length (v k) = 1)%nat /\
  (forall k b, nth_error (valuesAt (damp None) GREATER_THAN d1 [0] f v k) 0 = Some (Some b) -> satisfies GREATER_THAN (x k) b) /\
  (forall k, at_ 0 (f (S k)) == at_ 0 (f k) + 1 * x k) /\
  1 <= distance GREATER_THAN 0 (at_ 0 (f 0%nat)) /\ distance GREATER_THAN 0 (at_ 0 (f 1%nat)) < 1.
Proof.
  exists (fun k => [match k with O => 3 | S j => - (2) + 3 * qn j end]), (fun _ => [0]), (fun k => match k with O => - (5) | S _ => 3 end).
  split; [auto|]. split; [|split; [|split; vm_compute; (reflexivity || discriminate)]].
  - intros k b Hb.
    destruct (C37_constraint [2] [1] [1] (Some [0]) dconf None 1000 (damp None) 1 d1 GREATER_THAN 0 [0]
      (fun k => [match k with O => 3 | S j => - (2) + 3 * qn j end]) (fun _ => [0]) eq_refl eq_refl eq_refl ltac:(auto) ltac:(auto) eq_refl ltac:(auto) ltac:(discriminate)
      k (match k with O => - (5) | S _ => 3 end)) as (b' & E & B1 & B2).
    rewrite Hb in E. injection E as <-. unfold distance, rate, satisfies, param, at_ in *. cbn [nth] in *.
    destruct k as [|j]; [rewrite B1 by (vm_compute; reflexivity); discriminate|]. pose proof (qn_ge j).
    destruct (Qlt_le_dec 2 (- (2) + 3 * qn j - 0)) as [K|K]; [rewrite (B1 K); discriminate|]. apply (B2 K).
    assert (Q1 : 1 * (- (2) + 3 * qn j - 0 - 1) / (2 - 1) == 3 * qn j - 3) by field. rewrite Q1. lra.
  - intros [|j]; unfold at_; cbn [nth]; [reflexivity|]. rewrite qn_S. ring.
Qed.
Print Assumptions C37_jump_refuted.

(* The limit on the step is needed: with xsi (h) four times too large the safety distance is crossed. *)
Theorem C37_large_step_refuted : exists (f v : nat -> list Q) (x : nat -> Q),
  (forall k, length (f k) = 1 /\ length (v k) = 1)%nat /\
  (forall k b, nth_error (valuesAt (damp None) GREATER_THAN d1 [0] f v k) 0 = Some (Some b) -> satisfies GREATER_THAN (x k) b) /\
  (forall k, at_ 0 (f (S k)) == at_ 0 (f k) + 4 * x k) /\ (forall k, 2 < distance GREATER_THAN 0 (at_ 0 (f k)) -> 0 <= x k) /\
  1 <= distance GREATER_THAN 0 (at_ 0 (f 0%nat)) /\ distance GREATER_THAN 0 (at_ 0 (f 1%nat)) < 1.
Proof.
  exists (fun k => [match k with O => 2 | S j => - (2) + 4 * (3 * qn j) end]), (fun _ => [0]), (fun k => match k with O => - (1) | S _ => 3 end).
  split; [auto|]. split; [|split; [|split; [|split; vm_compute; (reflexivity || discriminate)]]].
  - intros k b Hb.
    destruct (C37_constraint [2] [1] [1] (Some [0]) dconf None 1000 (damp None) 1 d1 GREATER_THAN 0 [0]
      (fun k => [match k with O => 2 | S j => - (2) + 4 * (3 * qn j) end]) (fun _ => [0]) eq_refl eq_refl eq_refl ltac:(auto) ltac:(auto) eq_refl ltac:(auto) ltac:(discriminate)
      k (match k with O => - (1) | S _ => 3 end)) as (b' & E & B1 & B2).
    rewrite Hb in E. injection E as <-. unfold distance, rate, satisfies, param, at_ in *. cbn [nth] in *.
    destruct k as [|j]; [apply B2; discriminate|]. pose proof (qn_ge j).
    destruct (Qlt_le_dec 2 (- (2) + 4 * (3 * qn j) - 0)) as [K|K]; [rewrite (B1 K); discriminate|]. apply (B2 K).
    assert (Q1 : 1 * (- (2) + 4 * (3 * qn j) - 0 - 1) / (2 - 1) == 12 * qn j - 3) by field. rewrite Q1. lra.
  - intros [|j]; unfold at_; cbn [nth]; [reflexivity|]. rewrite qn_S. ring.
  - intros [|j]; [intros K; vm_compute in K; discriminate|]. intros _. discriminate.
Qed.
Print Assumptions C37_large_step_refuted.

(* At order two, with the largest step and a constant acceleration over each step, a function that
   starts at rest and satisfies the constraint at each step crosses the safety distance. *)
Theorem C37_constant_acceleration_refuted : exists (f v : nat -> list Q) (x : nat -> Q),
  (forall k, length (f k) = 1 /\ length (v k) = 1)%nat /\
  (forall k b, nth_error (valuesAt (damp (Some 1)) GREATER_THAN d1 [0] f v k) 0 = Some (Some b) -> satisfies GREATER_THAN (x k) b) /\
  (forall k, at_ 0 (v (S k)) == at_ 0 (v k) + 1 * x k) /\
  (forall k, at_ 0 (f (S k)) == at_ 0 (f k) + 1 * at_ 0 (v k) + 1 * 1 / 2 * x k) /\
  at_ 0 (v 0%nat) == 0 /\ distance GREATER_THAN 0 (at_ 0 (f 0%nat)) == 2 /\ distance GREATER_THAN 0 (at_ 0 (f 2%nat)) < 1.
Proof.
  set (F := fun k : nat => [match k with O => 2 | S O => 3 # 2 | S (S j) => (3 # 4) + (1 # 2) * (qn j * (qn j - 1)) end]).
  set (V := fun k : nat => [match k with O => 0 | S O => - (1) | S (S j) => - (1 # 2) + qn j end]).
  set (X := fun k : nat => match k with O => - (1) | S O => 1 # 2 | _ => 1 end).
  exists F, V, X. split; [auto|]. split; [|split; [|split; [|split; [|split]]]].
  - intros k b Hb.
    destruct (C37_constraint [2] [1] [1] (Some [0]) dconf (Some 1) 1000 (damp (Some 1)) 1 d1 GREATER_THAN 0 [0]
      F V eq_refl eq_refl eq_refl ltac:(auto) ltac:(auto) eq_refl ltac:(auto) ltac:(discriminate) k (X k)) as (b' & E & B1 & B2).
    rewrite Hb in E. injection E as <-. unfold distance, rate, satisfies, param, at_, F, V, X in *. cbn [nth] in *.
    destruct k as [|[|j]]; [apply B2; discriminate|apply B2; discriminate|].
    assert (P : qn j == 0 \/ qn j == 1 \/ 2 <= qn j).
    { destruct j as [|[|j]]; [left; reflexivity|right; left; reflexivity|right; right]. rewrite !qn_S. pose proof (qn_ge j). lra. }
    match type of B1 with (2 < ?z -> _) => destruct (Qlt_le_dec 2 z) as [K|K] end; [rewrite (B1 K); discriminate|]. apply (B2 K).
    assert (Q1 : 1 * ((3 # 4) + (1 # 2) * (qn j * (qn j - 1)) - 0 - 1) / (2 - 1) == (3 # 4) + (1 # 2) * (qn j * (qn j - 1)) - 1) by field. rewrite Q1.
    destruct P as [P|[P|P]]; [rewrite P; vm_compute; discriminate|rewrite P; vm_compute; discriminate|nra].
  - intros [|[|j]]; unfold at_, V, X; cbn [nth]; [reflexivity|reflexivity|]. rewrite qn_S. ring.
  - intros [|[|j]]; unfold at_, V, X, F; cbn [nth]; [reflexivity|reflexivity|]. rewrite qn_S. field.
  - reflexivity.
  - reflexivity.
  - reflexivity.
Qed.
Print Assumptions C37_constant_acceleration_refuted.

(* ---- C38 ---- *)
Definition aconf : config := mkConf [2] [1] [0] [1 # 2].
Definition adamp : damper := mkDamper None true [2] [1] [1 # 2] 1000.
Definition a1 : list comp := [mkComp 1 2 (1 # 2) (- / (2 - 1)) (Some 1) false].
Example auto_ex : anisotropic [2] [1] [0] (Some [1 # 2]) = Ok aconf /\ newDamper None aconf 1000 = Ok adamp /\ damperImpl 1 adamp = Ok a1.
Proof. repeat split; reflexivity. Qed.
(* distances 3, 3/2, 5/4, 3, 7/4: the damper activates at steps 1 and 4 *)
Definition atraj (k : nat) : list Q := match k with 0%nat => [3] | 1%nat => [3 # 2] | 2%nat => [5 # 4] | 3%nat => [3] | _ => [7 # 4] end.
Definition avel (k : nat) : list Q := match k with 1%nat => [- (1)] | 4%nat => [- (3)] | _ => [0] end.
Example auto_ex_starts : map (start 2 (fun k => distance GREATER_THAN 0 (at_ 0 (atraj k)))) [1; 2; 3; 4; 5]%nat = [1; 1; 1; 4; 4]%nat.
Proof. reflexivity. Qed.
Example auto_ex_value : match valuesAt adamp GREATER_THAN a1 [0] atraj avel 2 with [Some b] => b == - ((5 # 2) * (1 # 4)) | _ => False end /\
  autoXsi GREATER_THAN (1 # 2) 2 1 (3 # 2) (- (1)) == 5 # 2.
Proof. split; vm_compute; reflexivity. Qed.

(* At every step inside the interaction zone the constraint is the one of the damping chosen when
   the function entered the zone. *)
Theorem C38_constraint : forall di ds xsi o cf dt big p n cs t i r (f v : nat -> list Q),
  anisotropic di ds xsi o = Ok cf -> newDamper dt cf big = Ok p -> damperImpl n p = Ok cs -> (i < n)%nat -> t = GREATER_THAN \/ t = LOWER_THAN ->
  length r = n -> (forall k, length (f k) = n /\ length (v k) = n) -> at_ 0 xsi == 0 ->
  let d k := distance t (at_ i r) (at_ i (f k)) in
  let j k := start (param di i) d k in
  let X k := autoXsi t (param (offset di o) i) (param di i) (param ds i) (d (j k)) (at_ i (v (j k))) in
  forall k x, d k <= param di i -> ~ d (j k) == param ds i ->
  exists b, nth_error (valuesAt p t cs r f v k) i = Some (Some b) /\
    (satisfies t x b <-> - (X k * (d k - param ds i) / (param di i - param ds i)) <= match dt with Some dt => rate t (at_ i (v k)) + dt * rate t x | None => rate t x end).
Proof. intros di ds xsi o cf dt big p n cs t i r f v H1 H2 H3 Hi T Lr Lf N. apply (auto_value di ds xsi o cf dt big p n cs t i r f v); auto. apply (isAuto_t _ _ _ _ _ H2); [eapply aniso_xsi; eassumption|exact N]. Qed.
Print Assumptions C38_constraint.

(* Continuity: at the step where the damper activates, the current velocity satisfies the constraint
   of order one - no acceleration that of order two - exactly when the offset times d - ds is not
   negative; hence always on the safe side, the slack being the offset. *)
Theorem C38_continuous : forall di ds xsi o cf dt big p n cs t i r (f v : nat -> list Q),
  anisotropic di ds xsi o = Ok cf -> newDamper dt cf big = Ok p -> damperImpl n p = Ok cs -> (i < n)%nat -> t = GREATER_THAN \/ t = LOWER_THAN ->
  length r = n -> (forall k, length (f k) = n /\ length (v k) = n) -> at_ 0 xsi == 0 ->
  let d k := distance t (at_ i r) (at_ i (f k)) in
  forall k, d k <= param di i -> start (param di i) d k = k -> ~ d k == param ds i ->
  exists b, nth_error (valuesAt p t cs r f v k) i = Some (Some b) /\
    (satisfies t (match dt with Some _ => 0 | None => at_ i (v k) end) b <-> 0 <= param (offset di o) i * (d k - param ds i)).
Proof. intros di ds xsi o cf dt big p n cs t i r f v H1 H2 H3 Hi T Lr Lf N. apply (auto_activation di ds xsi o cf dt big p n cs t i r f v); auto. apply (isAuto_t _ _ _ _ _ H2); [eapply aniso_xsi; eassumption|exact N]. Qed.
Print Assumptions C38_continuous.

(* The damping chosen on the safe side is not negative exactly when the function does not move away
   faster than the offset allows; in particular when it is approaching. *)
Theorem C38_non_negative_partial : forall t o D S d v, S < D -> S < d ->
  (0 <= autoXsi t o D S d v <-> rate t v * (D - S) <= o * (d - S)) /\ (0 <= o -> rate t v <= 0 -> 0 <= autoXsi t o D S d v).
Proof.
  intros t o D S d v SD K. assert (H : 0 <= autoXsi t o D S d v <-> rate t v * (D - S) <= o * (d - S)).
  { unfold autoXsi. split; intros Z.
    - assert (Y : 0 <= (o - rate t v * (D - S) / (d - S)) * (d - S)) by (apply Qmult_le_0_compat; lra).
      assert (Q3 : (o - rate t v * (D - S) / (d - S)) * (d - S) == o * (d - S) - rate t v * (D - S)) by (field; lra). lra.
    - assert (Q3 : o - rate t v * (D - S) / (d - S) == (o * (d - S) - rate t v * (D - S)) / (d - S)) by (field; lra). rewrite Q3. apply Qle_shift_div_l; lra. }
  split; [exact H|]. intros Ho Hr. apply H. assert (0 <= - rate t v * (D - S)) by (apply Qmult_le_0_compat; lra). assert (0 <= o * (d - S)) by (apply Qmult_le_0_compat; lra). lra.
Qed.
Print Assumptions C38_non_negative_partial.

(* It is negative when the function is moving away as the damper activates, e.g. at the first update
   inside of the zone.  The function is then forced to keep moving away: it may not stand still. *)
Theorem C38_negative_refuted : exists (f v : nat -> list Q) b,
  (forall k, length (f k) = 1 /\ length (v k) = 1)%nat /\ 1 < distance GREATER_THAN 0 (at_ 0 (f 0%nat)) <= 2 /\
  autoXsi GREATER_THAN (1 # 2) 2 1 (distance GREATER_THAN 0 (at_ 0 (f 0%nat))) (at_ 0 (v 0%nat)) < 0 /\
  valuesAt adamp GREATER_THAN a1 [0] f v 1 = [Some b] /\ ~ satisfies GREATER_THAN 0 b.
Proof.
  exists (fun _ => [3 # 2]), (fun _ => [1]). eexists. split; [auto|]. split; [split; [reflexivity|discriminate]|]. split; [reflexivity|].
  split; [vm_compute; reflexivity|]. intros H. vm_compute in H. apply H. reflexivity.
Qed.
Print Assumptions C38_negative_refuted.

(* If the damper activates at the safety distance exactly, the damping is the result of a division by
   zero, and no value is computed as long as the function stays in the zone. *)
Theorem C38_division_by_zero : forall di ds xsi o cf dt big p n cs t i r (f v : nat -> list Q),
  anisotropic di ds xsi o = Ok cf -> newDamper dt cf big = Ok p -> damperImpl n p = Ok cs -> (i < n)%nat -> t = GREATER_THAN \/ t = LOWER_THAN ->
  length r = n -> (forall k, length (f k) = n /\ length (v k) = n) -> at_ 0 xsi == 0 ->
  let d k := distance t (at_ i r) (at_ i (f k)) in
  forall k, d k <= param di i -> d (start (param di i) d k) == param ds i -> nth_error (valuesAt p t cs r f v k) i = Some None.
Proof. intros di ds xsi o cf dt big p n cs t i r f v H1 H2 H3 Hi T Lr Lf N. apply (auto_nan di ds xsi o cf dt big p n cs t i r f v); auto. apply (isAuto_t _ _ _ _ _ H2); [eapply aniso_xsi; eassumption|exact N]. Qed.
Print Assumptions C38_division_by_zero.
Theorem C38_division_refuted : exists (f v : nat -> list Q), (forall k, length (f k) = 1 /\ length (v k) = 1)%nat /\
  (forall k, 1 <= distance GREATER_THAN 0 (at_ 0 (f k))) /\ nth_error (valuesAt adamp GREATER_THAN a1 [0] f v 2) 0 = Some None.
Proof.
  exists (fun k : nat => [match k with O => 3 | S O => 1 | _ => 3 # 2 end]), (fun _ => [- (1)]). split; [auto|]. split; [|reflexivity].
  intros [|[|k]]; discriminate.
Qed.
Print Assumptions C38_division_refuted.

(* Safety with automatic damping at order one, when each time the damper activates the function is
   on the safe side and the damping chosen is compatible with the step. *)
Theorem C38_safe : forall di ds xsi o cf big p n cs t i r (f v : nat -> list Q) h (x : nat -> Q),
  anisotropic di ds xsi o = Ok cf -> newDamper None cf big = Ok p -> damperImpl n p = Ok cs -> (i < n)%nat -> t = GREATER_THAN \/ t = LOWER_THAN ->
  length r = n -> (forall k, length (f k) = n /\ length (v k) = n) -> at_ 0 xsi == 0 ->
  let d k := distance t (at_ i r) (at_ i (f k)) in
  let X k := autoXsi t (param (offset di o) i) (param di i) (param ds i) (d k) (at_ i (v k)) in
  0 < h ->
  (forall k b, nth_error (valuesAt p t cs r f v k) i = Some (Some b) -> satisfies t (x k) b) ->
  (forall k, at_ i (f (S k)) == at_ i (f k) + h * x k) ->
  (forall k, param di i < d k -> - (param di i - param ds i) <= h * rate t (x k)) ->
  (forall k, d k <= param di i -> start (param di i) d k = k -> param ds i < d k /\ 0 <= X k /\ h * X k <= param di i - param ds i) ->
  param ds i <= d 0%nat -> forall k, param ds i <= d k.
Proof.
  intros di ds xsi o cf big p n cs t i r f v h x H1 H2 H3 Hi T Lr Lf N. cbv zeta. intros.
  apply (auto_safe di ds xsi o cf None big p n cs t i r f v H1 H2 H3 Hi T Lr Lf ltac:(apply (isAuto_t _ _ _ _ _ H2); [eapply aniso_xsi; eassumption|exact N]) h x); auto.
Qed.
Print Assumptions C38_safe.
