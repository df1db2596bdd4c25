(* C63. Robot. *)
From Coq Require Import List Bool Arith ZArith QArith Lia.
Import ListNotations.
From Verif Require Import Base IdModel RobModel RobSpec RobProofs.
Local Open Scope nat_scope.

(* A robot with a free flyer (0), a revolute joint (1), a spherical joint (2) and a revolute joint (3). *)
Definition humanoid : rbody := [mkRJ 0 7 6 true; mkRJ 1 1 1 false; mkRJ 2 4 3 false; mkRJ 3 1 1 false].
Definition someLimits : limits :=
  mkLim [(1, [(-2)%Q]); (3, [(-3)%Q]); (9, [0%Q; 0%Q])] [(1, [2%Q])] [(3, [5%Q])] [(0, [1%Q; 1%Q]); (2, [7%Q; 8%Q; 9%Q])].
Lemma humanoid_proper : proper humanoid.
Proof.
  split; [repeat constructor; cbn; intuition discriminate|].
  intros j Hj. cbn in Hj. repeat destruct Hj as [<-|Hj]; try contradiction; cbn; (split; [lia|intros; try discriminate; auto]).
Qed.

Theorem C63_bounds big mb l : proper mb ->
  fits rj_np mb (l_lower l) -> fits rj_np mb (l_upper l) -> fits rj_nd mb (l_velocity l) -> fits rj_nd mb (l_torque l) ->
  notRoot mb (l_lower l) -> notRoot mb (l_upper l) -> notRoot mb (l_velocity l) ->
  exists b, setBounds big mb l = Ok b /\
  forall before j, splits mb before j ->
    (~ isRoot before j -> forall c, c < rj_np j ->
       entry (l_lower l) 1 (- big) j c (rank rj_np before c) (lQ b) /\ entry (l_upper l) 1 big j c (rank rj_np before c) (uQ b)) /\
    (~ isRoot before j -> forall c, c < rj_nd j ->
       entry (l_velocity l) (-1) (- big) j c (rank rj_nd before c) (lVel b) /\ entry (l_velocity l) 1 big j c (rank rj_nd before c) (uVel b)) /\
    (forall c, c < rj_nd j ->
       (~ isRoot before j -> entry (l_torque l) (-1) (- big) j c (fullRank rj_nd before c) (lTau b) /\ entry (l_torque l) 1 big j c (fullRank rj_nd before c) (uTau b)) /\
       (isRoot before j -> entry (l_torque l) (-1) 0 j c (fullRank rj_nd before c) (lTau b) /\ entry (l_torque l) 1 0 j c (fullRank rj_nd before c) (uTau b))).
Proof. exact (bounds_ok big mb l). Qed.
Print Assumptions C63_bounds.
Example C63_bounds_case : proper humanoid /\ fits rj_np humanoid (l_lower someLimits) /\ fits rj_nd humanoid (l_torque someLimits) /\
  notRoot humanoid (l_lower someLimits) /\
  setBounds 100 humanoid someLimits =
    Ok (mkB [-2; -100; -100; -100; -100; -3] [2; 100; 100; 100; 100; 100]
            [-100; -100; -100; -100; -5; -100] [100; 100; 100; 100; 5; 100]
            [-1; -1; 0; 0; 0; 0; -100; -7; -8; -9; -100; -100] [1; 1; 0; 0; 0; 0; 100; 7; 8; 9; 100; 100])%Q.
Proof.
  split; [apply humanoid_proper|]. split; [|split; [|split; [|reflexivity]]].
  - split; [repeat constructor; cbn; intuition discriminate|]. intros j vs Hj Hv. cbn in Hj, Hv.
    repeat destruct Hj as [<-|Hj]; try contradiction; cbn in *; repeat destruct Hv as [Hv|Hv]; try contradiction; try discriminate; injection Hv as <-; cbn; lia.
  - split; [repeat constructor; cbn; intuition discriminate|]. intros j vs Hj Hv. cbn in Hj, Hv.
    repeat destruct Hj as [<-|Hj]; try contradiction; cbn in *; repeat destruct Hv as [Hv|Hv]; try contradiction; try discriminate; injection Hv as <-; cbn; lia.
  - intros j vs Hj Hv. cbn in Hj, Hv. destruct Hj as [<-|[]]. cbn in Hv. intuition discriminate.
Qed.

(* When the bounds can be built: the constructor writes in the vectors only. *)
Theorem C63_defined big mb l : proper mb ->
  (exists b, setBounds big mb l = Ok b) <->
  (inside rj_np (sumOf rj_np (root mb)) (sumOf rj_np (joints mb)) mb (l_lower l) /\
   inside rj_np (sumOf rj_np (root mb)) (sumOf rj_np (joints mb)) mb (l_upper l) /\
   inside rj_nd (sumOf rj_nd (root mb)) (sumOf rj_np (joints mb)) mb (l_velocity l) /\
   inside rj_nd 0 (sumOf rj_nd (root mb) + sumOf rj_np (joints mb)) mb (l_torque l)).
Proof. exact (defined big mb l). Qed.
Print Assumptions C63_defined.
(* The free flyer has no coordinate in the vectors of position and velocity: limits given for it are written out of them. *)
Theorem C63_root_refuted : exists mb l, proper mb /\ fits rj_np mb (l_lower l) /\ l_upper l = [] /\ l_velocity l = [] /\ l_torque l = [] /\
  forall big, setBounds big mb l = UB.
Proof.
  exists humanoid, (mkLim [(0, [0%Q])] [] [] []). split; [apply humanoid_proper|]. split; [|repeat split; auto].
  split; [repeat constructor; cbn; intuition discriminate|]. intros j vs Hj Hv. cbn in Hj, Hv.
  repeat destruct Hj as [<-|Hj]; try contradiction; cbn in *; repeat destruct Hv as [Hv|Hv]; try contradiction; try discriminate; injection Hv as <-; cbn; lia.
Qed.
Print Assumptions C63_root_refuted.
(* A vector of limits longer than the number of coordinates of its joint sets the bounds of the next one. *)
Theorem C63_spill_refuted : exists mb l before j, proper mb /\ splits mb before j /\ (forall c v, ~ given (l_lower l) (rj_name j) c v) /\
  exists b, setBounds 100 mb l = Ok b /\ nth_error (lQ b) (rank rj_np before 0) = Some 3%Q.
Proof.
  exists humanoid, (mkLim [(1, [2%Q; 3%Q])] [] [] []), (firstn 2 humanoid), (mkRJ 2 4 3 false). split; [apply humanoid_proper|].
  split; [eexists; reflexivity|]. split.
  - intros c v (vs & Hv & _). cbn in Hv. intuition discriminate.
  - eexists. split; [vm_compute; reflexivity|]. reflexivity.
Qed.
Print Assumptions C63_spill_refuted.

Theorem C63_sizes big mb l b : proper mb -> setBounds big mb l = Ok b ->
  (length (lQ b) = sumOf rj_np (joints mb) /\ length (uQ b) = sumOf rj_np (joints mb)) /\
  (length (lVel b) = sumOf rj_np (joints mb) /\ length (uVel b) = sumOf rj_np (joints mb)) /\
  (length (lTau b) = sumOf rj_nd (root mb) + sumOf rj_np (joints mb) /\ length (uTau b) = sumOf rj_nd (root mb) + sumOf rj_np (joints mb)).
Proof. exact (lengths big mb l b). Qed.
Print Assumptions C63_sizes.
(* ... which is the size of the velocities and torques exactly when every joint has as many parameters as degrees of freedom. *)
Theorem C63_velocity_sizes mb : proper mb ->
  (sumOf rj_nd (joints mb) = sumOf rj_np (joints mb) <-> forall j, In j (joints mb) -> rj_nd j = rj_np j).
Proof. exact (sums_equal mb). Qed.
Print Assumptions C63_velocity_sizes.
Theorem C63_sizes_refuted : exists mb l b, proper mb /\ setBounds 100 mb l = Ok b /\
  length (lVel b) <> sumOf rj_nd (joints mb) /\ length (lTau b) <> sumOf rj_nd mb.
Proof.
  exists humanoid, someLimits. eexists. split; [apply humanoid_proper|]. split; [vm_compute; reflexivity|]. cbn. split; discriminate.
Qed.
Print Assumptions C63_sizes_refuted.

(* Time. A robot built at tick t0 of the clock. *)
Theorem C63_initial mb t0 q0 c : shaped mb c -> length q0 = sumOf rj_np mb ->
  exists r, construct mb t0 q0 c = Ok r /\ r_c r = c /\ r_q r = concat (c_q c) /\
    r_dq r = repeat 0%Q (sumOf rj_nd mb) /\ r_ddq r = repeat 0%Q (sumOf rj_nd mb).
Proof. intros H1 H2. destruct (construct_inv mb t0 q0 c H1 H2) as (r & H & _ & _ & _ & H3 & H4 & H5 & H6). exists r. auto. Qed.
Print Assumptions C63_initial.

Section History.
  Variables (integ : config -> config) (mb : rbody) (t0 : Z) (q0 : list Q) (c : config) (r0 : robot) (h : list rop).
  Hypothesis Hi : keeps mb integ.
  Hypothesis Hc : shaped mb c.
  Hypothesis Hq : length q0 = sumOf rj_np mb.
  Hypothesis H0 : construct mb t0 q0 c = Ok r0.
  Hypothesis Ht : (0 <= t0 < 18446744073709551616)%Z.
  Hypothesis Hl : forall o, In o h -> legal mb o.
  Hypothesis Hk : (ticksIn h < 18446744073709551616)%Z.

  Theorem C63_runs : exists r, rrun integ r0 h = Ok r.
  Proof.
    destruct (construct_inv mb t0 q0 c Hc Hq) as (r & E & HI & E1 & E2 & _). rewrite H0 in E. injection E as <-.
    destruct (run_inv integ mb Hi r0 t0 HI E1 E2 Ht h Hl Hk) as (r & Er & _). eauto.
  Qed.
  (* An update integrates once the accelerations asked for when the clock advanced since the last one, however many times it
     advanced, and the variables are then those of the configuration. *)
  Theorem C63_update r : rrun integ r0 h = Ok r -> due h ->
    exists r' ad, rrun integ r0 (h ++ [RUpdate]) = Ok r' /\ concat ad = r_ddq r /\ map (@length Q) ad = map rj_nd mb /\
      r_c r' = integ (mkC (c_q (r_c r)) (c_alpha (r_c r)) ad) /\
      r_q r' = concat (c_q (r_c r')) /\ r_dq r' = concat (c_alpha (r_c r')) /\ r_ddq r' = r_ddq r.
  Proof.
    destruct (construct_inv mb t0 q0 c Hc Hq) as (r1 & E & HI & E1 & E2 & _). rewrite H0 in E. injection E as <-.
    intros Er Hd. destruct (due_ticks integ mb Hi r0 t0 h r HI E1 E2 Ht Hl Hk Er) as [HIr Hiff].
    destruct (updateTime_due integ mb Hi r HIr (proj2 Hiff Hd)) as (r' & ad & U & A & B & C & D & F & G & _).
    exists r', ad. rewrite rrun_app, Er. cbn [bind rrun rstep]. rewrite U. cbn [bind]. auto 10.
  Qed.
  Theorem C63_idle r : rrun integ r0 h = Ok r -> ~ due h -> rrun integ r0 (h ++ [RUpdate]) = Ok r.
  Proof.
    destruct (construct_inv mb t0 q0 c Hc Hq) as (r1 & E & HI & E1 & E2 & _). rewrite H0 in E. injection E as <-.
    intros Er Hd. destruct (due_ticks integ mb Hi r0 t0 h r HI E1 E2 Ht Hl Hk Er) as [HIr Hiff].
    rewrite rrun_app, Er. cbn [bind rrun rstep]. rewrite (updateTime_idle integ r); [reflexivity|].
    destruct (Z.eq_dec (r_last r) (r_now r)); [assumption|]. exfalso. tauto.
  Qed.
  (* Values given to q and dq have no effect on the motion. *)
  Theorem C63_by_hand r : rrun integ r0 h = Ok r ->
    exists r', rrun integ r0 (filter (fun o => negb (byHand o)) h) = Ok r' /\ r_c r = r_c r' /\ r_ddq r = r_ddq r'.
  Proof.
    destruct (construct_inv mb t0 q0 c Hc Hq) as (r1 & E & HI & E1 & E2 & _). rewrite H0 in E. injection E as <-.
    intros Er. destruct (erase integ mb Hi h r0 r0 r HI HI) as (r' & E & _ & _ & S1 & S2); auto; [repeat split|]. eauto.
  Qed.
  (* Left to the updates, q is the configuration, and dq its velocity if it was so at the start. *)
  Theorem C63_follow r : (forall o, In o h -> steady o) -> rrun integ r0 h = Ok r ->
    r_q r = concat (c_q (r_c r)) /\
    (concat (c_alpha c) = repeat 0%Q (sumOf rj_nd mb) -> r_dq r = concat (c_alpha (r_c r))).
  Proof.
    destruct (construct_inv mb t0 q0 c Hc Hq) as (r1 & E & HI & _ & _ & Ec & Eq & Ed & _). rewrite H0 in E. injection E as <-.
    intros Hs Er. destruct (follow integ mb Hi h r0 HI (fun o H => conj (Hl o H) (Hs o H)) ltac:(congruence) r Er) as [F1 F2].
    split; [exact F1|]. intros Ea. apply F2. congruence.
  Qed.
End History.
Print Assumptions C63_runs.
Print Assumptions C63_update.
Print Assumptions C63_idle.
Print Assumptions C63_by_hand.
Print Assumptions C63_follow.

(* One sliding joint, with a time step of 1: the position moves by the velocity, the velocity by the acceleration. *)
Definition slider : rbody := [mkRJ 1 1 1 false].
Definition add1 (a b : list (list Q)) : list (list Q) :=
  match a, b with [[x]], [[y]] => [[Qred (x + y)]] | _, _ => a end.
Definition euler1 (c : config) : config := mkC (add1 (c_q c) (c_alpha c)) (add1 (c_alpha c) (c_alphaD c)) (c_alphaD c).
Lemma euler1_keeps : keeps slider euler1.
Proof.
  intros [q a d] (H1 & H2 & H3). cbn in *.
  destruct q as [|[|x [|? ?]] [|? ?]]; try discriminate; destruct a as [|[|y [|? ?]] [|? ?]]; try discriminate;
  destruct d as [|[|z [|? ?]] [|? ?]]; try discriminate. repeat split.
Qed.
Definition still1 : config := mkC [[5%Q]] [[2%Q]] [[0%Q]].
Definition slide (h : list rop) : option (list Q * list Q) :=
  match construct slider 0 [0%Q] still1 with
  | Ok r0 => match rrun euler1 r0 h with Ok r => Some (r_q r, r_dq r) | _ => None end
  | _ => None
  end.
Example C63_history_case : keeps slider euler1 /\ shaped slider still1 /\
  (forall o, In o [SetDdq [3%Q]; SetQ [9%Q]; RTick; RUpdate; RUpdate] -> legal slider o) /\
  due [SetDdq [3%Q]; SetQ [9%Q]; RTick] /\
  slide [SetDdq [3%Q]; SetQ [9%Q]] = Some ([9], [0])%Q /\
  slide [SetDdq [3%Q]; SetQ [9%Q]; RTick; RUpdate; RUpdate] = Some ([7], [5])%Q /\
  slide [SetDdq [3%Q]; RTick; RUpdate; RTick; RUpdate] = Some ([12], [8])%Q.
Proof.
  split; [apply euler1_keeps|]. split; [repeat split|]. split.
  - intros o Ho. cbn in Ho. repeat destruct Ho as [<-|Ho]; try contradiction; cbn; auto.
  - split; [exists [SetDdq [3%Q]; SetQ [9%Q]], []; split; [reflexivity|intros []]|]. repeat split; vm_compute; reflexivity.
Qed.
(* The time that passed is not integrated when the clock advances twice between updates. *)
Theorem C63_elapsed_refuted : exists mb integ c r0, keeps mb integ /\ shaped mb c /\ construct mb 0 [0%Q] c = Ok r0 /\
  forall r1 r2, rrun integ r0 [RTick; RTick; RUpdate] = Ok r1 -> rrun integ r0 [RTick; RUpdate; RTick; RUpdate] = Ok r2 -> r_q r1 <> r_q r2.
Proof.
  exists slider, euler1, still1. eexists. split; [apply euler1_keeps|]. split; [repeat split|]. split; [reflexivity|].
  intros r1 r2 E1 E2. assert (A1 : Ok (r_q r1) = Ok [7%Q]) by (transitivity (bind (Ok r1) (fun r => Ok (r_q r))); [reflexivity|rewrite <- E1; vm_compute; reflexivity]).
  assert (A2 : Ok (r_q r2) = Ok [9%Q]) by (transitivity (bind (Ok r2) (fun r => Ok (r_q r))); [reflexivity|rewrite <- E2; vm_compute; reflexivity]).
  injection A1 as ->. injection A2 as ->. discriminate.
Qed.
Print Assumptions C63_elapsed_refuted.
(* dq is 0 after the construction whatever the velocity of the given configuration, which the first update starts from. *)
Theorem C63_velocity_refuted : exists mb integ c r0, keeps mb integ /\ shaped mb c /\ construct mb 0 [0%Q] c = Ok r0 /\
  r_dq r0 <> concat (c_alpha (r_c r0)) /\
  forall r1, rrun integ r0 [RTick; RUpdate] = Ok r1 -> r_dq r1 = concat (c_alpha c).
Proof.
  exists slider, euler1, still1. eexists. split; [apply euler1_keeps|]. split; [repeat split|]. split; [reflexivity|]. split; [cbn; discriminate|].
  intros r1 E1. assert (A1 : Ok (r_dq r1) = Ok [2%Q]) by (transitivity (bind (Ok r1) (fun r => Ok (r_dq r))); [reflexivity|rewrite <- E1; vm_compute; reflexivity]).
  injection A1 as ->. reflexivity.
Qed.
Print Assumptions C63_velocity_refuted.

(* What is up to date when an output is read. *)
Theorem C63_outputs o u : computed o u <->
  In u match o with
       | Otau => []
       | OFK => [UTime; UFK]
       | OFV => [UTime; UFK; UFV]
       | OFA => [UTime; UFK; UFV; UFA]
       | ONormalAcceleration => [UTime; UFK; UFV; UNormalAcceleration]
       | OH => [UTime; UFK; UFV; UH]
       | OC => [UTime; UFK; UFV; UC]
       | OCoM | OGeometry => [UTime; UFK; UCoM]
       | ODynamics => [UTime; UFK; UFV; UFA; UNormalAcceleration; UH; UC]
       end.
Proof. exact (computed_iff o u). Qed.
Print Assumptions C63_outputs.
(* "Dynamics: ... (i.e. everything)" and "NormalAcceleration: ... depends on FA", Robot.h:35 and 45 *)
Theorem C63_dynamics_refuted : ~ computed ODynamics UCoM /\ ~ computed ONormalAcceleration UFA.
Proof. split; rewrite computed_iff; cbn; intuition discriminate. Qed.
Print Assumptions C63_dynamics_refuted.

(* Normal accelerations: the recurrence along the tree holds for every joint, whatever was there before. *)
Theorem C63_normal_acceleration {X M : Type} (act : X -> M -> M) (plus cross : M -> M -> M) mb pred succ xs vjs vbs a :
  tree (length mb) pred succ -> length xs = length mb -> length vjs = length mb -> length vbs = length mb -> length a = length mb ->
  0 < sumOf rj_nd mb ->
  exists a', computeNormalAccB act plus cross mb pred succ xs vjs vbs a = Ok a' /\ length a' = length mb /\
  forall i s x vj vb, nth_error succ i = Some s -> nth_error xs i = Some x -> nth_error vjs i = Some vj -> nth_error vbs i = Some vb ->
    (nth_error pred i = Some None -> nth_error a' s = Some (cross vb vj)) /\
    (forall p, nth_error pred i = Some (Some p) ->
       exists ap, nth_error a' p = Some ap /\ nth_error a' s = Some (plus (act x ap) (cross vb vj))).
Proof.
  intros Ht Hx Hj Hb Ha Hn. unfold computeNormalAccB. rewrite total_sum. destruct (Nat.ltb_spec 0 (sumOf rj_nd mb)); [|lia].
  destruct (accLoop_ok act plus cross (length mb) pred succ xs vjs vbs Ht Hx Hj Hb (length mb) a 0) as (a' & E & Hl & H'); auto; [lia|].
  exists a'. split; [exact E|]. split; [exact Hl|]. intros i s x vj vb E1 E2 E3 E4. apply (H' i); auto.
  rewrite <- Hx. apply nth_error_Some. rewrite E2. discriminate.
Qed.
Print Assumptions C63_normal_acceleration.
Theorem C63_no_dof {X M : Type} (act : X -> M -> M) (plus cross : M -> M -> M) mb pred succ xs vjs vbs a :
  sumOf rj_nd mb = 0 -> computeNormalAccB act plus cross mb pred succ xs vjs vbs a = Ok a.
Proof. intros H. unfold computeNormalAccB. rewrite total_sum, H. reflexivity. Qed.
Print Assumptions C63_no_dof.
Example C63_normal_acceleration_case : tree 4 [None; Some 0; Some 1; Some 0] [0; 1; 2; 3] /\
  computeNormalAccB Z.mul Z.add Z.mul humanoid [None; Some 0; Some 1; Some 0] [0; 1; 2; 3] [1; 2; 3; 4]%Z [1; 1; 1; 1]%Z [5; 6; 7; 8]%Z [0; 0; 0; 0]%Z
    = Ok [5; 16; 55; 28]%Z.
Proof.
  split; [|reflexivity]. split; [reflexivity|]. split; [reflexivity|]. split; [repeat constructor; cbn; intuition discriminate|]. split.
  - cbn. intuition (subst; lia).
  - intros [|[|[|[|i]]]] p E; cbn in E; try discriminate; [| | |destruct i; discriminate]; injection E as <-;
      [exists 0|exists 1|exists 0]; split; try reflexivity; lia.
Qed.
