Require Import Reals List Bool Arith ZArith Lia Lra.
Require Import Verif.Base Verif.ConeModel Verif.ConeProofs Verif.DfModel Verif.CtcModel Verif.CtcSpec Verif.CtcProofs Verif.FrModel Verif.FrSpec Verif.FrProofs Verif.PlSpec Verif.PlProofs Verif.ColModel Verif.ColSpec.
Import ListNotations.
Local Open Scope R_scope.

Section P.
Variable hulls : nat -> hull.
Variable dt tiny : R.
Notation run := (krun hulls dt tiny).
Notation objs := (objectsOf hulls).
Definition key (c : coll) : nat * nat := (d_h1 c, d_h2 c).

Lemma bind_ok {A B} (e : res A) (f : A -> res B) r : bind e f = Ok r -> exists a, e = Ok a /\ f a = Ok r.
Proof. destruct e; cbn; intros H; try discriminate. eauto. Qed.
Lemma Ok_inj {A} (a b : A) : Ok a = Ok b -> a = b.
Proof. congruence. Qed.
Lemma krun_app s a b : run s (a ++ b) = (do t <- run s a; run t b).
Proof. revert s. induction a as [|o a IH]; intros s; [reflexivity|]. cbn [krun app]. destruct (kstep hulls dt tiny s o); cbn; auto. Qed.
Lemma valueOne_ok g i c c' v : valueOne hulls tiny g i c = Ok (c', v) ->
  key c' = key c /\ d_prev c' = d_prev c /\ d_speed c' = d_speed c /\
  (let '(d, p0, p1) := z_close g (d_h1 c) (d_h2 c) in
   v = dist tiny d /\ d_norm c' = vscale (/ v) (vminus p0 p1) /\ nears hulls g i p0 p1 (objs (d_h1 c) (d_h2 c)) = Ok (d_near c')).
Proof.
  unfold valueOne. destruct (z_close g (d_h1 c) (d_h2 c)) as [[d p0] p1]. intros H. apply bind_ok in H. destruct H as (n & E & H).
  injection H as <- <-. unfold key. cbn. repeat (split; [reflexivity|]). exact E.
Qed.
Lemma values_ok g cs : forall i cs' vs, values hulls tiny g i cs = Ok (cs', vs) -> length cs' = length cs /\ length vs = length cs /\
  forall k c, nth_error cs k = Some c -> exists c' v, valueOne hulls tiny g (i + k) c = Ok (c', v) /\ nth_error cs' k = Some c' /\ nth_error vs k = Some v.
Proof.
  induction cs as [|c cs IH]; intros i cs' vs H.
  - injection H as <- <-. repeat split. intros [|k] c; discriminate.
  - cbn [values] in H. apply bind_ok in H. destruct H as ([c' v] & E & H). apply bind_ok in H. destruct H as ([cs1 vs1] & E1 & H).
    injection H as <- <-. destruct (IH _ _ _ E1) as (L1 & L2 & N). cbn. split; [lia|]. split; [lia|].
    intros [|k] x Hx.
    + injection Hx as <-. rewrite Nat.add_0_r. eauto.
    + cbn in Hx. destruct (N k x Hx) as (x' & w & A & B & C). replace (i + S k)%nat with (S i + k)%nat by lia. eauto.
Qed.
Lemma map_eq_nth {A B} (f : A -> B) l l' : length l = length l' -> (forall k a, nth_error l k = Some a -> exists b, nth_error l' k = Some b /\ f b = f a) -> map f l' = map f l.
Proof.
  revert l'. induction l as [|a l IH]; intros [|b l'] L N; try discriminate; [reflexivity|]. cbn. f_equal.
  - destruct (N 0%nat a eq_refl) as (b' & E & F). injection E as <-. exact F.
  - apply IH; [cbn in L; lia|]. intros k x Hx. exact (N (S k) x Hx).
Qed.
Lemma values_keys g cs i cs' vs : values hulls tiny g i cs = Ok (cs', vs) -> map key cs' = map key cs.
Proof.
  intros H. destruct (values_ok _ _ _ _ _ H) as (L1 & _ & N). apply map_eq_nth; [lia|]. intros k a Ha.
  destruct (N k a Ha) as (c' & v & E & F & _). exists c'. split; [exact F|]. apply (valueOne_ok _ _ _ _ _ E).
Qed.
Lemma keys_time cs : map key (map (timeOne dt) cs) = map key cs.
Proof. rewrite map_map. reflexivity. Qed.
Lemma update_ok s g s' : updateAll hulls dt tiny s g = Ok s' -> exists cs vs, values hulls tiny g 0 (x_colls s) = Ok (cs, vs) /\
  let cs2 := if Z.eqb (z_tick g) (x_tick s) then cs else map (timeOne dt) cs in
  s' = mkCfn (z_tick g) cs2 (Some vs) (Some (map (jacobianOne hulls g) cs)) (Some (map (velocityOne hulls g) cs)) (Some (map (naccOne hulls g) cs2)).
Proof. unfold updateAll. intros H. apply bind_ok in H. destruct H as ([cs vs] & E & H). injection H as <-. exists cs, vs. split; [exact E|reflexivity]. Qed.
Lemma step_pairs s o s' : kstep hulls dt tiny s o = Ok s' -> map key (x_colls s') = pairs hulls (map key (x_colls s)) [o].
Proof.
  destruct o as [h1 h2| |g]; cbn [kstep pairs].
  - intros H. injection H as <-. unfold addCollision. destruct (h_dof (hulls h1) <? h_dof (hulls h2))%nat; cbn; rewrite map_app; reflexivity.
  - intros H. injection H as <-. reflexivity.
  - intros H. destruct (update_ok _ _ _ H) as (cs & vs & E & F). cbv zeta in F. subst s'. cbn. destruct (Z.eqb _ _); [|rewrite keys_time]; apply (values_keys _ _ _ _ _ E).
Qed.
Lemma pairs_cons acc o ops : pairs hulls acc (o :: ops) = pairs hulls (pairs hulls acc [o]) ops.
Proof. destruct o; reflexivity. Qed.
Lemma run_pairs ops : forall s s', run s ops = Ok s' -> map key (x_colls s') = pairs hulls (map key (x_colls s)) ops.
Proof.
  induction ops as [|o ops IH]; intros s s' H.
  - injection H as <-. reflexivity.
  - cbn [krun] in H. apply bind_ok in H. destruct H as (t & E & H). rewrite (IH _ _ H), pairs_cons, (step_pairs _ _ _ E). reflexivity.
Qed.
Lemma pairs_app acc a b : pairs hulls acc (a ++ b) = pairs hulls (pairs hulls acc a) b.
Proof. revert acc. induction a as [|o a IH]; intros acc; [reflexivity|]. cbn [app]. rewrite pairs_cons, IH, <- pairs_cons. reflexivity. Qed.
Lemma pairs_ordered ops : forall acc, Forall (fun p => h_dof (hulls (snd p)) <= h_dof (hulls (fst p)))%nat acc -> Forall (fun p => h_dof (hulls (snd p)) <= h_dof (hulls (fst p)))%nat (pairs hulls acc ops).
Proof.
  induction ops as [|[h1 h2| |g] ops IH]; intros acc H; cbn [pairs]; auto. apply IH. apply Forall_app. split; [exact H|]. constructor; [|constructor].
  destruct (h_dof (hulls h1) <? h_dof (hulls h2))%nat eqn:E; cbn; [apply Nat.ltb_lt in E|apply Nat.ltb_ge in E]; lia.
Qed.
Lemma run_update tick ops g s : run (newCfn tick) (ops ++ [KUpdate g]) = Ok s -> exists t, run (newCfn tick) ops = Ok t /\ updateAll hulls dt tiny t g = Ok s /\ map key (x_colls t) = pairs hulls [] ops.
Proof.
  rewrite krun_app. intros H. apply bind_ok in H. destruct H as (t & E & H). exists t. split; [exact E|]. cbn [krun kstep] in H. apply bind_ok in H. destruct H as (u & U & H). injection H as <-.
  split; [exact U|]. exact (run_pairs _ _ _ E).
Qed.
Lemma size_ok tick ops g s : run (newCfn tick) (ops ++ [KUpdate g]) = Ok s -> exists v J ve na, x_value s = Some v /\ x_jac s = Some J /\ x_vel s = Some ve /\ x_nacc s = Some na /\
  let n := length (pairs hulls [] ops) in length v = n /\ length J = n /\ length ve = n /\ length na = n.
Proof.
  intros H. destruct (run_update _ _ _ _ H) as (t & _ & U & K). destruct (update_ok _ _ _ U) as (cs & vs & E & F). cbv zeta in F. subst s. cbn.
  destruct (values_ok _ _ _ _ _ E) as (L1 & L2 & _). rewrite <- K, map_length. do 4 eexists. repeat (split; [reflexivity|]). rewrite !map_length. destruct (Z.eqb _ _); rewrite ?map_length; lia.
Qed.
(* one row after an update *)
Lemma row_ok tick ops g s i h1 h2 : run (newCfn tick) (ops ++ [KUpdate g]) = Ok s -> nth_error (pairs hulls [] ops) i = Some (h1, h2) ->
  exists t c c' v, run (newCfn tick) ops = Ok t /\ nth_error (x_colls t) i = Some c /\ d_h1 c = h1 /\ d_h2 c = h2 /\ valueOne hulls tiny g i c = Ok (c', v) /\
    row (x_value s) i = Some v /\ row (x_jac s) i = Some (jacobianOne hulls g c') /\ row (x_vel s) i = Some (velocityOne hulls g c') /\
    row (x_nacc s) i = Some (naccOne hulls g (if Z.eqb (z_tick g) (x_tick t) then c' else timeOne dt c')) /\
    nth_error (x_colls s) i = Some (if Z.eqb (z_tick g) (x_tick t) then c' else timeOne dt c').
Proof.
  intros H N. destruct (run_update _ _ _ _ H) as (t & T & U & K). destruct (update_ok _ _ _ U) as (cs & vs & E & F). cbv zeta in F.
  rewrite <- K in N. rewrite nth_error_map in N. destruct (nth_error (x_colls t) i) as [c|] eqn:C; [|discriminate]. cbn in N. injection N as <- <-.
  destruct (values_ok _ _ _ _ _ E) as (_ & _ & A). destruct (A i c C) as (c' & v & V & B & D). cbn [Nat.add] in V.
  exists t, c, c', v. split; [exact T|]. split; [exact C|]. do 2 (split; [reflexivity|]). split; [exact V|]. subst s. cbn [row x_value x_jac x_vel x_nacc x_colls].
  split; [exact D|]. split; [apply map_nth_error, B|]. split; [apply map_nth_error, B|].
  destruct (Z.eqb _ _); [split; [apply map_nth_error, B|exact B]|]. split; [do 2 apply map_nth_error; exact B|apply map_nth_error, B].
Qed.

(* ---- definedness ---- *)
Lemma nears_defined g i p0 p1 hs : nears hulls g i p0 p1 hs = UB /\ (2 <= i)%nat /\ hs <> [] \/ (exists n, nears hulls g i p0 p1 hs = Ok n) /\ (hs = [] \/ (i < 2)%nat).
Proof.
  induction hs as [|h hs IH]; [right; split; [eexists; reflexivity|auto]|].
  cbn [nears]. destruct i as [|[|i]]; cbn [closest bind].
  - right. destruct IH as [(_ & L & _)|((n & ->) & _)]; [lia|]. split; [eexists; reflexivity|lia].
  - right. destruct IH as [(_ & L & _)|((n & ->) & _)]; [lia|]. split; [eexists; reflexivity|lia].
  - left. repeat split; [lia|discriminate].
Qed.
Lemma objs_nil h1 h2 : (h_dof (hulls h2) <= h_dof (hulls h1))%nat -> objs h1 h2 = [] <-> h_dof (hulls h1) = 0%nat.
Proof.
  intros L. unfold objectsOf. cbn [filter]. destruct (0 <? h_dof (hulls h1))%nat eqn:E.
  - apply Nat.ltb_lt in E. split; [discriminate|lia].
  - apply Nat.ltb_ge in E. assert (X : (0 <? h_dof (hulls h2))%nat = false) by (apply Nat.ltb_ge; lia). rewrite X. split; [lia|reflexivity].
Qed.
Lemma values_defined g cs : forall i, (Forall (fun c => h_dof (hulls (d_h2 c)) <= h_dof (hulls (d_h1 c)))%nat cs) ->
  ((exists r, values hulls tiny g i cs = Ok r) /\ forall k c, nth_error cs k = Some c -> (2 <= i + k)%nat -> h_dof (hulls (d_h1 c)) = 0%nat) \/
  (values hulls tiny g i cs = UB /\ exists k c, nth_error cs k = Some c /\ (2 <= i + k)%nat /\ (0 < h_dof (hulls (d_h1 c)))%nat).
Proof.
  induction cs as [|c cs IH]; intros i F.
  - left. split; [eexists; reflexivity|]. intros [|k] c; discriminate.
  - inversion F; subst. cbn [values]. unfold valueOne. destruct (z_close g (d_h1 c) (d_h2 c)) as [[d p0] p1].
    destruct (nears_defined g i p0 p1 (objs (d_h1 c) (d_h2 c))) as [(E & L & N)|((n & E) & N)]; rewrite E; cbn [bind].
    + right. split; [reflexivity|]. exists 0%nat, c. split; [reflexivity|]. split; [lia|]. destruct (h_dof (hulls (d_h1 c))) eqn:D; [|lia]. exfalso. apply N. apply objs_nil; lia.
    + destruct (IH (S i) H2) as [((r & E2) & A)|(E2 & k & c0 & A & B & C)]; rewrite E2; cbn [bind].
      * left. destruct r. split; [eexists; reflexivity|]. intros [|k] c0 Hc L.
        -- injection Hc as <-. destruct N as [N|N]; [|lia]. apply (objs_nil _ (d_h2 c)) in N; [exact N|exact H1].
        -- apply (A k c0 Hc). lia.
      * right. split; [reflexivity|]. exists (S k), c0. split; [exact A|]. split; [lia|exact C].
Qed.
Lemma defined_ok tick ops g s : run (newCfn tick) ops = Ok s ->
  ((exists s', kstep hulls dt tiny s (KUpdate g) = Ok s') <-> forall i p, nth_error (pairs hulls [] ops) i = Some p -> (2 <= i)%nat -> h_dof (hulls (fst p)) = 0%nat) /\
  (kstep hulls dt tiny s (KUpdate g) = UB <-> exists i p, nth_error (pairs hulls [] ops) i = Some p /\ (2 <= i)%nat /\ (0 < h_dof (hulls (fst p)))%nat).
Proof.
  intros H. pose proof (run_pairs _ _ _ H) as K. cbn [x_colls newCfn map] in K.
  assert (F : Forall (fun c => h_dof (hulls (d_h2 c)) <= h_dof (hulls (d_h1 c)))%nat (x_colls s)).
  { pose proof (pairs_ordered ops [] (Forall_nil _)) as P. rewrite <- K in P. rewrite Forall_map in P. exact P. }
  cbn [kstep]. unfold updateAll.
  destruct (values_defined g (x_colls s) 0 F) as [(([cs vs] & E) & A)|(E & k & c & A & B & C)]; rewrite E; cbn [bind].
  - assert (X : forall i p, nth_error (pairs hulls [] ops) i = Some p -> (2 <= i)%nat -> h_dof (hulls (fst p)) = 0%nat).
    { intros i p N L. rewrite <- K, nth_error_map in N. destruct (nth_error (x_colls s) i) as [c|] eqn:Q; [|discriminate]. injection N as <-. exact (A i c Q L). }
    split; [split; [intros _; exact X|intros _; eexists; reflexivity]|]. split; [discriminate|]. intros (i & p & N & L & D). rewrite (X i p N L) in D. lia.
  - assert (X : nth_error (pairs hulls [] ops) k = Some (key c)) by (rewrite <- K; apply map_nth_error; exact A).
    split; split; [intros (s' & Q); discriminate| |intros _; exists k, (key c); repeat split; [exact X|lia|exact C]|reflexivity].
    intros Y. specialize (Y k (key c) X ltac:(lia)). cbn in Y. lia.
Qed.

(* ---- the value ---- *)
Lemma dist_signed d p0 p1 v : signed (d, p0, p1) v -> dist tiny d = v /\ v <> 0.
Proof.
  unfold signed, dist. intros [(P & D & V)|(P & D & V)].
  - assert (L : 0 <= distance p0 p1) by (apply sqrt_pos). assert (S : sqrt d = distance p0 p1) by (rewrite D; apply sqrt_square, L).
    destruct (Rle_dec 0 d); [|lra]. assert (0 < sqrt d) by (apply sqrt_lt_R0, P). destruct (Req_EM_T (sqrt d) 0); [lra|]. subst v. lra.
  - assert (L : 0 <= distance p0 p1) by (apply sqrt_pos). assert (S : sqrt (- d) = distance p0 p1) by (replace (- d) with (distance p0 p1 * distance p0 p1) by lra; apply sqrt_square, L).
    destruct (Rle_dec 0 d); [lra|]. assert (0 < sqrt (- d)) by (apply sqrt_lt_R0; lra). destruct (Req_EM_T (- sqrt (- d)) 0); [lra|]. subst v. lra.
Qed.
Lemma value_ok tick ops g s i h1 h2 : run (newCfn tick) (ops ++ [KUpdate g]) = Ok s -> nth_error (pairs hulls [] ops) i = Some (h1, h2) ->
  (forall v, signed (z_close g h1 h2) v -> row (x_value s) i = Some v) /\ (fst (fst (z_close g h1 h2)) = 0 -> row (x_value s) i = Some tiny).
Proof.
  intros H N. destruct (row_ok _ _ _ _ _ _ _ H N) as (t & c & c' & v & _ & _ & <- & <- & V & R & _). destruct (valueOne_ok _ _ _ _ _ V) as (_ & _ & _ & W).
  destruct (z_close g (d_h1 c) (d_h2 c)) as [[d p0] p1]. destruct W as (W & _). split.
  - intros w S. destruct (dist_signed _ _ _ _ S) as (D & _). rewrite R. congruence.
  - cbn. intros ->. rewrite R, W. unfold dist. destruct (Rle_dec 0 0); [|lra]. rewrite sqrt_0. destruct (Req_EM_T 0 0); [reflexivity|lra].
Qed.

(* ---- J q' is the velocity ---- *)
Lemma dot3_comm a b : dot3 a b = dot3 b a.
Proof. unfold dot3. ring. Qed.
Lemma pointOf_weighted n0 q J E x nv : dot3 nv (pointMotion E x (weighted n0 q J)) = sumR n0 (fun j => dot3 nv (pointMotion E x (J j)) * q j).
Proof.
  induction n0 as [|n IH]; cbn [weighted sumR]; [unfold pointMotion, dot3, cross3; cbn; ring|]. rewrite <- IH. unfold pointMotion, dot3, cross3; cbn. ring.
Qed.
Lemma sumR_zero n (f : nat -> R) : (forall j, f j = 0) -> sumR n f = 0.
Proof. intros H. induction n; cbn [sumR]; [reflexivity|]. rewrite IHn, H. ring. Qed.
Lemma sumR_plus n f h : sumR n (fun j => f j + h j) = sumR n f + sumR n h.
Proof. induction n; cbn [sumR]; [ring|]. rewrite IHn. ring. Qed.
Lemma sumR_scale n k f : sumR n (fun j => k * f j) = k * sumR n f.
Proof. induction n; cbn [sumR]; [ring|]. rewrite IHn. ring. Qed.
Lemma product_plus nd q A B l : product nd q (fun r j => A r j + B r j) l = product nd q A l + product nd q B l.
Proof.
  induction l as [|r l IH]; cbn [product]; [ring|]. rewrite IH.
  replace (sumR (nd r) (fun j => (A r j + B r j) * q r j)) with (sumR (nd r) (fun j => A r j * q r j) + sumR (nd r) (fun j => B r j * q r j)); [ring|].
  rewrite <- sumR_plus. apply sumR_ext'. intros. ring.
Qed.
Lemma product_scale nd q k A l : product nd q (fun r j => k * A r j) l = k * product nd q A l.
Proof.
  induction l as [|r l IH]; cbn [product]; [ring|]. rewrite IH.
  replace (sumR (nd r) (fun j => k * A r j * q r j)) with (k * sumR (nd r) (fun j => A r j * q r j)); [ring|].
  rewrite <- sumR_scale. apply sumR_ext'. intros. ring.
Qed.
Lemma product_one nd q f r0 l : NoDup l -> product nd q (fun r j => if Nat.eqb r0 r then f j else 0) l = if in_dec Nat.eq_dec r0 l then sumR (nd r0) (fun j => f j * q r0 j) else 0.
Proof.
  induction l as [|r l IH]; intros D; cbn [product]; [reflexivity|]. inversion D; subst. rewrite (IH H2). destruct (Nat.eqb_spec r0 r) as [->|E].
  - destruct (in_dec Nat.eq_dec r l); [contradiction|]. destruct (in_dec Nat.eq_dec r (r :: l)) as [_|X]; [ring|exfalso; apply X; left; reflexivity].
  - rewrite (sumR_zero (nd r)); [|intros; ring]. destruct (in_dec Nat.eq_dec r0 l), (in_dec Nat.eq_dec r0 (r :: l)); try ring.
    + exfalso. apply n. right. assumption.
    + destruct i as [X|X]; [congruence|contradiction].
Qed.
Lemma product_zero nd q l : product nd q (fun _ _ => 0) l = 0.
Proof. induction l as [|r l IH]; cbn [product]; [reflexivity|]. rewrite IH, sumR_zero; [ring|intros; ring]. Qed.
Lemma alternate_product g nv nd q l hs : NoDup l -> Forall (fun h => In (h_robot (hulls h)) l /\ weighted (nd (h_robot (hulls h))) (q (h_robot (hulls h))) (b_jac (z_body g h)) = b_vel (z_body g h)) hs ->
  forall ns sg, product nd q (fun r j => alternate sg (fun h x => if Nat.eqb (h_robot (hulls h)) r then dot3 nv (pointOf g h x (b_jac (z_body g h) j)) else 0) hs ns) l
  = alternate sg (fun h x => dot3 (pointOf g h x (b_vel (z_body g h))) nv) hs ns.
Proof.
  intros D. induction hs as [|h hs IH]; intros F [|x ns] sg; cbn [alternate]; try apply product_zero. inversion F as [|? ? (I & W) F']; subst.
  rewrite product_plus, (IH F'). f_equal. rewrite product_scale. f_equal. rewrite product_one by exact D. destruct (in_dec Nat.eq_dec (h_robot (hulls h)) l) as [_|X]; [|contradiction].
  rewrite dot3_comm, <- W. unfold pointOf. rewrite pointOf_weighted. reflexivity.
Qed.
Lemma jacobian_ok tick ops g s i h1 h2 nd q l : run (newCfn tick) (ops ++ [KUpdate g]) = Ok s -> nth_error (pairs hulls [] ops) i = Some (h1, h2) ->
  NoDup l -> (forall h, h = h1 \/ h = h2 -> (0 < h_dof (hulls h))%nat -> In (h_robot (hulls h)) l /\ weighted (nd (h_robot (hulls h))) (q (h_robot (hulls h))) (b_jac (z_body g h)) = b_vel (z_body g h)) ->
  exists J v, row (x_jac s) i = Some J /\ row (x_vel s) i = Some v /\ product nd q J l = v.
Proof.
  intros H N D F. destruct (row_ok _ _ _ _ _ _ _ H N) as (t & c & c' & v & _ & _ & E1 & E2 & V & _ & R2 & R3 & _). destruct (valueOne_ok _ _ _ _ _ V) as (K & _).
  exists (jacobianOne hulls g c'), (velocityOne hulls g c'). split; [exact R2|]. split; [exact R3|]. unfold jacobianOne, velocityOne. apply alternate_product; [exact D|].
  unfold key in K. injection K as K1 K2. rewrite K1, K2, E1, E2. apply Forall_forall. intros h Hh. unfold objectsOf in Hh. apply filter_In in Hh. destruct Hh as (I & P). apply Nat.ltb_lt in P.
  apply F; [|exact P]. destruct I as [<-|[<-|[]]]; auto.
Qed.

(* ---- the velocity ---- *)
Lemma near_point g h p : orthonormal (p_rot (b_pos (z_body g h))) -> h_x (hulls h) = still ->
  tmul (p_rot (b_pos (z_body g h))) (p_tr (pmul (onlyTranslation p) (pinv (hullFrame hulls g h)))) = diff p (p_tr (b_pos (z_body g h))).
Proof.
  intros O S. unfold hullFrame, framePosition. rewrite S, pmul_still. destruct (z_body g h) as [[E r] ? ? ?]. cbn [b_pos p_rot p_tr pmul pinv onlyTranslation] in *.
  rewrite tmul_trans, tmul_plus, tmul_opp. destruct (orth_t _ O r) as (A & _). destruct (orth_t _ O p) as (B & _). rewrite A, B. apply v3_eq; cbn; ring.
Qed.
Lemma pointOf_at g h p : orthonormal (p_rot (b_pos (z_body g h))) -> h_x (hulls h) = still ->
  pointOf g h (p_tr (pmul (onlyTranslation p) (pinv (hullFrame hulls g h)))) (b_vel (z_body g h)) = velocity_at (z_body g h) p.
Proof. intros O S. unfold pointOf, pointMotion, velocity_at. rewrite (near_point g h p O S), rigid_cross. reflexivity. Qed.
Definition chosen (i : nat) (p0 p1 : v3) : v3 := if Nat.eqb i 0 then p0 else p1.
Lemma objs_cases h1 h2 : (0 < h_dof (hulls h1))%nat -> objs h1 h2 = h1 :: if (0 <? h_dof (hulls h2))%nat then [h2] else [].
Proof. intros P. unfold objectsOf. cbn [filter]. apply Nat.ltb_lt in P. rewrite P. reflexivity. Qed.
Lemma norm_ok g c v p0 p1 d : z_close g (d_h1 c) (d_h2 c) = (d, p0, p1) -> forall n, n = vscale (/ v) (vminus p0 p1) -> n = normal (z_close g (d_h1 c) (d_h2 c)) v.
Proof. intros -> n ->. apply v3_eq; cbn; ring. Qed.
Lemma velocity_exact tick ops g s i h1 h2 v : run (newCfn tick) (ops ++ [KUpdate g]) = Ok s -> nth_error (pairs hulls [] ops) i = Some (h1, h2) -> (0 < h_dof (hulls h1))%nat ->
  (forall h, h = h1 \/ h = h2 -> orthonormal (p_rot (b_pos (z_body g h))) /\ h_x (hulls h) = still) -> signed (z_close g h1 h2) v ->
  let n := normal (z_close g h1 h2) v in let p := (if Nat.eqb i 0 then snd (fst (z_close g h1 h2)) else snd (z_close g h1 h2)) in
  row (x_vel s) i = Some (scalar n (velocity_at (z_body g h1) p) - (if (0 <? h_dof (hulls h2))%nat then scalar n (velocity_at (z_body g h2) p) else 0)).
Proof.
  intros H N P O S. destruct (row_ok _ _ _ _ _ _ _ H N) as (t & c & c' & w & _ & _ & E1 & E2 & V & _ & _ & R3 & _). rewrite R3. f_equal.
  destruct (valueOne_ok _ _ _ _ _ V) as (K & _ & _ & W). unfold key in K. injection K as K1 K2. unfold velocityOne. rewrite K1, K2, E1, E2 in *.
  destruct (z_close g h1 h2) as [[d p0] p1]. destruct W as (W1 & W2 & W3). destruct (dist_signed _ _ _ _ S) as (D & _). rewrite D in W1. subst w.
  assert (Q : d_norm c' = normal (d, p0, p1) v) by (rewrite W2; apply v3_eq; cbn; ring). rewrite Q. cbv zeta. set (n := normal (d, p0, p1) v). cbn [fst snd].
  destruct (O h1 (or_introl eq_refl)) as (O1 & S1). destruct (O h2 (or_intror eq_refl)) as (O2 & S2).
  rewrite (objs_cases _ _ P) in *. set (p := if Nat.eqb i 0 then p0 else p1).
  assert (CL : closest i p0 p1 = Ok p). { destruct i as [|[|i]]; [reflexivity|reflexivity|]. cbn in W3. discriminate. }
  cbn [nears] in W3. rewrite CL in W3. cbn [bind] in W3. apply bind_ok in W3. destruct W3 as (r & R & W3). apply Ok_inj in W3. rewrite <- W3. f_equal.
  cbn [alternate]. rewrite (pointOf_at _ _ _ O1 S1). destruct (0 <? h_dof (hulls h2))%nat.
  - cbn [nears] in R. rewrite CL in R. cbn [bind] in R. apply Ok_inj in R. subst r. cbn [alternate]. rewrite (pointOf_at _ _ _ O2 S2). unfold scalar, dot3. ring.
  - cbn [alternate]. unfold scalar, dot3. ring.
Qed.
Lemma along_normal b p0 p1 d v : scalar (normal (d, p0, p1) v) (velocity_at b p0) = scalar (normal (d, p0, p1) v) (velocity_at b p1).
Proof. unfold scalar, normal, velocity_at, rigid, times, diff. cbn. ring. Qed.
Lemma velocity_exact_both tick ops g s i h1 h2 v : run (newCfn tick) (ops ++ [KUpdate g]) = Ok s -> nth_error (pairs hulls [] ops) i = Some (h1, h2) -> (0 < h_dof (hulls h1))%nat ->
  (forall h, h = h1 \/ h = h2 -> orthonormal (p_rot (b_pos (z_body g h))) /\ h_x (hulls h) = still) -> (h_dof (hulls h2) = 0%nat -> b_vel (z_body g h2) = (mkV3 0 0 0, mkV3 0 0 0)) ->
  signed (z_close g h1 h2) v ->
  row (x_vel s) i = Some (scalar (normal (z_close g h1 h2) v) (diff (velocity_at (z_body g h1) (snd (fst (z_close g h1 h2)))) (velocity_at (z_body g h2) (snd (z_close g h1 h2))))).
Proof.
  intros H N P O B S. rewrite (velocity_exact _ _ _ _ _ _ _ _ H N P O S). cbv zeta. f_equal. destruct (z_close g h1 h2) as [[d p0] p1]. cbn [fst snd].
  replace (scalar _ (diff _ _)) with (scalar (normal (d, p0, p1) v) (velocity_at (z_body g h1) p0) - scalar (normal (d, p0, p1) v) (velocity_at (z_body g h2) p1)) by (unfold scalar, diff; cbn; ring).
  f_equal.
  - destruct (Nat.eqb i 0); [reflexivity|]. symmetry. apply along_normal.
  - destruct (0 <? h_dof (hulls h2))%nat eqn:E.
    + destruct (Nat.eqb i 0); [apply along_normal|reflexivity].
    + apply Nat.ltb_ge in E. unfold velocity_at. rewrite B by lia. unfold scalar, rigid, diff. cbn. ring.
Qed.
Lemma distance_derivative (P0 P1 : R -> v3) t a b : derives P0 t a -> derives P1 t b -> 0 < distance (P0 t) (P1 t) ->
  derivable_pt_lim (fun u => distance (P0 u) (P1 u)) t (scalar (times (/ distance (P0 t) (P1 t)) (diff (P0 t) (P1 t))) (diff a b)).
Proof.
  intros A B L. pose proof (d_sub _ _ _ _ _ A B) as D. pose proof (d_scalar _ _ _ _ _ D D) as E. set (sq := fun u => scalar (vminus (P0 u) (P1 u)) (vminus (P0 u) (P1 u))) in E.
  assert (PE : forall u, distance (P0 u) (P1 u) = sqrt (sq u)) by (intros; reflexivity).
  assert (Q : 0 < sq t). { destruct (Rlt_dec 0 (sq t)) as [X|X]; [exact X|]. exfalso. rewrite PE, sqrt_neg_0 in L by lra. lra. }
  pose proof (derivable_pt_lim_comp sq sqrt t _ _ E (derivable_pt_lim_sqrt _ Q)) as C. rewrite PE in *. unfold comp in C.
  replace (scalar _ (diff a b)) with (/ (2 * sqrt (sq t)) * (scalar (vminus a b) (vminus (P0 t) (P1 t)) + scalar (vminus (P0 t) (P1 t)) (vminus a b))).
  - exact C.
  - unfold scalar, times, diff, vminus. cbn. field. lra.
Qed.
(* bodies which do not turn *)
Lemma point_still g h x : fst (b_vel (z_body g h)) = mkV3 0 0 0 -> pointOf g h x (b_vel (z_body g h)) = snd (b_vel (z_body g h)).
Proof. intros W. unfold pointOf, pointMotion. rewrite W. apply v3_eq; cbn; ring. Qed.
Lemma nears_length g i p0 p1 hs n : nears hulls g i p0 p1 hs = Ok n -> length n = length hs.
Proof. revert n. induction hs as [|h hs IH]; intros n H; [injection H as <-; reflexivity|]. cbn [nears] in H. apply bind_ok in H. destruct H as (c & _ & H). apply bind_ok in H. destruct H as (r & R & H). injection H as <-. cbn. rewrite (IH _ R). reflexivity. Qed.
Lemma alternate_const f k h1 h2 ns : (0 < h_dof (hulls h1))%nat -> length ns = length (objs h1 h2) -> (forall x, f h1 x = k h1) -> (forall x, f h2 x = k h2) -> (h_dof (hulls h2) = 0%nat -> k h2 = 0) ->
  alternate 1 f (objs h1 h2) ns = k h1 - k h2.
Proof.
  intros P L F1 F2 Z. rewrite (objs_cases _ _ P) in *. destruct (0 <? h_dof (hulls h2))%nat eqn:E.
  - destruct ns as [|a [|b [|c ns]]]; try discriminate. cbn. rewrite F1, F2. ring.
  - apply Nat.ltb_ge in E. destruct ns as [|a [|b ns]]; try discriminate. cbn. rewrite F1, (Z ltac:(lia)). ring.
Qed.
Lemma near_length g i c c' v : valueOne hulls tiny g i c = Ok (c', v) -> length (d_near c') = length (objs (d_h1 c) (d_h2 c)).
Proof. intros V. destruct (valueOne_ok _ _ _ _ _ V) as (_ & _ & _ & W). destruct (z_close g (d_h1 c) (d_h2 c)) as [[d p0] p1]. destruct W as (_ & _ & W). apply (nears_length _ _ _ _ _ _ W). Qed.
Lemma norm_value g i c c' w v : valueOne hulls tiny g i c = Ok (c', w) -> signed (z_close g (d_h1 c) (d_h2 c)) v -> d_norm c' = normal (z_close g (d_h1 c) (d_h2 c)) v.
Proof.
  intros V S. destruct (valueOne_ok _ _ _ _ _ V) as (_ & _ & _ & W). destruct (z_close g (d_h1 c) (d_h2 c)) as [[d p0] p1]. destruct W as (W & N & _).
  destruct (dist_signed _ _ _ _ S) as (D & _). rewrite N, W, D. apply v3_eq; cbn; ring.
Qed.
Lemma velocity_translation tick ops g s i h1 h2 v : run (newCfn tick) (ops ++ [KUpdate g]) = Ok s -> nth_error (pairs hulls [] ops) i = Some (h1, h2) -> (0 < h_dof (hulls h1))%nat ->
  (forall h, h = h1 \/ h = h2 -> fst (b_vel (z_body g h)) = mkV3 0 0 0) -> (h_dof (hulls h2) = 0%nat -> snd (b_vel (z_body g h2)) = mkV3 0 0 0) -> signed (z_close g h1 h2) v ->
  row (x_vel s) i = Some (scalar (normal (z_close g h1 h2) v) (diff (snd (b_vel (z_body g h1))) (snd (b_vel (z_body g h2))))).
Proof.
  intros H N P W Z S. destruct (row_ok _ _ _ _ _ _ _ H N) as (t & c & c' & w & _ & _ & E1 & E2 & V & _ & _ & R3 & _). rewrite R3. f_equal.
  pose proof (near_length _ _ _ _ _ V) as L. destruct (valueOne_ok _ _ _ _ _ V) as (K & _). unfold key in K. injection K as K1 K2. subst h1 h2. pose proof (norm_value _ _ _ _ _ _ V S) as Q.
  unfold velocityOne. rewrite K1, K2, Q. set (n := normal _ v).
  rewrite (alternate_const _ (fun h => dot3 (snd (b_vel (z_body g h))) n) _ _ _ P L).
  - unfold scalar, dot3, diff. cbn. ring.
  - intros x. rewrite point_still; auto.
  - intros x. rewrite point_still; auto.
  - intros Y. rewrite (Z Y). unfold dot3. cbn. ring.
Qed.

(* ---- the normal acceleration ---- *)
Lemma nacc_two tick ops g1 g2 s i h1 h2 v1 v2 a : run (newCfn tick) ((ops ++ [KUpdate g1]) ++ [KUpdate g2]) = Ok s -> nth_error (pairs hulls [] ops) i = Some (h1, h2) -> (0 < h_dof (hulls h1))%nat ->
  (forall t, run (newCfn tick) ops = Ok t -> x_tick t <> z_tick g1) -> z_tick g1 <> z_tick g2 ->
  (forall h, h = h1 \/ h = h2 -> fst (b_vel (z_body g2 h)) = mkV3 0 0 0 /\ forall x, z_pacc g2 h x = a h) ->
  (h_dof (hulls h2) = 0%nat -> snd (b_vel (z_body g2 h2)) = mkV3 0 0 0 /\ a h2 = mkV3 0 0 0) ->
  signed (z_close g1 h1 h2) v1 -> signed (z_close g2 h1 h2) v2 ->
  let n1 := normal (z_close g1 h1 h2) v1 in let n2 := normal (z_close g2 h1 h2) v2 in
  row (x_nacc s) i = Some (scalar n2 (diff (a h1) (a h2)) + scalar (times (/ dt) (diff n2 n1)) (diff (snd (b_vel (z_body g2 h1))) (snd (b_vel (z_body g2 h2))))).
Proof.
  intros H N P T1 T2 W Z S1 S2. assert (N2 : nth_error (pairs hulls [] (ops ++ [KUpdate g1])) i = Some (h1, h2)) by (rewrite pairs_app; exact N).
  destruct (row_ok _ _ _ _ _ _ _ H N2) as (t & c & c' & w & RT & C & E1 & E2 & V & _ & _ & _ & R4 & _).
  destruct (row_ok _ _ _ _ _ _ _ RT N) as (t0 & c0 & c0' & w0 & RT0 & C0 & F1 & F2 & V0 & _ & _ & _ & _ & R5).
  assert (TT : x_tick t = z_tick g1). { destruct (run_update _ _ _ _ RT) as (u & _ & U & _). destruct (update_ok _ _ _ U) as (? & ? & _ & Y). cbv zeta in Y. subst t. reflexivity. }
  assert (B0 : Z.eqb (z_tick g1) (x_tick t0) = false) by (apply Z.eqb_neq; intros X; exact (T1 _ RT0 (eq_sym X))). rewrite B0 in R5.
  assert (B1 : Z.eqb (z_tick g2) (x_tick t) = false) by (apply Z.eqb_neq; rewrite TT; congruence). rewrite B1 in R4.
  cbv zeta. rewrite R4. f_equal. pose proof (near_length _ _ _ _ _ V) as L. destruct (valueOne_ok _ _ _ _ _ V) as (K & PV & _). unfold key in K. injection K as K1 K2.
  assert (Q2 : d_norm c' = normal (z_close g2 h1 h2) v2) by (subst h1 h2; exact (norm_value _ _ _ _ _ _ V S2)).
  assert (Q1 : d_prev c' = normal (z_close g1 h1 h2) v1). { rewrite PV. rewrite C in R5. injection R5 as ->. cbn. rewrite <- F1, <- F2 in S1 |- *. exact (norm_value _ _ _ _ _ _ V0 S1). }
  unfold naccOne. cbn [timeOne d_h1 d_h2 d_near d_norm d_speed]. rewrite K1, K2, E1, E2, Q1, Q2 in *. cbv zeta. set (n1 := normal (z_close g1 _ _) v1). set (n2 := normal (z_close g2 _ _) v2).
  rewrite (alternate_const _ (fun h => dot3 (a h) n2 + dot3 (snd (b_vel (z_body g2 h))) (vscale (/ dt) (vminus n2 n1))) _ _ _ P L).
  - repeat (unfold scalar, dot3, diff, times, vminus; cbn). ring.
  - intros x. destruct (W h1 (or_introl eq_refl)) as (A & B). rewrite point_still, B; auto.
  - intros x. destruct (W h2 (or_intror eq_refl)) as (A & B). rewrite point_still, B; auto.
  - intros Y. destruct (Z Y) as (A & B). rewrite A, B. unfold dot3. cbn. ring.
Qed.
Lemma near_coordinates g h p : orthonormal (p_rot (b_pos (z_body g h))) -> h_x (hulls h) = still ->
  p_tr (pmul (onlyTranslation p) (pinv (hullFrame hulls g h))) = coordinates (p_rot (b_pos (z_body g h))) (diff p (p_tr (b_pos (z_body g h)))).
Proof.
  intros O S. unfold hullFrame, framePosition. rewrite S, pmul_still. destruct (z_body g h) as [[E r] ? ? ?]. cbn [b_pos p_rot p_tr pmul pinv onlyTranslation] in *.
  rewrite tmul_trans. apply v3_eq; repeat (unfold dot3; cbn); ring.
Qed.
(* the first collision, with a fixed second object *)
Lemma nacc_first tick ops g1 g2 s h1 h2 v1 v2 : run (newCfn tick) ((ops ++ [KUpdate g1]) ++ [KUpdate g2]) = Ok s -> nth_error (pairs hulls [] ops) 0 = Some (h1, h2) -> (0 < h_dof (hulls h1))%nat -> h_dof (hulls h2) = 0%nat ->
  (forall t, run (newCfn tick) ops = Ok t -> x_tick t <> z_tick g1) -> z_tick g1 <> z_tick g2 ->
  orthonormal (p_rot (b_pos (z_body g2 h1))) -> h_x (hulls h1) = still ->
  signed (z_close g1 h1 h2) v1 -> signed (z_close g2 h1 h2) v2 ->
  let n1 := normal (z_close g1 h1 h2) v1 in let n2 := normal (z_close g2 h1 h2) v2 in let p := snd (fst (z_close g2 h1 h2)) in
  row (x_nacc s) 0 = Some (scalar n2 (z_pacc g2 h1 (coordinates (p_rot (b_pos (z_body g2 h1))) (diff p (p_tr (b_pos (z_body g2 h1)))))) + scalar (times (/ dt) (diff n2 n1)) (velocity_at (z_body g2 h1) p)).
Proof.
  intros H N P Z T1 T2 O S S1 S2. assert (N2 : nth_error (pairs hulls [] (ops ++ [KUpdate g1])) 0 = Some (h1, h2)) by (rewrite pairs_app; exact N).
  destruct (row_ok _ _ _ _ _ _ _ H N2) as (t & c & c' & w & RT & C & E1 & E2 & V & _ & _ & _ & R4 & _).
  destruct (row_ok _ _ _ _ _ _ _ RT N) as (t0 & c0 & c0' & w0 & RT0 & C0 & F1 & F2 & V0 & _ & _ & _ & _ & R5).
  assert (TT : x_tick t = z_tick g1). { destruct (run_update _ _ _ _ RT) as (u & _ & U & _). destruct (update_ok _ _ _ U) as (? & ? & _ & Y). cbv zeta in Y. subst t. reflexivity. }
  assert (B0 : Z.eqb (z_tick g1) (x_tick t0) = false) by (apply Z.eqb_neq; intros X; exact (T1 _ RT0 (eq_sym X))). rewrite B0 in R5.
  assert (B1 : Z.eqb (z_tick g2) (x_tick t) = false) by (apply Z.eqb_neq; rewrite TT; congruence). rewrite B1 in R4.
  cbv zeta. rewrite R4. f_equal. destruct (valueOne_ok _ _ _ _ _ V) as (K & PV & _ & W). unfold key in K. injection K as K1 K2.
  assert (Q2 : d_norm c' = normal (z_close g2 h1 h2) v2) by (subst h1 h2; exact (norm_value _ _ _ _ _ _ V S2)).
  assert (Q1 : d_prev c' = normal (z_close g1 h1 h2) v1). { rewrite PV. rewrite C in R5. injection R5 as ->. cbn. rewrite <- F1, <- F2 in S1 |- *. exact (norm_value _ _ _ _ _ _ V0 S1). }
  unfold naccOne. cbn [timeOne d_h1 d_h2 d_near d_norm d_speed]. rewrite K1, K2, E1, E2, Q1, Q2 in *. set (n1 := normal (z_close g1 _ _) v1). set (n2 := normal (z_close g2 _ _) v2).
  destruct (z_close g2 h1 h2) as [[d p0] p1]. destruct W as (_ & _ & W). rewrite (objs_cases _ _ P), Z in *. cbn [Nat.ltb Nat.leb nears closest bind] in W. apply Ok_inj in W. rewrite <- W.
  cbn [Nat.ltb Nat.leb alternate fst snd]. rewrite (pointOf_at _ _ _ O S), (near_coordinates _ _ _ O S). unfold scalar, dot3, times, vscale, vminus, vplus, vopp, diff. cbn [vx vy vz]. ring.
Qed.
End P.
