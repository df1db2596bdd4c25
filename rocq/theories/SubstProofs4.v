(* Proofs for C33: the eliminated variables, the flags, the defined updates. *)
From Coq Require Import List Bool Arith QArith Lia Lqa.
Import ListNotations.
From Verif Require Import Base QSum SubstModel SubstSpec SubstProofs SubstProofs2 SubstProofs3.
Local Open Scope nat_scope.

Section G.
Variable sz : nat -> nat.

(* the y variables are not substituted *)
Lemma scan_Y (P : nat -> Prop) : forall l t,
  (forall x, In x (t_x t) -> forall j, In j (x_Y x) -> P j) ->
  (forall l1 s l2 cc v, l = l1 ++ s :: l2 -> In cc (s_cs s) -> In v (c_vars cc) -> ~ In v (s_xs s) ->
     ~ In v (map x_v (t_x t)) -> ~ In v (flat_map s_xs l1) -> P v) ->
  forall r, In r (scan sz t l) -> (forall j, In j (u_SY r) -> P j) /\ (forall x, In x (u_xs r) -> x_Y x = u_SY r).
Proof.
  induction l as [|s l IH]; intros t H1 H2 r I; [destruct I|]. cbn [scan] in I.
  assert (SYs : forall j, In j (u_SY (scanOne sz t s)) -> P j).
  { intros j J. cbn [u_SY scanOne] in J. apply nodup_In, in_flat_map in J. destruct J as (cr & Ic & J).
    destruct (scanCs_In _ _ _ _ _ _ _ Ic) as (K1 & (cc & K2 & _ & K3) & _). apply in_app_iff in J. destruct J as [J|J].
    - rewrite K3 in J. apply filter_In in J. destruct J as [J1 J2]. apply andb_true_iff in J2. destruct J2 as [J2 J3].
      apply negb_true_iff in J2, J3. apply mem_not in J2, J3. apply (H2 [] s l cc j); auto.
    - apply in_flat_map in J. destruct J as (x & Ix & J). apply (H1 x (K1 x Ix) j J). }
  assert (XY : forall x, In x (u_xs (scanOne sz t s)) -> x_Y x = u_SY (scanOne sz t s)).
  { intros x Ix. cbn [u_xs scanOne] in Ix. destruct (scanXs_In _ _ _ _ _ _ _ _ _ Ix) as (_ & X2 & _). exact X2. }
  destruct I as [<-|I]; [split; assumption|]. apply (IH (next t s (scanOne sz t s))); [| |exact I].
  - intros x Ix j J. cbn [next t_x] in Ix. apply in_app_iff in Ix. destruct Ix as [Ix|Ix]; [eauto|]. rewrite (XY x Ix) in J. auto.
  - intros l1 s' l2 cc v E J1 J2 J3 J4 J5. cbn [next t_x] in J4. rewrite map_app, in_app_iff in J4. cbn [u_xs scanOne] in J4. rewrite scanXs_map in J4.
    apply (H2 (s :: l1) s' l2 cc v); auto; [now rewrite E|]. cbn [flat_map]. rewrite in_app_iff. tauto.
Qed.
Lemma scan_vars : forall l t, map x_v (flat_map u_xs (scan sz t l)) = flat_map s_xs l.
Proof.
  induction l as [|s l IH]; intros t; [reflexivity|]. cbn [scan flat_map]. rewrite map_app, IH. f_equal. cbn [u_xs scanOne]. apply scanXs_map.
Qed.

Section Data.
Variable jac : nat -> nat -> nat -> mat.
Variable e : nat -> nat -> vec.
Variable cal : nat -> calc.

(* flags *)
Lemma setFlag_Ok l : forall i b, i < length l -> exists l', setFlag l i b = Ok l' /\ length l' = length l.
Proof.
  induction l as [|x l IH]; intros i b L; [simpl in L; lia|]. destruct i as [|i]; simpl.
  - eexists. split; [reflexivity|reflexivity].
  - simpl in L. destruct (IH i b ltac:(lia)) as (l' & E & E'). rewrite E. simpl. eexists. split; [reflexivity|]. simpl. now rewrite E'.
Qed.
Lemma setFlag_nth l : forall i b l', setFlag l i b = Ok l' -> forall j, nth j l' false = if j =? i then b else nth j l false.
Proof.
  induction l as [|x l IH]; intros i b l' E j; [destruct i; discriminate|]. destruct i as [|i]; simpl in E.
  - injection E as <-. destruct j; reflexivity.
  - destruct (setFlag l i b) as [l1| |] eqn:E1; try discriminate. simpl in E. injection E as <-. destruct j; [reflexivity|]. simpl. apply (IH _ _ _ E1).
Qed.
Lemma andFlags_Ok uz : forall ls b, (forall x, In x ls -> x_idx x < length uz) -> exists b', andFlags ls b uz = Ok b'.
Proof.
  induction ls as [|x ls IH]; intros b H; [eexists; reflexivity|]. simpl. assert (H' : forall x, In x ls -> x_idx x < length uz) by (intros; apply H; simpl; auto).
  destruct b; [|auto]. unfold getFlag. destruct (nth_error uz (x_idx x)) as [b|] eqn:E; [simpl; auto|].
  apply nth_error_None in E. specialize (H x (or_introl eq_refl)). lia.
Qed.
Lemma andFlags_true uz : forall ls b, andFlags ls b uz = Ok true -> b = true /\ (forall x, In x ls -> nth (x_idx x) uz false = true).
Proof.
  induction ls as [|x ls IH]; intros b E; simpl in E.
  - injection E as ->. split; [reflexivity|intros ? []].
  - destruct b; [|destruct (IH _ E); discriminate]. unfold getFlag in E. destruct (nth_error uz (x_idx x)) as [f|] eqn:F; [|discriminate]. simpl in E.
    destruct (IH _ E) as [-> H]. split; [reflexivity|]. intros y [<-|I]; [|auto]. now rewrite (nth_error_nth _ _ _ F).
Qed.

(* updates that are defined *)
Definition idxOk (nc nx : nat) (r : urec) : Prop :=
  forall cr, In cr (u_cs r) -> k_idx cr < nc /\ (forall x, In x (k_X cr) -> x_idx x < nx).
Lemma updCsts_Ok k : forall l s z, (forall cr, In cr l -> k_idx cr < length (cIsZero s) /\ (forall x, In x (k_X cr) -> x_idx x < length (uIsZero s))) ->
  exists s' z', updCsts sz jac e cal k l s z = Ok (s', z') /\ length (cIsZero s') = length (cIsZero s) /\ uIsZero s' = uIsZero s.
Proof.
  induction l as [|cr l IH]; intros s z H; [do 2 eexists; split; [reflexivity|split; reflexivity]|]. cbn [updCsts].
  destruct (H cr (or_introl eq_refl)) as [H1 H2]. unfold updCst.
  destruct (andFlags_Ok (uIsZero s) (k_X cr) (isZeroRhs (k_rhs cr)) H2) as (b & Eb). rewrite Eb. cbn [bind].
  destruct (setFlag_Ok (cIsZero s) (k_idx cr) b H1) as (cz & Ec & Lc). rewrite Ec. cbn [bind fst snd].
  match goal with |- context [updCsts _ _ _ _ _ _ ?s1 ?z1] => destruct (IH s1 z1) as (s' & z' & E' & L' & U') end.
  - cbn [cIsZero uIsZero]. rewrite Lc. intros cr' I. apply H. now right.
  - cbn [cIsZero uIsZero] in L', U'. exists s', z'. rewrite L', U', Lc. auto.
Qed.
Lemma update_Ok : forall l s, (forall r, In r l -> idxOk (length (cIsZero s)) (length (uIsZero s)) r /\ u_k r < length (uIsZero s)) ->
  exists s', update sz jac e cal l s = Ok s' /\ length (cIsZero s') = length (cIsZero s) /\ length (uIsZero s') = length (uIsZero s).
Proof.
  induction l as [|r l IH]; intros s H; [eexists; split; [reflexivity|split; reflexivity]|]. cbn [update]. unfold updSub.
  destruct (H r (or_introl eq_refl)) as [H1 H2].
  destruct (updCsts_Ok (u_k r) (u_cs r) s true H1) as (s1 & z1 & E1 & L1 & U1). rewrite E1. cbn [bind].
  rewrite U1. destruct (setFlag_Ok (uIsZero s) (u_k r) z1 H2) as (uz & Eu & Lu). rewrite Eu. cbn [bind].
  match goal with |- context [update _ _ _ _ l ?s2] => destruct (IH s2) as (s' & E' & A & B) end.
  - cbn [cIsZero uIsZero]. rewrite L1, Lu. intros r' I. apply H. now right.
  - exists s'. cbn [cIsZero uIsZero] in A, B. rewrite A, B, L1, Lu. auto.
Qed.
End Data.

Lemma scanCs_idx prev own : forall cs idx loc row cr, In cr (scanCs prev own cs idx loc row) -> k_idx cr < idx + length cs.
Proof. induction cs as [|cc cs IH]; intros idx loc row cr I; [destruct I|]. destruct I as [<-|I]; simpl; [lia|]. specialize (IH _ _ _ _ I). lia. Qed.
Lemma scanXs_idx k Y Zl : forall xs idx row off x, In x (scanXs sz k xs idx row off Y Zl) -> idx <= x_idx x /\ x_idx x < idx + length xs.
Proof. induction xs as [|v xs IH]; intros idx row off x I; [destruct I|]. destruct I as [<-|I]; simpl; [lia|]. specialize (IH _ _ _ _ I). lia. Qed.
Lemma scanXs_length k Y Zl : forall xs idx row off, length (scanXs sz k xs idx row off Y Zl) = length xs.
Proof. induction xs as [|v xs IH]; intros; simpl; auto. Qed.
Lemma scan_length : forall l t, length (scan sz t l) = length l.
Proof. induction l as [|s l IH]; intros t; simpl; auto. Qed.
Lemma scan_idx : forall l t, (forall x, In x (t_x t) -> x_idx x < length (t_x t)) ->
  forall r, In r (scan sz t l) -> idxOk (t_c t + length (flat_map s_cs l)) (length (t_x t) + length (flat_map s_xs l)) r.
Proof.
  induction l as [|s l IH]; intros t H r I; [destruct I|]. cbn [scan] in I. cbn [flat_map]. rewrite !app_length. destruct I as [<-|I].
  - intros cr J. cbn [u_cs scanOne] in J. split; [pose proof (scanCs_idx _ _ _ _ _ _ _ J); lia|]. intros x Ix.
    destruct (scanCs_In _ _ _ _ _ _ _ J) as (K & _). specialize (H x (K x Ix)). lia.
  - assert (L : length (t_x (next t s (scanOne sz t s))) = length (t_x t) + length (s_xs s)).
    { cbn [next t_x]. rewrite app_length. cbn [u_xs scanOne]. now rewrite scanXs_length. }
    replace (length (t_x t) + (length (s_xs s) + length (flat_map s_xs l))) with (length (t_x (next t s (scanOne sz t s))) + length (flat_map s_xs l)) by lia.
    replace (t_c t + (length (s_cs s) + length (flat_map s_cs l))) with (t_c (next t s (scanOne sz t s)) + length (flat_map s_cs l)) by (cbn [next t_c]; lia).
    apply IH; [|exact I]. intros x Ix. rewrite L. cbn [next t_x] in Ix. apply in_app_iff in Ix. destruct Ix as [Ix|Ix]; [specialize (H x Ix); lia|].
    cbn [u_xs scanOne] in Ix. pose proof (scanXs_idx _ _ _ _ _ _ _ _ Ix). lia.
Qed.

Section Data2.
Variable jac : nat -> nat -> nat -> mat.
Variable e : nat -> nat -> vec.
Variable cal : nat -> calc.

(* the flags, when every substitution has one variable *)
Definition uz0 (s : ust) (x : xrec) : Prop := nth (x_idx x) (uIsZero s) false = true -> forall b, b < sz (x_v x) -> (u s (x_row x + b)%nat == 0)%Q.
Lemma updCst_zero k s cr s' : (forall x, In x (k_X cr) -> uz0 s x) -> updCst sz jac e cal k s cr = Ok (s', true) ->
  forall a, a < k_size cr -> (c s' (k_row cr + a)%nat == 0)%Q.
Proof.
  intros H E a La. unfold updCst in E. destruct (andFlags _ _ _) as [z| |] eqn:Ea; try discriminate. cbn [bind] in E.
  destruct (setFlag _ _ _) as [cz| |]; try discriminate. cbn [bind] in E. injection E as <- Ez. subst z. cbn [c].
  destruct (andFlags_true _ _ _ Ea) as [R F]. rewrite c_loop, (inRows_in cr a La). replace (k_row cr + a - k_row cr) with a by lia.
  unfold setSeg. rewrite (inRows_in cr a La). replace (k_row cr + a - k_row cr) with a by lia.
  rewrite qsum_zero.
  - unfold rhsOf. destruct (k_rhs cr); try discriminate. ring.
  - intros x Ix. apply qsumn_zero. intros b Lb. rewrite (H x Ix (F x Ix) b Lb). ring.
Qed.
Lemma updCst_keeps k s cr s' z : updCst sz jac e cal k s cr = Ok (s', z) ->
  u s' = u s /\ uIsZero s' = uIsZero s /\ forall a, inRows (k_row cr) (k_size cr) a = false -> (c s' a == c s a)%Q.
Proof.
  intros E. unfold updCst in E. destruct (andFlags _ _ _) as [z1| |] eqn:Ea; try discriminate. cbn [bind] in E.
  destruct (setFlag _ _ _) as [cz| |]; try discriminate. cbn [bind] in E. injection E as <- Ez. cbn [u uIsZero c].
  split; [reflexivity|]. split; [reflexivity|]. intros a Ra. rewrite c_loop, Ra. unfold setSeg. rewrite Ra. reflexivity.
Qed.
Lemma updCsts_zero k : forall l row s z s' z', laid row l -> (forall cr x, In cr l -> In x (k_X cr) -> uz0 s x) -> updCsts sz jac e cal k l s z = Ok (s', z') ->
  u s' = u s /\ uIsZero s' = uIsZero s /\ (forall a, a < row -> (c s' a == c s a)%Q) /\
  (z' = true -> z = true /\ forall a, a < crows l -> (c s' (row + a)%nat == 0)%Q).
Proof.
  induction l as [|cr l IH]; intros row s z s' z' L H E.
  - simpl in E. injection E as <- <-. split; [reflexivity|]. split; [reflexivity|]. split; [reflexivity|]. intros ->. split; [reflexivity|]. simpl. intros a La. lia.
  - cbn [updCsts] in E. destruct (updCst sz jac e cal k s cr) as [[s1 z1]| |] eqn:E1; try discriminate. cbn [bind fst snd] in E.
    destruct L as [L1 L2]. destruct (updCst_keeps _ _ _ _ _ E1) as (U1 & U2 & U3).
    assert (H' : forall cr0 x, In cr0 l -> In x (k_X cr0) -> uz0 s1 x).
    { intros cr0 x I J. unfold uz0. rewrite U1, U2. apply (H cr0); [now right|exact J]. }
    destruct (IH _ s1 _ s' z' L2 H' E) as (A1 & A2 & A3 & A4). split; [congruence|]. split; [congruence|]. split.
    + intros a La. rewrite A3 by lia. apply U3. unfold inRows. apply andb_false_iff. left. apply Nat.leb_gt. lia.
    + intros Ez. destruct (A4 Ez) as [A5 A6]. apply andb_true_iff in A5. destruct A5 as [-> ->]. split; [reflexivity|]. simpl. intros a La.
      destruct (Nat.lt_ge_cases a (k_size cr)) as [L|L].
      * rewrite A3 by lia. rewrite <- L1. apply (updCst_zero k s cr s1); [intros x Ix; apply (H cr); [now left|exact Ix]|exact E1|exact L].
      * replace (row + a) with (row + k_size cr + (a - k_size cr)) by lia. apply A6. lia.
Qed.
Lemma flags : forall l t s s', ctxOk sz t -> fresh t l -> (forall x, In x l -> length (s_xs x) = 1) -> length (t_x t) = t_k t ->
  (forall x, In x (t_x t) -> x_idx x = x_sub x /\ uz0 s x) -> zeroAll (scan sz t l) s -> update sz jac e cal (scan sz t l) s = Ok s' ->
  (forall x, In x (t_x t ++ flat_map u_xs (scan sz t l)) -> x_idx x = x_sub x /\ uz0 s' x).
Proof.
  induction l as [|x l IH]; intros t s s' T F H1 L H2 Z0 E.
  - simpl in E. injection E as <-. cbn [scan flat_map]. rewrite app_nil_r. exact H2.
  - cbn [scan flat_map] in *. set (r := scanOne sz t x) in *. cbn [update] in E.
    destruct (updSub sz jac e cal s r) as [s1| |] eqn:E1; try discriminate. cbn [bind] in E.
    destruct (fresh_next sz t x l T F) as (N1 & N2 & T' & F'). fold r in T', F'.
    destruct (updSub_frame sz jac e cal (fun _ => 0) (fun _ _ => 0%Q) t x N2 s s1 (fun _ _ => 0%Q) (Z0 _ (or_introl eq_refl)) E1) as (_ & _ & G2 & G3 & _).
    assert (Z1 : zeroAll (scan sz (next t x r) l) s1).
    { intros r' I cr J. apply zeroFact_frame with (s := s); [|apply (Z0 r' (or_intror I) cr J)]. intros a La j b. apply G2. right.
      pose proof (scan_rows sz _ _ _ I cr J) as Hm. cbn [next t_m] in Hm. fold r. lia. }
    assert (L' : length (t_x (next t x r)) = t_k (next t x r)).
    { cbn [next t_x t_k]. rewrite app_length. cbn [r u_xs scanOne]. rewrite scanXs_length, (H1 x (or_introl eq_refl)). lia. }
    rewrite app_assoc. change (t_x t ++ u_xs r) with (t_x (next t x r)).
    apply (IH (next t x r) s1 s' T' F' (fun y I => H1 y (or_intror I)) L'); [|exact Z1|exact E].
    (* one substitution *)
    unfold updSub in E1. change (u_k r) with (t_k t) in E1.
    destruct (updCsts sz jac e cal (t_k t) (u_cs r) s true) as [[s2 z2]| |] eqn:E2; try discriminate. cbn [bind] in E1.
    destruct (setFlag (uIsZero s2) (t_k t) z2) as [uz| |] eqn:Eu; try discriminate. cbn [bind] in E1. injection E1 as E1.
    destruct (scanCs_laid (t_x t) (s_xs x) (s_cs x) (t_c t) 0 (t_m t)) as [La Lr].
    assert (Hx : forall cr y, In cr (u_cs r) -> In y (k_X cr) -> uz0 s y).
    { intros cr y I J. cbn [r u_cs scanOne] in I. destruct (scanCs_In _ _ _ _ _ _ _ I) as (K & _). apply (H2 y (K y J)). }
    destruct (updCsts_zero (t_k t) (u_cs r) (t_m t) s true s2 z2 La Hx E2) as (A1 & A2 & _ & A4).
    intros y Iy. cbn [next t_x] in Iy. apply in_app_iff in Iy. destruct Iy as [Iy|Iy].
    + destruct (H2 y Iy) as [B1 B2]. split; [exact B1|]. destruct (proj2 T y Iy) as (T1 & T2 & _). intros Fl b Lb.
      rewrite <- E1 in Fl. cbn [uIsZero] in Fl. rewrite (setFlag_nth _ _ _ _ Eu), A2, B1 in Fl.
      replace (x_sub y =? t_k t) with false in Fl by (symmetry; apply Nat.eqb_neq; lia).
      rewrite (proj2 (G3 (x_row y + b) ltac:(lia))). apply B2; [now rewrite B1|exact Lb].
    + cbn [r u_xs scanOne] in Iy. pose proof (scanXs_idx _ _ _ _ _ _ _ _ Iy) as Ix. destruct (scanXs_In _ _ _ _ _ _ _ _ _ Iy) as (X1 & X2 & X3 & X4 & X5 & X6 & _).
      rewrite (H1 x (or_introl eq_refl)) in Ix. split; [lia|]. intros Fl b Lb. rewrite <- E1 in Fl |- *. cbn [uIsZero u] in *.
      rewrite (setFlag_nth _ _ _ _ Eu) in Fl. replace (x_idx y =? t_k t) with true in Fl by (symmetry; apply Nat.eqb_eq; lia). destruct (A4 Fl) as [_ A5].
      unfold setSeg. destruct (inRows _ _ _) eqn:IR.
      * apply qsumn_zero. intros a Lq. change (u_m0 r) with (t_m t). rewrite A5; [ring|]. change (u_cs r) with (scanCs (t_x t) (s_xs x) (s_cs x) (t_c t) 0 (t_m t)). rewrite Lr. exact Lq.
      * exfalso. unfold inRows in IR. apply andb_false_iff in IR. cbn [r u_n0 u_n scanOne] in IR. destruct IR as [IR|IR]; [apply Nat.leb_gt in IR|apply Nat.ltb_ge in IR]; lia.
Qed.
End Data2.
End G.
