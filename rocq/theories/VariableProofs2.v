Require Import ZArith List Bool Lia.
Require Import Verif.Base Verif.RangeModel Verif.SpaceModel Verif.SpaceProps Verif.VariableModel Verif.VariableSpec Verif.VariableProofs.
Require Import Verif.RangeCountingModel Verif.RangeCountingSpec Verif.RangeProps.
Import ListNotations.
Local Open Scope Z_scope.
Local Arguments dot1 : simpl never.
Local Arguments Z.add : simpl never.
Local Arguments Z.sub : simpl never.
Local Arguments Z.leb : simpl never.

Fixpoint nthDeriv (h : heap) (n : nat) (root w : nat) : Prop :=
  match n with
  | O => w = root
  | S m => exists u, nthDeriv h m root u /\ derivRel h u w
  end.

Lemma nthDeriv_ext h h' n root w : extends h h' -> nthDeriv h n root w -> nthDeriv h' n root w.
Proof.
  intros X. revert w. induction n as [|n IH]; simpl; intros w; auto.
  intros (u & H1 & H2). exists u. split; auto. eapply derivRel_ext; eauto.
Qed.

Lemma walk_ok h : hinv h -> forall n w o, nth_error (objs h) w = Some o -> v_super o = None -> v_dn o = n ->
  exists root ro, walkPrim n h w = Ok root /\ nth_error (objs h) root = Some ro /\ v_super ro = None /\ v_dn ro = O /\
    nthDeriv h n root w /\ v_space ro = v_space o.
Proof.
  intros I. induction n as [|n IH]; intros w o E S D; simpl.
  - exists w, o. auto 10.
  - rewrite (proj2 (get_ok _ _ _) E). simpl. pose proof (ok_prim _ _ _ (hi_obj _ I w o E)) as K. rewrite D in K.
    destruct K as (p & po & -> & K2 & K3 & K4 & K5 & K6).
    destruct (IH p po K2) as (root & ro & Q1 & Q2 & Q3 & Q4 & Q5 & Q6); [tauto|auto|].
    exists root, ro. repeat split; auto.
    + exists p. split; auto. exists po; auto.
    + destruct (ok_deriv _ _ _ (hi_obj _ I p po K2) w K3) as (od & R1 & _ & _ & R4 & _). rewrite E in R1; inversion R1; subst. congruence.
Qed.

(* What an object denotes. *)
Definition Slice (h : heap) (i root : nat) (x : slice) : Prop :=
  let '(n, s, r, t) := x in
  exists o w ro, nth_error (objs h) i = Some o /\ v_dn o = n /\ v_space o = s /\
    rSize (v_shift o) = r /\ tSize (v_shift o) = t /\
    nthDeriv h n root w /\ (v_super o = Some w \/ (v_super o = None /\ w = i)) /\
    nth_error (objs h) root = Some ro /\ v_super ro = None /\ v_dn ro = O.

Lemma Slice_ext h h' i root x : extends h h' -> Slice h i root x -> Slice h' i root x.
Proof.
  intros X. destruct x as [[[n s] r] t]. intros (o & w & ro & H1 & H2 & H3 & H4 & H5 & H6 & H7 & H8 & H9 & H10).
  destruct (X i o H1) as (o' & K1 & W & _). destruct (X root ro H8) as (ro' & K2 & W2 & _).
  exists o', w, ro'. split; [auto|]. rewrite W; simpl. repeat split; auto.
  - eapply nthDeriv_ext; eauto.
  - rewrite W2; auto.
  - rewrite W2; auto.
Qed.

Lemma derivRel_fun h v a b : derivRel h v a -> derivRel h v b -> a = b.
Proof. intros (o & H1 & H2) (o' & H3 & H4). congruence. Qed.
Lemma nthDeriv_fun h n root a b : nthDeriv h n root a -> nthDeriv h n root b -> a = b.
Proof.
  revert a b. induction n as [|n IH]; simpl; intros a b.
  - congruence.
  - intros (u & H1 & H2) (u' & H3 & H4). rewrite (IH _ _ H1 H3) in H2. eapply derivRel_fun; eauto.
Qed.

Lemma dotIter_ok : forall n h v o a, hinv h -> nth_error (objs h) v = Some o ->
  exists h' w, dotIter n h v a = Ok (h', w) /\ hinv h' /\ extends h h' /\ nthDeriv h' n v w.
Proof.
  induction n as [|n IH]; intros h v o a I E; simpl.
  - exists h, v. split; auto. split; auto. split; [apply extends_refl|auto].
  - destruct (dot1_ok h v o a I E) as (h1 & d & -> & I1 & X1 & R1 & _). simpl bind. cbv beta iota.
    pose proof R1 as (o1 & E1 & D1). destruct (ok_deriv _ _ _ (hi_obj _ I1 v o1 E1) d D1) as (od & Ed & _).
    destruct (IH h1 d od a I1 Ed) as (h2 & w & -> & I2 & X2 & N2).
    exists h2, w. split; auto. split; auto. split; [eapply extends_trans; eauto|].
    clear - N2 R1 X2. assert (R2 : derivRel h2 v d) by (eapply derivRel_ext; eauto). clear R1 X2.
    revert w N2. induction n as [|n IH]; simpl; intros w N.
    + subst w. exists v. auto.
    + destruct N as (u & Nu & Ru). destruct (IH u Nu) as (u' & ? & ?). exists u. split; [exists u'; auto|auto].
Qed.

(* with all derivatives present, dot creates nothing *)
Lemma dotIter_exist : forall n h v w a, hinv h -> (exists o, nth_error (objs h) v = Some o) -> nthDeriv h n v w -> dotIter n h v a = Ok (h, w).
Proof.
  induction n as [|n IH]; intros h v w a I [o E] N; simpl in *; [subst; auto|].
  assert (exists d, derivRel h v d /\ nthDeriv h n d w) as (d & R & N').
  { clear - N. revert w N. induction n as [|n IH]; simpl; intros w (u & Nu & Ru).
    - subst u. exists w. auto.
    - destruct (IH u Nu) as (d & R & N). exists d. split; auto. exists u. auto. }
  pose proof R as (o' & E' & D'). rewrite E in E'; inversion E'; subst o'.
  assert (Ed1 : dot1 2 h v a = Ok (h, d)) by (unfold dot1, get; rewrite E; simpl; rewrite D'; auto).
  rewrite Ed1. simpl. apply IH; auto.
  destruct (ok_deriv _ _ _ (hi_obj _ I v o E) d D') as (od & Ed & _). eauto.
Qed.

Lemma dot1_Slice h' v d root n s r t : hinv h' -> Slice h' v root (n, s, r, t) -> derivRel h' v d ->
  Slice h' d root (S n, s, r, t).
Proof.
  intros I (o & w & ro & H1 & H2 & H3 & H4 & H5 & H6 & H7 & H8 & H9 & H10) (o' & E' & D').
  rewrite H1 in E'; inversion E'; subst o'.
  destruct (ok_deriv _ _ _ (hi_obj _ I v o H1) d D') as (od & Q1 & Q2 & Q3 & Q4 & Q5 & Q6).
  destruct H7 as [H7|[H7 ->]].
  - rewrite H7 in Q6. destruct Q6 as (so & dsp & R1 & R2 & R3).
    exists od, dsp, ro. split; [auto|]. rewrite Q3, Q4, Q5. repeat split; auto.
    exists w. split; auto. exists so. auto.
  - rewrite H7 in Q6. exists od, d, ro. split; [auto|]. rewrite Q3, Q4, Q5. repeat split; auto.
    exists v. split; auto. exists o. auto.
Qed.

Lemma dotIter_Slice : forall n h v root k s r t a, hinv h -> Slice h v root (k, s, r, t) ->
  exists h' w, dotIter n h v a = Ok (h', w) /\ hinv h' /\ extends h h' /\ Slice h' w root ((n + k)%nat, s, r, t).
Proof.
  induction n as [|n IH]; intros h v root k s r t a I S; simpl.
  - exists h, v. split; auto. split; auto. split; [apply extends_refl|auto].
  - assert (exists o, nth_error (objs h) v = Some o) as [o E] by (destruct S as (o & _ & _ & H & _); eauto).
    destruct (dot1_ok h v o a I E) as (h1 & d & -> & I1 & X1 & R1 & _). simpl bind. cbv beta iota.
    assert (S1 : Slice h1 d root (Datatypes.S k, s, r, t)).
    { eapply (dot1_Slice h1 v); eauto. eapply Slice_ext; eauto. }
    destruct (IH h1 d root _ s r t a I1 S1) as (h2 & w & -> & I2 & X2 & S2).
    exists h2, w. split; auto. split; auto. split; [eapply extends_trans; eauto|].
    rewrite <- plus_n_Sm in S2. exact S2.
Qed.

(* adding a plain subvariable object *)
Lemma add_sub h base bo b od : hinv h -> nth_error (objs h) base = Some bo -> v_super bo = None -> v_dn bo = O ->
  v_mem bo = Some b -> api (v_space od) -> api (v_shift od) ->
  v_size od = rSize (v_space od) -> v_off od = rSize (v_shift od) -> v_dn od = O -> v_prim od = None -> v_deriv od = None ->
  v_super od = Some base -> v_block od = b ->
  mSize (v_shift od) + mSize (v_space od) <= mSize (v_space bo) ->
  rSize (v_shift od) + rSize (v_space od) <= rSize (v_space bo) ->
  tSize (v_shift od) + tSize (v_space od) <= tSize (v_space bo) ->
  hinv (mkH (objs h ++ [od]) (mem h)) /\ extends h (mkH (objs h ++ [od]) (mem h)).
Proof.
  intros I Eb Sb Db Mb As Ash Hsz Hof Hdn Hpr Hde Hsu Hbl L1 L2 L3.
  assert (Ob := hi_obj _ I base bo Eb). pose proof (ok_super _ _ _ Ob) as Kb. rewrite Sb in Kb. destruct Kb as (Kb1 & Kb2 & Kb3).
  assert (Hb' : b = v_block bo) by congruence. rewrite Hb' in Hbl.
  assert (Lk : forall i, nth_error (objs h ++ [od]) i = if Nat.eqb i (length (objs h)) then Some od else nth_error (objs h) i)
    by (intros; apply nth_snoc).
  assert (X : forall i o, nth_error (objs h) i = Some o -> nth_error (objs h ++ [od]) i = Some o).
  { intros i o Hi. rewrite nth_error_app1; auto. apply nth_error_Some; congruence. }
  split.
  - constructor; simpl.
    + intros i o Hi. rewrite Lk in Hi. destruct (Nat.eqb_spec i (length (objs h))) as [->|].
      * inversion Hi; subst o. constructor; simpl; auto.
        -- rewrite Hdn; auto.
        -- rewrite Hdn; auto.
        -- rewrite Hbl. apply Ob.
        -- rewrite Hsu. exists bo. repeat split; auto; try congruence.
        -- rewrite Hdn. auto.
        -- rewrite Hde. discriminate.
      * pose proof (hi_obj _ I i o Hi) as O. constructor; simpl; try apply O.
        -- pose proof (ok_super _ _ _ O) as K. destruct (v_super o); auto. destruct K as (so & K1 & K2). exists so. auto.
        -- pose proof (ok_prim _ _ _ O) as K. destruct (v_dn o); auto. destruct K as (p & po & K1 & K2 & K3). exists p, po. auto.
        -- intros d Hd. destruct (ok_deriv _ _ _ O d Hd) as (od2 & K1 & K2 & K3 & K4 & K5 & K6). exists od2. repeat split; auto.
           destruct (v_super o); auto. destruct K6 as (so & dsp & Q1 & Q2). exists so, dsp. auto.
    + intros i j oi oj Hi Hj Si Sj Hb. rewrite Lk in Hi, Hj.
      destruct (Nat.eqb_spec i (length (objs h))); [inversion Hi; congruence|].
      destruct (Nat.eqb_spec j (length (objs h))); [inversion Hj; congruence|]. eapply (hi_blk _ I); eauto.
  - intros i o Hi. exists o. split; [simpl; auto|]. split; auto. apply withDeriv_id.
Qed.

Lemma subvariable_ok h v s sh a root n s0 r t : hinv h -> api s -> api sh -> Slice h v root (n, s0, r, t) ->
  let fits := (mSize s + mSize sh <=? mSize s0) && (rSize s + rSize sh <=? rSize s0) && (tSize s + tSize sh <=? tSize s0) in
  (fits = false -> subvariable h v s sh a = Throw) /\
  (fits = true -> exists h' u, subvariable h v s sh a = Ok (h', u) /\ hinv h' /\ extends h h' /\
     Slice h' u root (n, s, r + rSize sh, t + tSize sh)).
Proof.
  intros I As Ash S fits. pose proof S as (o & w & ro & H1 & H2 & H3 & H4 & H5 & H6 & H7 & H8 & H9 & H10).
  destruct (mul_total s sh As Ash) as (p & Ep & Ap). pose proof (mul_ok _ _ _ Ep) as (P1 & P2 & P3 & _).
  pose proof (hi_obj _ I v o H1) as O.
  destruct (mul_total (v_shift o) sh (ok_shift _ _ _ O) Ash) as (q & Eq & Aq). pose proof (mul_ok _ _ _ Eq) as (Q1 & Q2 & Q3 & _).
  unfold subvariable. rewrite (proj2 (get_ok _ _ _) H1). simpl bind. cbv beta. rewrite Ep. simpl bind. cbv beta.
  assert (Ef : space_le p (v_space o) = fits) by (unfold space_le, fits; rewrite P1, P2, P3, H3; auto).
  rewrite Ef. split; intros F; rewrite F; simpl negb; cbv iota; [auto|].
  assert (Esup : superOf h v = Ok w).
  { unfold superOf. rewrite (proj2 (get_ok _ _ _) H1). simpl. destruct H7 as [->|[-> ->]]; auto. }
  rewrite Esup. simpl bind. cbv beta.
  assert (exists wo, nth_error (objs h) w = Some wo /\ v_super wo = None /\ v_dn wo = n /\
     mSize (v_shift o) + mSize (v_space o) <= mSize (v_space wo) /\ rSize (v_shift o) + rSize (v_space o) <= rSize (v_space wo) /\
     tSize (v_shift o) + tSize (v_space o) <= tSize (v_space wo)) as (wo & W1 & W2 & W3 & W4).
  { pose proof (ok_super _ _ _ O) as K. destruct H7 as [H7|[H7 ->]]; rewrite H7 in K.
    - destruct K as (so & K1 & K2 & K3 & K4 & K5). exists so. rewrite K4. auto.
    - exists o. destruct K as (_ & -> & _). simpl. repeat split; auto; lia. }
  destruct (walk_ok h I n w wo W1 W2 W3) as (root' & ro' & R1 & R2 & R3 & R4 & R5 & R6).
  assert (Er : root' = root).
  { (* both have w as n-th derivative *)
    clear - I H6 R5. revert w H6 R5. induction n as [|n IH]; simpl; intros w.
    - congruence.
    - intros (u & N1 & D1) (u' & N2 & D2). assert (u = u').
      { destruct D1 as (o1 & E1 & F1). destruct D2 as (o2 & E2 & F2).
        destruct (ok_deriv _ _ _ (hi_obj _ I u o1 E1) w F1) as (od & G1 & G2 & _).
        destruct (ok_deriv _ _ _ (hi_obj _ I u' o2 E2) w F2) as (od' & G1' & G2' & _). congruence. }
      subst u'. eauto. }
  subst root'. rewrite R2 in H8. inversion H8; subst ro'.
  unfold basePrimitive. rewrite (proj2 (get_ok _ _ _) W1). simpl bind. cbv beta. rewrite W3, R1. simpl bind. cbv beta.
  rewrite (proj2 (get_ok _ _ _) R2). simpl bind. cbv beta. rewrite Eq. simpl bind. cbv beta.
  pose proof (ok_super _ _ _ (hi_obj _ I root ro R2)) as Kr. rewrite R3 in Kr. destruct Kr as (Km & Kz & Kl). rewrite Km.
  unfold fits in F. rewrite !andb_true_iff, !Z.leb_le in F.
  set (lab := if a then _ else _). set (od := mkV s q None (v_block ro) (rSize q) (rSize s) 0 None (Some root) None lab).
  destruct (add_sub h root ro (v_block ro) od I R2 R3 R4 Km) as [I1 X1]; unfold od; simpl; auto; try (rewrite R6; subst s0; lia).
  fold od in I1, X1 |- *.
  assert (S1 : Slice (mkH (objs h ++ [od]) (mem h)) (length (objs h)) root (0%nat, s, r + rSize sh, t + tSize sh)).
  { destruct (X1 root ro R2) as (ro1 & Er1 & Wr & _). exists od, root, ro1. split.
    - simpl. rewrite nth_snoc, Nat.eqb_refl. auto.
    - split; [reflexivity|]. split; [reflexivity|]. split; [unfold od; simpl; lia|]. split; [unfold od; simpl; lia|].
      split; [reflexivity|]. split; [left; reflexivity|]. split; [exact Er1|]. rewrite Wr; auto. }
  rewrite H2. destruct n as [|n].
  - eexists _, _. split; [reflexivity|]. auto.
  - destruct (dotIter_Slice (Datatypes.S n) _ _ root _ _ _ _ a I1 S1) as (h2 & u & E2 & I2 & X2 & S2).
    exists h2, u. split; [exact E2|]. split; auto. split; [eapply extends_trans; eauto|].
    replace (Datatypes.S n + 0)%nat with (Datatypes.S n) in S2 by lia. auto.
Qed.

Lemma chain_ok : forall c h v root x, Forall valid_cop c -> hinv h -> Slice h v root x ->
  (chain_slice c x = None -> chain h v c = Throw) /\
  (forall y, chain_slice c x = Some y ->
    exists h' u, chain h v c = Ok (h', u) /\ hinv h' /\ extends h h' /\ Slice h' u root y).
Proof.
  induction c as [|o c IH]; intros h v root x V I S.
  - destruct x as [[[n s] r] t]. simpl. split; [discriminate|]. intros y Hy; inversion Hy; subst.
    exists h, v. split; auto. split; auto. split; [apply extends_refl|auto].
  - inversion V; subst. destruct x as [[[n s] r] t]. destruct o as [a|s' sh a]; simpl.
    + assert (exists ob, nth_error (objs h) v = Some ob) as [ob E] by (destruct S as (ob & _ & _ & H & _); eauto).
      destruct (dot1_ok h v ob a I E) as (h1 & d & E1 & I1 & X1 & R1 & _). rewrite E1. simpl bind. cbv beta iota.
      assert (S1 : Slice h1 d root (Datatypes.S n, s, r, t)).
      { eapply (dot1_Slice h1 v); eauto. eapply Slice_ext; eauto. }
      destruct (IH h1 d root _ H2 I1 S1) as [A B]. split; [auto|].
      intros y Hy. destruct (B y Hy) as (h' & u & E' & I' & X' & S'). exists h', u. split; auto. split; auto.
      split; [eapply extends_trans; eauto|auto].
    + destruct H1 as [V1 V2]. destruct (subvariable_ok h v s' sh a root n s r t I V1 V2 S) as [A B].
      destruct (_ && _).
      * destruct (B eq_refl) as (h1 & u & -> & I1 & X1 & S1). simpl bind. cbv beta iota.
        destruct (IH h1 u root _ H2 I1 S1) as [A' B']. split; [auto|].
        intros y Hy. destruct (B' y Hy) as (h' & u' & E' & I' & X' & S'). exists h', u'. split; auto. split; auto.
        split; [eapply extends_trans; eauto|auto].
      * rewrite (A eq_refl). simpl. split; [auto|discriminate].
Qed.

(* every object is a slice *)
Lemma any_Slice h i o : hinv h -> nth_error (objs h) i = Some o ->
  exists root, Slice h i root (v_dn o, v_space o, rSize (v_shift o), tSize (v_shift o)).
Proof.
  intros I E. pose proof (ok_super _ _ _ (hi_obj _ I i o E)) as K. destruct (v_super o) as [sp|] eqn:S.
  - destruct K as (so & K1 & K2 & K3 & K4 & K5). destruct (walk_ok h I _ sp so K1 K2 eq_refl) as (root & ro & Q1 & Q2 & Q3 & Q4 & Q5 & Q6).
    exists root. exists o, sp, ro. rewrite K4 in Q5. repeat split; auto.
  - destruct (walk_ok h I _ i o E S eq_refl) as (root & ro & Q1 & Q2 & Q3 & Q4 & Q5 & Q6).
    exists root. exists o, i, ro. repeat split; auto.
Qed.

Lemma empty_inv : hinv empty_heap.
Proof. constructor; intros [|i]; simpl; intros; discriminate. Qed.

Lemma newVar_inv h s : hinv h -> api s -> hinv (fst (newVar h s)).
Proof.
  intros I A. unfold newVar; simpl. set (od := mkV _ _ _ _ _ _ _ _ _ _ _).
  assert (X : forall i o, nth_error (objs h) i = Some o -> nth_error (objs h ++ [od]) i = Some o).
  { intros i o Hi. rewrite nth_error_app1; auto. apply nth_error_Some; congruence. }
  constructor; simpl.
  - intros i o Hi. rewrite nth_snoc in Hi. destruct (Nat.eqb_spec i (length (objs h))) as [->|].
    + inversion Hi; subst o. constructor; simpl; auto; try discriminate.
      * apply (api1 0). reflexivity.
      * rewrite app_length; simpl; lia.
      * repeat split. unfold blockOf; simpl. rewrite app_nth2, Nat.sub_diag by lia. apply zeros_length.
    + pose proof (hi_obj _ I i o Hi) as O. constructor; simpl; try apply O.
      * rewrite app_length. pose proof (ok_blk _ _ _ O). lia.
      * pose proof (ok_super _ _ _ O) as K. destruct (v_super o).
        -- destruct K as (so & K1 & K2). exists so. auto.
        -- unfold blockOf in *; simpl. rewrite app_nth1 by apply O. auto.
      * pose proof (ok_prim _ _ _ O) as K. destruct (v_dn o); auto. destruct K as (p & po & K1 & K2 & K3). exists p, po. auto.
      * intros d Hd. destruct (ok_deriv _ _ _ O d Hd) as (od2 & K1 & K2 & K3 & K4 & K5 & K6). exists od2. repeat split; auto.
        destruct (v_super o); auto. destruct K6 as (so & dsp & Q1 & Q2). exists so, dsp. auto.
  - intros i j oi oj Hi Hj Si Sj Hb. rewrite nth_snoc in Hi, Hj.
    destruct (Nat.eqb_spec i (length (objs h))) as [->|]; destruct (Nat.eqb_spec j (length (objs h))) as [->|]; auto.
    + inversion Hi; subst oi. pose proof (ok_blk _ _ _ (hi_obj _ I j oj Hj)). simpl in Hb. lia.
    + inversion Hj; subst oj. pose proof (ok_blk _ _ _ (hi_obj _ I i oi Hi)). simpl in Hb. lia.
    + eapply (hi_blk _ I); eauto.
Qed.

Lemma vstep_ok h o : hinv h -> valid_vop h o -> vstep h o <> UB /\ forall h', vstep h o = Ok h' -> hinv h'.
Proof.
  intros I V.
  assert (G : forall v, (v < length (objs h))%nat -> exists ob, nth_error (objs h) v = Some ob).
  { intros v Hv. destruct (nth_error (objs h) v) eqn:E; eauto. apply nth_error_None in E. lia. }
  destruct o as [s|v n a|v s sh a|v x|v i x|v i n x|v]; simpl in *.
  - split; [discriminate|]. intros h' E. inversion E; subst. apply newVar_inv; auto.
  - destruct V as [V1 V2]. destruct (G v V1) as [ob E]. destruct n as [|n]; [congruence|].
    destruct (dotIter_ok (S n) h v ob a I E) as (h1 & w & E1 & I1 & _). unfold dot. rewrite E1. simpl.
    split; [discriminate|]. intros h' Eh. inversion Eh; subst; auto.
  - destruct V as (V1 & V2 & V3). destruct (G v V1) as [ob E]. destruct (any_Slice h v ob I E) as [root S].
    destruct (subvariable_ok h v s sh a root _ _ _ _ I V2 V3 S) as [A B].
    destruct (_ && _).
    + destruct (B eq_refl) as (h1 & u & -> & I1 & _). simpl. split; [discriminate|]. intros h' Eh. inversion Eh; subst; auto.
    + rewrite (A eq_refl). simpl. split; discriminate.
  - destruct (G v V) as [ob E]. destruct (slice_in h v ob I E) as (S1 & S2 & S3).
    unfold vset. rewrite (proj2 (get_ok _ _ _) E). simpl. destruct (Z.eqb_spec (Z.of_nat (length x)) (v_size ob)); [|split; discriminate].
    split; [discriminate|]. intros h' Eh. inversion Eh; subst. apply write_inv; auto. lia.
  - destruct (G v V) as [ob E]. destruct (slice_in h v ob I E) as (S1 & S2 & S3).
    unfold vsetI. rewrite (proj2 (get_ok _ _ _) E). simpl.
    destruct (Z.leb_spec 0 i), (Z.ltb_spec i (v_size ob)); simpl; try (split; discriminate).
    split; [discriminate|]. intros h' Eh. inversion Eh; subst. apply write_inv; auto; simpl; lia.
  - destruct (G v V) as [ob E]. destruct (slice_in h v ob I E) as (S1 & S2 & S3).
    unfold vsetS. rewrite (proj2 (get_ok _ _ _) E). simpl.
    destruct (Z.leb_spec 0 i), (Z.leb_spec (i + n) (v_size ob)), (Z.eqb_spec (Z.of_nat (length x)) n); simpl; try (split; discriminate).
    split; [discriminate|]. intros h' Eh. inversion Eh; subst. apply write_inv; auto; simpl; lia.
  - destruct (G v V) as [ob E]. destruct (slice_in h v ob I E) as (S1 & S2 & S3).
    unfold vsetZero. rewrite (proj2 (get_ok _ _ _) E). simpl. split; [discriminate|]. intros h' Eh. inversion Eh; subst.
    apply write_inv; auto. rewrite zeros_length; lia.
Qed.

Lemma reach_hinv h : reachable h -> hinv h.
Proof. induction 1 as [|h o h' R IH V E]; [apply empty_inv|]. exact (proj2 (vstep_ok h o IH V) h' E). Qed.

(* ---------- observable statements ---------- *)
Lemma Slice_range h i root x : hinv h -> Slice h i root x ->
  exists w, superOf h i = Ok w /\ subvariableRange h i = Ok (slice_range x) /\
   (fst (fst (fst x)) = O -> w = root) /\ (fst (fst (fst x)) <> O -> forall a, dot h root (fst (fst (fst x))) a = Ok (h, w)).
Proof.
  intros I. destruct x as [[[n s] r] t]. intros (o & w & ro & H1 & H2 & H3 & H4 & H5 & H6 & H7 & H8 & H9 & H10).
  exists w. simpl fst. pose proof (hi_obj _ I i o H1) as O.
  split; [|split; [|split]].
  - unfold superOf. rewrite (proj2 (get_ok _ _ _) H1). simpl. destruct H7 as [->|[-> ->]]; auto.
  - unfold subvariableRange. rewrite (proj2 (get_ok _ _ _) H1). simpl bind. cbv beta.
    rewrite (ok_size _ _ _ O), (ok_off _ _ _ O), H2, H3.
    pose proof (ok_super _ _ _ O) as K. destruct H7 as [H7|[H7 ->]]; rewrite H7 in *.
    + destruct K as (so & K1 & K2 & K3 & K4 & K5). rewrite (proj2 (get_ok _ _ _) K1). simpl bind. cbv beta.
      pose proof (hi_obj _ I w so K1) as Os. rewrite (ok_off _ _ _ Os).
      pose proof (ok_super _ _ _ Os) as Ks. rewrite K2 in Ks. destruct Ks as (_ & -> & _).
      f_equal. subst n. destruct (v_dn so), (v_dn o); simpl; subst; f_equal; lia.
    + destruct K as (_ & K & _). rewrite K in *. simpl in *. subst r t. destruct n; reflexivity.
  - intros ->. simpl in H6. auto.
  - intros Hn a. unfold dot. destruct n; [congruence|]. apply dotIter_exist; eauto.
Qed.

Lemma c07_chain h root ro c : reachable h -> nth_error (objs h) root = Some ro -> v_super ro = None -> v_dn ro = O ->
  Forall valid_cop c ->
  (chain_slice c (O, v_space ro, 0, 0) = None -> chain h root c = Throw) /\
  (forall n s r t, chain_slice c (O, v_space ro, 0, 0) = Some (n, s, r, t) ->
    exists h' v w, chain h root c = Ok (h', v) /\ superOf h' v = Ok w /\
      subvariableRange h' v = Ok (slice_range (n, s, r, t)) /\
      (n = O -> w = root) /\ (n <> O -> forall a, dot h' root n a = Ok (h', w))).
Proof.
  intros Rh E S D V. apply reach_hinv in Rh.
  assert (S0 : Slice h root root (O, v_space ro, 0, 0)).
  { exists ro, root, ro. pose proof (ok_super _ _ _ (hi_obj _ Rh root ro E)) as K. rewrite S in K. destruct K as (_ & Kz & _).
    rewrite Kz. simpl. repeat split; auto. }
  destruct (chain_ok c h root root _ V Rh S0) as [A B]. split; [auto|].
  intros n s r t Hc. destruct (B _ Hc) as (h' & u & E' & I' & X' & S').
  destruct (Slice_range h' u root _ I' S') as (w & W1 & W2 & W3 & W4). exists h', u, w. auto.
Qed.

(* superOf, block and ranges *)
Lemma super_cells h i o : hinv h -> nth_error (objs h) i = Some o ->
  exists w wo, superOf h i = Ok w /\ nth_error (objs h) w = Some wo /\ v_super wo = None /\ v_block wo = v_block o /\
    subvariableRange h i = Ok (mkRange (v_off o) (v_size o)).
Proof.
  intros I E. pose proof (hi_obj _ I i o E) as O. pose proof (ok_super _ _ _ O) as K.
  unfold superOf, subvariableRange. rewrite (proj2 (get_ok _ _ _) E). simpl. destruct (v_super o) as [sp|] eqn:S.
  - destruct K as (so & K1 & K2 & K3 & K4 & K5). exists sp, so. rewrite (proj2 (get_ok _ _ _) K1). simpl. repeat split; auto.
    pose proof (hi_obj _ I sp so K1) as Os. pose proof (ok_super _ _ _ Os) as Ks. rewrite K2 in Ks. destruct Ks as (_ & Kz & _).
    rewrite (ok_off _ _ _ Os), Kz. f_equal. f_equal. destruct (v_dn so); simpl; lia.
  - exists i, o. repeat split; auto. rewrite (ok_off _ _ _ O). destruct K as (_ & -> & _). destruct (v_dn o); auto.
Qed.

Lemma same_super h i j oi oj wi wj : hinv h -> nth_error (objs h) i = Some oi -> nth_error (objs h) j = Some oj ->
  superOf h i = Ok wi -> superOf h j = Ok wj -> (wi = wj <-> v_block oi = v_block oj).
Proof.
  intros I Ei Ej Si Sj. destruct (super_cells h i oi I Ei) as (w & wo & A1 & A2 & A3 & A4 & _).
  destruct (super_cells h j oj I Ej) as (w' & wo' & B1 & B2 & B3 & B4 & _). rewrite Si in A1; inversion A1; subst w.
  rewrite Sj in B1; inversion B1; subst w'. split.
  - intros ->. congruence.
  - intros H. eapply (hi_blk _ I); eauto. congruence.
Qed.

Lemma vrange h i : reachable h -> (i < length (objs h))%nat -> exists o, nth_error (objs h) i = Some o /\ hinv h.
Proof.
  intros R Hi. apply reach_hinv in R. destruct (nth_error (objs h) i) eqn:E; eauto. apply nth_error_None in E. lia.
Qed.

Lemma c07_contains h u v : reachable h -> (u < length (objs h))%nat -> (v < length (objs h))%nat ->
  exists b, vcontains h u v = Ok b /\
   ((exists c, cell h v c) -> (b = true <-> forall c, cell h v c -> cell h u c)).
Proof.
  intros R Hu Hv. destruct (vrange h u R Hu) as (ou & Eu & I). destruct (vrange h v R Hv) as (ov & Ev & _).
  destruct (super_cells h u ou I Eu) as (wu & wuo & A1 & A2 & A3 & A4 & A5).
  destruct (super_cells h v ov I Ev) as (wv & wvo & B1 & B2 & B3 & B4 & B5).
  unfold vcontains. rewrite A1, B1, A5, B5. simpl. eexists. split; [reflexivity|].
  intros ((b0 & k0) & oc & Hoc & Hb & Hk). rewrite Ev in Hoc; inversion Hoc; subst oc. simpl in *.
  rewrite andb_true_iff, Nat.eqb_eq, (same_super h u v ou ov wu wv I Eu Ev A1 B1).
  destruct (containsR_spec (mkRange (v_off ou) (v_size ou)) (mkRange (v_off ov) (v_size ov))) as [C _]; [simpl; lia|].
  rewrite C by (simpl; lia). unfold In_range; simpl. split.
  - intros [Hbl Hin] [b k] (oc & Hoc2 & Hb2 & Hk2). rewrite Ev in Hoc2; inversion Hoc2; subst oc. simpl in *.
    exists ou. split; auto. simpl. split; [congruence|auto].
  - intros H.
    assert (Q : forall k, v_off ov <= k < v_off ov + v_size ov -> cell h u (v_block ov, k)).
    { intros k Hkk. apply H. exists ov. auto. }
    split.
    + destruct (Q k0 Hk) as (oc & Hoc2 & Hb2 & _). rewrite Eu in Hoc2; inversion Hoc2; subst oc. simpl in *. auto.
    + intros k Hkk. destruct (Q k Hkk) as (oc & Hoc2 & Hb2 & Hk2). rewrite Eu in Hoc2; inversion Hoc2; subst oc. auto.
Qed.

Lemma c07_intersects h u v : reachable h -> (u < length (objs h))%nat -> (v < length (objs h))%nat ->
  exists b, vintersects h u v = Ok b /\
   ((exists c, cell h u c) -> (exists c, cell h v c) -> (b = true <-> exists c, cell h u c /\ cell h v c)).
Proof.
  intros R Hu Hv. destruct (vrange h u R Hu) as (ou & Eu & I). destruct (vrange h v R Hv) as (ov & Ev & _).
  destruct (super_cells h u ou I Eu) as (wu & wuo & A1 & A2 & A3 & A4 & A5).
  destruct (super_cells h v ov I Ev) as (wv & wvo & B1 & B2 & B3 & B4 & B5).
  unfold vintersects. rewrite A1, B1, A5, B5. simpl. eexists. split; [reflexivity|].
  intros ((b1 & k1) & oc1 & Hoc1 & Hb1 & Hk1) ((b0 & k0) & oc & Hoc & Hb & Hk).
  rewrite Ev in Hoc; inversion Hoc; subst oc. rewrite Eu in Hoc1; inversion Hoc1; subst oc1. simpl in *.
  rewrite andb_true_iff, Nat.eqb_eq, (same_super h u v ou ov wu wv I Eu Ev A1 B1).
  rewrite intersects_spec by (simpl; lia). unfold In_range; simpl. split.
  - intros [Hbl (x & Hx1 & Hx2)]. exists (v_block ou, x). split; [exists ou|exists ov]; auto.
  - intros ([b k] & (oc & G1 & G2 & G3) & (oc' & G1' & G2' & G3')).
    rewrite Eu in G1; inversion G1; subst oc. rewrite Ev in G1'; inversion G1'; subst oc'. simpl in *.
    split; [congruence|]. exists k. auto.
Qed.

Lemma c07_eq h u v : reachable h -> (u < length (objs h))%nat -> (v < length (objs h))%nat ->
  exists b, veq h u v = Ok b /\
   ((exists c, cell h u c) -> (b = true <-> forall c, cell h u c <-> cell h v c)).
Proof.
  intros R Hu Hv. destruct (vrange h u R Hu) as (ou & Eu & I). destruct (vrange h v R Hv) as (ov & Ev & _).
  unfold veq. rewrite (proj2 (get_ok _ _ _) Eu), (proj2 (get_ok _ _ _) Ev). simpl. eexists. split; [reflexivity|].
  intros ((b0 & k0) & oc & Hoc & Hb & Hk). rewrite Eu in Hoc; inversion Hoc; subst oc. simpl in *.
  rewrite !andb_true_iff, Nat.eqb_eq, !Z.eqb_eq.
  assert (Cu : forall b k, cell h u (b, k) <-> b = v_block ou /\ v_off ou <= k < v_off ou + v_size ou).
  { intros b k. split; [intros (o & G1 & G2 & G3); rewrite Eu in G1; inversion G1; subst; auto|intros [G2 G3]; exists ou; auto]. }
  assert (Cv : forall b k, cell h v (b, k) <-> b = v_block ov /\ v_off ov <= k < v_off ov + v_size ov).
  { intros b k. split; [intros (o & G1 & G2 & G3); rewrite Ev in G1; inversion G1; subst; auto|intros [G2 G3]; exists ov; auto]. }
  split.
  - intros [[E1 E2] E3] [b k]. rewrite Cu, Cv, E1, E2, E3. tauto.
  - intros H.
    assert (Hbl : v_block ou = v_block ov).
    { specialize (H (v_block ou, k0)). rewrite Cu, Cv in H. tauto. }
    assert (K : forall k, v_off ou <= k < v_off ou + v_size ou <-> v_off ov <= k < v_off ov + v_size ov).
    { intros k. specialize (H (v_block ou, k)). rewrite Cu, Cv in H. tauto. }
    pose proof (proj1 (K (v_off ou)) ltac:(lia)). pose proof (proj1 (K (v_off ou + v_size ou - 1)) ltac:(lia)).
    pose proof (proj2 (K (v_off ov)) ltac:(lia)). pose proof (proj2 (K (v_off ov + v_size ov - 1)) ltac:(lia)).
    repeat split; auto; lia.
Qed.

(* reading a cell through a variable *)
Lemma value_nth h v o k : nth_error (objs h) v = Some o -> 0 <= v_off o -> (k < Z.to_nat (v_size o))%nat ->
  exists l, value h v = Ok l /\ nth_error l k = nth_error (blockOf h (v_block o)) (Z.to_nat (v_off o) + k).
Proof.
  intros E H Hk. unfold value. rewrite (proj2 (get_ok _ _ _) E). simpl. eexists. split; [reflexivity|].
  rewrite <- (firstn_skipn (Z.to_nat (v_off o)) (blockOf h (v_block o))) at 2.
  set (l := skipn _ _). set (f := firstn (Z.to_nat (v_off o)) _).
  assert (nth_error (firstn (Z.to_nat (v_size o)) l) k = nth_error l k).
  { rewrite <- (firstn_skipn (Z.to_nat (v_size o)) l) at 2.
    destruct (Nat.lt_ge_cases k (length (firstn (Z.to_nat (v_size o)) l))) as [Hl|Hl].
    - now rewrite nth_error_app1.
    - rewrite firstn_length in Hl. rewrite nth_error_app2 by (rewrite firstn_length; lia).
      rewrite (proj2 (nth_error_None _ _)) by (rewrite firstn_length; lia).
      rewrite (proj2 (nth_error_None _ _)); auto. rewrite skipn_length. lia. }
  rewrite H0. clear H0.
  destruct (Nat.le_gt_cases (Z.to_nat (v_off o)) (length (blockOf h (v_block o)))).
  - rewrite nth_error_app2; unfold f; rewrite firstn_length; [f_equal; lia|lia].
  - assert (l = []) by (unfold l; apply skipn_all2; lia). rewrite H1. rewrite app_nil_r.
    rewrite (proj2 (nth_error_None f _)) by (unfold f; rewrite firstn_length; lia). destruct k; auto.
Qed.

Lemma write_content h b off x c : 0 <= off -> (b < length (mem h))%nat ->
  (Z.to_nat off + length x <= length (blockOf h b))%nat -> 0 <= snd c ->
  content (write h b off x) c =
  if (Nat.eqb b (fst c) && (off <=? snd c) && (snd c <? off + Z.of_nat (length x)))%bool
  then nth_error x (Z.to_nat (snd c - off)) else content h c.
Proof.
  intros Ho Hb Hl Hc. destruct c as [b' k]. simpl in *. unfold content; simpl.
  unfold blockOf at 1, write; simpl. rewrite nth_upd_d.
  destruct (Nat.eqb_spec b b') as [->|]; simpl; auto.
  destruct (Nat.ltb_spec b' (length (mem h))); [|lia]. rewrite splice_nth; auto.
  destruct (Z.leb_spec off k), (Nat.leb_spec (Z.to_nat off) (Z.to_nat k)); try lia; simpl; auto.
  destruct (Z.ltb_spec k (off + Z.of_nat (length x))), (Nat.ltb_spec (Z.to_nat k) (Z.to_nat off + length x)); try lia; auto.
  f_equal. lia.
Qed.

Lemma c07_set h v x h' : reachable h -> (v < length (objs h))%nat -> vset h v x = Ok h' ->
  value h' v = Ok x /\
  (forall c, 0 <= snd c -> ~ cell h v c -> content h' c = content h c) /\
  objs h' = objs h.
Proof.
  intros R Hv Es. destruct (vrange h v R Hv) as (o & E & I). destruct (slice_in h v o I E) as (S1 & S2 & S3).
  unfold vset in Es. rewrite (proj2 (get_ok _ _ _) E) in Es. simpl in Es.
  destruct (Z.eqb_spec (Z.of_nat (length x)) (v_size o)) as [Hx|]; [|discriminate]. inversion Es; subst h'. clear Es.
  pose proof (ok_blk _ _ _ (hi_obj _ I v o E)) as Hb.
  split; [|split].
  - unfold value. unfold get. simpl. rewrite E. simpl. f_equal. unfold blockOf, write; simpl. rewrite nth_upd_d.
    rewrite Nat.eqb_refl. destruct (Nat.ltb_spec (v_block o) (length (mem h))); [|lia]. simpl.
    unfold splice. fold (blockOf h (v_block o)).
    rewrite skipn_app, skipn_firstn_comm.
    rewrite Nat.sub_diag. simpl.
    rewrite firstn_length, Nat.min_l by lia. rewrite Nat.sub_diag. simpl.
    replace (Z.to_nat (v_size o)) with (length x) by lia. rewrite firstn_app, firstn_all, Nat.sub_diag. simpl.
    rewrite app_nil_r. auto.
  - intros [b k] Hk Hn. rewrite write_content; auto; [|lia]. cbn [fst snd].
    destruct (Nat.eqb_spec (v_block o) b); simpl; auto. destruct (Z.leb_spec (v_off o) k), (Z.ltb_spec k (v_off o + Z.of_nat (length x))); simpl; auto.
    exfalso. apply Hn. exists o. simpl. repeat split; auto; lia.
  - reflexivity.
Qed.

Lemma c07_tsub h v o : reachable h -> nth_error (objs h) v = Some o ->
  exists h' d, dot h v 1 false = Ok (h', d) /\ tSubvariableRange h v = subvariableRange h' d.
Proof.
  intros R E. apply reach_hinv in R. destruct (any_Slice h v o R E) as [root S].
  destruct (dotIter_Slice 1 h v root _ _ _ _ false R S) as (h' & d & E' & I' & X' & S'). exists h', d. split; [exact E'|].
  destruct (Slice_range _ _ _ _ I' S') as (w & _ & -> & _).
  destruct (Slice_range _ _ _ _ R S) as (w0 & _ & Er & _).
  unfold tSubvariableRange. rewrite (proj2 (get_ok _ _ _) E). simpl bind. cbv beta. rewrite Er. simpl bind. cbv beta.
  simpl. destruct (v_dn o); simpl; [f_equal; f_equal; lia|auto].
Qed.

(* dot and subvariable commute *)
Lemma c07_commute h v s sh a b h1 u h2 du : reachable h -> (v < length (objs h))%nat -> api s -> api sh ->
  subvariable h v s sh a = Ok (h1, u) -> dot h1 u 1 b = Ok (h2, du) ->
  exists h3 dv h4 sdv w r, dot h2 v 1 b = Ok (h3, dv) /\ subvariable h3 dv s sh a = Ok (h4, sdv) /\
    superOf h4 sdv = Ok w /\ superOf h4 du = Ok w /\
    subvariableRange h4 sdv = Ok r /\ subvariableRange h4 du = Ok r /\ veq h4 sdv du = Ok true.
Proof.
  intros R Hv As Ash E1 E2. destruct (vrange h v R Hv) as (o & E & I).
  destruct (any_Slice h v o I E) as [root S].
  destruct (subvariable_ok h v s sh a root _ _ _ _ I As Ash S) as [A B].
  destruct (_ && _) eqn:F; [|rewrite (A eq_refl) in E1; discriminate].
  destruct (B eq_refl) as (h1' & u' & E1' & I1 & X1 & S1). rewrite E1 in E1'; inversion E1'; subst h1' u'.
  destruct (dotIter_Slice 1 h1 u root _ _ _ _ b I1 S1) as (h2' & du' & E2' & I2 & X2 & S2).
  change (dotIter 1 h1 u b) with (dot h1 u 1 b) in E2'. rewrite E2 in E2'; inversion E2'; subst h2' du'.
  assert (S0 : Slice h2 v root (v_dn o, v_space o, rSize (v_shift o), tSize (v_shift o))).
  { eapply Slice_ext; [exact X2|]. eapply Slice_ext; eauto. }
  destruct (dotIter_Slice 1 h2 v root _ _ _ _ b I2 S0) as (h3 & dv & E3 & I3 & X3 & S3).
  destruct (subvariable_ok h3 dv s sh a root _ _ _ _ I3 As Ash S3) as [_ B3].
  destruct (B3 F) as (h4 & sdv & E4 & I4 & X4 & S4).
  assert (S2' : Slice h4 du root ((1 + v_dn o)%nat, s, rSize (v_shift o) + rSize sh, tSize (v_shift o) + tSize sh)).
  { eapply Slice_ext; [exact X4|]. eapply Slice_ext; [exact X3|]. auto. }
  destruct (Slice_range _ _ _ _ I4 S4) as (w & W1 & W2 & _ & W3). destruct (Slice_range _ _ _ _ I4 S2') as (w' & W1' & W2' & _ & W3').
  assert (w' = w).
  { specialize (W3 ltac:(simpl; lia) true). specialize (W3' ltac:(simpl; lia) true). simpl fst in *. congruence. }
  subst w'. exists h3, dv, h4, sdv, w, (slice_range ((1 + v_dn o)%nat, s, rSize (v_shift o) + rSize sh, tSize (v_shift o) + tSize sh)).
  split; [exact E3|]. split; [exact E4|]. split; [auto|]. split; [auto|]. split; [exact W2|]. split; [exact W2'|].
  assert (exists o1 o2, nth_error (objs h4) sdv = Some o1 /\ nth_error (objs h4) du = Some o2) as (o1 & o2 & G1 & G2).
  { destruct S4 as (o1 & _ & _ & ? & _). destruct S2' as (o2 & _ & _ & ? & _). eauto. }
  destruct (super_cells h4 sdv o1 I4 G1) as (z & zo & Z1 & Z2 & Z3 & Z4 & Z5).
  destruct (super_cells h4 du o2 I4 G2) as (y & yo & Y1 & Y2 & Y3 & Y4 & Y5).
  pose proof (same_super h4 sdv du o1 o2 w w I4 G1 G2 W1 W1') as SS.
  rewrite W2 in Z5. rewrite W2' in Y5. unfold veq. rewrite (proj2 (get_ok _ _ _) G1), (proj2 (get_ok _ _ _) G2). simpl bind. cbv beta.
  f_equal. rewrite !andb_true_iff, Nat.eqb_eq, !Z.eqb_eq. rewrite Z5 in Y5. inversion Y5. repeat split; auto. apply SS; auto.
Qed.
