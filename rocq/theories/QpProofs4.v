(* A solve keeps the invariant; the constraints handed are those of the user. *)
Require Import QArith Qminmax Qabs List Arith Bool Lia Lqa.
Require Import Verif.Base Verif.QSum Verif.AssignModel Verif.AssignSpec Verif.AssignProofs4 Verif.AssignProofs5 Verif.AssignProofs6
  Verif.BoundModel Verif.BoundSpec Verif.BoundProofs Verif.QpModel Verif.QpSpec Verif.QpProofs Verif.QpProofs2 Verif.QpProofs3.
Import ListNotations.
Local Open Scope Q_scope.
Local Arguments QpModel.countEq : simpl never.
Local Arguments QpModel.countIneq : simpl never.

Lemma combine_lift {A B C} (f : A -> B) (l : list A) (ws : list C) a w : In (a, w) (combine l ws) -> In (f a, w) (combine (map f l) ws).
Proof. revert ws. induction l as [|b l IH]; intros [|u ws] H; simpl in *; try tauto. destruct H as [H|H]; [left; congruence|right; auto]. Qed.
Lemma combine_lift2 {A C D} (g : C -> D) (l : list A) (ws : list C) a w : In (a, w) (combine l ws) -> In (a, g w) (combine l (map g ws)).
Proof. revert ws. induction l as [|b l IH]; intros [|u ws] H; simpl in *; try tauto. destruct H as [H|H]; [left; congruence|right; auto]. Qed.
Lemma combine_unlift {A B C D} (f : A -> B) (g : C -> D) (l : list A) (ws : list C) b w : In (b, w) (combine (map f l) ws) ->
  exists a, f a = b /\ In (a, w) (combine l ws) /\ In (a, g w) (combine l (map g ws)).
Proof.
  revert ws. induction l as [|c l IH]; intros [|u ws] H; simpl in *; try tauto. destruct H as [H|H].
  - exists c. injection H as <- <-. auto.
  - destruct (IH _ H) as (a & E & I & J). exists a. auto.
Qed.
Lemma combine_has {A C} (l : list A) (ws : list C) a : length ws = length l -> In a l -> exists w, In (a, w) (combine l ws).
Proof.
  revert ws. induction l as [|b l IH]; intros [|u ws] L H; simpl in *; try tauto; try discriminate. destruct H as [<-|H].
  - exists u. auto.
  - destruct (IH ws) as (w & I); auto. exists w. auto.
Qed.

Lemma qsumn_single (f : nat -> Q) n i : (i < n)%nat -> (forall k, (k < n)%nat -> k <> i -> f k == 0) -> qsumn f n == f i.
Proof.
  intros I Z. rewrite <- (qsumn_delta f n i I). apply qsumn_ext. intros k K. destruct (Nat.eqb_spec k i); [reflexivity|auto].
Qed.

Section Solve.
Variable debug : bool.
Variable sqrtf : Q -> Q.
Variable abig : Q.
Variable v_size : nat -> nat.
Variable sv : solver.
Variable o : options.
Variable P : problem.
Hypothesis W : wf sqrtf P.
Notation vars := (p_vars P).
Notation sub := (p_sub P).
Notation n := (total v_size vars).
Notation nEq := (countEq sv (p_cstrs P)).
Notation nIneq := (countIneq sv (p_cstrs P)).
Notation nObj := (nObj v_size P).
Notation inv := (inv sqrtf abig v_size sv o P).
Notation Dclean := (Dclean v_size sv o P).
Variable V : data.
Hypothesis WD : wf_data v_size P V.

Lemma assigned_inv cs js s : inv cs js s -> inv cs js (assigned v_size sv o vars V s) /\
  (p_minNorm P = false -> Dclean js (s_D (assigned v_size sv o vars V s))).
Proof.
  intros I. destruct (pre_inv sqrtf abig v_size sv o P cs js s I) as (J & DC & _ & _).
  unfold assigned. set (s1 := pre sv o (resetBounds o s)) in *.
  pose proof (C_facts sqrtf abig v_size sv o P W V WD cs js s1 J) as (F1 & F2 & F3).
  cbv zeta. split.
  - apply inv_setBox. apply inv_setD; [apply inv_setC; [exact J|exact F1|]| |].
    + intros r c R. destruct (F3 r R) as [E _]. rewrite E. apply (i_CB _ _ _ _ _ _ _ _ _ J). exact R.
    + intros NM RS. apply (D_facts sqrtf abig v_size sv o P W V WD cs js s1); auto.
    + intros M. assert (EO : s_os s1 = []).
      { rewrite (i_sos _ _ _ _ _ _ _ _ _ J). pose proof (i_js _ _ _ _ _ _ _ _ _ J) as E. destruct W as (_ & _ & _ & WM). rewrite (WM M) in E.
        destruct js; [reflexivity|discriminate]. }
      rewrite EO. unfold runAll. cbn [combine fold_left].
      exact (i_M _ _ _ _ _ _ _ _ _ J M).
  - intros NM. apply (D_facts sqrtf abig v_size sv o P W V WD cs js s1); auto.
Qed.
Lemma post_inv cs js Ri s : inv cs js s -> inv cs js (post sv o Ri s).
Proof.
  intros I. pose proof (i_min _ _ _ _ _ _ _ _ _ I) as MI. unfold post.
  assert (CASE : (p_minNorm P = true /\ s_minNorm s = true) \/ (p_minNorm P = false /\ s_minNorm s = false)) by (rewrite MI; destruct (p_minNorm P); auto).
  destruct sv eqn:SV; destruct CASE as [[M MM]|[M MM]]; try rewrite MM; auto.
  - destruct (o_chol o); apply inv_setCost; auto.
  - apply inv_setBox, I.
  - destruct (o_chol o) eqn:CH.
    + apply inv_setD; [apply inv_setCost; [exact M|apply inv_setBox, I]| |congruence].
      unfold resets. rewrite CH. discriminate.
    + apply inv_setCost; [exact M|apply inv_setBox, I].
  - apply inv_setD; [exact I|unfold resets; discriminate|].
    intros _. exact (i_M _ _ _ _ _ _ _ _ _ I M).
Qed.
Lemma overwritten_inv cs js J s : inv cs js s -> inv cs js (overwritten sv J s).
Proof.
  intros I. unfold overwritten. destruct sv eqn:SV; auto.
  apply inv_setD; [exact I|unfold resets; discriminate|]. intros M. exact (i_M _ _ _ _ _ _ _ _ _ I M).
Qed.
Lemma solve_inv cs js R Ri J s h s' : inv cs js s -> solve v_size sv o vars V R Ri J s = Ok (h, s') -> inv cs js s'.
Proof.
  intros I H. unfold solve in H. destruct (hand sv o R (post sv o Ri (assigned v_size sv o vars V s))) as [h'| |]; cbn [bind] in H; try discriminate.
  injection H as <- <-. apply overwritten_inv, post_inv, assigned_inv, I.
Qed.

(* ---- rows of the constraints ---- *)
Definition rowcond (eq : bool) (m : mem) (z : vec) (r : nat) : Prop :=
  match sv with
  | SQLD => if eq then rowv n (mA m) z r + mb m r == 0 else 0 <= rowv n (mA m) z r + mb m r
  | SQuadprog => if eq then rowv n (mA m) z r == mb m r else rowv n (mA m) z r <= mb m r
  | _ => ml m r <= rowv n (mA m) z r <= mu m r
  end.
Lemma ctargets_form l : forall q e i c t, In (c, t) (combine l (ctargets sv q e i l)) ->
  exists e' i', t = if isEq c then eqTarget sv e' i' c else ineqTarget sv q e' i' c.
Proof.
  induction l as [|d l IH]; intros q e i c t I; [destruct I|]. rewrite ctargets_cons in I. destruct I as [I|I].
  - injection I as <- <-. eauto.
  - eapply IH. exact I.
Qed.
Lemma rows_hold_cond c t q e i m z : t = (if isEq c then eqTarget sv e i c else ineqTarget sv q e i c) ->
  (rows_hold v_size (startIn v_size vars) vars t m (point_of v_size P z) <-> forall r, rows_of t r -> rowcond (isEq c) m z r).
Proof.
  intros T. destruct W as (N & _).
  assert (RV : forall r, rowval v_size (startIn v_size vars) vars (mA m) (point_of v_size P z) r == rowv n (mA m) z r)
    by (intros r; apply rowval_rowv, N).
  assert (EQ : rows_hold v_size (startIn v_size vars) vars t m (point_of v_size P z) <->
    forall r, rows_of t r -> let b := rsign (t_rhs t) * mb m r in
     match t_type t with
     | DOUBLE_SIDED => rsign (t_rhs t) * ml m r <= rowval v_size (startIn v_size vars) vars (mA m) (point_of v_size P z) r <= rsign (t_rhs t) * mu m r
     | ct => holds ct b b b (rowval v_size (startIn v_size vars) vars (mA m) (point_of v_size P z) r) end).
  { unfold rows_hold, rows_of. split; intros H.
    - intros r R. specialize (H (r - t_start t)%nat). replace (t_start t + (r - t_start t))%nat with r in H by lia. apply H. lia.
    - intros k K. apply H. lia. }
  rewrite EQ. clear EQ.
  assert (PT : forall r, (let b := rsign (t_rhs t) * mb m r in
     match t_type t with
     | DOUBLE_SIDED => rsign (t_rhs t) * ml m r <= rowval v_size (startIn v_size vars) vars (mA m) (point_of v_size P z) r <= rsign (t_rhs t) * mu m r
     | ct => holds ct b b b (rowval v_size (startIn v_size vars) vars (mA m) (point_of v_size P z) r) end) <-> rowcond (isEq c) m z r).
  { intros r. unfold rowcond. subst t. unfold eqTarget, ineqTarget.
    destruct sv, (isEq c); cbn [t_type t_rhs rsign holds]; cbv zeta; rewrite (RV r);
     (split; intros H; [|]); try (destruct H; split); lra. }
  split; intros H r R; apply PT, H, R.
Qed.
Lemma rows_hold_ext t m m' x : (forall r, rows_of t r -> same_row m m' r) ->
  rows_hold v_size (startIn v_size vars) vars t m x -> rows_hold v_size (startIn v_size vars) vars t m' x.
Proof.
  intros S H k K. specialize (H k K). destruct (S (t_start t + k)%nat) as (A & B & C & D); [unfold rows_of; lia|].
  cbv zeta in *. unfold rowval in *.
  assert (E : forall y j, mA m (t_start t + k)%nat (col (startIn v_size vars) y + j)%nat = mA m' (t_start t + k)%nat (col (startIn v_size vars) y + j)%nat) by (intros; rewrite A; reflexivity).
  assert (RV : qsum (fun y => qsumn (fun j => mA m' (t_start t + k)%nat (col (startIn v_size vars) y + j)%nat * x y j) (v_size y)) vars ==
               qsum (fun y => qsumn (fun j => mA m (t_start t + k)%nat (col (startIn v_size vars) y + j)%nat * x y j) (v_size y)) vars)
    by (apply qsum_ext; intros y _; apply qsumn_ext; intros j _; rewrite E; reflexivity).
  destruct (t_type t); unfold holds in *; rewrite RV, ?B, ?C, ?D; exact H.
Qed.

Lemma cstr_meets cs js s z c U : inv cs js s -> in_range v_size P V sv abig (o_big o) z ->
  In (c, U) (combine (p_cstrs P) (d_cstrs V)) -> forall a, fst a = c -> In a cs -> In (a, valuesOf V U) (combine cs (map (valuesOf V) (d_cstrs V))) ->
  (meets v_size c U (full_point v_size P V z) <->
   rows_hold v_size (startIn v_size vars) vars (fst (snd a)) (runAll v_size (s_cs s) (map (valuesOf V) (d_cstrs V)) (s_C s)) (point_of v_size P z)).
Proof.
  intros I RG ICU a EA IA IC.
  pose proof (C_facts sqrtf abig v_size sv o P W V WD cs js s I) as (_ & F & _). cbv zeta in F.
  destruct (F a _ IC) as (m0 & CL & SR). clear F. destruct W as (N & WR & _). destruct WD as (_ & _ & _ & AG & _).
  assert (B : built sqrtf abig v_size vars sub None 1 a) by (pose proof (i_cb _ _ _ _ _ _ _ _ _ I) as F; rewrite Forall_forall in F; apply F, IA).
  assert (FM : exists e i, fst (snd a) = if isEq c then eqTarget sv e i c else ineqTarget sv nEq e i c).
  { apply (ctargets_form (p_cstrs P) nEq 0 0). rewrite <- EA.
    assert (Q1 : In (fst a, fst (snd a)) (map (fun a : item => (fst a, fst (snd a))) cs)) by (apply (in_map (fun a : item => (fst a, fst (snd a)))); exact IA).
    rewrite <- combine_maps in Q1. rewrite (i_cs _ _ _ _ _ _ _ _ _ I) in Q1.
    match type of Q1 with In _ (combine _ ?l) => replace l with (ctargets sv nEq 0 0 (p_cstrs P)) in Q1 by (symmetry; apply (i_ct _ _ _ _ _ _ _ _ _ I)) end.
    exact Q1. }
  destruct FM as (e & i & FM).
  assert (IP : In c (p_cstrs P)) by (apply in_combine_l in ICU; exact ICU).
  pose proof (feasible_construct sqrtf abig v_size vars (startIn v_size vars) (fst a) (fst (snd a)) sub None 1 (snd (snd a)) []
     (valuesOf V U) m0 (point_of v_size P z)) as FC. cbn [runs fold_left] in FC.
  assert (FC' : rows_hold v_size (startIn v_size vars) vars (fst (snd a)) (run v_size (valuesOf V U) (fst (snd a)) (snd (snd a)) m0) (point_of v_size P z) <->
     satisfied v_size (fst a) (valuesOf V U) (completed v_size sub (valuesOf V U) (point_of v_size P z))).
  { apply FC.
    - apply layout_startIn, N.
    - rewrite EA. apply WR, IP.
    - rewrite EA. apply AG, ICU.
    - exact Logic.I.
    - exact B.
    - exact CL.
    - intros j J. simpl. lra.
    - intros [CT TT]. rewrite EA in *. assert (NV : native sv = true) by (rewrite FM in TT; unfold eqTarget, ineqTarget in TT; destruct sv, (isEq c); simpl in TT; try discriminate; reflexivity).
      split; [rewrite FM; unfold eqTarget, ineqTarget; destruct sv, (isEq c); try discriminate NV; reflexivity|].
      intros j J. destruct RG as (_ & _ & RG). apply (RG NV c U j ICU CT J). }
  clear FC. rewrite EA in FC'.
  assert (M1 : meets v_size c U (full_point v_size P V z) <-> satisfied v_size c (valuesOf V U) (completed v_size sub (valuesOf V U) (point_of v_size P z))) by (split; intros H; exact H).
  rewrite M1, <- FC'. split; apply rows_hold_ext; [exact SR|]. intros r R. apply same_row_sym, SR, R.
Qed.
Lemma cstr_feasible cs js s z : inv cs js s -> in_range v_size P V sv abig (o_big o) z ->
  let m := runAll v_size (s_cs s) (map (valuesOf V) (d_cstrs V)) (s_C s) in
  ((forall c U, In (c, U) (combine (p_cstrs P) (d_cstrs V)) -> meets v_size c U (full_point v_size P V z)) <->
   forall eq r, zone sv nEq 0 0 nEq nIneq eq r -> rowcond eq m z r).
Proof.
  intros I RG m.
  assert (CM : map (fun a : item => (fst a, fst (snd a))) cs = combine (p_cstrs P) (ctargets sv nEq 0 0 (p_cstrs P))).
  { rewrite <- combine_maps. rewrite (i_cs _ _ _ _ _ _ _ _ _ I).
    match goal with |- combine _ ?l = _ => replace l with (ctargets sv nEq 0 0 (p_cstrs P)) by (symmetry; apply (i_ct _ _ _ _ _ _ _ _ _ I)) end. reflexivity. }
  assert (LC : length (d_cstrs V) = length cs) by (destruct WD as (L & _); rewrite L, <- (i_cs _ _ _ _ _ _ _ _ _ I), map_length; reflexivity).
  assert (FORM : forall a, In a cs -> exists e i, fst (snd a) = if isEq (fst a) then eqTarget sv e i (fst a) else ineqTarget sv nEq e i (fst a)).
  { intros a IA. apply (ctargets_form (p_cstrs P) nEq 0 0). rewrite <- CM. apply (in_map (fun a : item => (fst a, fst (snd a)))). exact IA. }
  split; intros H.
  - intros eq r Z. destruct (ctargets_cover sv (p_cstrs P) nEq 0 0 eq r Z) as (c & t & IC & R & NV); [lia|].
    rewrite <- CM in IC. apply in_map_iff in IC as (a & EA & IA). injection EA as E1 E2.
    destruct (combine_has cs (d_cstrs V) a LC IA) as (U & IU).
    assert (IP : In (c, U) (combine (p_cstrs P) (d_cstrs V))) by (rewrite <- (i_cs _ _ _ _ _ _ _ _ _ I), <- E1; apply combine_lift, IU).
    pose proof (proj1 (cstr_meets cs js s z c U I RG IP a E1 IA (combine_lift2 _ _ _ _ _ IU)) (H c U IP)) as RH.
    destruct (FORM a IA) as (e & i & FM).
    pose proof (proj1 (rows_hold_cond (fst a) (fst (snd a)) nEq e i m z FM) RH r) as RC. rewrite E2 in RC. specialize (RC R).
    rewrite E1 in RC. unfold rowcond in *. destruct sv; try exact RC; rewrite <- NV by reflexivity; exact RC.
  - intros c U IP. rewrite <- (i_cs _ _ _ _ _ _ _ _ _ I) in IP.
    destruct (combine_unlift fst (valuesOf V) cs (d_cstrs V) c U IP) as (a & E1 & IU & IV).
    assert (IA : In a cs) by (eapply in_combine_l; eauto). rewrite (i_cs _ _ _ _ _ _ _ _ _ I) in IP.
    apply (cstr_meets cs js s z c U I RG IP a E1 IA IV). destruct (FORM a IA) as (e & i & FM).
    apply (rows_hold_cond (fst a) (fst (snd a)) nEq e i m z FM). intros r R. apply H.
    eapply cs_zone; eauto; [apply (i_cs _ _ _ _ _ _ _ _ _ I)|apply (i_ct _ _ _ _ _ _ _ _ _ I)].
Qed.

(* ---- the box ---- *)
Lemma runBnds_in y k x bl : forall Ws lu, length Ws = length bl ->
  (forall b U, In ((y, b), U) (combine bl Ws) -> fits abig x (b, U k)) ->
  (inbox (runBnds (map (bops abig) bl) Ws y k lu) x <-> inbox lu x /\ forall b U, In ((y, b), U) (combine bl Ws) -> bound_holds b (U k) x).
Proof.
  induction bl as [|[y' b] bl IH]; intros [|U Ws] lu L F; simpl in L; try discriminate.
  - unfold runBnds. simpl. intuition.
  - unfold runBnds. cbn [map combine fold_left]. cbn [bops fst snd].
    change (fold_left _ (combine (map (bops abig) bl) Ws) ?q) with (runBnds (map (bops abig) bl) Ws y k q).
    destruct (Nat.eqb_spec y' y) as [->|NE].
    + rewrite IH by (auto; intros; apply F; right; auto). destruct (F b U (or_introl eq_refl)) as (T & R & O). cbn [fst snd] in *.
      rewrite (step abig b (U k) lu x false T R O). split.
      * intros [[[X|X] Y] Z]; [discriminate|]. split; [exact X|]. intros b' U' [E|I]; [injection E as <- <-; exact Y|auto].
      * intros [X Y]. split; [split; [right; exact X|apply Y; left; reflexivity]|]. intros b' U' I. apply Y. right. exact I.
    + rewrite IH by (auto; intros; apply F; right; auto). split; intros [X Y]; split; auto.
      * intros b' U' [E|I]; [congruence|auto].
      * intros b' U' I. apply Y. right. exact I.
Qed.
Definition ubounds (z : vec) : Prop := forall y b U k, In ((y, b), U) (combine (p_bnds P) (d_bnds V)) -> (k < v_size y)%nat ->
  bound_holds b (U k) (point_of v_size P z y k).
Lemma box_feasible cs js s z : inv cs js s -> in_range v_size P V sv abig (o_big o) z ->
  let s' := assigned v_size sv o vars V s in
  in_box n (s_xl s') (s_xu s') z <-> ubounds z.
Proof.
  intros I (R1 & R2 & _). destruct (pre_inv sqrtf abig v_size sv o P cs js s I) as (J & _ & XL & XU).
  unfold assigned. set (s1 := pre sv o (resetBounds o s)) in *. cbv zeta. cbn [s_xl s_xu setBox].
  rewrite XL, XU, (i_bs _ _ _ _ _ _ _ _ _ J). destruct W as (N & _). destruct WD as (_ & _ & LB & _).
  pose proof (i_bv _ _ _ _ _ _ _ _ _ J) as BV. rewrite Forall_forall in BV.
  assert (COMP : forall y k, In y vars -> (k < v_size y)%nat ->
    (inbox (runBnds (map (bops abig) (p_bnds P)) (d_bnds V) y k (- o_big o, o_big o)) (point_of v_size P z y k) <->
     forall b U, In ((y, b), U) (combine (p_bnds P) (d_bnds V)) -> bound_holds b (U k) (point_of v_size P z y k))).
  { intros y k Y K. rewrite runBnds_in; [|exact LB|intros b U IB; apply (R2 y b U k IB K)].
    assert (B : inbox (- o_big o, o_big o) (point_of v_size P z y k)).
    { unfold inbox. cbn [fst snd]. apply Qabs_Qle_condition. apply R1. apply (offset_lt v_size vars y k N Y K). }
    tauto. }
  split.
  - intros H y b U k IB K. assert (Y : In y vars) by (apply in_combine_l in IB; apply (BV _ IB)).
    refine (proj1 (COMP y k Y K) _ b U IB).
    specialize (H (offset v_size vars y + k)%nat (offset_lt v_size vars y k N Y K)). cbv beta in H. rewrite (owner_offset v_size vars y k Y K) in H. exact H.
  - intros H j Jn. destruct (owner_total v_size vars j N Jn) as (y & k & OW & Y & K & E). cbv beta. rewrite OW.
    assert (B : inbox (runBnds (map (bops abig) (p_bnds P)) (d_bnds V) y k (- o_big o, o_big o)) (point_of v_size P z y k))
      by (apply COMP; auto).
    unfold inbox in B. unfold point_of in B. rewrite <- E in B. exact B.
Qed.

(* ---- the constraints handed ---- *)
Lemma boundM_row q j z : (j < n)%nat ->
  rowv n (boundM SQuadprog n q true) z (q + j) == - z j /\ rowv n (boundM SQuadprog n q true) z (q + n + j) == z j.
Proof.
  intros J. unfold rowv, dot, boundM. split.
  - rewrite (qsumn_single _ n j J); [rewrite Nat.eqb_refl; ring|].
    intros c Cn NE. destruct (Nat.eqb_spec (q + j) (q + c)) as [?|_]; [lia|]. destruct (Nat.eqb_spec (q + j) (q + n + c)) as [?|_]; [lia|]. ring.
  - rewrite (qsumn_single _ n j J).
    + destruct (Nat.eqb_spec (q + n + j) (q + j)) as [?|_]; [lia|]. rewrite Nat.eqb_refl. ring.
    + intros c Cn NE. destruct (Nat.eqb_spec (q + n + j) (q + c)) as [?|_]; [lia|]. destruct (Nat.eqb_spec (q + n + j) (q + n + c)) as [?|_]; [lia|]. ring.
Qed.
Lemma post_C Ri s : s_C (post sv o Ri s) = s_C s /\ s_nEq (post sv o Ri s) = s_nEq s /\ s_nIneq (post sv o Ri s) = s_nIneq s /\
  s_n (post sv o Ri s) = s_n s /\ s_useb (post sv o Ri s) = s_useb s /\ s_nObj (post sv o Ri s) = s_nObj s /\ s_minNorm (post sv o Ri s) = s_minNorm s /\
  s_xu (post sv o Ri s) = s_xu s /\ s_xl (post sv o Ri s) = (match sv with SQuadprog => fun j => - s_xl s j | _ => s_xl s end).
Proof. unfold post. destruct sv, (s_minNorm s) eqn:M, (o_chol o); repeat match goal with |- _ /\ _ => split end; try reflexivity; exact M. Qed.
Lemma handed_feasible cs js R Ri s h z : inv cs js s -> in_range v_size P V sv abig (o_big o) z ->
  hand sv o R (post sv o Ri (assigned v_size sv o vars V s)) = Ok h ->
  (feasible h z <-> user_feasible v_size P V z).
Proof.
  intros I RG H.
  pose proof (cstr_feasible cs js (pre sv o (resetBounds o s)) z (proj1 (pre_inv sqrtf abig v_size sv o P cs js s I)) RG) as CF. cbv zeta in CF.
  pose proof (box_feasible cs js s z I RG) as BF. cbv zeta in BF.
  destruct (assigned_inv cs js s I) as (A & _).
  change (runAll _ _ _ _) with (s_C (assigned v_size sv o vars V s)) in CF.
  set (s1 := assigned v_size sv o vars V s) in *.
  unfold user_feasible. fold (ubounds z). rewrite CF, <- BF. clear CF BF.
  destruct (post_C Ri s1) as (E1 & E2 & E3 & E4 & E5 & _ & _ & E8 & E9).
  set (s2 := post sv o Ri s1) in *.
  pose proof (i_n _ _ _ _ _ _ _ _ _ A) as X1. pose proof (i_nEq _ _ _ _ _ _ _ _ _ A) as X2. pose proof (i_nIneq _ _ _ _ _ _ _ _ _ A) as X3.
  pose proof (i_useb _ _ _ _ _ _ _ _ _ A) as X4. pose proof (i_CB _ _ _ _ _ _ _ _ _ A) as X5.
  destruct RG as (RB & _).
  assert (NOB : useb P = false -> in_box n (s_xl s1) (s_xu s1) z).
  { intros U. destruct (pre_inv sqrtf abig v_size sv o P cs js s I) as (J & _ & XL & XU).
    unfold s1, assigned. cbv zeta. cbn [s_xl s_xu setBox]. rewrite XL, XU, (i_bs _ _ _ _ _ _ _ _ _ J).
    assert (PB : p_bnds P = []) by (unfold useb in U; destruct (p_bnds P); [reflexivity|discriminate]). rewrite PB.
    intros j Jn. specialize (RB j Jn). apply Qabs_Qle_condition in RB. unfold runBnds. cbn [map combine fold_left].
    destruct (owner v_size vars j) as [[y k]|]; cbn [fst snd]; exact RB. }
  unfold hand in H. unfold rowcond, zone. rewrite E1, E2, E3, E4, ?E5, ?E8, ?E9, X1, X2, X3, ?X4 in H. clear E1 E2 E3 E4 E5 E8 E9.
  set (ne := nEq) in *. set (ni := nIneq) in *. clearbody ne ni.
  assert (SPLIT : forall (Pc Bx : Prop) (A1 A2 : nat -> Prop), (Pc <-> forall (eq : bool) r, (if eq then (0 <= r < ne)%nat else (ne + 0 <= r < ne + ni)%nat) -> if eq then A1 r else A2 r) ->
     ((forall r, (r < ne)%nat -> A1 r) /\ (forall r, (ne <= r < ne + ni)%nat -> A2 r) /\ Bx <-> Pc /\ Bx)).
  { intros Pc Bx A1 A2 PQ. rewrite PQ. split.
    - intros (K1 & K2 & K3). split; [|exact K3]. intros [] r Z; [apply K1|apply K2]; lia.
    - intros (K & K3). split; [|split; [|exact K3]]; intros r Z; [apply (K true r)|apply (K false r)]; lia. }
  destruct sv eqn:SV.
  - assert (F : feasible h z <-> (forall r, (r < ne)%nat -> rowv n (mA (s_C s1)) z r + mb (s_C s1) r == 0) /\
      (forall r, (ne <= r < ne + ni)%nat -> 0 <= rowv n (mA (s_C s1)) z r + mb (s_C s1) r) /\ in_box n (s_xl s1) (s_xu s1) z).
    { destruct (o_chol o && negb (s_minNorm s2)); [injection H as <-; reflexivity|]. destruct (s_Q s2); [injection H as <-; reflexivity|discriminate]. }
    rewrite F. apply SPLIT. cbn [native]. reflexivity.
  - set (m' := if useb P then (ne + ni + 2 * n)%nat else (ne + ni)%nat) in *.
    assert (F : feasible h z <-> (forall r, (r < ne)%nat -> rowv n (mA (s_C s1)) z r == (if Nat.ltb r (ne + ni) then mb (s_C s1) r
                        else if Nat.ltb r (ne + ni + n) then - s_xl s1 (r - (ne + ni))%nat
                        else s_xu s1 (r - (ne + ni) - n)%nat)) /\
      (forall r, (ne <= r < m')%nat -> rowv n (mA (s_C s1)) z r <= (if Nat.ltb r (ne + ni) then mb (s_C s1) r
                        else if Nat.ltb r (ne + ni + n) then - s_xl s1 (r - (ne + ni))%nat
                        else s_xu s1 (r - (ne + ni) - n)%nat))).
    { destruct (o_chol o && negb (s_minNorm s2)); [injection H as <-; reflexivity|]. destruct (s_Q s2); [injection H as <-; reflexivity|discriminate]. }
    rewrite F. clear F H.
    transitivity ((forall r, (r < ne)%nat -> rowv n (mA (s_C s1)) z r == mb (s_C s1) r) /\
      (forall r, (ne <= r < ne + ni)%nat -> rowv n (mA (s_C s1)) z r <= mb (s_C s1) r) /\ in_box n (s_xl s1) (s_xu s1) z).
    2: { apply SPLIT. cbn [native]. reflexivity. }
    assert (RB2 : forall r, (ne + ni <= r)%nat -> useb P = true -> rowv n (mA (s_C s1)) z r == rowv n (boundM SQuadprog n (ne + ni) true) z r).
    { intros r L U. unfold rowv, dot. apply qsumn_ext. intros c _. rewrite X5, U by lia. reflexivity. }
    split.
    + intros (K1 & K2). split; [|split].
      * intros r L. specialize (K1 r L). destruct (Nat.ltb_spec r (ne + ni)); [exact K1|lia].
      * intros r L. specialize (K2 r). destruct (Nat.ltb_spec r (ne + ni)); [apply K2; unfold m'; destruct (useb P); lia|lia].
      * destruct (useb P) eqn:U; [|apply NOB; reflexivity]. intros j Jn. destruct (boundM_row (ne + ni) j z Jn) as [B1 B2].
        pose proof (K2 (ne + ni + j)%nat) as K3. pose proof (K2 (ne + ni + n + j)%nat) as K4.
        rewrite RB2, B1 in K3 by (auto; lia). rewrite RB2, B2 in K4 by (auto; lia).
        destruct (Nat.ltb_spec (ne + ni + j) (ne + ni)); [lia|]. destruct (Nat.ltb_spec (ne + ni + j) (ne + ni + n)); [|lia].
        destruct (Nat.ltb_spec (ne + ni + n + j) (ne + ni)); [lia|]. destruct (Nat.ltb_spec (ne + ni + n + j) (ne + ni + n)); [lia|].
        replace (ne + ni + j - (ne + ni))%nat with j in K3 by lia. replace (ne + ni + n + j - (ne + ni) - n)%nat with j in K4 by lia.
        unfold m' in K3, K4. assert (K3' := K3 ltac:(lia)). assert (K4' := K4 ltac:(lia)). split; lra.
    + intros (K1 & K2 & K3). split.
      * intros r L. destruct (Nat.ltb_spec r (ne + ni)); [apply K1, L|lia].
      * intros r L. destruct (Nat.ltb_spec r (ne + ni)) as [L1|L1]; [apply K2; lia|].
        destruct (useb P) eqn:U; unfold m' in L; [|lia]. rewrite RB2 by auto.
        destruct (Nat.ltb_spec r (ne + ni + n)) as [L2|L2].
        -- destruct (boundM_row (ne + ni) (r - (ne + ni)) z) as [B1 _]; [lia|]. replace (ne + ni + (r - (ne + ni)))%nat with r in B1 by lia.
           rewrite B1. destruct (K3 (r - (ne + ni))%nat) as [K4 _]; [lia|]. lra.
        -- destruct (boundM_row (ne + ni) (r - (ne + ni) - n) z) as [_ B1]; [lia|]. replace (ne + ni + n + (r - (ne + ni) - n))%nat with r in B1 by lia.
           rewrite B1. destruct (K3 (r - (ne + ni) - n)%nat) as [_ K4]; [lia|]. exact K4.
  - assert (F : feasible h z <-> (forall r, (r < ne + ni)%nat -> ml (s_C s1) r <= rowv n (mA (s_C s1)) z r <= mu (s_C s1) r) /\ in_box n (s_xl s1) (s_xu s1) z).
    { destruct (Nat.ltb 0 (s_nObj s2)); injection H as <-; reflexivity. }
    rewrite F. cbn [native]. split; intros (K1 & K2); (split; [|exact K2]); [intros _ r Z; apply K1; lia|intros r Z; apply (K1 true); lia].
  - injection H as <-. cbn [feasible native]. split; intros (K1 & K2); (split; [|exact K2]); [intros _ r Z; apply K1; lia|intros r Z; apply (K1 true); lia].
Qed.
End Solve.
