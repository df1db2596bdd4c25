(* The invariant of a solver after a build, and the constraints it hands. *)
Require Import QArith Qminmax Qabs List Arith Bool Lia Lqa.
Require Import Verif.Base Verif.QSum Verif.AssignModel Verif.AssignSpec Verif.AssignProofs4 Verif.AssignProofs5 Verif.AssignProofs6
  Verif.BoundModel Verif.BoundSpec Verif.BoundProofs Verif.QpModel Verif.QpSpec Verif.QpProofs Verif.QpProofs2.
Import ListNotations.
Local Open Scope Q_scope.
Local Arguments QpModel.countEq : simpl never.
Local Arguments QpModel.countIneq : simpl never.

Section Inv.
Variable debug : bool.
Variable sqrtf : Q -> Q.
Variable abig : Q.
Variable v_size : nat -> nat.
Variable sv : solver.
Variable o : options.
Variable P : problem.
Hypothesis W : wf sqrtf P.
Notation vars := (p_vars P).
Notation sub := (p_sub P).
Notation n := (total v_size vars).
Notation nEq := (countEq sv (p_cstrs P)).
Notation nIneq := (countIneq sv (p_cstrs P)).
Definition nObj : nat := if p_minNorm P then n else countObj (p_objs P).
Definition useb : bool := match p_bnds P with [] => false | _ => true end.
Definition resets : bool := match sv with SQuadprog => o_chol o | SLSSOL => true | _ => false end.

Definition Dclean (js : list jitem) (D : mem) : Prop :=
  Forall (iclean v_size vars sub (mA D)) (map toItem js) /\
  forall r c, (nObj <= r)%nat -> mA D r c = dampedM sv o n nObj r c.
Definition minNormData (s : state) : Prop :=
  match sv with
  | SQLD | SQuadprog => s_Q s = (if o_chol o then None else Some idM) /\ forall j, s_c s j = 0
  | SLSSOL => forall r, mb (s_D s) r = 0
  | SLexLS => mA (s_D s) = idM /\ (forall r, ml (s_D s) r = 0) /\ forall r, mu (s_D s) r = 0
  end.

Record inv (cs : list item) (js : list jitem) (s : state) : Prop := mkInv {
  i_n : s_n s = n; i_nObj : s_nObj s = nObj; i_nEq : s_nEq s = nEq; i_nIneq : s_nIneq s = nIneq;
  i_useb : s_useb s = useb; i_min : s_minNorm s = p_minNorm P;
  i_cs : map fst cs = p_cstrs P; i_ct : map (fun a => fst (snd a)) cs = ctargets sv nEq 0 0 (p_cstrs P);
  i_cb : Forall (built sqrtf abig v_size vars sub None 1) cs; i_scs : s_cs s = map snd cs;
  i_js : map fst js = p_objs P; i_jt : map (fun a => fst (snd a)) js = otargets sv 0 (p_objs P);
  i_jb : Forall (jbuilt sqrtf abig v_size vars sub) js; i_sos : s_os s = map snd js;
  i_bs : s_bs s = map (bops abig) (p_bnds P); i_bv : Forall (fun b => In (fst b) vars) (p_bnds P);
  i_C : Forall (iclean v_size vars sub (mA (s_C s))) cs;
  i_CB : forall r c, (nEq + nIneq <= r)%nat -> mA (s_C s) r c = boundM sv n (nEq + nIneq) useb r c;
  i_D : p_minNorm P = false -> resets = false -> Dclean js (s_D s);
  i_M : p_minNorm P = true -> minNormData s }.

Lemma clean_zero src t A : (forall r c, rows_of t r -> A r c == 0) -> clean v_size (startIn v_size vars) vars src sub t A.
Proof. intros Z r y k R _ _ _ _. apply Z, R. Qed.

Lemma in_targets {A} (l : list (A * (target * assignment))) a : In a l -> In (fst (snd a)) (map (fun a => fst (snd a)) l).
Proof. intros I. apply (in_map (fun a => fst (snd a)) _ _ I). Qed.
Lemma combine_maps (l : list item) : combine (map fst l) (map (fun a => fst (snd a)) l) = map (fun a => (fst a, fst (snd a))) l.
Proof. induction l as [|a l IH]; simpl; [reflexivity|]. rewrite IH. reflexivity. Qed.
Lemma cs_zone (cs : list item) : map fst cs = p_cstrs P -> map (fun a => fst (snd a)) cs = ctargets sv nEq 0 0 (p_cstrs P) ->
  forall a, In a cs -> forall r, rows_of (fst (snd a)) r -> zone sv nEq 0 0 nEq nIneq (isEq (fst a)) r.
Proof.
  intros E T a I r R. apply (ctargets_in sv (p_cstrs P) nEq 0 0 (fst a) (fst (snd a))); [lia| |exact R].
  rewrite <- E at 1. rewrite <- T, combine_maps. apply (in_map (fun a => (fst a, fst (snd a)))). exact I.
Qed.
Lemma zone_lt eq r : zone sv nEq 0 0 nEq nIneq eq r -> (r < nEq + nIneq)%nat.
Proof. unfold zone. destruct (native sv), eq; lia. Qed.
Lemma js_rows (js : list jitem) : map (fun a => fst (snd a)) js = otargets sv 0 (p_objs P) ->
  forall a, In a js -> forall r, rows_of (fst (snd a)) r -> (r < countObj (p_objs P))%nat.
Proof.
  intros T a I r R. pose proof (in_targets js a I) as IT. rewrite T in IT. pose proof (otargets_in sv _ _ _ IT r R). lia.
Qed.

Lemma boundM_low useb' r c : (r < nEq + nIneq)%nat -> boundM sv n (nEq + nIneq) useb' r c = 0.
Proof.
  generalize (nEq + nIneq)%nat. intros q L. unfold boundM. destruct sv; try reflexivity. destruct useb'; [|reflexivity].
  destruct (Nat.eqb_spec r (q + c)) as [X|_]; [lia|]. destruct (Nat.eqb_spec r (q + n + c)); [lia|]. reflexivity.
Qed.
Lemma dampedM_low k r c : (r < k)%nat -> dampedM sv o n k r c = 0.
Proof.
  intros L. unfold dampedM. destruct (dampRows sv o n k); [|reflexivity]. destruct (Nat.eqb_spec r (k + c)); [lia|reflexivity].
Qed.

Lemma setMin_data s : match sv with SQLD | SQuadprog => if o_chol o then s_Q s = None else exists q, s_Q s = Some q | _ => True end ->
  minNormData (setMinimumNorm sv s).
Proof.
  intros H. unfold minNormData, setMinimumNorm. cbn [s_Q s_c s_D mb mA ml mu].
  destruct sv; cbn [mb mA ml mu]; try (repeat match goal with |- _ /\ _ => split end; reflexivity).
  all: destruct (o_chol o); [rewrite H|destruct H as [q ->]]; split; reflexivity.
Qed.
(* a build establishes the invariant; for LexLS the previous build must not have been a minimum norm one *)
Lemma build_inv s0 s : (sv = SLexLS -> s_minNorm s0 = false) -> (o_chol o = true -> s_Q s0 = None) ->
  build debug sqrtf abig v_size sv o P s0 = Ok s -> exists cs js, inv cs js s.
Proof.
  intros LX QN H. unfold build in H. fold nObj in H. fold useb in H.
  set (s1 := startBuild sv o n nObj nEq nIneq useb s0) in H.
  destruct (each (addConstraint sqrtf abig v_size sv vars sub) (p_cstrs P) s1) as [s2| |] eqn:E1; cbn [bind] in H; try discriminate.
  destruct (each (addObjective sqrtf abig v_size sv vars sub) (p_objs P) s2) as [s3| |] eqn:E2; cbn [bind] in H; try discriminate.
  destruct (each (addBound abig v_size vars) (p_bnds P) (if p_minNorm P then setMinimumNorm sv s3 else s3)) as [s4| |] eqn:E3; cbn [bind] in H; try discriminate.
  assert (s4 = s) by (unfold finalizeBuild in H; destruct (debug && _); congruence). subst s4.
  apply each_cstrs in E1 as (cs & C1 & C2 & C3 & ->). apply each_objs in E2 as (js & J1 & J2 & J3 & ->).
  apply each_bnds in E3 as (B & ->).
  exists cs, js.
  assert (MS : forall (s : state), s_n (if p_minNorm P then setMinimumNorm sv s else s) = s_n s /\
     s_nObj (if p_minNorm P then setMinimumNorm sv s else s) = s_nObj s /\
     s_nEq (if p_minNorm P then setMinimumNorm sv s else s) = s_nEq s /\
     s_nIneq (if p_minNorm P then setMinimumNorm sv s else s) = s_nIneq s /\
     s_useb (if p_minNorm P then setMinimumNorm sv s else s) = s_useb s /\
     s_cs (if p_minNorm P then setMinimumNorm sv s else s) = s_cs s /\
     s_os (if p_minNorm P then setMinimumNorm sv s else s) = s_os s /\
     s_bs (if p_minNorm P then setMinimumNorm sv s else s) = s_bs s /\
     s_C (if p_minNorm P then setMinimumNorm sv s else s) = s_C s)
    by (intros q; destruct (p_minNorm P); cbn; repeat split).
  constructor; unfold withBs; cbn [s_n s_nObj s_nEq s_nIneq s_useb s_minNorm s_cs s_os s_bs s_C s_D s_Q s_c];
   try (match goal with |- context [if p_minNorm P then setMinimumNorm sv ?q else ?q] => destruct (MS q) as (M1 & M2 & M3 & M4 & M5 & M6 & M7 & M8 & M9) end);
   rewrite ?M1, ?M2, ?M3, ?M4, ?M5, ?M6, ?M7, ?M8, ?M9; auto.
  - destruct (p_minNorm P); reflexivity.
  - apply Forall_forall. intros a I. apply clean_zero. intros r c R. cbn.
    assert (L : (r < nEq + nIneq)%nat) by (eapply zone_lt, cs_zone; eauto).
    assert (Z : boundM sv n (nEq + nIneq) useb r c = 0) by (apply boundM_low, L).
    unfold s1, startBuild. destruct sv; cbn [mA s_C]; try reflexivity; rewrite Z; reflexivity.
  - intros r c L. unfold s1. unfold startBuild, withOs, withCs. cbn [s_C]. destruct sv eqn:SV; cbn [mA]; try reflexivity.
  - intros NM RS. rewrite NM. unfold Dclean, withOs, withCs, s1, startBuild. cbn [s_D]. split.
    + apply Forall_forall. intros a I. apply in_map_iff in I as (b & <- & I). apply clean_zero. intros r c R.
      assert (L : (r < nObj)%nat) by (unfold nObj; rewrite NM; eapply js_rows; eauto).
      pose proof (dampedM_low nObj r c L) as Z.
      destruct sv eqn:SV; cbn [mA]; try reflexivity; try (rewrite Z; reflexivity). rewrite LX by auto. reflexivity.
    + intros r c L. unfold resets in RS. destruct sv eqn:SV; cbn [mA]; try reflexivity; try discriminate. rewrite LX by auto. reflexivity.
  - intros M. rewrite M.
    match goal with |- minNormData (withBs ?bs (setMinimumNorm sv ?x)) =>
      change (minNormData (setMinimumNorm sv x)); apply (setMin_data x); change (s_Q x) with (s_Q s1)
    | |- minNormData ?y => match y with context [setMinimumNorm sv ?x] =>
      change (minNormData (setMinimumNorm sv x)); apply (setMin_data x); change (s_Q x) with (s_Q s1) end end.
    unfold s1, startBuild. cbn [s_Q].
    destruct sv; auto; destruct (o_chol o) eqn:CH; auto; eexists; reflexivity.
Qed.

(* changes that keep the invariant *)
Lemma inv_setBox cs js s a b : inv cs js s -> inv cs js (setBox a b s).
Proof. intros []. constructor; assumption. Qed.
Lemma inv_setD cs js s D : inv cs js s -> (p_minNorm P = false -> resets = false -> Dclean js D) ->
  (p_minNorm P = true -> minNormData (setD D s)) -> inv cs js (setD D s).
Proof. intros [] H1 H2. constructor; assumption. Qed.
Lemma inv_setC cs js s C : inv cs js s -> Forall (iclean v_size vars sub (mA C)) cs ->
  (forall r c, (nEq + nIneq <= r)%nat -> mA C r c = boundM sv n (nEq + nIneq) useb r c) -> inv cs js (setC C s).
Proof. intros [] H1 H2. constructor; assumption. Qed.
Lemma inv_setCost cs js s a b : p_minNorm P = false -> inv cs js s -> inv cs js (setCost a b s).
Proof. intros NM []. constructor; try assumption. congruence. Qed.

(* ---- one solve ---- *)
Variable V : data.
Hypothesis WD : wf_data v_size P V.

Lemma ordpairs_map {A B} (f : A -> B) (R : B -> B -> Prop) l : ForallOrdPairs R (map f l) -> ForallOrdPairs (fun a b => R (f a) (f b)) l.
Proof.
  induction l as [|a l IH]; intros H; [constructor|]. simpl in H. inversion H as [|? ? F O]; subst. constructor; auto.
  rewrite Forall_forall in *. intros b I. apply F. apply in_map. exact I.
Qed.
Lemma built_sound r w a : built sqrtf abig v_size vars sub r w a -> isound abig v_size vars sub a.
Proof. intros B. eapply construct_sound. exact B. Qed.

Lemma C_facts cs js s : inv cs js s -> let m' := runAll v_size (s_cs s) (map (valuesOf V) (d_cstrs V)) (s_C s) in
  Forall (iclean v_size vars sub (mA m')) cs /\
  (forall a U, In (a, U) (combine cs (map (valuesOf V) (d_cstrs V))) -> exists m0, iclean v_size vars sub (mA m0) a /\
     forall r, rows_of (fst (snd a)) r -> same_row (run v_size U (fst (snd a)) (snd (snd a)) m0) m' r) /\
  (forall r, (nEq + nIneq <= r)%nat -> same_row (s_C s) m' r).
Proof.
  intros I. rewrite (i_scs _ _ _ I). destruct W as (N & _). destruct WD as (L & _).
  destruct (runAll_facts abig v_size vars sub N cs) with (Vs := map (valuesOf V) (d_cstrs V)) (m := s_C s) as (A & B & C).
  - apply Forall_forall. intros a Ia. eapply built_sound. pose proof (i_cb _ _ _ I) as F. rewrite Forall_forall in F. apply F, Ia.
  - apply (ordpairs_map (fun a : item => fst (snd a)) disjoint). 
    match goal with |- ForallOrdPairs _ ?l => replace l with (ctargets sv nEq 0 0 (p_cstrs P)) by (symmetry; apply (i_ct _ _ _ I)) end.
    apply ctargets_disjoint. lia.
  - rewrite map_length, L, <- (i_cs _ _ _ I), map_length. reflexivity.
  - apply (i_C _ _ _ I).
  - split; [exact A|]. split; [exact B|]. intros r R. apply C. intros a Ia Ra.
    pose proof (zone_lt _ _ (cs_zone cs (i_cs _ _ _ I) (i_ct _ _ _ I) a Ia r Ra)). lia.
Qed.
Lemma map_toItem js : map snd (map toItem js) = map snd js.
Proof. rewrite map_map. reflexivity. Qed.
Lemma D_facts cs js s D : inv cs js s -> p_minNorm P = false -> Dclean js D ->
  let m' := runAll v_size (s_os s) (map (valuesOf V) (d_objs V)) D in
  Dclean js m' /\
  (forall a U, In (a, U) (combine js (map (valuesOf V) (d_objs V))) -> exists m0, iclean v_size vars sub (mA m0) (toItem a) /\
     forall r, rows_of (fst (snd a)) r -> same_row (run v_size U (fst (snd a)) (snd (snd a)) m0) m' r).
Proof.
  intros I NM [DC DR]. rewrite (i_sos _ _ _ I). destruct W as (N & _). destruct WD as (_ & L & _).
  destruct (runAll_facts abig v_size vars sub N (map toItem js)) with (Vs := map (valuesOf V) (d_objs V)) (m := D) as (A & B & C).
  - apply Forall_forall. intros a Ia. apply in_map_iff in Ia as (b & <- & Ib). eapply built_sound.
    pose proof (i_jb _ _ _ I) as F. rewrite Forall_forall in F. apply F, Ib.
  - apply (ordpairs_map (fun a : item => fst (snd a)) disjoint). rewrite map_map.
    match goal with |- ForallOrdPairs _ ?l => replace l with (otargets sv 0 (p_objs P)) by (symmetry; apply (i_jt _ _ _ I)) end.
    apply otargets_disjoint.
  - rewrite !map_length, L, <- (i_js _ _ _ I), map_length. reflexivity.
  - exact DC.
  - rewrite map_toItem in *. split; [split; [exact A|]|].
    + intros r c R. rewrite <- (DR r c R). apply C. intros a Ia Ra. apply in_map_iff in Ia as (b & <- & Ib).
      assert (r < countObj (p_objs P))%nat by (eapply js_rows; eauto; apply (i_jt _ _ _ I)).
      unfold nObj in R. rewrite NM in R. lia.
    + intros a U Ia. apply (B (toItem a) U).
      assert (K : forall (l : list jitem) (Us : list values), In (a, U) (combine l Us) -> In (toItem a, U) (combine (map toItem l) Us)).
      { clear. induction l as [|b l IH]; intros [|u Us] H; simpl in *; try tauto. destruct H as [H|H]; [left; congruence|right; auto]. }
      apply K, Ia.
Qed.

(* before the assignments *)
Lemma pre_inv cs js s : inv cs js s -> inv cs js (pre sv o (resetBounds o s)) /\
  (p_minNorm P = false -> Dclean js (s_D (pre sv o (resetBounds o s)))) /\
  s_xl (pre sv o (resetBounds o s)) = constV (- o_big o) /\ s_xu (pre sv o (resetBounds o s)) = constV (o_big o).
Proof.
  intros I.
  assert (DZ : p_minNorm P = false -> forall e l u, Dclean js (mkMem (dampedM sv o n nObj) e l u)).
  { intros NM e l u. split; [|reflexivity]. apply Forall_forall. intros a Ia. apply in_map_iff in Ia as (b & <- & Ib).
    apply clean_zero. intros r c R. cbn [mA]. rewrite dampedM_low; [reflexivity|].
    unfold nObj. rewrite NM. eapply js_rows; eauto. apply (i_jt _ _ _ I). }
  assert (DM : sv <> SQLD -> sv <> SQuadprog -> dampedM sv o n nObj = zeroM) by (intros; destruct sv; try congruence; reflexivity).
  assert (IR : inv cs js (resetBounds o s)) by (apply inv_setBox, I).
  assert (DI : resets = false -> p_minNorm P = false -> Dclean js (s_D s)) by (intros; apply (i_D _ _ _ I); auto).
  pose proof (i_min _ _ _ I) as MI. pose proof (i_n _ _ _ I) as NI. pose proof (i_nObj _ _ _ I) as OI.
  unfold resets in DI. unfold pre. destruct sv eqn:SV; cbn [s_minNorm resetBounds setBox negb andb].
  - split; [exact IR|]. split; [intros NM; apply DI; auto|split; reflexivity].
  - rewrite MI. destruct (p_minNorm P) eqn:MN; cbn [negb andb].
    + split; [apply inv_setBox, IR|]. split; [discriminate|split; reflexivity].
    + destruct (o_chol o) eqn:CH.
      * split; [|split; [|split; reflexivity]].
        -- apply inv_setD; [apply inv_setBox, IR| |congruence]. unfold resets. rewrite SV, CH. discriminate.
        -- intros _. cbn [s_D setD s_n s_nObj setBox resetBounds]. rewrite NI, OI. apply DZ; auto.
      * split; [apply inv_setBox, IR|]. split; [intros _; apply DI; auto|split; reflexivity].
  - rewrite MI. destruct (p_minNorm P) eqn:MN; cbn [negb andb].
    + split; [exact IR|]. split; [discriminate|split; reflexivity].
    + split; [|split; [|split; reflexivity]].
      * apply inv_setD; [exact IR| |congruence]. unfold resets. rewrite SV. discriminate.
      * intros _. cbn [s_D setD]. rewrite <- DM by discriminate. apply DZ; auto.
  - split; [exact IR|]. split; [intros NM; apply DI; auto|split; reflexivity].
Qed.
End Inv.
