Require Import QArith ZArith List Bool Lia Lqa Arith.
Require Import Verif.Base Verif.QSum Verif.RangeModel.
Require Import Verif.SpaceModel Verif.VarCountingModel.
Require Import Verif.LinFunModel Verif.LinFunSpec.
Import ListNotations.
Local Open Scope Z_scope.
Local Arguments Z.add : simpl never.
Local Arguments Z.sub : simpl never.
Local Arguments Z.of_nat : simpl never.
Local Arguments Z.to_nat : simpl never.

Section Build.
Variables (base : nat -> bool) (U : cvar -> Prop).
Hypothesis Upos : forall x, U x -> 0 < vsize base x.
Variables (val : cvar -> nat -> Q) (cst : vec -> nat -> Q) (c0 : Q).
Hypothesis Hcst : forall b i, (cst b i == c0 * ve b i)%Q.

Definition linU (n : nat) (l : lin) : Prop :=
  U (l_var l) /\ mr (l_mat l) = n /\ Z.of_nat (mc (l_mat l)) = vsize base (l_var l) /\ shape_true (l_mat l) (l_shape l).
Definition lsem (l : lin) (i : nat) : Q := qsumn (fun j => me (l_mat l) i j * val (l_var l) j)%Q (mc (l_mat l)).
Definition csem (o : option vec) (i : nat) : Q := match o with Some b => cst b i | None => 0%Q end.
Definition osem (p : operand) (i : nat) : Q :=
  match p with
  | PVar x => val x i
  | PCst b => cst b i
  | PLin l => lsem l i
  | PAff a => (csem (a_cst a) i + qsum (fun l => lsem l i) (a_lin a))%Q
  end.
Definition oinv (n : nat) (p : operand) : Prop :=
  match p with
  | PVar x => U x /\ Z.of_nat n = vsize base x
  | PCst b => vn b = n
  | PLin l => linU n l
  | PAff a => a_lin a <> [] /\ Forall (linU n) (a_lin a) /\ (forall b, a_cst a = Some b -> vn b = n)
  end.
Definition isVar (p : operand) : bool := match p with PVar _ => true | _ => false end.
Definition isCst (p : operand) : bool := match p with PCst _ => true | _ => false end.
Definition same (n : nat) (f g : nat -> Q) : Prop := forall i, (i < n)%nat -> (f i == g i)%Q.

Lemma eqb_sym_q (i j : nat) (a b : Q) : (if Nat.eqb i j then a else b) = (if Nat.eqb j i then a else b).
Proof. rewrite Nat.eqb_sym. reflexivity. Qed.
Lemma delta_row n (f : nat -> Q) c i : (i < n)%nat -> (qsumn (fun j => (if Nat.eqb i j then c else 0) * f j) n == c * f i)%Q.
Proof.
  intros H. rewrite <- (qsumn_delta (fun j => c * f j)%Q n i H). apply qsumn_ext. intros j _. rewrite (Nat.eqb_sym j i). destruct (Nat.eqb i j); ring.
Qed.
Lemma linI_ok n x : U x -> Z.of_nat n = vsize base x -> linU n (linI base x) /\ same n (lsem (linI base x)) (val x).
Proof.
  intros Ux Hn. assert (En : Z.to_nat (vsize base x) = n) by lia. split.
  - split; [exact Ux|]. simpl. rewrite En. split; [reflexivity|]. split; [exact Hn|]. split; [reflexivity|]. intros. reflexivity.
  - intros i Hi. unfold lsem, linI. cbn [l_mat l_var mid mc me]. rewrite En. rewrite (delta_row n (val x) 1 i Hi). ring.
Qed.
Lemma linN_ok n x : U x -> Z.of_nat n = vsize base x -> linU n (linN base x) /\ same n (lsem (linN base x)) (fun i => - val x i)%Q.
Proof.
  intros Ux Hn. assert (En : Z.to_nat (vsize base x) = n) by lia. split.
  - split; [exact Ux|]. simpl. rewrite En. split; [reflexivity|]. split; [exact Hn|]. split; [reflexivity|]. intros i j _ _. simpl. destruct (Nat.eqb i j); reflexivity.
  - intros i Hi. unfold lsem, linN. cbn [l_mat l_var mid mneg mc me]. rewrite En. rewrite <- (Qmult_1_l (val x i)).
    setoid_replace (- (1 * val x i))%Q with (-1 * val x i)%Q by ring. rewrite <- (delta_row n (val x) (-1) i Hi). apply qsumn_ext. intros j _. destruct (Nat.eqb i j); ring.
Qed.
Lemma linS_ok n s x : U x -> Z.of_nat n = vsize base x -> linU n (linS base s x) /\ same n (lsem (linS base s x)) (fun i => s * val x i)%Q.
Proof.
  intros Ux Hn. assert (En : Z.to_nat (vsize base x) = n) by lia. split.
  - split; [exact Ux|]. simpl. rewrite En. split; [reflexivity|]. split; [exact Hn|]. exists s. split; [reflexivity|]. intros i j _ _. simpl. destruct (Nat.eqb i j); ring.
  - intros i Hi. unfold lsem, linS. cbn [l_mat l_var mid mscal mc me]. rewrite En. rewrite <- (delta_row n (val x) s i Hi). apply qsumn_ext. intros j _. destruct (Nat.eqb i j); ring.
Qed.
Lemma lneg_ok n l : linU n l -> linU n (lneg l) /\ forall i, (lsem (lneg l) i == - lsem l i)%Q.
Proof.
  intros (A & B & C & D). split.
  - split; [exact A|]. split; [exact B|]. split; [exact C|]. unfold lneg. simpl. destruct (l_shape l); simpl; auto. destruct D as [D1 D2]. split; [exact D1|].
    intros i j Hi Hj. simpl in *. rewrite (D2 i j Hi Hj). destruct (Nat.eqb i j); reflexivity.
  - intros i. unfold lsem, lneg. cbn [l_mat l_var mneg mc me].
    setoid_replace (- qsumn (fun j => me (l_mat l) i j * val (l_var l) j) (mc (l_mat l)))%Q with (-1 * qsumn (fun j => me (l_mat l) i j * val (l_var l) j) (mc (l_mat l)))%Q by ring.
    rewrite <- qsumn_scale. apply qsumn_ext. intros. ring.
Qed.
Lemma lscal_ok n s l : linU n l -> linU n (lscal s l) /\ forall i, (lsem (lscal s l) i == s * lsem l i)%Q.
Proof.
  intros (A & B & C & D). split.
  - split; [exact A|]. split; [exact B|]. split; [exact C|]. unfold lscal. simpl. destruct (l_shape l); simpl; auto. destruct D as [D1 D2]. exists s. split; [exact D1|].
    intros i j Hi Hj. simpl in *. rewrite (D2 i j Hi Hj). destruct (Nat.eqb i j); ring.
  - intros i. unfold lsem, lscal. cbn [l_mat l_var mscal mc me]. rewrite <- qsumn_scale. apply qsumn_ext. intros. ring.
Qed.
Lemma lmul_ok M l : linU (mc M) l -> exists l', lmul base M l = Some l' /\ linU (mr M) l' /\ forall i, (lsem l' i == qsumn (fun k => me M i k * lsem l k) (mc M))%Q.
Proof.
  intros (A & B & C & D). unfold lmul, mmmul. rewrite B, Nat.eqb_refl. unfold linM. cbn [mc]. rewrite C, Z.eqb_refl. eexists. split; [reflexivity|]. split.
  - split; [exact A|]. split; [reflexivity|]. split; [exact C|exact Logic.I].
  - intros i. unfold lsem. cbn [l_mat l_var mc me].
    transitivity (qsumn (fun j => qsumn (fun k => me M i k * me (l_mat l) k j * val (l_var l) j) (mc M)) (mc (l_mat l)))%Q.
    { apply qsumn_ext. intros j _. unfold qsumn at 1. rewrite <- qsum_scale_r. reflexivity. }
    rewrite qsumn_swap. apply qsumn_ext. intros k _. rewrite <- qsumn_scale. apply qsumn_ext. intros. ring.
Qed.
Lemma lmuls_ok M l : Forall (linU (mc M)) l -> exists l', lmuls base M l = Some l' /\ Forall (linU (mr M)) l' /\ length l' = length l /\
  forall i, (qsum (fun t => lsem t i) l' == qsumn (fun k => me M i k * qsum (fun t => lsem t k) l) (mc M))%Q.
Proof.
  induction 1 as [|t l Ht F (l' & E & F' & Ln & S)].
  - exists []. simpl. split; [reflexivity|]. split; [constructor|]. split; [reflexivity|]. intros i. symmetry. apply qsumn_zero. intros. ring.
  - destruct (lmul_ok M t Ht) as (t' & Et & Ft & St). exists (t' :: l'). simpl. rewrite Et, E. split; [reflexivity|]. split; [constructor; auto|]. split; [congruence|].
    intros i. rewrite St, S, <- qsumn_add. apply qsumn_ext. intros. ring.
Qed.

Lemma oneg_ok n p : oinv n p -> exists r, oneg base p = Some r /\ oinv n r /\ isVar r = false /\ isCst r = isCst p /\ same n (osem r) (fun i => - osem p i)%Q.
Proof.
  destruct p as [x|b|l|a]; intros H; simpl in *; (eexists; split; [reflexivity|]).
  - destruct H. destruct (linN_ok n x) as [A B]; auto.
  - split; [exact H|]. do 2 (split; [reflexivity|]). intros i _. simpl. rewrite !Hcst. simpl. ring.
  - destruct (lneg_ok n l H) as [A B]. split; [exact A|]. do 2 (split; [reflexivity|]). intros i _. apply B.
  - destruct H as (A & B & C). split; [split; [|split]|].
    + simpl. intros E. apply A. destruct (a_lin a); [reflexivity|discriminate].
    + simpl. rewrite Forall_forall in *. intros l Hl. apply in_map_iff in Hl. destruct Hl as (l0 & <- & Hl). apply lneg_ok. auto.
    + simpl. intros b Hb. destruct (a_cst a) as [b'|]; simpl in Hb; [|discriminate]. injection Hb as <-. simpl. apply C. reflexivity.
    + do 2 (split; [reflexivity|]). intros i _. simpl.
      assert (X : (csem (option_map vneg (a_cst a)) i == - csem (a_cst a) i)%Q). { destruct (a_cst a); simpl; [rewrite !Hcst; simpl; ring|reflexivity]. }
      rewrite X. clear -B. assert (Y : (qsum (fun l => lsem l i) (map lneg (a_lin a)) == - qsum (fun l => lsem l i) (a_lin a))%Q).
      { induction B as [|t l Ht F IH]; simpl; [reflexivity|]. rewrite (proj2 (lneg_ok n t Ht)), IH. ring. }
      rewrite Y. ring.
Qed.
Lemma oscal_ok n s p : oinv n p -> (isVar p = true -> ~ (s == 0)%Q) -> exists r, oscal base s p = Some r /\ oinv n r /\ isVar r = false /\ isCst r = isCst p /\ same n (osem r) (fun i => s * osem p i)%Q.
Proof.
  destruct p as [x|b|l|a]; intros H Z; cbn [oscal] in *.
  - destruct (Qeq_bool s 0) eqn:Eb; [apply Qeq_bool_eq in Eb; exfalso; apply Z; auto|]. eexists. split; [reflexivity|]. destruct H. destruct (linS_ok n s x) as [A B]; auto.
  - eexists. split; [reflexivity|]. split; [exact H|]. do 2 (split; [reflexivity|]). intros i _. simpl. rewrite !Hcst. simpl. ring.
  - eexists. split; [reflexivity|]. destruct (lscal_ok n s l H) as [A B]. split; [exact A|]. do 2 (split; [reflexivity|]). intros i _. apply B.
  - eexists. split; [reflexivity|]. destruct H as (A & B & C). split; [split; [|split]|].
    + simpl. intros E. apply A. destruct (a_lin a); [reflexivity|discriminate].
    + simpl. rewrite Forall_forall in *. intros l Hl. apply in_map_iff in Hl. destruct Hl as (l0 & <- & Hl). apply lscal_ok. auto.
    + simpl. intros b Hb. destruct (a_cst a) as [b'|]; simpl in Hb; [|discriminate]. injection Hb as <-. simpl. apply C. reflexivity.
    + do 2 (split; [reflexivity|]). intros i _. simpl.
      assert (X : (csem (option_map (vscal s) (a_cst a)) i == s * csem (a_cst a) i)%Q). { destruct (a_cst a); simpl; [rewrite !Hcst; simpl; ring|ring]. }
      rewrite X. clear -B. assert (Y : (qsum (fun l => lsem l i) (map (lscal s) (a_lin a)) == s * qsum (fun l => lsem l i) (a_lin a))%Q).
      { induction B as [|t l Ht F IH]; simpl; [ring|]. rewrite (proj2 (lscal_ok n s t Ht)), IH. ring. }
      rewrite Y. ring.
Qed.
Lemma omul_ok M p : oinv (mc M) p -> exists r, omul base M p = Some r /\ oinv (mr M) r /\ isVar r = false /\ isCst r = isCst p /\
  same (mr M) (osem r) (fun i => qsumn (fun j => me M i j * osem p j)%Q (mc M)).
Proof.
  destruct p as [x|b|l|a]; intros H; cbn [omul] in *.
  - destruct H as [Ux Hn]. unfold linM. rewrite Hn, Z.eqb_refl. eexists. split; [reflexivity|]. split; [split; [exact Ux|split; [reflexivity|split; [exact Hn|exact Logic.I]]]|].
    do 2 (split; [reflexivity|]). intros i _. reflexivity.
  - unfold mvmul. simpl in H. rewrite H, Nat.eqb_refl. eexists. split; [reflexivity|]. split; [reflexivity|]. do 2 (split; [reflexivity|]). intros i _. simpl. rewrite Hcst. simpl.
    rewrite <- qsumn_scale. apply qsumn_ext. intros. rewrite Hcst. ring.
  - destruct (lmul_ok M l H) as (l' & E & F & S). rewrite E. eexists. split; [reflexivity|]. split; [exact F|]. do 2 (split; [reflexivity|]). intros i _. apply S.
  - destruct H as (A & B & C). destruct (lmuls_ok M _ B) as (l' & E & F & Ln & S). rewrite E.
    assert (Ne : l' <> []) by (intros ->; destruct (a_lin a); [auto|discriminate]).
    destruct (a_cst a) as [b|] eqn:Ec.
    + unfold mvmul. rewrite (C b eq_refl), Nat.eqb_refl. eexists. split; [reflexivity|]. split; [split; [exact Ne|split; [exact F|]]|].
      * simpl. intros b' [= <-]. reflexivity.
      * do 2 (split; [reflexivity|]). intros i _. cbn [osem a_cst a_lin]. rewrite Ec. cbn [csem]. rewrite S.
        assert (Y : (qsumn (fun j => me M i j * (cst b j + qsum (fun l => lsem l j) (a_lin a))) (mc M) == qsumn (fun j => me M i j * (c0 * ve b j) + me M i j * qsum (fun l => lsem l j) (a_lin a)) (mc M))%Q) by (apply qsumn_ext; intros; rewrite Hcst; ring).
        rewrite Y. clear Y.
        rewrite qsumn_add. apply Qplus_comp; [|reflexivity]. rewrite Hcst. cbn [ve]. rewrite <- qsumn_scale. apply qsumn_ext. intros. ring.
    + simpl. eexists. split; [reflexivity|]. split; [split; [exact Ne|split; [exact F|]]|].
      * simpl. intros b' [=].
      * do 2 (split; [reflexivity|]). intros i _. cbn [osem a_cst a_lin]. rewrite Ec. cbn [csem]. rewrite S, Qplus_0_l. apply qsumn_ext. intros. ring.
Qed.
Lemma cadd_ok n a b : (forall v, a = Some v -> vn v = n) -> (forall v, b = Some v -> vn v = n) -> exists c, cadd a b = Some c /\ (forall v, c = Some v -> vn v = n) /\
  forall i, (csem c i == csem a i + csem b i)%Q.
Proof.
  intros A B. destruct a as [u|]; [destruct b as [w|]|]; simpl.
  - unfold vadd. rewrite (A u eq_refl), (B w eq_refl), Nat.eqb_refl. eexists. split; [reflexivity|]. split; [intros v [= <-]; reflexivity|]. intros i. simpl. rewrite !Hcst. simpl. ring.
  - eexists. split; [reflexivity|]. split; [exact A|]. intros i. simpl. ring.
  - eexists. split; [reflexivity|]. split; [exact B|]. intros i. ring.
Qed.
Lemma oadd'_ok n p q : oinv n p -> oinv n q -> isVar p = false -> isVar q = false ->
  exists r, oadd' p q = Some r /\ oinv n r /\ isVar r = false /\ isCst r = isCst p && isCst q /\ same n (osem r) (fun i => osem p i + osem q i)%Q.
Proof.
  intros P Q0 Vp Vq. destruct p as [x|b|l|a]; [discriminate|..]; (destruct q as [x'|b'|l'|a']; [discriminate|..]); cbn [oadd' oinv isVar isCst andb] in *.
  - unfold vadd. rewrite P, Q0, Nat.eqb_refl. eexists. split; [reflexivity|]. split; [reflexivity|]. do 2 (split; [reflexivity|]). intros i _. simpl. rewrite !Hcst. simpl. ring.
  - eexists. split; [reflexivity|]. split; [split; [discriminate|split; [constructor; [exact Q0|constructor]|intros v [= <-]; exact P]]|]. do 2 (split; [reflexivity|]). intros i _. simpl. ring.
  - destruct Q0 as (A & B & C). destruct (cadd_ok n (Some b) (a_cst a')) as (c & E & F & S); [intros v [= <-]; exact P|exact C|]. rewrite E.
    eexists. split; [reflexivity|]. split; [split; [exact A|split; [exact B|exact F]]|]. do 2 (split; [reflexivity|]). intros i _. cbn [osem a_cst a_lin]. rewrite S. simpl. ring.
  - eexists. split; [reflexivity|]. split; [split; [discriminate|split; [constructor; [exact P|constructor]|intros v [= <-]; exact Q0]]|]. do 2 (split; [reflexivity|]). intros i _. simpl. ring.
  - eexists. split; [reflexivity|]. split; [split; [discriminate|split; [constructor; [exact P|constructor; [exact Q0|constructor]]|intros v [=]]]|]. do 2 (split; [reflexivity|]). intros i _. simpl. ring.
  - destruct Q0 as (A & B & C). eexists. split; [reflexivity|]. split; [split; [discriminate|split; [constructor; [exact P|exact B]|exact C]]|]. do 2 (split; [reflexivity|]). intros i _. simpl. ring.
  - destruct P as (A & B & C). destruct (cadd_ok n (a_cst a) (Some b')) as (c & E & F & S); [exact C|intros v [= <-]; exact Q0|]. rewrite E.
    eexists. split; [reflexivity|]. split; [split; [exact A|split; [exact B|exact F]]|]. do 2 (split; [reflexivity|]). intros i _. cbn [osem a_cst a_lin]. rewrite S. simpl. ring.
  - destruct P as (A & B & C). eexists. split; [reflexivity|]. split; [split; [|split; [apply Forall_app; split; [exact B|constructor; [exact Q0|constructor]]|exact C]]|].
    + simpl. intros E. apply app_eq_nil in E. apply A, E.
    + do 2 (split; [reflexivity|]). intros i _. cbn [osem a_cst a_lin]. rewrite qsum_app. simpl. ring.
  - destruct P as (A & B & C), Q0 as (A' & B' & C'). destruct (cadd_ok n (a_cst a) (a_cst a')) as (c & E & F & S); [exact C|exact C'|]. rewrite E.
    eexists. split; [reflexivity|]. split; [split; [|split; [apply Forall_app; split; [exact B|exact B']|exact F]]|].
    + simpl. intros E'. apply app_eq_nil in E'. apply A, E'.
    + do 2 (split; [reflexivity|]). intros i _. cbn [osem a_cst a_lin]. rewrite S, qsum_app. ring.
Qed.
Lemma same_trans n f g h : same n f g -> same n g h -> same n f h.
Proof. intros A B i Hi. rewrite (A i Hi). apply B, Hi. Qed.
(* a variable as a LinearExpr *)
Definition asLin (p : operand) : operand := match p with PVar x => PLin (linI base x) | _ => p end.
Lemma asLin_ok n p : oinv n p -> oinv n (asLin p) /\ isVar (asLin p) = false /\ isCst (asLin p) = isCst p /\ same n (osem (asLin p)) (osem p).
Proof.
  destruct p as [x|b|l|a]; simpl; intros H.
  - destruct H as [A B]. destruct (linI_ok n x A B). auto.
  - split; [auto|]. do 2 (split; [auto|]). intros i _. reflexivity.
  - split; [auto|]. do 2 (split; [auto|]). intros i _. reflexivity.
  - split; [auto|]. do 2 (split; [auto|]). intros i _. reflexivity.
Qed.
Lemma oadd_ok n p q : oinv n p -> oinv n q ->
  exists r, oadd base p q = Some r /\ oinv n r /\ isVar r = false /\ isCst r = isCst p && isCst q /\ same n (osem r) (fun i => osem p i + osem q i)%Q.
Proof.
  intros P Q0. assert (E : oadd base p q = oadd' (asLin p) (asLin q)) by (destruct p, q; reflexivity). rewrite E.
  destruct (asLin_ok n p P) as (A1 & A2 & A3 & A4), (asLin_ok n q Q0) as (B1 & B2 & B3 & B4).
  destruct (oadd'_ok n _ _ A1 B1 A2 B2) as (r & R1 & R2 & R3 & R4 & R5). exists r. split; [exact R1|]. split; [exact R2|]. split; [exact R3|]. split; [congruence|].
  intros i Hi. rewrite (R5 i Hi), (A4 i Hi), (B4 i Hi). reflexivity.
Qed.
Lemma osub_ok n p q : oinv n p -> oinv n q -> (isCst p = true -> isCst q = true \/ isVar q = true) ->
  exists r, osub base p q = Some r /\ oinv n r /\ isVar r = false /\ isCst r = isCst p && isCst q /\ same n (osem r) (fun i => osem p i - osem q i)%Q.
Proof.
  intros P Q0 H. destruct (oneg_ok n q Q0) as (q' & N1 & N2 & N3 & N4 & N5).
  assert (E : osub base p q = oadd' (asLin p) q').
  { destruct p, q; cbn [osub oneg asLin] in *; try (injection N1 as <-; reflexivity); destruct (H eq_refl); discriminate. }
  rewrite E. destruct (asLin_ok n p P) as (A1 & A2 & A3 & A4).
  destruct (oadd'_ok n _ _ A1 N2 A2 N3) as (r & R1 & R2 & R3 & R4 & R5). exists r. split; [exact R1|]. split; [exact R2|]. split; [exact R3|]. split; [congruence|].
  intros i Hi. rewrite (R5 i Hi), (A4 i Hi), (N5 i Hi). ring.
Qed.

Lemma build_ok e n : fits base e n -> (forall x, In x (vars e) -> U x) ->
  exists p, build base e = Some p /\ oinv n p /\ (isVar p = true <-> exists x, e = EVar x) /\ (isCst p = true <-> vars e = []) /\ same n (osem p) (meaning val cst e).
Proof.
  assert (NV : forall r e, isVar r = false -> (forall x, e <> EVar x) -> (isVar r = true <-> exists x, e = EVar x)).
  { intros r e' A B. split; [congruence|intros (x & E); exfalso; eapply B; eauto]. }
  induction 1 as [x|b|e n F IH|s e n F IH Hs|M e F IH|e f n F IH F' IH'|e f n F IH F' IH' Hk]; intros Hu; cbn [build].
  - exists (PVar x). split; [reflexivity|]. split.
    { simpl. assert (U x) as Ux by (apply Hu; left; reflexivity). split; [exact Ux|]. pose proof (Upos x Ux). unfold vsize in *. lia. }
    split; [simpl; split; [intros _; eauto|reflexivity]|]. split; [simpl; split; discriminate|]. intros i _. reflexivity.
  - exists (PCst b). split; [reflexivity|]. split; [reflexivity|]. split; [simpl; split; [discriminate|intros (x & E); discriminate]|]. split; [simpl; tauto|]. intros i _. reflexivity.
  - destruct (IH Hu) as (p & E & O & V & C & S). rewrite E. destruct (oneg_ok n p O) as (r & R1 & R2 & R3 & R4 & R5). exists r.
    split; [exact R1|]. split; [exact R2|]. split; [apply NV; [exact R3|discriminate]|]. split; [rewrite R4; exact C|]. intros i Hi. rewrite (R5 i Hi), (S i Hi). reflexivity.
  - destruct (IH Hu) as (p & E & O & V & C & S). rewrite E. destruct (oscal_ok n s p O) as (r & R1 & R2 & R3 & R4 & R5); [intros Hv; apply Hs, V, Hv|]. exists r.
    split; [exact R1|]. split; [exact R2|]. split; [apply NV; [exact R3|discriminate]|]. split; [rewrite R4; exact C|]. intros i Hi. rewrite (R5 i Hi), (S i Hi). reflexivity.
  - destruct (IH Hu) as (p & E & O & V & C & S). rewrite E. destruct (omul_ok M p O) as (r & R1 & R2 & R3 & R4 & R5). exists r.
    split; [exact R1|]. split; [exact R2|]. split; [apply NV; [exact R3|discriminate]|]. split; [rewrite R4; exact C|]. intros i Hi. rewrite (R5 i Hi). simpl. apply qsumn_ext. intros j Hj. rewrite (S j Hj). reflexivity.
  - destruct IH as (p & E & O & V & C & S); [intros x Hx; apply Hu; simpl; apply in_or_app; auto|]. destruct IH' as (q & E' & O' & V' & C' & S'); [intros x Hx; apply Hu; simpl; apply in_or_app; auto|].
    rewrite E, E'. destruct (oadd_ok n p q O O') as (r & R1 & R2 & R3 & R4 & R5). exists r.
    split; [exact R1|]. split; [exact R2|]. split; [apply NV; [exact R3|discriminate]|]. split.
    { rewrite R4, andb_true_iff, C, C'. simpl. split; [intros [-> ->]; reflexivity|apply app_eq_nil]. }
    intros i Hi. rewrite (R5 i Hi), (S i Hi), (S' i Hi). reflexivity.
  - destruct IH as (p & E & O & V & C & S); [intros x Hx; apply Hu; simpl; apply in_or_app; auto|]. destruct IH' as (q & E' & O' & V' & C' & S'); [intros x Hx; apply Hu; simpl; apply in_or_app; auto|].
    rewrite E, E'. destruct (osub_ok n p q O O') as (r & R1 & R2 & R3 & R4 & R5).
    { intros Hp. destruct (Hk (proj1 C Hp)) as [H|H]; [left; apply C', H|right; apply V', H]. }
    exists r. split; [exact R1|]. split; [exact R2|]. split; [apply NV; [exact R3|discriminate]|]. split.
    { rewrite R4, andb_true_iff, C, C'. simpl. split; [intros [-> ->]; reflexivity|apply app_eq_nil]. }
    intros i Hi. rewrite (R5 i Hi), (S i Hi), (S' i Hi). reflexivity.
Qed.
End Build.

(* an expression keeps its variables *)
Definition termsOf (p : operand) : list cvar := match p with PVar x => [x] | PCst _ => [] | PLin l => [l_var l] | PAff a => map l_var (a_lin a) end.
Lemma lmuls_vars base M : forall l l', lmuls base M l = Some l' -> map l_var l' = map l_var l.
Proof.
  induction l as [|t l IH]; intros l' H; simpl in H; [injection H as <-; reflexivity|].
  unfold lmul, linM in H. destruct (mmmul M (l_mat t)); [|discriminate]. destruct (Z.eqb _ _); [|discriminate]. destruct (lmuls base M l); [|discriminate]. injection H as <-. simpl. f_equal. auto.
Qed.
Lemma build_vars base : forall e p, build base e = Some p -> termsOf p = vars e.
Proof.
  assert (LN : forall l, map l_var (map lneg l) = map l_var l) by (induction l; simpl; congruence).
  assert (LS : forall s l, map l_var (map (lscal s) l) = map l_var l) by (induction l; simpl; congruence).
  assert (N : forall p r, oneg base p = Some r -> termsOf r = termsOf p).
  { intros [x|b|l|a] r H; simpl in H; injection H as <-; simpl; auto. }
  assert (A : forall p q r, oadd' p q = Some r -> termsOf r = termsOf p ++ termsOf q).
  { intros [x|b|l|a] [x'|b'|l'|a'] r H; cbn [oadd' option_map] in H; try discriminate; try (injection H as <-; simpl; rewrite ?app_nil_r, ?map_app; reflexivity).
    all: try (destruct (vadd _ _); [|discriminate]; injection H as <-; reflexivity).
    all: destruct (cadd _ _); [|discriminate]; injection H as <-; simpl; rewrite ?app_nil_r, ?map_app; reflexivity. }
  assert (AL : forall p, termsOf (asLin base p) = termsOf p) by (intros [x|b|l|a]; reflexivity).
  induction e as [x|b|e IH|s e IH|M e IH|e IH f IH'|e IH f IH']; intros p H; cbn [build vars] in *.
  - injection H as <-. reflexivity.
  - injection H as <-. reflexivity.
  - destruct (build base e) as [r|]; [|discriminate]. rewrite (N _ _ H). auto.
  - destruct (build base e) as [r|]; [|discriminate]. rewrite <- (IH r eq_refl). destruct r as [x|b|l|a]; simpl in H; try (injection H as <-; simpl; auto). destruct (Qeq_bool s 0); [discriminate|]. injection H as <-. reflexivity.
  - destruct (build base e) as [r|]; [|discriminate]. rewrite <- (IH r eq_refl). destruct r as [x|b|l|a]; cbn [omul option_map] in H.
    + unfold linM in H. destruct (Z.eqb _ _); [|discriminate]. injection H as <-. reflexivity.
    + destruct (mvmul M b); [|discriminate]. injection H as <-. reflexivity.
    + unfold lmul, linM in H. destruct (mmmul _ _); [|discriminate]. destruct (Z.eqb _ _); [|discriminate]. injection H as <-. reflexivity.
    + destruct (a_cst a) as [b|]; [destruct (mvmul M b); [|discriminate]|]; (destruct (lmuls base M (a_lin a)) as [l'|] eqn:E; [|discriminate]); injection H as <-; simpl; exact (lmuls_vars _ _ _ _ E).
  - destruct (build base e) as [r|]; [|discriminate]. destruct (build base f) as [q|]; [|discriminate]. rewrite <- (IH r eq_refl), <- (IH' q eq_refl).
    assert (E : oadd base r q = oadd' (asLin base r) (asLin base q)) by (destruct r, q; reflexivity). rewrite E in H. rewrite (A _ _ _ H), !AL. reflexivity.
  - destruct (build base e) as [r|]; [|discriminate]. destruct (build base f) as [q|]; [|discriminate]. rewrite <- (IH r eq_refl), <- (IH' q eq_refl).
    destruct r as [x|b|l|a], q as [x'|b'|l'|a']; cbn [osub] in H; try discriminate; try (rewrite (A _ _ _ H); simpl; rewrite ?LN; reflexivity).
    destruct (vadd _ _); [|discriminate]. injection H as <-. reflexivity.
Qed.
