Require Import QArith ZArith List Bool Lia Arith.
Require Import Verif.Base Verif.QSum Verif.RangeModel Verif.SpaceModel Verif.VarCountingModel Verif.LinFunModel Verif.LinFunSpec Verif.BlcModel Verif.BlcSpec Verif.BlcProofs.
Import ListNotations.
Local Open Scope Z_scope.

Section Blc.
Variables (base : nat -> bool) (V : nat -> cvar).
Notation binv := (binv base V). Notation sane x := (sane base (V x)).

Definition fine (n : nat) (A : mat) (x : nat) : Prop := matrix_for base n A (V x) /\ ~ curved base (V x).
Definition keys (c : blc) : list nat := map fst (b_jac c).
Definition sameHead (c c' : blc) : Prop := b_type c' = b_type c /\ b_rhs c' = b_rhs c /\ b_size c' = b_size c /\ b_l c' = b_l c /\ b_u c' = b_u c /\ b_e c' = b_e c.

Lemma fine_cols n A x : sane x -> fine n A x -> Z.of_nat (mc A) = tSize (c_space (V x)).
Proof. intros S [[_ B] N]. pose proof (sane_flat base _ S N) as P. destruct (plain_size base _ P) as [E _]. unfold vsize in E. rewrite <- E. exact B. Qed.

Definition stored (n : nat) (A : mat) (x : nat) : nat * bjac := (x, mkBJ n (tSize (c_space (V x))) (Some A) constP).
Lemma blcAdd_ok c A x : binv c -> sane x -> fine (b_size c) A x ->
  (In x (keys c) -> blcAdd base V c A x = Ok (withJac c (map (upd x A constP) (b_jac c))) /\ binv (withJac c (map (upd x A constP) (b_jac c)))) /\
  (~ In x (keys c) -> (forall y, In y (keys c) -> apart base (V y) (V x)) ->
     blcAdd base V c A x = Ok (withJac c (b_jac c ++ [stored (b_size c) A x])) /\ binv (withJac c (b_jac c ++ [stored (b_size c) A x]))).
Proof.
  intros I S F. pose proof (fine_cols _ A x S F) as HC. destruct (F) as [[HR HB] N]. unfold blcAdd.
  assert (E1 : negb (isEuclideanS (c_space (V x))) && base (c_sup (V x)) = false) by (apply not_true_is_false; rewrite (curved_test base _ S); exact N).
  rewrite E1, HR, Nat.eqb_refl. cbn [negb]. fold (vsize base (V x)) in HB. rewrite HB, Z.eqb_refl. cbn [negb].
  pose proof (addVar_spec base V c x I (sane_pos base _ S)) as H. split.
  - intros Hi. unfold addVar, vecAdd.
    replace (existsb (fun y => vcont base (V y) (V x)) (map fst (b_jac c))) with true.
    2:{ symmetry. apply existsb_exists. exists x. split; [exact Hi|]. apply vcont_inside; try apply sane_pos; auto. apply inside_refl. }
    cbn [bind]. assert (K : setJac c x A constP = Ok (withJac c (map (upd x A constP) (b_jac c)))) by (apply (setJac_ok base V); auto).
    split; [exact K|]. apply (setJac_inv base V c x A constP _ I K).
  - intros Hn Ha. destruct (addVar base V c x) as [c'| |]; [|exfalso; destruct H as [_ (y & Hy & Hna)]; apply Hna, Ha, Hy|destruct H].
    destruct H as [I' [[_ (y & Hy & Hin)]|(-> & _ & _)]].
    { exfalso. apply (inside_not_apart base (V y) (V x)); auto. apply sane_pos, S. }
    cbn [bind]. set (c1 := withJac c (b_jac c ++ [(x, mkBJ (b_size c) (tSize (c_space (V x))) None dfltP)])) in *.
    assert (K : setJac c1 x A constP = Ok (withJac c1 (map (upd x A constP) (b_jac c1)))).
    { apply (setJac_ok base V); auto. unfold c1. cbn [withJac b_jac]. rewrite map_app. apply in_or_app. right. left. reflexivity. }
    assert (Eq : withJac c1 (map (upd x A constP) (b_jac c1)) = withJac c (b_jac c ++ [stored (b_size c) A x])).
    { unfold c1, withJac. cbn [b_type b_rhs b_size b_jac b_l b_u b_e]. f_equal. rewrite map_app. rewrite upd_other by exact Hn. f_equal. cbn [map]. f_equal.
      unfold upd, stored. cbn [fst snd]. rewrite Nat.eqb_refl. reflexivity. }
    split; [rewrite K, Eq; reflexivity|]. rewrite <- Eq. apply (setJac_inv base V c1 x A constP _ I' K).
Qed.
Lemma blcAdd_bad c A x : binv c -> sane x -> ~ (fine (b_size c) A x /\ (In x (keys c) \/ forall y, In y (keys c) -> apart base (V y) (V x))) -> blcAdd base V c A x = Throw.
Proof.
  intros I S B. unfold blcAdd. destruct (negb (isEuclideanS (c_space (V x))) && base (c_sup (V x))) eqn:E1; [reflexivity|].
  destruct (Nat.eqb_spec (mr A) (b_size c)) as [ER|_]; [cbn [negb]|reflexivity].
  destruct (Z.eqb_spec (Z.of_nat (mc A)) (vsize base (V x))) as [EC|_]; [cbn [negb]|reflexivity].
  assert (F : fine (b_size c) A x). { split; [split; [exact ER|exact EC]|]. intros C. apply (curved_test base _ S) in C. congruence. }
  pose proof (addVar_spec base V c x I (sane_pos base _ S)) as H. destruct (addVar base V c x) as [c'| |]; [cbn [bind]|reflexivity|destruct H].
  destruct H as [I' [[-> _]|(-> & Ha & Hn)]].
  - unfold setJac. rewrite assign_throw; [reflexivity|]. intros Hi. apply B. auto.
  - exfalso. apply B. split; [exact F|]. right. exact Ha.
Qed.

(* the last matrix given for a variable *)
Definition lastOf (l : list (mat * nat)) (x : nat) (A : mat) : Prop := exists a b, l = a ++ (A, x) :: b /\ ~ In x (map snd b).
Lemma lastOf_same l A x : lastOf (l ++ [(A, x)]) x A.
Proof. exists l, []. split; [reflexivity|intros []]. Qed.
Lemma lastOf_other l A x y B : y <> x -> lastOf l y B -> lastOf (l ++ [(A, x)]) y B.
Proof.
  intros Ne (a & b & -> & Hb). exists a, (b ++ [(A, x)]). rewrite <- app_assoc. split; [reflexivity|]. rewrite map_app. cbn. intros Hi.
  apply in_app_or in Hi. destruct Hi as [Hi|[Hi|[]]]; auto.
Qed.
(* the state after the terms [done] *)
Record ainv (c0 : blc) (done : list (mat * nat)) (c : blc) : Prop := mkA {
  a_inv : binv c;
  a_head : sameHead c0 c;
  a_keys : forall x, In x (keys c) <-> In x (map snd done);
  a_mat : forall x J, In (x, J) (b_jac c) -> exists A, lastOf done x A /\ J = mkBJ (b_size c0) (tSize (c_space (V x))) (Some A) constP }.
Definition sep (done : list (mat * nat)) (x : nat) : Prop := In x (map snd done) \/ (forall y, In y (map snd done) -> apart base (V y) (V x)).
Lemma ainv_step c0 done c A x : ainv c0 done c -> sane x -> fine (b_size c0) A x -> sep done x ->
  exists c', blcAdd base V c A x = Ok c' /\ ainv c0 (done ++ [(A, x)]) c'.
Proof.
  intros [I [H1 [H2 [H3 [H4 [H5 H6]]]]] K M] S F Sp. rewrite <- H3 in F. destruct (blcAdd_ok c A x I S F) as [Ho Hn].
  destruct (in_dec Nat.eq_dec x (keys c)) as [Hi|Hi].
  - destruct (Ho Hi) as [E I']. eexists. split; [exact E|]. constructor; [exact I'|unfold sameHead; cbn; auto 8| |].
    + intros y. unfold keys at 1. cbn [withJac b_jac]. rewrite upd_keys, map_app, in_app_iff. cbn. rewrite <- K. split; [auto|intros [H|[<-|[]]]; auto].
    + intros y J Hy. cbn [withJac b_jac] in Hy. apply in_map_iff in Hy. destruct Hy as ([z Kz] & Ez & Hz). destruct (M z Kz Hz) as (B & HB & EB). unfold upd in Ez. cbn [fst snd] in Ez.
      destruct (Nat.eqb_spec z x) as [->|Ne]; injection Ez as <- <-.
      * exists A. split; [apply lastOf_same|]. rewrite EB. reflexivity.
      * exists B. split; [apply lastOf_other; auto|exact EB].
  - assert (Ha : forall y, In y (keys c) -> apart base (V y) (V x)).
    { destruct Sp as [Sp|Sp]; [exfalso; apply Hi, K, Sp|]. intros y Hy. apply Sp, K, Hy. }
    destruct (Hn Hi Ha) as [E I']. eexists. split; [exact E|]. constructor; [exact I'|unfold sameHead; cbn; auto 8| |].
    + intros y. unfold keys at 1. cbn [withJac b_jac]. rewrite !map_app, !in_app_iff. fold (keys c). rewrite K. reflexivity.
    + intros y J Hy. cbn [withJac b_jac] in Hy. apply in_app_or in Hy. destruct Hy as [Hy|[Hy|[]]].
      * destruct (M y J Hy) as (B & HB & EB). exists B. split; [|exact EB]. apply lastOf_other; [|exact HB]. intros ->. apply Hi. apply (in_map fst) in Hy. exact Hy.
      * unfold stored in Hy. injection Hy as <- <-. exists A. split; [apply lastOf_same|]. rewrite H3. reflexivity.
Qed.
Lemma ainv_bad c0 done c A x : ainv c0 done c -> sane x -> ~ (fine (b_size c0) A x /\ sep done x) -> blcAdd base V c A x = Throw.
Proof.
  intros [I [H1 [H2 [H3 [H4 [H5 H6]]]]] K M] S B. apply blcAdd_bad; auto. rewrite H3. intros [F Sp]. apply B. split; [exact F|].
  destruct Sp as [Sp|Sp]; [left; apply K, Sp|right; intros y Hy; apply Sp, K, Hy].
Qed.
Definition okTerms (n : nat) (done l : list (mat * nat)) : Prop :=
  forall a A x b, l = a ++ (A, x) :: b -> fine n A x /\ sep (done ++ a) x.
Lemma okTerms_cons n done A x l : okTerms n done ((A, x) :: l) <-> (fine n A x /\ sep done x) /\ okTerms n (done ++ [(A, x)]) l.
Proof.
  split.
  - intros H. split; [rewrite <- (app_nil_r done); apply (H [] A x l eq_refl)|]. intros a B y b ->. rewrite <- app_assoc. apply (H ((A, x) :: a) B y b eq_refl).
  - intros [H1 H2] a B y b E. destruct a as [|t a]; cbn in E.
    + injection E as <- <- <-. rewrite app_nil_r. exact H1.
    + injection E as <- E. specialize (H2 a B y b E). rewrite <- app_assoc in H2. exact H2.
Qed.
Lemma adds_spec c0 : forall l done c, ainv c0 done c -> Forall (fun t => sane (snd t)) l ->
  (okTerms (b_size c0) done l -> exists c', blcAdds base V c l = Ok c' /\ ainv c0 (done ++ l) c') /\
  (forall c', blcAdds base V c l = Ok c' -> okTerms (b_size c0) done l /\ ainv c0 (done ++ l) c') /\ blcAdds base V c l <> UB.
Proof.
  induction l as [|[A x] l IH]; intros done c I S.
  - cbn [blcAdds]. rewrite app_nil_r. split; [intros _; exists c; auto|]. split; [|discriminate]. intros c' [= <-]. split; [|exact I]. intros [|t a] B y b E; discriminate.
  - inversion S as [|? ? S1 S2]; subst. cbn [snd] in S1. cbn [blcAdds].
    assert (Dec : (fine (b_size c0) A x /\ sep done x) \/ ~ (fine (b_size c0) A x /\ sep done x)).
    { assert (D1 : fine (b_size c0) A x \/ ~ fine (b_size c0) A x).
      { destruct (Nat.eq_dec (mr A) (b_size c0)) as [E1|E1]; [|right; intros [[? _] _]; congruence].
        destruct (Z.eq_dec (Z.of_nat (mc A)) (vsize base (V x))) as [E2|E2]; [|right; intros [[_ ?] _]; apply E2; assumption].
        destruct (negb (isEuclideanS (c_space (V x))) && base (c_sup (V x))) eqn:C.
        - right. intros [_ N]. apply N. apply (curved_test base _ S1). exact C.
        - left. split; [split; [exact E1|exact E2]|]. intros N. apply (curved_test base _ S1) in N. congruence. }
      destruct D1 as [D1|D1]; [|right; intros [? _]; auto].
      destruct I as [J _ K _]. pose proof (vecAdd_spec base V (keys c) x (i_pos _ _ _ J) (sane_pos base _ S1)) as Hv.
      destruct (in_dec Nat.eq_dec x (map snd done)) as [Hi|Hi]; [left; split; [exact D1|left; exact Hi]|].
      destruct (vecAdd base V (keys c) x) as [[|]| |].
      - left. split; [exact D1|]. right. intros y Hy. apply Hv, K, Hy.
      - right. intros [_ [Sp|Sp]]; [auto|]. destruct Hv as (y & Hy & Hin). apply (inside_not_apart base (V y) (V x)); [apply sane_pos, S1|exact Hin|]. apply Sp, K, Hy.
      - right. intros [_ [Sp|Sp]]; [auto|]. destruct Hv as (_ & y & Hy & Hna). apply Hna, Sp, K, Hy.
      - destruct Hv. }
    destruct Dec as [D|D].
    + destruct (ainv_step c0 done c A x I S1 (proj1 D) (proj2 D)) as (c1 & E & I1). rewrite E. cbn [bind]. destruct (IH (done ++ [(A, x)]) c1 I1 S2) as (P1 & P2 & P3).
      rewrite <- app_assoc in P1, P2. cbn [app] in P1, P2. rewrite okTerms_cons. split; [|split; [|exact P3]].
      * intros [_ H]. apply P1, H.
      * intros c' E'. destruct (P2 c' E') as [Q1 Q2]. split; [apply okTerms_cons; split; [exact D|exact Q1]|exact Q2].
    + rewrite (ainv_bad c0 done c A x I S1 D). cbn [bind]. rewrite okTerms_cons. split; [intros [H _]; contradiction|]. split; discriminate.
Qed.
End Blc.
