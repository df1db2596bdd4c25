Require Import QArith ZArith List Bool Lia Arith.
Require Import Verif.Base Verif.QSum Verif.RangeModel Verif.SpaceModel Verif.VarCountingModel Verif.LinFunModel Verif.LinFunSpec Verif.BlcModel Verif.BlcSpec Verif.BlcProofs Verif.BlcProofs2 Verif.BlcProofs3 Verif.BlcProofs4 Verif.BlcProofs5.
Import ListNotations.
Local Open Scope Z_scope.

Section Blc.
Variables (base : nat -> bool) (V : nat -> cvar).

Lemma accepts k : (forall x, In x (k_vars k) -> plain base (V x) \/ (curved base (V x) /\ 0 < rSize (c_space (V x)))) -> (allocates k \/ k_mats k <> []) ->
  ((exists c, construct base V k = Ok c) \/ construct base V k = Throw) /\ ((exists c, construct base V k = Ok c) <-> proper base V k).
Proof.
  intros S N. destruct (construct_spec base V k) as (P1 & P2 & P3); [apply Forall_forall; exact S|exact N|]. split.
  - destruct (construct base V k); [left; eauto|right; reflexivity|congruence].
  - split; [intros (c & E); apply (P2 c E)|exact P1].
Qed.
Lemma constructed k c : (forall x, In x (k_vars k) -> plain base (V x)) -> (allocates k \/ k_mats k <> []) -> construct base V k = Ok c -> kinv base V k c.
Proof. intros S N E. destruct (construct_spec base V k) as (_ & P2 & _); [apply Forall_forall; intros x Hx; left; auto|exact N|]. apply (P2 c E). Qed.
Lemma kinv_keys k c : kinv base V k c -> forall x, In x (keys c) -> In x (k_vars k).
Proof.
  intros (_ & _ & _ & _ & _ & _ & K1 & K2 & _) x Hx. destruct k; cbn [allocates] in *; [apply K2|apply K2|apply K2|apply K1]; auto.
Qed.
Lemma not_empty k c : construct base V k = Ok c -> allocates k \/ k_mats k <> [].
Proof. destruct k as [[|A As] xs t|[|A As] xs b t r|[|A As] xs l u r|m xs t r]; cbn; try discriminate; intros _; auto; right; discriminate. Qed.

Lemma variables k c : (forall x, In x (k_vars k) -> plain base (V x)) -> construct base V k = Ok c ->
  NoDup (map fst (b_jac c)) /\ (forall x y, In x (map fst (b_jac c)) -> In y (map fst (b_jac c)) -> x <> y -> apart base (V x) (V y)) /\
  (forall x, In x (map fst (b_jac c)) -> In x (k_vars k)) /\ (forall x, In x (k_vars k) -> exists y, In y (map fst (b_jac c)) /\ inside base (V x) (V y)) /\
  (~ allocates k -> forall x, In x (k_vars k) -> In x (map fst (b_jac c))).
Proof.
  intros S E. pose proof (constructed k c S (not_empty k c E) E) as K. pose proof (kinv_keys k c K) as Kk. destruct K as ([I1 I2 I3 I4] & _ & _ & _ & _ & _ & K1 & K2 & _).
  split; [exact I1|]. split; [exact I4|]. split; [exact Kk|].
  assert (Ka : ~ allocates k -> forall x, In x (k_vars k) -> In x (map fst (b_jac c))) by (intros N x Hx; apply (K2 N), Hx). split; [|exact Ka].
  intros x Hx. destruct k; cbn [allocates] in *; [exists x; split; [apply Ka; auto|apply inside_refl]..|apply K1; auto].
Qed.

Lemma k_props_ok k A0 : (allocates k -> A0 = None) -> (~ allocates k -> A0 <> None) -> p0 A0 = k_props k.
Proof. intros H1 H2. destruct k; cbn [allocates k_props] in *; destruct A0 as [A|]; cbn; try reflexivity; try (exfalso; apply H2; auto; fail). specialize (H1 Logic.I). discriminate. Qed.

Lemma history k c ops : (forall x, In x (k_vars k) -> plain base (V x)) -> construct base V k = Ok c ->
  exists c' fl, brun base V c ops = Ok (c', fl) /\ hinv base V k (map fst (b_jac c)) ops c' /\
    Forall2 (fun o f => f = true <-> allowed base V (k_type k) (k_rhs k) (k_rows k) (map fst (b_jac c)) o) ops fl.
Proof.
  intros S E. pose proof (constructed k c S (not_empty k c E) E) as K. apply (run_spec base V k (keys c)) with (done := []).
  - apply Forall_forall. intros x Hx. apply S, (kinv_keys k c K), Hx.
  - apply kinv_hinv; auto.
Qed.
(* a matrix stored has the sizes of its entry *)
Lemma latest_sized k vs x A0 ops w : latest (gives_matrix base V (k_rows k) vs x) A0 ops w -> (forall A, fst A0 = Some A -> matrix_for base (k_rows k) A (V x)) ->
  forall A, fst w = Some A -> matrix_for base (k_rows k) A (V x).
Proof.
  intros L H A E. destruct L as [|before o after v G _]; [apply H, E|]. destruct o; cbn in G; try contradiction.
  - destruct G as (_ & _ & Mf & ->). cbn in E. injection E as <-. exact Mf.
  - destruct G as (_ & Mf & ->). cbn in E. injection E as <-. exact Mf.
Qed.
Lemma initially_sized k x A c : (forall x, In x (k_vars k) -> plain base (V x)) -> construct base V k = Ok c -> initially k x (Some A) -> matrix_for base (k_rows k) A (V x).
Proof.
  intros S E I. destruct (accepts k) as [_ P]; [intros y Hy; left; auto|eapply not_empty; exact E|]. assert (Pr : proper base V k) by (apply P; eauto). clear P.
  inversion I as [|a B b xa xb Ea Ex L Nx]; subst.
  assert (F : Forall2 (fun A x => matrix_for base (k_rows k) A (V x) /\ ~ curved base (V x)) (k_mats k) (k_vars k)).
  { destruct k; cbn [proper] in Pr; [apply Pr|apply Pr|apply Pr|]. cbn in Ea. destruct a; discriminate. }
  rewrite Ea, Ex in F. apply Forall2_app_inv_l in F. destruct F as (l1 & l2 & F1 & F2 & Eq). 
  assert (Ll : length l1 = length xa). { rewrite <- L. clear - F1. induction F1; cbn; congruence. }
  assert (Eq2 : xa = l1 /\ x :: xb = l2). { clear - Eq Ll. revert l1 Eq Ll. induction xa as [|z xa IH]; intros [|y l1] Eq Ll; try discriminate; [auto|]. cbn in Eq. injection Eq as -> Eq. destruct (IH l1 Eq) as [-> ?]; auto. }
  destruct Eq2 as [-> <-]. inversion F2; subst. tauto.
Qed.

Definition find_mat (jac : list (nat * bjac)) (x : nat) : mat :=
  match find (fun e => Nat.eqb (fst e) x) jac with Some (_, J) => match q_mat J with Some A => A | None => mkMat 0 0 (fun _ _ => 0%Q) end | None => mkMat 0 0 (fun _ _ => 0%Q) end.
Lemma find_mat_in jac x J A : NoDup (map fst jac) -> In (x, J) jac -> q_mat J = Some A -> find_mat jac x = A.
Proof.
  unfold find_mat. induction jac as [|[y K] jac IH]; intros Nd Hi E; [destruct Hi|]. cbn [map fst] in Nd. inversion Nd as [|? ? N1 N2]; subst. cbn [find fst].
  destruct Hi as [Hi|Hi]; [injection Hi as -> ->; rewrite Nat.eqb_refl, E; reflexivity|]. destruct (Nat.eqb_spec y x) as [->|_]; [exfalso; apply N1; apply (in_map fst) in Hi; exact Hi|]. apply IH; auto.
Qed.

Lemma value_spec k c ops c' fl : (forall x, In x (k_vars k) -> plain base (V x)) -> construct base V k = Ok c -> brun base V c ops = Ok (c', fl) ->
  (exists x p, In x (map fst (b_jac c)) /\ allocates k /\ latest (gives_matrix base V (k_rows k) (map fst (b_jac c)) x) (None, k_props k) ops (None, p) /\ forall env, blcValue base V env c' = UB) \/
  (exists M, (forall x, In x (map fst (b_jac c)) -> exists A0 p, initially k x A0 /\ latest (gives_matrix base V (k_rows k) (map fst (b_jac c)) x) (A0, k_props k) ops (Some (M x), p)) /\
     forall env, exists w, blcValue base V env c' = Ok w /\ vn w = k_rows k /\
       forall i, (ve w i == qsum (fun x => qsumn (fun j => me (M x) i j * coord base env (V x) j)%Q (mc (M x))) (map fst (b_jac c)))%Q).
Proof.
  intros S E R. destruct (history k c ops S E) as (c2 & fl2 & E2 & H & _). rewrite R in E2. injection E2 as <- <-. destruct H as [[I1 I2 I3 I4] T Rr N K M Rs]. unfold keys in K.
  assert (Sz : forall x J A, In (x, J) (b_jac c') -> q_mat J = Some A -> matrix_for base (k_rows k) A (V x)).
  { intros x J A Hx EA. destruct (M x J Hx) as (A0 & H1 & _ & _ & H4). apply (latest_sized _ _ _ _ _ _ H4); [|exact EA]. intros B EB. cbn in EB. subst A0. apply (initially_sized k x B c); auto. }
  assert (Dec : (exists x J, In (x, J) (b_jac c') /\ q_mat J = None) \/ forall x J, In (x, J) (b_jac c') -> q_mat J <> None).
  { clear. induction (b_jac c') as [|[x J] l IH]; [right; intros ? ? []|]. destruct (q_mat J) as [A|] eqn:EJ; [|left; exists x, J; split; [left; reflexivity|exact EJ]].
    destruct IH as [(y & K & Hy & EK)|IH]; [left; exists y, K; split; [right; exact Hy|exact EK]|]. right. intros y K [Hy|Hy]; [injection Hy as <- <-; congruence|apply (IH y), Hy]. }
  assert (Sz2 : forall x J A, In (x, J) (b_jac c') -> q_mat J = Some A -> mr A = b_size c' /\ mc A = Z.to_nat (vsize base (V x))).
  { intros x J A Hx EA. destruct (Sz x J A Hx EA) as [Z1 Z2]. split; [congruence|]. unfold vsize. rewrite <- Z2. symmetry. apply Nat2Z.id. }
  destruct Dec as [(x & J & Hx & EJ)|Dec].
  - left. destruct (M x J Hx) as (A0 & H1 & H2 & H3 & H4). exists x, (q_props J). assert (Hi : In x (map fst (b_jac c))) by (rewrite <- K; apply (in_map fst) in Hx; exact Hx).
    rewrite EJ in H4. assert (Al : allocates k /\ A0 = None).
    { assert (EA : A0 = None). { inversion H4 as [ops0 Hn Eq1 Eq2|before o after v G Hn Eq1 Eq2]; subst; [reflexivity|]. destruct o; cbn in G; try contradiction; [destruct G as (_ & _ & _ & G)|destruct G as (_ & _ & G)]; discriminate. }
      split; [|exact EA]. destruct k; cbn [allocates] in *; try exact Logic.I; exfalso; apply (H3 (fun F => F)), EA. }
    destruct Al as [Al ->]. split; [exact Hi|]. split; [exact Al|]. split; [rewrite <- (k_props_ok k None H2 H3); exact H4|].
    intros env. unfold blcValue. apply (sum_ub base V env (b_size c')); [reflexivity| |eauto]. intros y Ky Hy. destruct (q_mat Ky) as [A|] eqn:EA; [right; exists A; split; [reflexivity|]|left; reflexivity]. apply (Sz2 y Ky A Hy EA).
  - right. exists (find_mat (b_jac c')).
    assert (FM : forall x J, In (x, J) (b_jac c') -> q_mat J = Some (find_mat (b_jac c') x)).
    { intros x J Hx. destruct (q_mat J) as [A|] eqn:EA; [|exfalso; apply (Dec x J Hx EA)]. rewrite (find_mat_in _ x J A); auto. }
    split.
    + intros x Hx. rewrite <- K in Hx. apply in_map_iff in Hx. destruct Hx as ([y J] & Ey & Hy). cbn in Ey. subst y. destruct (M x J Hy) as (A0 & H1 & H2 & H3 & H4).
      exists A0, (q_props J). split; [exact H1|]. rewrite <- (k_props_ok k A0 H2 H3), <- (FM x J Hy). exact H4.
    + intros env. destruct (sum_ok base V env (b_size c') (b_jac c') (zero (b_size c')) eq_refl) with (M := find_mat (b_jac c')) as (w & W1 & W2 & W3); auto.
      { intros x J Hx. exists (find_mat (b_jac c') x). split; [apply FM, Hx|]. apply (Sz2 x J); auto. }
      exists w. split; [exact W1|]. split; [congruence|]. intros i. rewrite W3. cbn [zero ve]. rewrite K. unfold rowSum. ring.
Qed.

(* ---- without repetition: the sum of the products ---- *)
Lemma latest_empty {T} (g : bop -> T -> Prop) init v : latest g init [] v -> v = init.
Proof. intros L. inversion L as [|before o after v0 G Hn Eq1 Eq2]; [reflexivity|]. destruct before; discriminate. Qed.
Lemma qsum_perm {A} (f : A -> Q) l l' : Permutation.Permutation l l' -> (qsum f l == qsum f l')%Q.
Proof. induction 1; cbn; [reflexivity|rewrite IHPermutation; reflexivity|ring|rewrite IHPermutation1; exact IHPermutation2]. Qed.
Lemma sum_spec k c : (forall x, In x (k_vars k) -> plain base (V x)) -> construct base V k = Ok c -> ~ allocates k -> NoDup (k_vars k) ->
  forall env, exists w, blcValue base V env c = Ok w /\ vn w = k_rows k /\ forall i, (ve w i == sumAx (coord base env) (k_mats k) (map V (k_vars k)) i)%Q.
Proof.
  intros S E Na Nd env. destruct (value_spec k c [] c [] S E eq_refl) as [(x & p & _ & Al & _)|(M & HM & HV)]; [contradiction|]. destruct (HV env) as (w & W1 & W2 & W3).
  exists w. split; [exact W1|]. split; [exact W2|]. intros i. rewrite W3. destruct (variables k c S E) as (D & _ & V1 & _ & V2).
  rewrite (qsum_perm _ (map fst (b_jac c)) (k_vars k)).
  2:{ apply Permutation.NoDup_Permutation; auto. intros x. split; [apply V1|apply V2, Na]. }
  assert (HM' : forall x, In x (k_vars k) -> initially k x (Some (M x))).
  { intros x Hx. destruct (HM x (V2 Na x Hx)) as (A0 & p & H1 & H2). apply latest_empty in H2. injection H2 as -> _. exact H1. }
  assert (L : length (k_mats k) = length (k_vars k)).
  { destruct (accepts k) as [_ P]; [intros y Hy; left; auto|eapply not_empty; exact E|]. assert (Pr : proper base V k) by (apply P; eauto).
    destruct k; try (exfalso; apply Na; exact Logic.I); cbn [proper] in Pr; destruct Pr as [F _]; revert F; clear; intros F; induction F; cbn; congruence. }
  (* the matrix of the j-th variable is the j-th matrix *)
  assert (Nth : forall a A b xa x xb, k_mats k = a ++ A :: b -> k_vars k = xa ++ x :: xb -> length a = length xa -> M x = A).
  { intros a A b xa x xb Ea Ex Ll. assert (Hi : In x (k_vars k)) by (rewrite Ex; apply in_or_app; right; left; reflexivity). pose proof (HM' x Hi) as I. inversion I as [|a' B b' xa' xb' Ea' Ex' Ll' Nx]; subst.
    assert (Exx : xa = xa').
    { rewrite Ex' in Ex, Nd. revert Ex Nd. clear. revert xa. induction xa' as [|u xa' IH]; intros [|v xa] Ex Nd; cbn in *; [reflexivity| | |].
      - injection Ex as -> Ex. exfalso. apply NoDup_cons_iff in Nd. destruct Nd as [Nx _]. apply Nx. rewrite Ex. apply in_or_app. right. left. reflexivity.
      - injection Ex as -> Ex. exfalso. apply NoDup_cons_iff in Nd. destruct Nd as [Nx _]. apply Nx. apply in_or_app. right. left. reflexivity.
      - injection Ex as -> Ex. f_equal. apply IH; [exact Ex|]. inversion Nd; assumption. }
    subst xa'. rewrite Ea in Ea'. assert (L2 : length a = length a') by congruence. revert Ea' L2. clear. revert a'. induction a as [|u a IH]; intros [|v a'] Ea L2; try discriminate; cbn in Ea; injection Ea as E1 E2; [auto|]. apply (IH a'); [exact E2|cbn in L2; lia]. }
  revert Nth L. unfold sumAx. generalize (k_mats k) as As, (k_vars k) as xs. clear. intros As xs Nth L. revert As L Nth. induction xs as [|x xs IH]; intros [|A As] L Nth; try discriminate; [reflexivity|].
  cbn [map combine qsum fst snd]. rewrite (Nth [] A As [] x xs eq_refl eq_refl eq_refl). rewrite (IH As); [reflexivity|cbn in L; lia|].
  intros a B b xa y xb -> -> Ll. apply (Nth (A :: a) B b (x :: xa) y xb); cbn; auto.
Qed.

(* ---- an allocated constraint on a variable that is not Euclidean ---- *)
Lemma curved_unusable m x t r : curved base (V x) -> 0 < rSize (c_space (V x)) -> rSize (c_space (V x)) <> tSize (c_space (V x)) -> ~ (t = BDouble /\ r = BZero) ->
  exists c, construct base V (Allocated m [x] t r) = Ok c /\ (forall env, blcValue base V env c = UB) /\
    (forall A p, matrix_for base m A (V x) -> bstep base V c (OA A x p) = UB) /\ (forall A p, ~ matrix_for base m A (V x) -> bstep base V c (OA A x p) = Throw).
Proof.
  intros [Bx C] Hr Ne N. cbn [construct]. destruct (newBlc_ok t r m N) as (c0 & E). destruct (newBlc_inv base V _ _ _ _ E) as (_ & Ej & _ & _ & Es & _).
  rewrite E. cbn [bind addVars]. unfold addVar, vecAdd. rewrite Ej. cbn [map existsb bind app]. rewrite Es. eexists. split; [reflexivity|]. split; [reflexivity|].
  unfold bstep, blcA, matrix_for. cbn [b_size b_jac]. unfold setJac. cbn [b_jac assign]. rewrite Nat.eqb_refl. cbn [q_rows q_cols]. unfold vsize. rewrite Bx. split.
  - intros A p [HA HB]. rewrite HA, Nat.eqb_refl, HB, Z.eqb_refl. cbn [andb]. destruct (Z.eqb_spec (tSize (c_space (V x))) (rSize (c_space (V x)))); [congruence|reflexivity].
  - intros A p Hn. destruct (Nat.eqb_spec (mr A) m) as [HA|]; [|reflexivity]. destruct (Z.eqb_spec (Z.of_nat (mc A)) (rSize (c_space (V x)))) as [HB|]; [|reflexivity]. exfalso. apply Hn. auto.
Qed.
End Blc.
