Require Import QArith ZArith List Bool Lia Lqa.
Require Import Verif.Base Verif.QSum Verif.RangeModel Verif.SpaceModel Verif.VarCountingModel Verif.VarCountingSpec.
Require Import Verif.LinFunModel Verif.LinFunSpec Verif.LinFunProofs Verif.LinFunProofs5 Verif.LinFunProofs6 Verif.WrModel Verif.WrSpec Verif.WrProofs.
Import ListNotations.
Local Open Scope nat_scope.

Lemma writable_iff w : writable w <-> exists t, typeOf w = Some t.
Proof.
  split.
  - intros [(c & g & [-> | ->])|(v & g & [[(h & [-> | ->]) ->]|[(h & [-> | ->]) ->]])]; destruct c || idtac; simpl; eauto.
  - intros (t & H). destruct w as [c g|g c|w c g]; [left; eauto|left; eauto|]. right. exists w, g. cbn in H.
    destruct w as [c' h|h c'|w' c' h]; [| |exfalso; cbn in H; destruct (typeOf w') as [[]|]; destruct c'; try discriminate; destruct c; discriminate].
    + destruct c', c; try discriminate; [left|right]; (split; [exists h; left; reflexivity|reflexivity]).
    + destruct c', c; try discriminate; [right|left]; (split; [exists h; right; reflexivity|reflexivity]).
Qed.
Lemma unwritable spOf base s w : ~ writable w -> relation spOf base s w = None.
Proof. intros H. unfold relation. destruct (typeOf w) as [t|] eqn:E; [exfalso; apply H, writable_iff; eauto|reflexivity]. Qed.
Lemma changed_size base f g : changed base f g -> vn (f_b f) = f_size f -> f_size g = f_size f /\ vn (f_b g) = f_size f.
Proof.
  intros H E. induction H as [|g i A sh g' _ [IH1 IH2] S|g b g' _ [IH1 IH2] S]; [auto| |].
  - unfold setA in S. destruct (nth_error _ _); [|discriminate]. destruct (_ && _); [|discriminate]. injection S as <-. auto.
  - unfold setB in S. destruct (Nat.eqb_spec (vn b) (f_size g)); [|discriminate]. injection S as <-. simpl. split; congruence.
Qed.

(* the proto-task of a relation about a function *)
Lemma relation_gen spOf base s f w : toFunction spOf base s = Some (Ok f) -> vn (f_b f) = f_size f -> writable w ->
  (Forall (WrSpec.sized (f_size f)) (sides w) -> exists p c, relation spOf base s w = Some (Ok p) /\ add (f_size f) p = Ok c /\
     forall f' env v, changed base f f' -> value base env f' = Some v -> (satisfied base env c f' <-> forall i, i < f_size f -> holds w (ve v i) i)) /\
  (~ Forall (WrSpec.sized (f_size f)) (sides w) -> relation spOf base s w = Some Throw).
Proof.
  intros Hf Eb Hw. apply writable_iff in Hw. destruct Hw as (t & Ht). unfold relation. rewrite Ht, Hf. cbn [bind].
  set (w' := match s with SFun _ => w | _ => onLeft w end).
  assert (T' : typeOf w' = Some t) by (unfold w'; destruct s; rewrite ?typeOf_onLeft; exact Ht).
  assert (S' : sides w' = sides w) by (unfold w'; destruct s; rewrite ?sides_onLeft; reflexivity).
  assert (M' : forall y i, holds w' y i <-> holds w y i) by (intros y i; unfold w'; destruct s; rewrite ?holds_onLeft; reflexivity).
  destruct (shaped w' t T') as (sh & _ & Hm & Hg & Hv). destruct (Hv blf f (f_size f)) as [V1 V2]. rewrite S' in *. split.
  - intros K. exists (protoOf f sh), (constrOf (f_size f) sh). rewrite (V1 K). split; [reflexivity|].
    assert (Kg : Forall (WrSpec.sized (f_size f)) (gsides sh)) by (rewrite Forall_forall in *; intros x Hx; apply K; apply Hg; exact Hx).
    split; [apply add_ok; exact Kg|]. intros f' env v Ch Ev. destruct (changed_size base f f' Ch Eb) as [C1 C2].
    rewrite (points base env f' sh v (f_size f) C1 C2 Ev Kg). split; intros X i Hi; [apply M', Hm, X, Hi|apply Hm, M', X, Hi].
  - intros K. rewrite (V2 K). reflexivity.
Qed.

(* adding it later, when the function has another size *)
Lemma resized {F} (f : F) n m w p : writable w -> evaluate n f w = Ok p ->
  (Forall (WrSpec.sized m) (sides w) -> exists c, add m p = Ok c /\ n_size c = m) /\ (~ Forall (WrSpec.sized m) (sides w) -> add m p = UB).
Proof.
  intros Hw He. apply writable_iff in Hw. destruct Hw as (t & Ht). destruct (shaped w t Ht) as (sh & _ & _ & Hg & Hv). destruct (Hv F f n) as [V1 V2].
  destruct (Forall_dec _ (sized_dec n) (sides w)) as [D|D]; [|rewrite (V2 D) in He; discriminate]. rewrite (V1 D) in He. injection He as <-.
  assert (Gm : Forall (WrSpec.sized m) (gsides sh) <-> Forall (WrSpec.sized m) (sides w)) by (rewrite !Forall_forall; split; intros X x Hx; apply X, Hg, Hx).
  split.
  - intros K. exists (constrOf m sh). split; [apply add_ok, Gm, K|destruct sh; reflexivity].
  - intros K.
    assert (U : forall g, ~ WrSpec.sized m g -> toVector (newRhs g) m = UB).
    { intros [d|v] X; simpl in *; [destruct X; exact Logic.I|]. destruct (Nat.eqb_spec (vn v) m); [contradiction|reflexivity]. }
    assert (K' : ~ Forall (WrSpec.sized m) (gsides sh)) by (intros X; apply K, Gm, X).
    destruct sh as [g|g|g|l u]; simpl in K'; cbn [protoOf add].
    1-3: rewrite U; [reflexivity|]; intros X; apply K'; repeat constructor; exact X.
    destruct (sized_dec m l) as [X|X]; [|rewrite (U l X); reflexivity]. destruct (toVector_ok l m X) as (E & _). rewrite E. cbn [bind].
    rewrite U; [reflexivity|]. intros Y. apply K'. repeat constructor; assumption.
Qed.

(* ---- a variable alone ---- *)
Lemma compatible1 base x : compatible base [x].
Proof. intros a y b E. right. intros z Hz. destruct a as [|u [|v a]]; [destruct Hz| |]; simpl in E; [injection E as _ E|injection E as _ E]; destruct b; discriminate || (destruct a; discriminate). Qed.
Lemma sum_ident n i (g : nat -> Q) : i < n -> (qsumn (fun j => me (mid n) i j * g j) n == g i)%Q.
Proof.
  intros H. rewrite <- (qsumn_delta g n i H). apply qsumn_ext. intros k _. cbn [mid me]. rewrite (Nat.eqb_sym k i). destruct (Nat.eqb_spec i k); ring.
Qed.
Lemma accumulate_shape val : forall jac acc, accumulate val acc (map (fun j => mkJ (j_var j) (j_mat j) Ident) jac) = accumulate val acc jac.
Proof. induction jac as [|j jac IH]; intros acc; [reflexivity|]. cbn [map accumulate j_mat j_var]. destruct (mvmul _ _); [|reflexivity]. destruct (vadd _ _); [apply IH|reflexivity]. Qed.
Lemma identity L spOf base x : good L spOf -> usable L base x ->
  exists f, identityFunction base x = Ok f /\ f_size f = Z.to_nat (vsize base x) /\ vn (f_b f) = f_size f /\
    forall env, exists v, value base env f = Some v /\ forall i, i < f_size f -> (ve v i == coord base env x i)%Q.
Proof.
  intros G U. set (n := Z.to_nat (vsize base x)).
  assert (Pos : (0 <= vsize base x)%Z).
  { destruct U as [(q & Dq & Mq) _]. unfold made_of in Mq. cbv zeta in Mq. pose proof (co_lt L spOf base G (c_sup x) (start q) (rend q) ltac:(unfold rend; lia)) as P.
    unfold co in P. unfold vsize. destruct (base (c_sup x)); intuition lia. }
  assert (Mf : Forall2 (matrix_for base n) [mid n] [x]).
  { constructor; [|constructor]. split; [reflexivity|]. cbn [mid mc]. unfold n, vsize in *. rewrite Z2Nat.id; auto. }
  destruct (c42_matrices L spOf base n [mid n] [x] (zero n) G ltac:(discriminate) Mf (Forall_cons _ U (Forall_nil _))) as [H _].
  destruct (H (compatible1 base x) eq_refl) as (f & E1 & E2 & E3 & _).
  unfold identityFunction, ofMatrices0. fold n. change (ofMatrices base [mid n] [x] (zero (mr (mid n)))) with (ofMatrices base [mid n] [x] (zero n)). rewrite E1. cbn [bind]. eexists. split; [reflexivity|]. cbn [f_size f_b f_jac]. split; [exact E2|].
  split.
  - unfold ofMatrices in E1. cbn [length Nat.eqb negb map combine] in E1. destruct (addTerms _ _ _ _) as [jac| |]; cbn [bind] in E1; try discriminate.
    unfold setB in E1. cbn [zero vn f_size mid mr] in E1. rewrite Nat.eqb_refl in E1. injection E1 as <-. reflexivity.
  - intros env. destruct (E3 env) as (v & V1 & V2 & V3). exists v. split; [unfold value; cbn [f_b f_jac]; rewrite accumulate_shape; exact V1|].
    intros i Hi. rewrite V3. unfold sumAx. cbn [combine qsum fst snd zero ve mid mc]. rewrite E2 in Hi. fold (mid n).
    pose proof (sum_ident n i (coord base env x) Hi) as S. cbn [mid me] in S. cbn [mid me]. rewrite S. ring.
Qed.
Lemma identity_curved L spOf base x : good L spOf -> curved base x -> identityFunction base x = Throw.
Proof.
  intros G C. unfold identityFunction, ofMatrices0.
  rewrite (c42_matrices_throw L spOf base [mid (Z.to_nat (vsize base x))] [x] _ (mid (Z.to_nat (vsize base x))) G); [reflexivity|reflexivity| |].
  - intros y [<-|[]]. right. exact C.
  - right. exists 0, (mid (Z.to_nat (vsize base x))), x. split; [reflexivity|]. split; [reflexivity|]. left. exact C.
Qed.
