Require Import QArith ZArith List Bool Lia Arith.
Require Import Verif.Base Verif.QSum Verif.RangeModel Verif.SpaceModel Verif.VarCountingModel Verif.LinFunModel Verif.LinFunSpec Verif.BlcModel Verif.BlcSpec Verif.BlcProofs Verif.BlcProofs2 Verif.BlcProofs3 Verif.BlcProofs4.
Import ListNotations.
Local Open Scope Z_scope.

Section Latest.
Context {T : Type} (gives : bop -> T -> Prop) (init : T).
Lemma latest_skip ops v o : (forall w, ~ gives o w) -> latest gives init ops v -> latest gives init (ops ++ [o]) v.
Proof.
  intros N L. destruct L as [ops H|before o' after v' G H].
  - apply Lnone. intros o' w Hi. apply in_app_or in Hi. destruct Hi as [Hi|[<-|[]]]; auto.
  - rewrite <- app_assoc. cbn [app]. apply Llast; [exact G|]. intros o2 w Hi. apply in_app_or in Hi. destruct Hi as [Hi|[<-|[]]]; auto.
Qed.
Lemma latest_set ops v o : gives o v -> latest gives init (ops ++ [o]) v.
Proof. intros G. apply Llast; [exact G|intros ? ? []]. Qed.
Lemma latest_nil : latest gives init [] init.
Proof. apply Lnone. intros ? ? []. Qed.
End Latest.

Section Blc.
Variables (base : nat -> bool) (V : nat -> cvar) (k : ctor) (vs : list nat).
Notation binv := (binv base V).
Notation n := (k_rows k).
Definition p0 (A0 : option mat) : mprops := match A0 with Some _ => constP | None => dfltP end.

Record hinv (ops : list bop) (c : blc) : Prop := mkH {
  h_inv : binv c;
  h_type : b_type c = k_type k;
  h_rhs : b_rhs c = k_rhs k;
  h_size : b_size c = n;
  h_keys : keys c = vs;
  h_mat : forall x J, In (x, J) (b_jac c) -> exists A0, initially k x A0 /\ (allocates k -> A0 = None) /\ (~ allocates k -> A0 <> None) /\
    latest (gives_matrix base V n vs x) (A0, p0 A0) ops (q_mat J, q_props J);
  h_right : right_sides k ops (b_l c) (b_u c) (b_e c) }.

Lemma kinv_hinv c : kinv base V k c -> keys c = vs -> hinv [] c.
Proof.
  intros (I & T & R & N & D & M & _ & _ & El & Eu & Ee) Kv. constructor; auto.
  - intros x J Hx. destruct (M x J Hx) as (A0 & H1 & H2 & H3 & ->). exists A0. split; [exact H1|]. split; [exact H2|]. split; [exact H3|]. cbn [q_mat q_props]. apply latest_nil.
  - unfold right_sides. rewrite El, Eu, Ee. destruct (k_rhs k); [auto| |]; destruct (k_type k); (repeat (split; [reflexivity|])); repeat eexists; apply latest_nil.
Qed.

(* a call that gives nothing *)
Lemma hinv_skip ops c o : hinv ops c -> (forall x w, ~ gives_matrix base V n vs x o w) ->
  (k_rhs k <> BZero -> (k_type k <> BDouble -> forall w, ~ gives_b n o w) /\ (k_type k = BDouble -> forall w, ~ gives_l n o w /\ ~ gives_u n o w)) -> hinv (ops ++ [o]) c.
Proof.
  intros [I T R N K M Rs] Nm Nr. constructor; auto.
  - intros x J Hx. destruct (M x J Hx) as (A0 & H1 & H2 & H3 & H4). exists A0. split; [exact H1|]. split; [exact H2|]. split; [exact H3|]. apply latest_skip; auto.
  - unfold right_sides in *. destruct (k_rhs k); auto; (destruct Nr as [Nb Nlu]; [discriminate|]);
    (destruct (k_type k); [| | |destruct (Rs) as (E & bl & bu & E1 & E2 & L1 & L2); split; [exact E|]; exists bl, bu; split; [exact E1|]; split; [exact E2|]; split; apply latest_skip; auto; intros w; apply (Nlu eq_refl w)]);
    destruct Rs as (E1 & E2 & b & E & L); (split; [exact E1|]); (split; [exact E2|]); exists b; (split; [exact E|]); apply latest_skip; auto; apply Nb; discriminate.
Qed.
(* a call that gives a matrix to x *)
Lemma hinv_mat ops c o x A p : hinv ops c -> gives_matrix base V n vs x o (Some A, p) -> binv (withJac c (map (upd x A p) (b_jac c))) -> hinv (ops ++ [o]) (withJac c (map (upd x A p) (b_jac c))).
Proof.
  intros [I T R N K M Rs] G I'. constructor; auto; cbn [withJac b_type b_rhs b_size b_l b_u b_e].
  - unfold keys in *. cbn [withJac b_jac]. rewrite upd_keys. exact K.
  - intros y J Hy. cbn [withJac b_jac] in Hy. apply in_map_iff in Hy. destruct Hy as ([z Kz] & Ez & Hz). destruct (M z Kz Hz) as (A0 & H1 & H2 & H3 & H4). unfold upd in Ez. cbn [fst snd] in Ez.
    destruct (Nat.eqb_spec z x) as [->|Ne]; injection Ez as <- <-; exists A0; (split; [exact H1|]); (split; [exact H2|]); (split; [exact H3|]); cbn [q_mat q_props].
    + apply latest_set. exact G.
    + apply latest_skip; [|exact H4]. intros w Gw. destruct o; cbn in G, Gw; try contradiction.
      * destruct G as [-> _], Gw as [-> _]. auto.
      * destruct G as [-> _], Gw as [Ev _]. congruence.
  - assert (Nb : forall w, ~ gives_b n o w) by (intros w; destruct o; cbn in *; auto). assert (Nl : forall w, ~ gives_l n o w) by (intros w; destruct o; cbn in *; auto).
    assert (Nu : forall w, ~ gives_u n o w) by (intros w; destruct o; cbn in *; auto). unfold right_sides in *.
    destruct (k_rhs k); auto;
    (destruct (k_type k); [| | |destruct (Rs) as (E & bl & bu & E1 & E2 & L1 & L2); split; [exact E|]; exists bl, bu; split; [exact E1|]; split; [exact E2|]; split; apply latest_skip; auto]);
    destruct Rs as (E1 & E2 & b & E & L); (split; [exact E1|]); (split; [exact E2|]); exists b; (split; [exact E|]); apply latest_skip; auto.
Qed.
(* a call that gives a right-hand side *)
Lemma hinv_rhs ops c o t r m l u e : t = b_type c -> r = b_rhs c -> m = b_size c -> hinv ops c -> (forall x w, ~ gives_matrix base V n vs x o w) -> right_sides k (ops ++ [o]) l u e ->
  hinv (ops ++ [o]) (mkBlc t r m (b_jac c) l u e).
Proof.
  intros -> -> -> [[I1 I2 I3 I4] T R N K M Rs] Nm Rs'. constructor; auto; [constructor; assumption|].
  intros x J Hx. destruct (M x J Hx) as (A0 & H1 & H2 & H3 & H4). exists A0. split; [exact H1|]. split; [exact H2|]. split; [exact H3|]. apply latest_skip; auto.
Qed.

Notation allowed := (allowed base V (k_type k) (k_rhs k) n vs).
Lemma step_spec ops c o : Forall (fun x => plain base (V x)) vs -> hinv ops c ->
  (exists c', bstep base V c o = Ok c' /\ allowed o /\ hinv (ops ++ [o]) c') \/ (bstep base V c o = Throw /\ ~ allowed o /\ hinv (ops ++ [o]) c).
Proof.
  intros P H. pose proof H as H0. destruct H0 as [I T R N K M Rs]. destruct o as [A x p|A p|b|l|u]; cbn [bstep].
  - unfold blcA. rewrite N. destruct (Nat.eqb_spec (mr A) n) as [E1|E1]; cbn [andb].
    2:{ right. split; [reflexivity|]. split; [intros [_ [? _]]; contradiction|]. apply hinv_skip; [exact H|intros z w (_ & _ & [? _] & _); contradiction|intros _; split; cbn; auto]. }
    destruct (Z.eqb_spec (Z.of_nat (mc A)) (vsize base (V x))) as [E2|E2].
    2:{ right. split; [reflexivity|]. split; [intros [_ [_ ?]]; contradiction|]. apply hinv_skip; [exact H|intros z w (-> & _ & [_ ?] & _); contradiction|intros _; split; cbn; auto]. }
    destruct (in_dec Nat.eq_dec x vs) as [Hi|Hi].
    + left. rewrite Forall_forall in P. destruct (plain_size base _ (P x Hi)) as [Es _].
      assert (E : setJac c x A p = Ok (withJac c (map (upd x A p) (b_jac c)))) by (apply (setJac_ok base V); auto; [change (In x (keys c)); rewrite K; exact Hi|congruence|congruence]).
      eexists. split; [exact E|]. split; [split; [exact Hi|split; [exact E1|exact E2]]|]. apply hinv_mat; auto; [cbn; repeat (split; [auto|]); auto|].
      apply (setJac_inv base V c x A p _ I E).
    + right. split; [unfold setJac; rewrite assign_throw; [reflexivity|change (~ In x (keys c)); rewrite K; exact Hi]|]. split; [intros [? _]; contradiction|].
      apply hinv_skip; [exact H|intros z w (-> & ? & _); contradiction|intros _; split; cbn; auto].
  - assert (Bad : (forall x, vs = [x] -> ~ matrix_for base n A (V x)) -> bstep base V c (OA1 A p) = Throw -> (bstep base V c (OA1 A p) = Throw /\ ~ allowed (OA1 A p) /\ hinv (ops ++ [OA1 A p]) c)).
    { intros Nm Eb. split; [exact Eb|]. split; [intros (x & Ev & Mf); apply (Nm x Ev Mf)|]. apply hinv_skip; [exact H|intros z w (Ev & Mf & _); apply (Nm z Ev Mf)|intros _; split; cbn; auto]. }
    unfold keys in K. cbn [bstep] in Bad. unfold blcA1 in *. destruct (b_jac c) as [|[x J] [|e jac]] eqn:Ej; cbn [map fst] in K.
    + right. apply Bad; [intros x Ev; rewrite <- K in Ev; discriminate|reflexivity].
    + unfold blcA in *. rewrite N in *. destruct (Nat.eqb_spec (mr A) n) as [E1|E1]; cbn [andb] in *.
      2:{ right. apply Bad; [intros z _ [? _]; contradiction|reflexivity]. }
      destruct (Z.eqb_spec (Z.of_nat (mc A)) (vsize base (V x))) as [E2|E2].
      2:{ right. apply Bad; [intros z Ev [_ ?]; rewrite <- K in Ev; injection Ev as <-; contradiction|reflexivity]. }
      left. assert (Hi : In x vs) by (rewrite <- K; left; reflexivity). rewrite Forall_forall in P. destruct (plain_size base _ (P x Hi)) as [Es _].
      assert (E : setJac c x A p = Ok (withJac c (map (upd x A p) (b_jac c)))) by (apply (setJac_ok base V); auto; [rewrite Ej; left; reflexivity|congruence|congruence]).
      rewrite Ej in E. eexists. split; [exact E|]. split; [exists x; split; [auto|split; [exact E1|exact E2]]|]. rewrite <- Ej. apply hinv_mat; auto; [cbn; split; [auto|split; [split; [exact E1|exact E2]|reflexivity]]|].
      rewrite Ej. apply (setJac_inv base V c x A p _ I). rewrite <- Ej in E |- *. exact E.
    + right. apply Bad; [intros z Ev; rewrite <- K in Ev; discriminate|reflexivity].
  - unfold setb. destruct (isDouble (b_type c)) eqn:Ed; cbn [negb andb]; rewrite T in Ed.
    { right. apply isDouble_spec in Ed. split; [reflexivity|]. split; [intros (? & _); contradiction|]. apply hinv_skip; [exact H|intros x w []|intros _; split; [contradiction|cbn; auto]]. }
    destruct (isZeroRhs (b_rhs c)) eqn:Ez; cbn [negb]; rewrite R in Ez.
    { right. apply isZero_spec in Ez. split; [reflexivity|]. split; [intros (_ & ? & _); contradiction|]. apply hinv_skip; [exact H|intros x w []|intros; contradiction]. }
    apply isDouble_f in Ed. apply isZero_f in Ez. destruct (Nat.eqb_spec (vn b) (b_size c)) as [E|E]; rewrite N in E.
    2:{ right. split; [reflexivity|]. split; [intros (_ & _ & ?); contradiction|]. apply hinv_skip; [exact H|intros x w []|intros _; split; [intros _ w [? _]; contradiction|cbn; auto]]. }
    left. eexists. split; [reflexivity|]. split; [split; [exact Ed|split; [exact Ez|exact E]]|].
    assert (G : latest (gives_b n) (init_b k) (ops ++ [Ob b]) (Some b)) by (apply latest_set; split; [exact E|reflexivity]).
    destruct (b_type c) eqn:Et; [| | |congruence]; (apply hinv_rhs; [auto|auto|auto|exact H|intros x w []|]); unfold right_sides in *; rewrite <- T in *;
      (destruct (k_rhs k); [congruence| |]); destruct Rs as (R1 & R2 & _); (split; [assumption|]); (split; [assumption|]); exists (Some b); auto.
  - unfold setl. destruct (isDouble (b_type c)) eqn:Ed; cbn [negb andb]; rewrite T in Ed.
    2:{ right. apply isDouble_f in Ed. split; [reflexivity|]. split; [intros (? & _); contradiction|]. apply hinv_skip; [exact H|intros x w []|intros _; split; [cbn; auto|contradiction]]. }
    destruct (isZeroRhs (b_rhs c)) eqn:Ez; cbn [negb]; rewrite R in Ez.
    { right. apply isZero_spec in Ez. split; [reflexivity|]. split; [intros (_ & ? & _); contradiction|]. apply hinv_skip; [exact H|intros x w []|intros; contradiction]. }
    apply isDouble_spec in Ed. apply isZero_f in Ez. destruct (Nat.eqb_spec (vn l) (b_size c)) as [E|E]; rewrite N in E.
    2:{ right. split; [reflexivity|]. split; [intros (_ & _ & ?); contradiction|]. apply hinv_skip; [exact H|intros x w []|intros _; split; [cbn; auto|intros _ w; split; [intros [? _]; contradiction|intros []]]]. }
    left. eexists. split; [reflexivity|]. split; [split; [exact Ed|split; [exact Ez|exact E]]|].
    assert (G : latest (gives_l n) (init_l k) (ops ++ [Ol l]) (Some l)) by (apply latest_set; split; [exact E|reflexivity]).
    apply hinv_rhs; [auto|auto|auto|exact H|intros x w []|]. unfold right_sides in *. rewrite Ed in *.
    destruct (k_rhs k); [congruence| |]; destruct Rs as (R1 & bl & bu & R2 & R3 & L1 & L2); (split; [assumption|]); exists (Some l), bu; (split; [reflexivity|]); (split; [assumption|]); (split; [exact G|apply latest_skip; [intros w []|exact L2]]).
  - unfold setu. destruct (isDouble (b_type c)) eqn:Ed; cbn [negb andb]; rewrite T in Ed.
    2:{ right. apply isDouble_f in Ed. split; [reflexivity|]. split; [intros (? & _); contradiction|]. apply hinv_skip; [exact H|intros x w []|intros _; split; [cbn; auto|contradiction]]. }
    destruct (isZeroRhs (b_rhs c)) eqn:Ez; cbn [negb]; rewrite R in Ez.
    { right. apply isZero_spec in Ez. split; [reflexivity|]. split; [intros (_ & ? & _); contradiction|]. apply hinv_skip; [exact H|intros x w []|intros; contradiction]. }
    apply isDouble_spec in Ed. apply isZero_f in Ez. destruct (Nat.eqb_spec (vn u) (b_size c)) as [E|E]; rewrite N in E.
    2:{ right. split; [reflexivity|]. split; [intros (_ & _ & ?); contradiction|]. apply hinv_skip; [exact H|intros x w []|intros _; split; [cbn; auto|intros _ w; split; [intros []|intros [? _]; contradiction]]]. }
    left. eexists. split; [reflexivity|]. split; [split; [exact Ed|split; [exact Ez|exact E]]|].
    assert (G : latest (gives_u n) (init_u k) (ops ++ [Ou u]) (Some u)) by (apply latest_set; split; [exact E|reflexivity]).
    apply hinv_rhs; [auto|auto|auto|exact H|intros x w []|]. unfold right_sides in *. rewrite Ed in *.
    destruct (k_rhs k); [congruence| |]; destruct Rs as (R1 & bl & bu & R2 & R3 & L1 & L2); (split; [assumption|]); exists bl, (Some u); (split; [assumption|]); (split; [reflexivity|]); (split; [apply latest_skip; [intros w []|exact L1]|exact G]).
Qed.

Lemma run_spec : Forall (fun x => plain base (V x)) vs -> forall ops done c, hinv done c ->
  exists c' fl, brun base V c ops = Ok (c', fl) /\ hinv (done ++ ops) c' /\ Forall2 (fun o f => f = true <-> allowed o) ops fl.
Proof.
  intros P. induction ops as [|o ops IH]; intros done c H.
  - exists c, []. rewrite app_nil_r. split; [reflexivity|]. split; [exact H|constructor].
  - cbn [brun]. destruct (step_spec done c o P H) as [(c1 & E & Al & H1)|(E & Al & H1)]; rewrite E.
    + destruct (IH _ _ H1) as (c' & fl & E' & H' & F). rewrite E'. cbn [bind]. exists c', (true :: fl). rewrite <- app_assoc in H'. split; [reflexivity|]. split; [exact H'|]. constructor; [|exact F]. split; auto.
    + destruct (IH _ _ H1) as (c' & fl & E' & H' & F). rewrite E'. cbn [bind]. exists c', (false :: fl). rewrite <- app_assoc in H'. split; [reflexivity|]. split; [exact H'|]. constructor; [|exact F]. split; [discriminate|contradiction].
Qed.

(* ---- the value ---- *)
Definition rowSum (env : nat -> Z -> Q) (M : nat -> mat) (l : list nat) (i : nat) : Q :=
  qsum (fun x => qsumn (fun j => me (M x) i j * coord base env (V x) j)%Q (mc (M x))) l.
Lemma sum_ok env m : forall jac acc, vn acc = m ->
  (forall x J, In (x, J) jac -> exists A, q_mat J = Some A /\ mr A = m /\ mc A = Z.to_nat (vsize base (V x))) -> NoDup (map fst jac) ->
  forall M, (forall x J, In (x, J) jac -> q_mat J = Some (M x)) ->
  exists w, blcSum base V env acc jac = Ok w /\ vn w = m /\ forall i, (ve w i == ve acc i + rowSum env M (map fst jac) i)%Q.
Proof.
  induction jac as [|[x J] jac IH]; intros acc Ha H Nd M HM.
  - exists acc. cbn. split; [reflexivity|]. split; [exact Ha|]. intros i. unfold rowSum. cbn. ring.
  - cbn [map fst] in Nd. inversion Nd as [|? ? N1 N2]; subst. destruct (H x J (or_introl eq_refl)) as (A & EA & R & C). cbn [blcSum]. rewrite EA.
    unfold mvmul. cbn [valueOf vn]. rewrite C, Nat.eqb_refl. unfold vadd. cbn [vn]. rewrite R, Nat.eqb_refl. cbn [ve].
    set (acc' := mkVec _ _). destruct (IH acc' eq_refl) with (M := M) as (w & W1 & W2 & W3); auto; try (intros y Jy Hy; apply H || apply HM; right; exact Hy).
    exists w. split; [exact W1|]. split; [exact W2|]. intros i. rewrite W3. unfold acc', rowSum. cbn [ve map fst qsum]. pose proof (HM x J (or_introl eq_refl)) as EM. rewrite EA in EM. injection EM as <-.
    rewrite C. assert (Eq : (qsumn (fun j => me A i j * env (c_sup (V x)) (start (subRange base (V x)) + Z.of_nat j)%Z) (Z.to_nat (vsize base (V x))) == qsumn (fun j => me A i j * coord base env (V x) j) (Z.to_nat (vsize base (V x))))%Q).
    { apply qsumn_ext. intros j _. unfold coord, subRange. cbn [start]. reflexivity. }
    rewrite Eq. ring.
Qed.
Lemma sum_ub env m : forall jac acc, vn acc = m -> (forall x J, In (x, J) jac -> q_mat J = None \/ exists A, q_mat J = Some A /\ mr A = m /\ mc A = Z.to_nat (vsize base (V x))) ->
  (exists x J, In (x, J) jac /\ q_mat J = None) -> blcSum base V env acc jac = UB.
Proof.
  induction jac as [|[x J] jac IH]; intros acc Ha H (y & K & Hy & E); [destruct Hy|]. cbn [blcSum]. destruct (H x J (or_introl eq_refl)) as [->|(A & EA & R & C)]; [reflexivity|].
  rewrite EA. unfold mvmul. cbn [valueOf vn]. rewrite C, Nat.eqb_refl. unfold vadd. cbn [vn]. rewrite R, Ha, Nat.eqb_refl. apply IH; [reflexivity|intros z Kz Hz; apply H; right; exact Hz|].
  destruct Hy as [Hy|Hy]; [injection Hy as <- <-; congruence|eauto].
Qed.
End Blc.
