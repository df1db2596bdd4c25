Require Import QArith ZArith List Bool Lia Arith.
Require Import Verif.Base Verif.QSum Verif.RangeModel Verif.SpaceModel Verif.VarCountingModel Verif.LinFunModel Verif.LinFunSpec Verif.BlcModel Verif.BlcSpec.
Import ListNotations.
Local Open Scope Z_scope.

Section Blc.
Variables (base : nat -> bool) (V : nat -> cvar).
Notation size x := (vsize base (V x)).

(* ---- containment and intersection ---- *)
Lemma covers_sub x k c : covers base x k c <-> c_sup x = k /\ start (subRange base x) <= c < rend (subRange base x).
Proof.
  unfold covers, subRange, rend, vsize. cbn [start dim]. split; intros [<- H]; (split; [reflexivity|]); revert H; cbn zeta; destruct (base (c_sup x)); intros; lia.
Qed.
Lemma vcont_inside x y : 0 < vsize base x -> 0 < vsize base y -> (vcont base x y = true <-> inside base y x).
Proof.
  intros Hx Hy. unfold vcont, containsR, containsI. rewrite !andb_true_iff, Nat.eqb_eq, !Z.leb_le, Z.ltb_lt.
  assert (Ey : rend (subRange base y) = start (subRange base y) + vsize base y) by reflexivity.
  assert (Ex : rend (subRange base x) = start (subRange base x) + vsize base x) by reflexivity. split.
  - intros [E [[H1 H2] H3]] k c C. apply covers_sub in C. apply covers_sub. destruct C as [<- C]. split; [exact E|lia].
  - intros H. assert (A : covers base x (c_sup y) (start (subRange base y))) by (apply H, covers_sub; split; [reflexivity|lia]).
    assert (B : covers base x (c_sup y) (rend (subRange base y) - 1)) by (apply H, covers_sub; split; [reflexivity|lia]).
    apply covers_sub in A, B. destruct A as [E A], B as [_ B]. split; [exact E|lia].
Qed.
Lemma vint_apart x y : 0 < vsize base x -> 0 < vsize base y -> (vint base x y = false <-> apart base x y).
Proof.
  intros Hx Hy. rewrite <- not_true_iff_false. unfold vint, intersects, containsI. rewrite andb_true_iff, orb_true_iff, !andb_true_iff, Nat.eqb_eq, !Z.leb_le, !Z.ltb_lt.
  assert (Ey : rend (subRange base y) = start (subRange base y) + vsize base y) by reflexivity.
  assert (Ex : rend (subRange base x) = start (subRange base x) + vsize base x) by reflexivity. split.
  - intros H k c [A B]. apply covers_sub in A, B. destruct A as [<- A], B as [E B]. apply H. split; [congruence|]. lia.
  - intros H [E I]. destruct I as [I|I].
    + apply (H (c_sup x) (start (subRange base y))). split; apply covers_sub; (split; [congruence|lia]).
    + apply (H (c_sup x) (start (subRange base x))). split; apply covers_sub; (split; [congruence|lia]).
Qed.
Lemma inside_not_apart x y : 0 < vsize base y -> inside base y x -> ~ apart base x y.
Proof.
  intros Hy H A. assert (C : covers base y (c_sup y) (start (subRange base y))).
  { apply covers_sub. split; [reflexivity|]. unfold rend, subRange. cbn [start dim]. lia. }
  apply (A (c_sup y) (start (subRange base y))). split; [apply H|]; exact C.
Qed.
Lemma inside_refl x : inside base x x. Proof. intros k c H. exact H. Qed.
Lemma inside_trans x y z : inside base x y -> inside base y z -> inside base x z. Proof. intros H1 H2 k c H. apply H2, H1, H. Qed.

Lemma vecAdd_spec l x : (forall y, In y l -> 0 < size y) -> 0 < size x ->
  match vecAdd base V l x with
  | Ok false => exists y, In y l /\ inside base (V x) (V y)
  | Ok true => forall y, In y l -> apart base (V y) (V x)
  | Throw => (forall y, In y l -> ~ inside base (V x) (V y)) /\ exists y, In y l /\ ~ apart base (V y) (V x)
  | UB => False
  end.
Proof.
  intros Hl Hx. unfold vecAdd. destruct (existsb (fun y => vcont base (V y) (V x)) l) eqn:E1.
  - apply existsb_exists in E1. destruct E1 as (y & Hy & C). exists y. split; [exact Hy|]. apply vcont_inside in C; auto.
  - assert (N : forall y, In y l -> ~ inside base (V x) (V y)).
    { intros y Hy C. apply vcont_inside in C; auto. assert (existsb (fun y => vcont base (V y) (V x)) l = true) by (apply existsb_exists; eauto). congruence. }
    destruct (existsb (fun y => vint base (V y) (V x)) l) eqn:E2.
    + split; [exact N|]. apply existsb_exists in E2. destruct E2 as (y & Hy & C). exists y. split; [exact Hy|]. intros A. apply vint_apart in A; auto. congruence.
    + intros y Hy. apply vint_apart; auto. apply not_true_is_false. intros C. assert (existsb (fun y => vint base (V y) (V x)) l = true) by (apply existsb_exists; eauto). congruence.
Qed.

(* ---- assignment ---- *)
Definition upd (x : nat) (A : mat) (p : mprops) (e : nat * bjac) : nat * bjac :=
  if Nat.eqb (fst e) x then (fst e, mkBJ (q_rows (snd e)) (q_cols (snd e)) (Some A) p) else e.
Lemma upd_other x A p jac : ~ In x (map fst jac) -> map (upd x A p) jac = jac.
Proof.
  induction jac as [|[y J] jac IH]; intros N; [reflexivity|]. cbn [map]. rewrite IH by (intros H; apply N; right; exact H).
  unfold upd. cbn [fst snd]. destruct (Nat.eqb_spec y x) as [->|_]; [exfalso; apply N; left; reflexivity|reflexivity].
Qed.
Lemma upd_keys x A p jac : map fst (map (upd x A p) jac) = map fst jac.
Proof. induction jac as [|[y J] jac IH]; [reflexivity|]. cbn [map]. rewrite IH. f_equal. unfold upd. destruct (Nat.eqb (fst (y, J)) x); reflexivity. Qed.
Lemma assign_throw jac x A p : ~ In x (map fst jac) -> assign jac x A p = Throw.
Proof.
  induction jac as [|[y J] jac IH]; intros N; [reflexivity|]. cbn [assign]. destruct (Nat.eqb_spec y x) as [->|_]; [exfalso; apply N; left; reflexivity|].
  rewrite IH by (intros H; apply N; right; exact H). reflexivity.
Qed.
Lemma assign_ok n jac x A p : NoDup (map fst jac) -> In x (map fst jac) -> (forall y J, In (y, J) jac -> q_rows J = n /\ q_cols J = tSize (c_space (V y))) ->
  mr A = n -> Z.of_nat (mc A) = tSize (c_space (V x)) -> assign jac x A p = Ok (map (upd x A p) jac).
Proof.
  intros Nd Hi F HA HB. induction jac as [|[y J] jac IH]; [destruct Hi|]. cbn [map fst] in Nd. inversion Nd as [|? ? N1 N2]; subst. cbn [assign map].
  destruct (Nat.eqb_spec y x) as [->|Ne].
  - destruct (F x J (or_introl eq_refl)) as [F1 F2]. rewrite F1, F2, Nat.eqb_refl, HB, Z.eqb_refl. cbn [andb]. rewrite upd_other by exact N1.
    unfold upd. cbn [fst snd]. rewrite Nat.eqb_refl, F1, F2. reflexivity.
  - destruct Hi as [Hi|Hi]; [cbn in Hi; congruence|]. rewrite IH; auto; [|intros z K Hz; apply F; right; exact Hz]. cbn [bind]. unfold upd at 2. cbn [fst].
    destruct (Nat.eqb_spec y x); [congruence|reflexivity].
Qed.

(* ---- invariant of a constraint ---- *)
Record binv (c : blc) : Prop := mkInv {
  i_dup : NoDup (map fst (b_jac c));
  i_jac : forall y J, In (y, J) (b_jac c) -> q_rows J = b_size c /\ q_cols J = tSize (c_space (V y));
  i_pos : forall y, In y (map fst (b_jac c)) -> 0 < size y;
  i_apart : forall x y, In x (map fst (b_jac c)) -> In y (map fst (b_jac c)) -> x <> y -> apart base (V x) (V y) }.

Definition withJac (c : blc) (jac : list (nat * bjac)) : blc := mkBlc (b_type c) (b_rhs c) (b_size c) jac (b_l c) (b_u c) (b_e c).
Lemma apart_sym x y : apart base x y -> apart base y x.
Proof. intros H k c [A B]. apply (H k c). split; assumption. Qed.

Lemma addVar_spec c x : binv c -> 0 < size x ->
  match addVar base V c x with
  | Ok c' => binv c' /\
      ((c' = c /\ exists y, In y (map fst (b_jac c)) /\ inside base (V x) (V y)) \/
       (c' = withJac c (b_jac c ++ [(x, mkBJ (b_size c) (tSize (c_space (V x))) None dfltP)]) /\ (forall y, In y (map fst (b_jac c)) -> apart base (V y) (V x)) /\ ~ In x (map fst (b_jac c))))
  | Throw => (forall y, In y (map fst (b_jac c)) -> ~ inside base (V x) (V y)) /\ exists y, In y (map fst (b_jac c)) /\ ~ apart base (V y) (V x)
  | UB => False
  end.
Proof.
  intros [I1 I2 I3 I4] Hx. unfold addVar. pose proof (vecAdd_spec (map fst (b_jac c)) x I3 Hx) as H. destruct (vecAdd base V (map fst (b_jac c)) x) as [[|]| |]; cbn [bind]; auto.
  - assert (N : ~ In x (map fst (b_jac c))).
    { intros Hi. apply (inside_not_apart (V x) (V x) Hx (inside_refl _)). apply H, Hi. }
    split; [|right; split; [reflexivity|split; [exact H|exact N]]].
    constructor; cbn [b_jac b_size]; rewrite ?map_app; cbn [map fst].
    + unfold withJac. cbn [b_jac]. rewrite <- (rev_involutive (map fst (b_jac c) ++ [x])). apply NoDup_rev. rewrite rev_app_distr. cbn [rev app]. constructor; [rewrite <- in_rev; exact N|apply NoDup_rev, I1].
    + intros y J Hy. apply in_app_or in Hy. destruct Hy as [Hy|[[= <- <-]|[]]]; [apply I2, Hy|split; reflexivity].
    + intros y Hy. apply in_app_or in Hy. destruct Hy as [Hy|[<-|[]]]; auto.
    + intros y z Hy Hz Ne. apply in_app_or in Hy. apply in_app_or in Hz. destruct Hy as [Hy|[<-|[]]], Hz as [Hz|[<-|[]]]; auto; [|congruence]. apply apart_sym. auto.
  - split; [constructor; assumption|left; split; [reflexivity|exact H]].
Qed.

Lemma setJac_inv c x A p c' : binv c -> setJac c x A p = Ok c' -> binv c' /\ In x (map fst (b_jac c)) /\ c' = withJac c (map (upd x A p) (b_jac c)).
Proof.
  intros [I1 I2 I3 I4] E. unfold setJac in E. destruct (in_dec Nat.eq_dec x (map fst (b_jac c))) as [Hi|Hi]; [|rewrite assign_throw in E by exact Hi; discriminate].
  assert (K : assign (b_jac c) x A p = Ok (map (upd x A p) (b_jac c))).
  { destruct (assign (b_jac c) x A p) as [jac| |] eqn:Ea; cbn [bind] in E; try discriminate. clear - I1 Ea. revert jac I1 Ea.
    induction (b_jac c) as [|[y J] l IH]; intros jac Nd Ea; [discriminate|]. cbn [assign] in Ea. cbn [map]. inversion Nd as [|? ? N1 N2]; subst. unfold upd at 1. cbn [fst snd].
    destruct (Nat.eqb_spec y x) as [->|Ne].
    - destruct (Nat.eqb (q_rows J) (mr A) && Z.eqb (q_cols J) (Z.of_nat (mc A)))%bool; [|discriminate]. injection Ea as <-. rewrite upd_other by exact N1. reflexivity.
    - destruct (assign l x A p) as [l'| |] eqn:El; cbn [bind] in Ea; try discriminate. injection Ea as <-. specialize (IH l' N2 eq_refl). injection IH as ->. reflexivity. }
  rewrite K in E. cbn [bind] in E. injection E as <-. split; [|split; [exact Hi|reflexivity]].
  constructor; cbn [b_jac b_size]; try rewrite upd_keys; auto.
  intros y J Hy. apply in_map_iff in Hy. destruct Hy as ([z K0] & Ez & Hz). destruct (I2 z K0 Hz) as [Ha Hb]. unfold upd in Ez. cbn [fst snd] in Ez.
  destruct (Nat.eqb z x); injection Ez as <- <-; auto.
Qed.
Lemma setJac_ok c x A p : binv c -> In x (map fst (b_jac c)) -> mr A = b_size c -> Z.of_nat (mc A) = tSize (c_space (V x)) ->
  setJac c x A p = Ok (withJac c (map (upd x A p) (b_jac c))).
Proof. intros [I1 I2 I3 I4] Hi HA HB. unfold setJac. rewrite (assign_ok (b_size c)); auto. Qed.

(* ---- variables ---- *)
Definition sane (x : cvar) : Prop := plain base x \/ (curved base x /\ 0 < rSize (c_space x)).
Lemma plain_size x : plain base x -> vsize base x = tSize (c_space x) /\ 0 < vsize base x.
Proof. intros [A B]. unfold vsize. destruct (base (c_sup x)); [destruct (B eq_refl); lia|lia]. Qed.
Lemma sane_pos x : sane x -> 0 < vsize base x.
Proof. intros [P|[[B C] D]]; [apply plain_size, P|]. unfold vsize. rewrite B. exact D. Qed.
Lemma curved_test x : sane x -> (negb (isEuclideanS (c_space x)) && base (c_sup x) = true <-> curved base x).
Proof.
  intros _. unfold curved, isEuclideanS. rewrite andb_true_iff, negb_true_iff. destruct (base (c_sup x)), (type_ (c_space x)); cbn; split; intros [A B]; split; auto; try discriminate; congruence.
Qed.
Lemma sane_flat x : sane x -> ~ curved base x -> plain base x.
Proof. intros [P|[C _]] N; [exact P|contradiction]. Qed.
End Blc.
