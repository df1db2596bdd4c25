Require Import QArith ZArith List Bool Lia Lqa.
Require Import Verif.Base Verif.QSum Verif.RangeModel Verif.SpaceModel Verif.VarCountingModel Verif.VarCountingSpec.
Require Import Verif.LinFunModel Verif.LinFunSpec Verif.LinFunProofs Verif.LinFunProofs5 Verif.LinFunProofs6 Verif.WrModel Verif.WrSpec Verif.WrProofs Verif.WrProofs2.
Import ListNotations.
Local Open Scope nat_scope.

Lemma compare_ext a c b a' : (a == a')%Q -> compare a c b <-> compare a' c b.
Proof. intros E. destruct c; simpl; rewrite E; reflexivity. Qed.
Lemma compare_ext_r a c b b' : (b == b')%Q -> compare a c b <-> compare a c b'.
Proof. intros E. destruct c; simpl; rewrite E; reflexivity. Qed.
Lemma holds_ext w y z i : (y == z)%Q -> holds w y i <-> holds w z i.
Proof. intros E. induction w as [c g|g c|w IH c g]; simpl; [apply compare_ext, E|apply compare_ext_r, E|]. rewrite IH, (compare_ext y c (at_ g i) z E). reflexivity. Qed.
Lemma setB_size f b g : setB f b = Ok g -> vn (f_b g) = f_size g.
Proof. unfold setB. destruct (Nat.eqb_spec (vn b) (f_size f)); [|discriminate]. intros [= <-]. assumption. Qed.
Lemma ofOperand_size spOf base p f : ofOperand spOf base p = Some (Ok f) -> vn (f_b f) = f_size f.
Proof.
  destruct p as [x|b|l|a]; simpl; try discriminate; intros [= H].
  - unfold ofLinear in H. destruct (addTerm _ _ _ _); cbn [bind] in H; try discriminate. eapply setB_size; exact H.
  - unfold ofAffine in H. destruct (a_lin a) as [|t l]; [discriminate|]. repeat (match type of H with bind ?x _ = _ => destruct x as [[]| |] eqn:?; cbn [bind] in H; try discriminate end).
    all: try (destruct (preAdd _ _ _ _ _); cbn [bind] in H; try discriminate; destruct (addTerms _ _ _ _); cbn [bind] in H; try discriminate); eapply setB_size; exact H.
Qed.

Lemma expression_points (L : layout) (spOf : nat -> space) (base : nat -> bool) (e : expr) (n : nat) (w : written) :
  good L spOf -> fits base e n -> (forall x, In x (vars e) -> usable L base x) -> vars e <> [] -> (forall x, e <> EVar x) ->
  writable w -> Forall (WrSpec.sized n) (sides w) ->
  exists f p c, toFunction spOf base (SExpr e) = Some (Ok f) /\ relation spOf base (SExpr e) w = Some (Ok p) /\ add n p = Ok c /\
    forall env, satisfied base env c f <-> forall i, i < n -> holds w (meaning (coord base env) constant e i) i.
Proof.
  intros G Fi Us Nv Ne Hw Hs. destruct (c42_expression L spOf base e n G Fi Us Nv Ne) as (o & f & E1 & E2 & E3 & _ & E4 & _).
  assert (T : toFunction spOf base (SExpr e) = Some (Ok f)) by (simpl; rewrite E1; exact E2).
  destruct (relation_gen spOf base (SExpr e) f w T (ofOperand_size _ _ _ _ E2) Hw) as [H _]. rewrite E3 in H. destruct (H Hs) as (p & c & R1 & R2 & R3).
  exists f, p, c. split; [exact T|]. split; [exact R1|]. split; [exact R2|]. intros env. destruct (E4 env) as (v & V1 & _ & V3).
  rewrite (R3 f env v (ChNo base f) V1). split; intros X i Hi; specialize (X i Hi); [rewrite <- (holds_ext w _ _ i (V3 i Hi))|rewrite (holds_ext w _ _ i (V3 i Hi))]; exact X.
Qed.
Lemma variable_points (L : layout) (spOf : nat -> space) (base : nat -> bool) (x : cvar) (w : written) :
  good L spOf -> usable L base x -> writable w -> Forall (WrSpec.sized (Z.to_nat (if base (c_sup x) then rSize (c_space x) else tSize (c_space x)))) (sides w) ->
  exists f p c, toFunction spOf base (SVar x) = Some (Ok f) /\ relation spOf base (SVar x) w = Some (Ok p) /\ add (f_size f) p = Ok c /\
    forall env, satisfied base env c f <-> forall i, (Z.of_nat i < if base (c_sup x) then rSize (c_space x) else tSize (c_space x))%Z -> holds w (coord base env x i) i.
Proof.
  intros G U Hw Hs. destruct (identity L spOf base x G U) as (f & E1 & E2 & E3 & E4).
  assert (T : toFunction spOf base (SVar x) = Some (Ok f)) by (simpl; rewrite E1; reflexivity).
  destruct (relation_gen spOf base (SVar x) f w T E3 Hw) as [H _]. unfold vsize in E2. rewrite <- E2 in Hs. destruct (H Hs) as (p & c & R1 & R2 & R3).
  exists f, p, c. split; [exact T|]. split; [exact R1|]. split; [exact R2|]. intros env. destruct (E4 env) as (v & V1 & V3).
  rewrite (R3 f env v (ChNo base f) V1). split; intros X i Hi.
  - assert (Hi' : i < f_size f) by (rewrite E2; lia). rewrite <- (holds_ext w _ _ i (V3 i Hi')). apply X. exact Hi'.
  - rewrite (holds_ext w _ _ i (V3 i Hi)). apply X. rewrite E2 in Hi. lia.
Qed.
Lemma function_points (spOf : nat -> space) (base : nat -> bool) (f : blf) (w : written) :
  vn (f_b f) = f_size f -> writable w -> Forall (WrSpec.sized (f_size f)) (sides w) ->
  exists p c, relation spOf base (SFun f) w = Some (Ok p) /\ add (f_size f) p = Ok c /\
    forall f' env v, changed base f f' -> value base env f' = Some v ->
      (satisfied base env c f' <-> forall i, i < f_size f -> holds w (ve v i) i).
Proof. intros E Hw. exact (proj1 (relation_gen spOf base (SFun f) f w eq_refl E Hw)). Qed.
Lemma refused (L : layout) (spOf : nat -> space) (base : nat -> bool) (s : subject) (w : written) : good L spOf ->
  (~ writable w -> relation spOf base s w = None) /\
  (writable w -> forall f, toFunction spOf base s = Some (Ok f) -> vn (f_b f) = f_size f -> ~ Forall (WrSpec.sized (f_size f)) (sides w) -> relation spOf base s w = Some Throw) /\
  (writable w -> (exists x, curved base x /\ (s = SVar x \/ exists e n, s = SExpr e /\ fits base e n /\ In x (vars e) /\ (forall y, e <> EVar y) /\
     forall y, In y (vars e) -> usable L base y \/ (curved base y /\ exists q, (0 < dim q)%Z /\ made_of L y q))) -> relation spOf base s w = Some Throw).
Proof.
  intros G. split; [apply unwritable|]. split.
  - intros Hw f T E. exact (proj2 (relation_gen spOf base s f w T E Hw)).
  - intros Hw (x & C & K). apply writable_iff in Hw. destruct Hw as (t & Ht). unfold relation. rewrite Ht. destruct K as [->|(e & n & -> & Fi & Hx & Ne & Hv)]; simpl.
    + rewrite (identity_curved L spOf base x G C). reflexivity.
    + destruct (c42_curved L spOf base e n G Fi Hv (ex_intro _ x (conj Hx C)) Ne) as (p & -> & ->). reflexivity.
Qed.
