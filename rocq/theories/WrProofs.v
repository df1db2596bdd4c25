Require Import QArith ZArith List Bool Lia Lqa.
Require Import Verif.Base Verif.QSum Verif.RangeModel Verif.SpaceModel Verif.VarCountingModel Verif.VarCountingSpec.
Require Import Verif.LinFunModel Verif.LinFunSpec Verif.LinFunProofs5 Verif.LinFunProofs6 Verif.WrModel Verif.WrSpec.
Import ListNotations.
Local Open Scope nat_scope.

(* the vector made from a given right-hand side *)
Definition vecOf (g : given) (n : nat) : vec := match newRhs g with RZero => mkVec n (fun _ => 0%Q) | RDouble d => mkVec n (fun _ => d) | RVec v => v end.
Lemma toVector_ok g n : WrSpec.sized n g -> toVector (newRhs g) n = Ok (vecOf g n) /\ vn (vecOf g n) = n /\ forall i, (ve (vecOf g n) i == at_ g i)%Q.
Proof.
  destruct g as [d|v]; simpl; intros H; unfold vecOf; simpl.
  - destruct (Qeq_bool d 0) eqn:E; simpl; (split; [reflexivity|]); (split; [reflexivity|]); intros i; [apply Qeq_bool_iff in E; rewrite E|]; reflexivity.
  - split; [rewrite H, Nat.eqb_refl; reflexivity|]. split; [exact H|reflexivity].
Qed.
Lemma wrongSize_iff n g : wrongSize n (newRhs g) = true <-> ~ WrSpec.sized n g.
Proof.
  destruct g as [d|v]; simpl; [destruct (Qeq_bool d 0); simpl; split; [discriminate|tauto|discriminate|tauto]|].
  destruct (Nat.eqb_spec n (vn v)); simpl; split; intros; try discriminate; try congruence; exfalso; auto.
Qed.
Lemma wrongSize_ok n g : WrSpec.sized n g -> wrongSize n (newRhs g) = false.
Proof. intros H. destruct (wrongSize n (newRhs g)) eqn:E; [apply wrongSize_iff in E; contradiction|reflexivity]. Qed.
Lemma sized_dec n g : {WrSpec.sized n g} + {~ WrSpec.sized n g}.
Proof. destruct g as [d|v]; simpl; [left; exact Logic.I|apply Nat.eq_dec]. Qed.

(* bounds of a relation: lower, upper, equal *)
Inductive shape := ShE (g : given) | ShG (g : given) | ShL (g : given) | ShD (l u : given).
Definition protoOf {F} (f : F) (s : shape) : proto F :=
  match s with ShE g => PSingle WEqual f (newRhs g) | ShG g => PSingle WGreater f (newRhs g) | ShL g => PSingle WLower f (newRhs g) | ShD l u => PDouble f (newRhs l) (newRhs u) end.
Definition means (s : shape) (y : Q) (i : nat) : Prop :=
  match s with ShE g => y == at_ g i | ShG g => at_ g i <= y | ShL g => y <= at_ g i | ShD l u => at_ l i <= y /\ y <= at_ u i end%Q.
Definition gsides (s : shape) : list given := match s with ShE g | ShG g | ShL g => [g] | ShD l u => [l; u] end.
Definition tshape (s : shape) : wtype := match s with ShE _ => WEqual | ShG _ => WGreater | ShL _ => WLower | ShD _ _ => WDouble end.
Definition constrOf (n : nat) (s : shape) : constr :=
  match s with ShE g | ShG g | ShL g => mkCn (tshape s) n (vecOf g n) None | ShD l u => mkCn WDouble n (vecOf l n) (Some (vecOf u n)) end.

Lemma shaped w t : typeOf w = Some t -> exists s, tshape s = t /\ (forall i y, holds w y i <-> means s y i) /\
  (forall x, In x (gsides s) <-> In x (sides w)) /\
  forall F (f : F) n, (Forall (WrSpec.sized n) (sides w) -> evaluate n f w = Ok (protoOf f s)) /\
    (~ Forall (WrSpec.sized n) (sides w) -> evaluate n f w = Throw).
Proof.
  revert t. induction w as [c g|g c|w IH c g]; intros t H.
  1,2: exists (match t with WEqual => ShE g | WGreater => ShG g | _ => ShL g end).
  1,2: destruct c; simpl in H; injection H as <-; (split; [reflexivity|]); (split; [intros i y; simpl; try tauto; (split; intros E; symmetry; exact E)|]); (split; [intros x; simpl; tauto|]);
    intros F f n; (split; intros K; [apply Forall_inv in K; simpl; unfold newSingle; rewrite (wrongSize_ok n g K); reflexivity|
      simpl; unfold newSingle; replace (wrongSize n (newRhs g)) with true; [reflexivity|]; symmetry; apply wrongSize_iff; intros J; apply K; constructor; auto]).
  cbn [typeOf] in H. destruct (typeOf w) as [tw|] eqn:Ew; [|discriminate]. destruct (IH tw eq_refl) as (s & Es & Hs & Gs & Vs). clear IH.
  assert (K : exists s', tshape s' = t /\ (forall i y, holds w y i /\ compare y c (at_ g i) <-> means s' y i) /\ (forall x, In x (gsides s') <-> x = g \/ In x (gsides s)) /\
     forall F (f : F) n, (WrSpec.sized n g -> Forall (WrSpec.sized n) (gsides s) -> opChain n (protoOf f s) c (newRhs g) = Some (Ok (protoOf f s'))) /\
       (~ WrSpec.sized n g -> opChain n (protoOf f s) c (newRhs g) = Some Throw)).
  { destruct tw, c; try discriminate; injection H as <-; destruct s as [h|h|h|h1 h2]; try discriminate; simpl in Hs.
    - exists (ShD h g). split; [reflexivity|]. split; [intros i y; rewrite Hs; simpl; tauto|]. split; [intros x; simpl; intuition congruence|]. intros F f n. simpl. unfold newDouble.
      split; [intros A B; apply Forall_inv in B; rewrite (wrongSize_ok n h B), (wrongSize_ok n g A); reflexivity|].
      intros A. apply wrongSize_iff in A. rewrite A. destruct (wrongSize n (newRhs h)); reflexivity.
    - exists (ShD g h). split; [reflexivity|]. split; [intros i y; rewrite Hs; simpl; tauto|]. split; [intros x; simpl; intuition congruence|]. intros F f n. simpl. unfold newDouble.
      split; [intros A B; apply Forall_inv in B; rewrite (wrongSize_ok n h B), (wrongSize_ok n g A); reflexivity|].
      intros A. apply wrongSize_iff in A. rewrite A. reflexivity. }
  destruct K as (s' & E1 & E2 & E3 & E4). exists s'. split; [exact E1|]. split; [exact E2|]. split; [intros x; rewrite E3, Gs; simpl; intuition congruence|].
  intros F f n. destruct (Vs F f n) as [V1 V2]. destruct (E4 F f n) as [O1 O2].
  assert (Gf : Forall (WrSpec.sized n) (gsides s) <-> Forall (WrSpec.sized n) (sides w)) by (rewrite !Forall_forall; split; intros X x Hx; apply X, Gs, Hx).
  cbn [sides evaluate]. split.
  - intros K. apply Forall_cons_iff in K. destruct K as [K1 K2]. rewrite (V1 K2). cbn [bind]. rewrite (O1 K1 (proj2 Gf K2)). reflexivity.
  - intros K. destruct (Forall_dec _ (sized_dec n) (sides w)) as [D|D].
    + rewrite (V1 D). cbn [bind]. rewrite O2; [reflexivity|]. intros A. apply K. constructor; auto.
    + rewrite (V2 D). reflexivity.
Qed.
Lemma typeOf_onLeft w : typeOf (onLeft w) = typeOf w.
Proof. induction w as [c g|g c|w IH c g]; [reflexivity|destruct c; reflexivity|]. cbn. rewrite IH. reflexivity. Qed.
Lemma holds_onLeft w y i : holds (onLeft w) y i <-> holds w y i.
Proof.
  induction w as [c g|g c|w IH c g]; [reflexivity| |simpl; rewrite IH; reflexivity]. destruct c; simpl; [split; intros E; symmetry; exact E|tauto|tauto].
Qed.
Lemma sides_onLeft w : sides (onLeft w) = sides w.
Proof. induction w as [c g|g c|w IH c g]; [reflexivity|reflexivity|]. cbn. rewrite IH. reflexivity. Qed.

Lemma add_ok {F} (f : F) n s : Forall (WrSpec.sized n) (gsides s) -> add n (protoOf f s) = Ok (constrOf n s).
Proof.
  intros H. destruct s as [g|g|g|l u]; simpl in H; apply Forall_cons_iff in H; destruct H as [H1 H2]; destruct (toVector_ok g n H1) as (A & B & _) || destruct (toVector_ok l n H1) as (A & B & _); cbn [protoOf add]; rewrite A; cbn [bind].
  1-3: unfold newTask; rewrite B, Nat.eqb_refl; reflexivity.
  apply Forall_inv in H2. destruct (toVector_ok u n H2) as (C & D & _). rewrite C. cbn [bind]. unfold newTask2. rewrite B, D, Nat.eqb_refl. reflexivity.
Qed.

Section Points.
Variables (base : nat -> bool) (env : nat -> Z -> Q).
Lemma none_ok g n f : WrSpec.sized n g -> vn (f_b f) = n -> exists b, noneValue (vecOf g n) f = Some b /\ vn b = n /\ forall i, (ve b i == at_ g i - ve (f_b f) i)%Q.
Proof.
  intros H E. destruct (toVector_ok g n H) as (_ & A & B). unfold noneValue, vadd, vneg. cbn [vn ve]. rewrite A, E, Nat.eqb_refl. eexists. split; [reflexivity|].
  cbn [vn ve]. split; [reflexivity|]. intros i. rewrite B. ring.
Qed.
Lemma points f s v n : f_size f = n -> vn (f_b f) = n -> value base env f = Some v -> Forall (WrSpec.sized n) (gsides s) ->
  (satisfied base env (constrOf n s) f <-> forall i, i < n -> means s (ve v i) i).
Proof.
  intros En Eb Ev Hs. unfold value in Ev. apply accumulate_spec in Ev. destruct Ev as (A & B & C). rewrite Eb in A, B.
  destruct (accumulate_def (valueOf base env) (f_jac f) (zero n)) as (x & Ex); [exact B|]. destruct (accumulate_spec _ _ _ _ Ex) as (X1 & _ & X2). cbn [zero vn ve] in X1, X2.
  assert (V : forall i, (ve v i == ve x i + ve (f_b f) i)%Q) by (intros i; rewrite C, X2; ring). unfold satisfied, cValue.
  assert (Nz : n_size (constrOf n s) = n) by (destruct s; reflexivity). rewrite Nz, Ex. cbv zeta beta.
  destruct s as [g|g|g|l u]; simpl in Hs; apply Forall_cons_iff in Hs; destruct Hs as [H1 H2]; destruct (none_ok g n f H1 Eb) as (b & N1 & N2 & N3) || destruct (none_ok l n f H1 Eb) as (b & N1 & N2 & N3);
    unfold cL, cU, cE; cbn [constrOf tshape n_type n_rhs n_rhs2 means]; rewrite N1.
  4: apply Forall_inv in H2; destruct (none_ok u n f H2 Eb) as (b' & M1 & M2 & M3); rewrite M1.
  1-3: split; [intros (x' & [= <-] & _ & K1 & K2 & K3) i Hi; match goal with H : _ /\ (forall i, _) |- _ => destruct H as [_ K] end; specialize (K i Hi); rewrite V, ?N3 in *; lra|
    intros K; exists x; split; [reflexivity|]; split; [exact X1|]; repeat split; auto; intros i Hi; specialize (K i Hi); rewrite V in K; rewrite N3; lra].
  split.
  - intros (x' & [= <-] & _ & [_ K1] & [_ K2] & _) i Hi. specialize (K1 i Hi). specialize (K2 i Hi). rewrite V. rewrite N3 in K1. rewrite M3 in K2. lra.
  - intros K. exists x. split; [reflexivity|]. split; [exact X1|]. repeat split; auto; intros i Hi; specialize (K i Hi); rewrite V in K; rewrite ?N3, ?M3; lra.
Qed.
End Points.
