From Coq Require Import List Bool ZArith QArith String Lia.
Import ListNotations.
From Verif Require Import Base OptModel OptSpec.
Local Open Scope string_scope.
Local Open Scope list_scope.

Lemma get_set n v m o : getOpt m (setOpt n v o) = if n =? m then (if existsb (fun p => fst p =? n) o then Some v else None) else getOpt m o.
Proof.
  induction o as [|[a w] o IH]; cbn [setOpt getOpt existsb fst]; [destruct (n =? m); reflexivity|].
  destruct (String.eqb_spec a n) as [->|A]; cbn [getOpt].
  - destruct (String.eqb_spec n m); reflexivity.
  - rewrite IH. cbn [orb]. destruct (String.eqb_spec a m) as [->|B]; [|reflexivity].
    destruct (String.eqb_spec n m) as [->|C]; [congruence|reflexivity].
Qed.
Lemma set_names n v o m : existsb (fun p : string * option val => fst p =? m) (setOpt n v o) = existsb (fun p => fst p =? m) o.
Proof. induction o as [|[a w] o IH]; cbn; [reflexivity|]. destruct (a =? n); cbn; [reflexivity|]. rewrite IH. reflexivity. Qed.
Lemma get_setAll : forall l o n, existsb (fun p => fst p =? n) o = true -> getOpt n (setAll l o) = chosen n l (getOpt n o).
Proof.
  unfold chosen. induction l as [|[m v] l IH]; intros o n H; [reflexivity|]. unfold setAll. cbn [fold_left fst snd lastGiven]. fold (setAll l (setOpt m v o)).
  rewrite IH by (rewrite set_names; exact H). rewrite get_set. destruct (lastGiven n l); [reflexivity|]. destruct (String.eqb_spec m n) as [->|]; [rewrite H; reflexivity|reflexivity].
Qed.
Lemma get_undeclared : forall l o n, existsb (fun p => fst p =? n) o = false -> getOpt n (setAll l o) = None.
Proof.
  assert (G : forall o n, existsb (fun p : string * option val => fst p =? n) o = false -> getOpt n o = None).
  { induction o as [|[a w] o IH]; intros n H; [reflexivity|]. cbn in H. apply orb_false_iff in H as [H1 H2]. cbn. rewrite H1. apply IH, H2. }
  induction l as [|[m v] l IH]; intros o n H; [apply G, H|]. unfold setAll. cbn [fold_left fst snd]. apply IH. rewrite set_names. exact H.
Qed.
Lemma process_fold o : forall l p n, fold_left (process o) l p n =
  match getOpt n o with Some v => if existsb (fun m => m =? n) l then v else p n | None => p n end.
Proof.
  induction l as [|m l IH]; intros p n; cbn [fold_left existsb]; [destruct (getOpt n o); reflexivity|]. rewrite IH. unfold process.
  destruct (String.eqb_spec m n) as [->|N].
  - destruct (getOpt n o) as [v|]; [|reflexivity]. cbn. unfold setP. rewrite String.eqb_refl. destruct (existsb _ l); reflexivity.
  - cbn [orb]. destruct (getOpt m o); [|reflexivity]. unfold setP. rewrite (proj2 (String.eqb_neq n m)) by congruence. reflexivity.
Qed.

(* ---- the options of each class ---- *)
Lemma declared_get k n d : In (n, d) (declared k) -> existsb (fun p => fst p =? n) (declared k) = true /\ getOpt n (declared k) = d.
Proof.
  intros H. destruct k; cbn in H; repeat (destruct H as [H|H]; [injection H as <- <-; split; reflexivity|]); contradiction.
Qed.
Lemma declared_not k n : (forall d, ~ In (n, d) (declared k)) -> existsb (fun p => fst p =? n) (declared k) = false.
Proof.
  intros H. destruct (existsb _ _) eqn:E; [|reflexivity]. apply existsb_exists in E as ([m d] & I & E). cbn in E. apply String.eqb_eq in E as ->. destruct (H d I).
Qed.
Lemma chosen_default n l d : chosen n l (Some d) <> None.
Proof. unfold chosen. destruct (lastGiven n l); discriminate. Qed.

Lemma initialized_ok k n : own k n -> (exists d, In (n, d) (declared k)) -> In n (initialized k).
Proof.
  intros O [d H]. destruct k; cbn in H; repeat (destruct H as [H|H]; [injection H as <- <-; cbn in O |- *; intuition (try discriminate)|]); contradiction.
Qed.
Lemma initialized_default k n : In n (initialized k) -> exists d, In (n, Some d) (declared k).
Proof. intros H. destruct k; cbn in H; repeat (destruct H as [<-|H]; [eexists; cbn; tauto|]); contradiction. Qed.
Lemma values_ok o : forall l, (forall n, In n l -> getOpt n o <> None) -> exists f, values l o = Ok f /\ (forall n v, In (n, v) f <-> In n l /\ getOpt n o = Some v).
Proof.
  induction l as [|n l IH]; intros H; cbn [values]; [exists []; split; [reflexivity|]; intros; cbn; tauto|].
  destruct (getOpt n o) as [v|] eqn:E; [|destruct (H n (or_introl eq_refl) E)]. destruct IH as (f & Ef & Hf); [intros m I; apply H; right; exact I|].
  rewrite Ef. cbn [bind]. eexists. split; [reflexivity|]. intros m w. cbn [In]. rewrite Hf. split.
  - intros [X|[A B]]; [injection X as <- <-; auto|auto].
  - intros [[<-|A] B]; [left; congruence|auto].
Qed.
Lemma times4_ok x : times4 x = match x with VZ z => VZ (z + z + z + z) | _ => x end.
Proof. destruct x; cbn [times4]; try reflexivity. f_equal. lia. Qed.

Definition kept (o : opts) (n : string) (x : val) (f : val -> val) : val := match getOpt n o with None => f x | Some _ => x end.
Lemma lssol_value o p n : lssolDefaults o p n =
  if n =? "optimalityMaxIter" then kept o n (p n) times4 else if n =? "feasibilityMaxIter" then kept o n (p n) times4
  else if n =? "persistence" then kept o n (p n) (fun _ => VB true) else if n =? "forceMinSize" then VB false else p n.
Proof.
  unfold lssolDefaults, kept. cbv zeta.
  destruct (String.eqb_spec n "optimalityMaxIter") as [->|N1]; [destruct (getOpt "optimalityMaxIter" o), (getOpt "persistence" o), (getOpt "feasibilityMaxIter" o); reflexivity|].
  destruct (String.eqb_spec n "feasibilityMaxIter") as [->|N2]; [destruct (getOpt "optimalityMaxIter" o), (getOpt "persistence" o), (getOpt "feasibilityMaxIter" o); reflexivity|].
  destruct (String.eqb_spec n "persistence") as [->|N3]; [destruct (getOpt "optimalityMaxIter" o), (getOpt "persistence" o), (getOpt "feasibilityMaxIter" o); reflexivity|].
  apply String.eqb_neq in N1, N2, N3.
  destruct (getOpt "optimalityMaxIter" o), (getOpt "persistence" o), (getOpt "feasibilityMaxIter" o); unfold setP; rewrite ?N1, ?N2, ?N3; reflexivity.
Qed.

(* the parameters of an object of the library after the constructor *)
Definition after (k : kind) (o : opts) (p : params) : params :=
  let p := fold_left (process o) (processed k) p in match k with LSSOL => lssolDefaults o p | _ => p end.
Lemma after_declared k l n d p : In (n, d) (declared k) -> ~ own k n ->
  after k (setAll l (declared k)) p n = match chosen n l d with Some v => v | None => unchosen k n (p n) end.
Proof.
  intros H N. pose proof (declared_get k n d H) as [X G]. pose proof (get_setAll l (declared k) n X) as E. rewrite G in E.
  set (o := setAll l (declared k)) in *. clearbody o. unfold after.
  destruct k; cbn in H; try (destruct N; exact I);
    try (repeat (destruct H as [H|H]; [injection H as <- <-; try (exfalso; apply N; cbn; tauto); rewrite process_fold, E; match goal with |- match ?c with _ => _ end = _ => destruct c end; reflexivity|]); contradiction).
  repeat (destruct H as [H|H]; [injection H as <- <-; try (exfalso; apply N; cbn; tauto); rewrite lssol_value; unfold kept; rewrite process_fold, E;
    match goal with |- context [chosen ?a ?b ?c] => destruct (chosen a b c) eqn:C end; cbn -[times4]; rewrite ?times4_ok; try reflexivity; destruct (chosen_default _ _ _ C)|]); contradiction.
Qed.
Lemma after_other k l n p : (forall d, ~ In (n, d) (declared k)) -> ~ (k = LSSOL /\ n = "forceMinSize") -> after k (setAll l (declared k)) p n = p n.
Proof.
  intros H F. pose proof (get_undeclared l _ n (declared_not k n H)) as E. set (o := setAll l (declared k)) in *. clearbody o. unfold after.
  assert (B : fold_left (process o) (processed k) p n = p n) by (rewrite process_fold, E; reflexivity).
  destruct k; try exact B. rewrite lssol_value.
  assert (N : n <> "persistence" /\ n <> "feasibilityMaxIter" /\ n <> "optimalityMaxIter" /\ n <> "forceMinSize").
  { repeat split; intros ->; first [apply F; split; reflexivity | apply (H None); cbn; tauto]. }
  destruct N as (N1 & N2 & N3 & N4). apply String.eqb_neq in N1, N2, N3, N4. rewrite N1, N2, N3, N4. exact B.
Qed.
Lemma Forall2_map {A B} (R : A -> B -> Prop) (f : A -> B) : (forall x, R x (f x)) -> forall l, Forall2 R l (map f l).
Proof. intros H. induction l; cbn; constructor; auto. Qed.

Lemma reach_ok k libs l : exists s, construct k libs (setAll l (declared k)) = Ok s /\ configured k libs l s.
Proof.
  unfold construct. destruct (values_ok (setAll l (declared k)) (initialized k)) as (f & Ef & Hf).
  { intros n I. destruct (initialized_default k n I) as [d D]. destruct (declared_get _ _ _ D) as [X G]. rewrite get_setAll by exact X. rewrite G. apply chosen_default. }
  rewrite Ef. cbn [bind]. eexists. split; [reflexivity|]. split; cbn [ls_fields ls_libs].
  - intros n d D. destruct (declared_get _ _ _ D) as [X G]. pose proof (get_setAll l _ n X) as E. rewrite G in E. split.
    + intros O. assert (I : In n (initialized k)) by (apply initialized_ok; eauto). destruct (initialized_default k n I) as [d' D'].
      destruct (declared_get _ _ _ D') as [_ G']. assert (Ed : d = Some d') by congruence. rewrite Ed in E |- *.
      destruct (chosen n l (Some d')) as [v|] eqn:C; [|destruct (chosen_default _ _ _ C)]. exists v. split; [reflexivity|]. split; [apply Hf; auto|].
      intros v' I'. apply Hf in I' as [_ I']. congruence.
    + intros N. apply Forall2_map. intros p. exact (after_declared k l n d p D N).
  - intros n D F. apply Forall2_map. intros p. exact (after_other k l n p D F).
Qed.
Lemma getter_ok k l n d : In (n, d) (declared k) -> getOpt n (setAll l (declared k)) = chosen n l d.
Proof. intros H. destruct (declared_get _ _ _ H) as [X G]. rewrite get_setAll by exact X. rewrite G. reflexivity. Qed.

(* ---- factories ---- *)
Lemma run_opts : forall l w, w_opts (fold_left wstep l w) = setAll (setters l) (w_opts w).
Proof. induction l as [|[n v|] l IH]; intros w; cbn [fold_left setters]; [reflexivity| |]; rewrite IH; reflexivity. Qed.
Lemma run_factory : forall l w, ~ In WScheme l -> w_factory (fold_left wstep l w) = w_factory w.
Proof. induction l as [|[n v|] l IH]; intros w H; cbn [fold_left]; [reflexivity| |]; [rewrite IH; [reflexivity|]|]; cbn [In] in H; tauto. Qed.
Lemma copy_ok k libs a b : ~ In WScheme b -> exists s, createSolver k libs (wrun k (a ++ WScheme :: b)) = Some (Ok s) /\ configured k libs (setters a) s.
Proof.
  intros H. unfold createSolver, wrun. rewrite fold_left_app. cbn [fold_left]. rewrite run_factory by exact H. cbn [wstep w_factory option_map].
  rewrite run_opts. cbn [w_opts]. destruct (reach_ok k libs (setters a)) as (s & E & C). exists s. rewrite E. split; [reflexivity|exact C].
Qed.
Lemma default_ok lssol qld quadprog libs l : lssol || qld || quadprog = true ->
  exists k s b v, createDefault lssol qld quadprog libs (setAll l defaultOptions) = Some (k, Ok s) /\
    k = (if lssol then LSSOL else if qld then QLD else Quadprog) /\
    chosen "big_number" l (Some BigNumber) = Some b /\ chosen "verbose" l (Some (VB false)) = Some v /\ configured k libs [("big_number", b); ("verbose", v)] s.
Proof.
  intros H. set (k := if lssol then LSSOL else if qld then QLD else Quadprog).
  pose proof (get_setAll l defaultOptions "big_number" eq_refl) as B. pose proof (get_setAll l defaultOptions "verbose" eq_refl) as V. cbn [getOpt defaultOptions String.eqb Ascii.eqb Bool.eqb] in B, V.
  destruct (chosen "big_number" l (Some BigNumber)) as [b|] eqn:Eb; [|destruct (chosen_default _ _ _ Eb)].
  destruct (chosen "verbose" l (Some (VB false))) as [v|] eqn:Ev; [|destruct (chosen_default _ _ _ Ev)].
  destruct (reach_ok k libs [("big_number", b); ("verbose", v)]) as (s & E & C). exists k, s, b, v. split; [|split; [reflexivity|split; [reflexivity|split; [reflexivity|exact C]]]].
  unfold createDefault. cbv zeta. change (setAll l [("big_number", Some BigNumber); ("verbose", Some (VB false))]) with (setAll l defaultOptions) in B, V. rewrite B, V.
  unfold setAll in E. cbn [fold_left fst snd] in E. subst k. destruct lssol; [rewrite E; reflexivity|]. destruct qld; [rewrite E; reflexivity|]. destruct quadprog; [rewrite E; reflexivity|]. discriminate H.
Qed.
