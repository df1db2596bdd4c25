Require Import QArith Qminmax Qabs List Bool Lqa Lia.
Require Import Verif.Base Verif.AssignModel Verif.BoundModel Verif.BoundSpec.
Import ListNotations.
Local Open Scope Q_scope.

Lemma max_le a b x : Qmax a b <= x <-> a <= x /\ b <= x.
Proof. apply Q.max_lub_iff. Qed.
Lemma min_ge a b x : x <= Qmin a b <-> x <= a /\ x <= b.
Proof. apply Q.min_glb_iff. Qed.
Lemma min_le a b x : Qmin a b <= x <-> a <= x \/ b <= x.
Proof. apply Q.min_le_iff. Qed.
Lemma max_ge a b x : x <= Qmax a b <-> x <= a \/ x <= b.
Proof. apply Q.max_le_iff. Qed.

Lemma inv_le_pos d v x : 0 < d -> (/ d * v <= x <-> v <= d * x).
Proof.
  intros D. rewrite <- (Qmult_le_l (/ d * v) x d D). setoid_replace (d * (/ d * v)) with v; [tauto|].
  field. intro E. rewrite E in D. apply (Qlt_irrefl 0 D).
Qed.
Lemma inv_ge_pos d v x : 0 < d -> (x <= / d * v <-> d * x <= v).
Proof.
  intros D. rewrite <- (Qmult_le_l x (/ d * v) d D). setoid_replace (d * (/ d * v)) with v; [tauto|].
  field. intro E. rewrite E in D. apply (Qlt_irrefl 0 D).
Qed.
Lemma inv_neg d v : d < 0 -> / d * v == / (- d) * (- v).
Proof. intros D. field. intro E. rewrite E in D. apply (Qlt_irrefl 0 D). Qed.
Lemma inv_le_neg d v x : d < 0 -> (/ d * v <= x <-> d * x <= v).
Proof. intros D. rewrite (inv_neg d v D), inv_le_pos by lra. split; intro; lra. Qed.
Lemma inv_ge_neg d v x : d < 0 -> (x <= / d * v <-> v <= d * x).
Proof. intros D. rewrite (inv_neg d v D), inv_ge_pos by lra. split; intro; lra. Qed.

Lemma nz_cases d : ~ d == 0 -> 0 < d \/ d < 0.
Proof. intros N. destruct (Qlt_le_dec 0 d); auto. right. apply Qle_lteq in q as [|]; auto. contradiction. Qed.

(* the interval that one bound describes *)
Definition bt (s : bsource) (V : bvalues) (big : Q) : Q * Q :=
  let v := declared (b_rhs s) in
  match b_type s with
  | EQUAL => (v (bv_e V), v (bv_e V)) | GREATER_THAN => (v (bv_l V), big)
  | LOWER_THAN => (- big, v (bv_u V)) | DOUBLE_SIDED => (v (bv_l V), v (bv_u V))
  end.
Lemma abs_le x y : Qabs x <= y -> - y <= x /\ x <= y.
Proof. apply Qabs_Qle_condition. Qed.
Lemma abs_lt x y : Qabs x < y -> - y < x /\ x < y.
Proof. apply Qabs_Qlt_condition. Qed.

Ltac boxsimp := cbv [inbox runBound fst snd buildDouble addBounds addArg addArgD addF addR addC b_type b_rhs b_prop
   rhs_eqb negb andb app fold_left runOp put get bsrcVal o_src o_mult o_neg o_dst o_kind bv_e bv_l bv_u bv_d m_l m_u
   m_1 m_2 m_3 m_4 applyA bound_holds declared];
   rewrite ?max_le, ?min_ge, ?min_le, ?max_ge.

Lemma step_pure big s V lu x first : is_pure s = true -> true_props s V -> in_reach big s V x ->
  inbox (runBound (buildDouble big s AS_GIVEN first, V) lu) x <-> (first = true \/ inbox lu x) /\ bound_holds s V x.
Proof.
  intros P T R. destruct s as [ty rh pr], V as [e l u d], lu as [lo hi].
  destruct pr; try discriminate; cbv [true_props b_prop bv_d] in T;
  (assert (Hd : d * x == x \/ d * x == - x) by (rewrite T; auto using Qmult_1_l || (right; ring) || (left; ring)));
  destruct ty; cbv [in_reach is_single b_type is_pure b_prop] in R; try (specialize (R eq_refl); apply abs_le in R);
  destruct rh, first; boxsimp; rewrite ?T; (split; [intros H|intros [[H1|H1] H2]; try discriminate]);
  intuition (try discriminate; lra).
Qed.
(* the values of the two first temporaries *)
Definition tmpl (big : Q) (s : bsource) (V : bvalues) : Q :=
  match b_type s with
  | EQUAL => / bv_d V * declared (b_rhs s) (bv_e V)
  | LOWER_THAN => bv_d V * - big
  | _ => / bv_d V * declared (b_rhs s) (bv_l V)
  end.
Definition tmpu (big : Q) (s : bsource) (V : bvalues) : Q :=
  match b_type s with
  | EQUAL => / bv_d V * declared (b_rhs s) (bv_e V)
  | GREATER_THAN => bv_d V * big
  | _ => / bv_d V * declared (b_rhs s) (bv_u V)
  end.
Lemma run_diag big s V lu x first : is_pure s = false ->
  inbox (runBound (buildDouble big s AS_GIVEN first, V) lu) x <->
  (first = true \/ inbox lu x) /\ (tmpl big s V <= x \/ tmpu big s V <= x) /\ (x <= tmpl big s V \/ x <= tmpu big s V).
Proof.
  intros P. destruct s as [ty rh pr], V as [e l u d], lu as [lo hi].
  unfold tmpl, tmpu.
  destruct pr; try discriminate; destruct ty, rh, first; boxsimp;
  repeat match goal with |- context[/ d * 0] => setoid_replace (/ d * 0) with 0 by ring
   | |- context[- (/ d * ?v)] => setoid_replace (- (/ d * v)) with (/ d * - v) by ring end;
  intuition (try discriminate; auto).
Qed.
Lemma step_diag big s V lu x first : is_pure s = false -> true_props s V -> in_reach big s V x -> ordered s V ->
  inbox (runBound (buildDouble big s AS_GIVEN first, V) lu) x <-> (first = true \/ inbox lu x) /\ bound_holds s V x.
Proof.
  intros P T R O. rewrite run_diag by auto.
  assert (D : 0 < bv_d V \/ bv_d V < 0) by (destruct s as [ty rh []]; try discriminate; simpl in T; auto; apply nz_cases; auto).
  assert (A : 0 < bv_d V -> Qabs (bv_d V) == bv_d V) by (intros; apply Qabs_pos; lra).
  assert (B : bv_d V < 0 -> Qabs (bv_d V) == - bv_d V) by (intros; apply Qabs_neg; lra).
  destruct V as [e l u d]. unfold in_reach in R. rewrite P in R. unfold ordered in O. unfold bound_holds, tmpl, tmpu.
  cbn [bv_d bv_e bv_l bv_u] in *. destruct (b_type s) eqn:Ety; unfold is_single in R; rewrite Ety in R;
  first [specialize (R eq_refl)|clear R]; first [specialize (O eq_refl)|clear O];
  destruct D as [D|D]; try rewrite (A D) in R; try rewrite (B D) in R; try (apply abs_lt in R); clear A B;
  rewrite ?inv_le_pos, ?inv_ge_pos, ?inv_le_neg, ?inv_ge_neg by lra;
  (assert (W : forall p q r : Prop, (q <-> r) -> ((p /\ q) <-> (p /\ r))) by tauto); apply W; clear W;
  (split; [intros [[H1|H1] [H2|H2]]|intros H]); try lra; try nra.
  all: try (split; lra).
  all: try (split; [try (left; lra)|try (left; lra)]; try (right; lra)).
Qed.
Lemma step big s V lu x first : true_props s V -> in_reach big s V x -> (is_pure s = false -> ordered s V) ->
  inbox (runBound (buildDouble big s AS_GIVEN first, V) lu) x <-> (first = true \/ inbox lu x) /\ bound_holds s V x.
Proof. intros T R O. destruct (is_pure s) eqn:P; [apply step_pure|apply step_diag]; auto. Qed.

Lemma constructAll_ok big l first : exists os, constructAll big DOUBLE_SIDED AS_GIVEN l first = Ok os /\ length os = length l.
Proof.
  revert first. induction l as [|s l IH]; intros; simpl; [exists []; auto|].
  destruct (IH false) as (os & E & L). unfold constructBound.
  replace (canBeUsed s DOUBLE_SIDED) with true by (destruct s as [[] ? ?]; reflexivity).
  simpl. rewrite E. simpl. eexists. split; [reflexivity|]. simpl. congruence.
Qed.
Lemma run_all big l x : forall os lu, Forall (fits big x) l ->
  constructAll big DOUBLE_SIDED AS_GIVEN (map fst l) false = Ok os ->
  (inbox (runBounds (combine os (map snd l)) lu) x <-> inbox lu x /\ Forall (fun p => bound_holds (fst p) (snd p) x) l).
Proof.
  induction l as [|[s V] l IH]; intros os lu F C; simpl in C.
  - injection C as <-. simpl. intuition.
  - unfold constructBound in C. replace (canBeUsed s DOUBLE_SIDED) with true in C by (destruct s as [[] ? ?]; reflexivity).
    simpl in C. destruct (constructAll_ok big (map fst l) false) as (os' & E & _). rewrite E in C. simpl in C.
    injection C as <-. inversion F as [|? ? [A1 [A2 A3]] F2]; subst.
    unfold runBounds. cbn [combine map snd fst fold_left]. fold (runBounds (combine os' (map snd l))).
    change (fold_left _ (combine os' (map snd l)) ?z) with (runBounds (combine os' (map snd l)) z).
    rewrite (IH os' _ F2 E), step by auto. rewrite Forall_cons_iff. simpl. intuition discriminate.
Qed.
Lemma box_solver sbig big l : exists lu, solverBox sbig big l = Ok lu /\
  forall x, Qabs x <= sbig -> Forall (fits big x) l ->
  (inbox lu x <-> Forall (fun p => bound_holds (fst p) (snd p) x) l).
Proof.
  unfold solverBox. destruct (constructAll_ok big (map fst l) false) as (os & E & _). rewrite E. simpl.
  eexists. split; [reflexivity|]. intros x X F. rewrite (run_all big l x os _ F E). apply abs_le in X.
  unfold inbox at 1; simpl. intuition.
Qed.
Lemma box_first big l lu0 : l <> [] -> exists lu, firstBox lu0 big l = Ok lu /\
  forall x, Forall (fits big x) l -> (inbox lu x <-> Forall (fun p => bound_holds (fst p) (snd p) x) l).
Proof.
  intros N. unfold firstBox. destruct l as [|[s V] l]; [congruence|].
  destruct (constructAll_ok big (map fst l) false) as (os & E & _). simpl map. simpl constructAll. unfold constructBound.
  replace (canBeUsed s DOUBLE_SIDED) with true by (destruct s as [[] ? ?]; reflexivity). simpl. rewrite E. simpl.
  eexists. split; [reflexivity|]. intros x F. inversion F as [|? ? [A1 [A2 A3]] F2]; subst.
  unfold runBounds. cbn [combine map snd fst fold_left].
  change (fold_left _ (combine os (map snd l)) ?z) with (runBounds (combine os (map snd l)) z).
  rewrite (run_all big l x os _ F2 E), step by auto. rewrite Forall_cons_iff. simpl. intuition.
Qed.
