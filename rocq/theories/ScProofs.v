From Coq Require Import List Bool Arith ZArith QArith Lia.
Import ListNotations.
From Verif Require Import Base QSum ScModel ScSpec.
Local Open Scope nat_scope.

(* ---- variables ---- *)
Lemma contains_iff x y : contains x y = true <-> v_b x = v_b y /\ v_s x <= v_s y /\ v_s y < v_s x + v_d x /\ v_s y + v_d y <= v_s x + v_d x.
Proof. unfold contains, inside. rewrite !andb_true_iff, Nat.eqb_eq, !Nat.leb_le, Nat.ltb_lt. tauto. Qed.
Lemma intersects_iff x y : intersects x y = true <->
  v_b x = v_b y /\ (v_s x <= v_s y < v_s x + v_d x \/ v_s y <= v_s x < v_s y + v_d y).
Proof. unfold intersects, inside. rewrite andb_true_iff, orb_true_iff, !andb_true_iff, Nat.eqb_eq, !Nat.leb_le, !Nat.ltb_lt. tauto. Qed.
Lemma same_iff x y : same x y = true <-> x = y.
Proof.
  unfold same. rewrite !andb_true_iff, !Nat.eqb_eq. destruct x, y; cbn. split; [intros (-> & -> & ->); reflexivity|].
  intros E. injection E as -> -> ->. auto.
Qed.
Lemma within_contains x y : nonEmpty y -> (within y x <-> contains x y = true).
Proof.
  intros Hy. unfold nonEmpty in Hy. rewrite contains_iff. split.
  - intros H. pose proof (H (v_b y) (v_s y) ltac:(split; [reflexivity|lia])) as [Hb H1].
    pose proof (H (v_b y) (v_s y + v_d y - 1) ltac:(split; [reflexivity|lia])) as [_ H2]. lia.
  - intros (Hb & H) b t [Eb Ht]. split; [congruence|lia].
Qed.
Lemma common_intersects x y : nonEmpty x -> nonEmpty y -> (common x y <-> intersects x y = true).
Proof.
  unfold nonEmpty. intros Hx Hy. rewrite intersects_iff. split.
  - intros (b & t & [E1 H1] & [E2 H2]). split; [congruence|lia].
  - intros (E & [H|H]).
    + exists (v_b x), (v_s y). split; split; auto; lia.
    + exists (v_b x), (v_s x). split; split; auto; lia.
Qed.
Lemma contains_intersects x y : contains x y = true -> intersects x y = true.
Proof. rewrite contains_iff, intersects_iff. intros (E & H1 & H2 & H3). split; [exact E|left; lia]. Qed.
Lemma intersects_sym x y : intersects x y = intersects y x.
Proof. unfold intersects. rewrite Nat.eqb_sym, orb_comm. reflexivity. Qed.

(* ---- sums on ranges ---- *)
Lemma qsumn_shift f s n : (qsumn (fun t => f (s + t)%nat) n == qsum f (seq s n))%Q.
Proof.
  unfold qsumn. revert s. induction n as [|n IH]; intros s; cbn [seq qsum]; [reflexivity|].
  rewrite Nat.add_0_r, <- (IH (S s)), <- seq_shift. apply Qplus_inj_l.
  assert (G : forall l, (qsum (fun t => f (s + t)%nat) (map S l) == qsum (fun t => f (S s + t)%nat) l)%Q).
  { induction l as [|a l IHl]; cbn [map qsum]; [reflexivity|]. rewrite IHl. replace (s + S a) with (S s + a) by lia. reflexivity. }
  apply G.
Qed.
(* the sum over a range of what is zero out of a smaller one *)
Lemma qsum_window f s n s' n' : s <= s' -> s' + n' <= s + n ->
  (forall t, s <= t < s + n -> ~ s' <= t < s' + n' -> (f t == 0)%Q) -> (qsum f (seq s n) == qsum f (seq s' n'))%Q.
Proof.
  intros H1 H2 H. assert (E : n = (s' - s) + (n' + (s + n - (s' + n')))) by lia. rewrite E, !seq_app, !qsum_app.
  replace (s + (s' - s)) with s' by lia.
  rewrite (qsum_zero f (seq s (s' - s))), (qsum_zero f (seq (s' + n') _)); [ring| |]; intros t Ht; apply in_seq in Ht; apply H; lia.
Qed.
(* a sum over a range, the function being zero out of disjoint parts *)
Definition inR (x : var) (t : nat) : bool := (v_s x <=? t) && (t <? v_s x + v_d x).
Lemma inR_iff x t : inR x t = true <-> v_s x <= t < v_s x + v_d x.
Proof. unfold inR. rewrite andb_true_iff, Nat.leb_le, Nat.ltb_lt. tauto. Qed.
Lemma one_part (f : nat -> Q) L t : pairwise (fun x y => ~ (inR x t = true /\ inR y t = true)) L ->
  (f t == 0 \/ exists x, In x L /\ inR x t = true)%Q -> (f t == qsum (fun x => if inR x t then f t else 0) L)%Q.
Proof.
  intros P H. destruct H as [H|(x & Hx & Hr)].
  - rewrite (qsum_zero _ L); [exact H|]. intros x _. destruct (inR x t); [exact H|reflexivity].
  - revert x Hx Hr. induction L as [|y L IH]; intros x Hx Hr; [destruct Hx|]. destruct P as [P1 P2]. cbn [qsum]. destruct Hx as [->|Hx].
    + rewrite Hr, (qsum_zero _ L); [ring|]. intros y Hy. specialize (P1 y Hy). destruct (inR y t); [exfalso; tauto|reflexivity].
    + specialize (P1 x Hx). destruct (inR y t) eqn:E; [exfalso; tauto|]. rewrite <- (IH P2 x Hx Hr). ring.
Qed.
Lemma sum_parts (f : nat -> Q) L s n : (forall x, In x L -> s <= v_s x /\ v_s x + v_d x <= s + n) ->
  (forall t, pairwise (fun x y => ~ (inR x t = true /\ inR y t = true)) L) ->
  (forall t, s <= t < s + n -> (f t == 0)%Q \/ exists x, In x L /\ inR x t = true) ->
  (qsum f (seq s n) == qsum (fun x => qsum f (seq (v_s x) (v_d x))) L)%Q.
Proof.
  intros H1 H2 H3. transitivity (qsum (fun t => qsum (fun x => if inR x t then f t else 0) L) (seq s n))%Q.
  - apply qsum_ext. intros t Ht. apply in_seq in Ht. apply one_part; [apply H2|apply H3; lia].
  - rewrite qsum_swap. apply qsum_ext. intros x Hx. destruct (H1 x Hx) as [Ha Hb].
    rewrite (qsum_window (fun t => if inR x t then f t else 0)%Q s n (v_s x) (v_d x)); [|lia|lia|].
    + apply qsum_ext. intros t Ht. apply in_seq in Ht. replace (inR x t) with true; [reflexivity|]. symmetry. apply inR_iff. lia.
    + intros t _ N. destruct (inR x t) eqn:E; [|reflexivity]. apply inR_iff in E. tauto.
Qed.
Lemma qsum_filter {A} (f : A -> Q) p l : (qsum f (filter p l) == qsum (fun a => if p a then f a else 0) l)%Q.
Proof. induction l as [|a l IH]; cbn [filter qsum]; [reflexivity|]. destruct (p a); cbn [qsum]; rewrite IH; ring. Qed.

(* ---- fillA ---- *)
Lemma fillA_app cs l l' A : fillA cs (l ++ l') A = bind (fillA cs l A) (fillA cs l').
Proof.
  revert A. induction l as [|f l IH]; intros A; [reflexivity|]. cbn [app fillA]. destruct (nth_error cs (f_c f)); [|reflexivity].
  destruct (jacobian _ _) as [M| |]; cbn [bind]; auto.
Qed.
Lemma size_cons x l : size (x :: l) = v_d x + size l.
Proof. reflexivity. Qed.
Lemma rows_cons x l : rows (x :: l) = c_size x + rows l.
Proof. reflexivity. Qed.
Lemma rows_app l l' : rows (l ++ l') = rows l + rows l'.
Proof. unfold rows. rewrite map_app, list_sum_app. reflexivity. Qed.
Lemma hasVar_jacobian c v : hasVar c v = true -> exists M p, jacobian c v = Ok (M, p).
Proof.
  unfold hasVar, jacobian. intros H. destruct (find _ _) as [j|] eqn:E.
  - destruct (same _ _); eauto.
  - exfalso. apply existsb_exists in H as (j & Hj & Hc). pose proof (find_none _ _ E j Hj) as N. cbn in N. congruence.
Qed.
Lemma later_hasVar c c' v : later c c' -> hasVar c v = hasVar c' v.
Proof.
  intros [_ E]. unfold hasVar. revert E. generalize (c_jacs c), (c_jacs c'). induction l as [|j l IH]; intros [|j' l'] E; try discriminate; [reflexivity|].
  cbn [map] in E. injection E as E1 E2. cbn [existsb]. rewrite E1, (IH l' E2). reflexivity.
Qed.
(* the value of a block *)
Definition blk (c : cons) (v : var) (a b : nat) : Q := match jacobian c v with Ok (M, _) => M a b | _ => 0%Q end.
Lemma setBlock_in A r c nr nc M a b : a < nr -> b < nc -> setBlock A r c nr nc M (r + a) (c + b) = M a b.
Proof.
  intros Ha Hb. unfold setBlock.
  replace ((r <=? r + a) && (r + a <? r + nr) && (c <=? c + b) && (c + b <? c + nc)) with true.
  - f_equal; lia.
  - symmetry. rewrite !andb_true_iff, !Nat.leb_le, !Nat.ltb_lt. lia.
Qed.
Lemma setBlock_out A r c nr nc M i j : ~ (r <= i < r + nr /\ c <= j < c + nc) -> setBlock A r c nr nc M i j = A i j.
Proof.
  intros H. unfold setBlock. destruct ((r <=? i) && (i <? r + nr) && (c <=? j) && (j <? c + nc)) eqn:E; [|reflexivity].
  exfalso. rewrite !andb_true_iff, !Nat.leb_le, !Nat.ltb_lt in E. apply H. lia.
Qed.
(* c0: the constraint when the calculator was built, c: now *)
Lemma fillRow_spec cs c0 c i m : nth_error cs i = Some c -> later c0 c -> forall vs col A,
  exists A', fillA cs (fillRow c0 i m col vs) A = Ok A' /\
    (forall a b, ~ (m <= a < m + c_size c /\ col <= b < col + size vs) -> A' a b = A a b) /\
    (forall l1 v l2 a b, vs = l1 ++ v :: l2 -> a < c_size c -> b < v_d v ->
       A' (m + a) (col + size l1 + b) = if hasVar c v then blk c v a b else A (m + a) (col + size l1 + b)).
Proof.
  intros Hi Hl. induction vs as [|v vs IH]; intros col A.
  - exists A. split; [reflexivity|]. split; [auto|]. intros [|? ?] ? ? ? ? E; discriminate.
  - cbn [fillRow]. rewrite fillA_app, (later_hasVar _ _ v Hl).
    set (A1 := if hasVar c v then setBlock A m col (c_size c) (v_d v) (blk c v) else A).
    assert (E1 : exists A1', fillA cs (if hasVar c v then [mkF v i m col (c_size c0) (v_d v)] else []) A = Ok A1' /\ forall a b, A1' a b = A1 a b).
    { unfold A1. destruct (hasVar c v) eqn:Eh; [|exists A; split; reflexivity]. cbn [fillA f_c f_v f_row f_col f_nr f_nc]. rewrite Hi.
      destruct (hasVar_jacobian c v Eh) as (M & p & EM). rewrite EM. cbn [bind fst]. eexists. split; [reflexivity|].
      intros a b. unfold blk. rewrite EM, (proj1 Hl). reflexivity. }
    destruct E1 as (A1' & E1 & EA1). rewrite E1. cbn [bind]. destruct (IH (col + v_d v) A1') as (A' & E & Ho & Hb). exists A'. split; [exact E|].
    assert (Hs : size (v :: vs) = v_d v + size vs) by reflexivity. split.
    + intros a b H. rewrite Hs in H. rewrite Ho by lia. rewrite EA1. unfold A1. destruct (hasVar c v); [|reflexivity]. apply setBlock_out. lia.
    + intros l1 w l2 a b Evs Ha Hw. destruct l1 as [|y l1]; cbn [app] in Evs; injection Evs as <- Evs.
      * change (size []) with 0. rewrite Nat.add_0_r. rewrite Ho by lia. rewrite EA1. unfold A1. destruct (hasVar c v); [|reflexivity].
        apply setBlock_in; assumption.
      * rewrite size_cons. replace (col + (v_d v + size l1) + b) with (col + v_d v + size l1 + b) by lia.
        rewrite (Hb l1 w l2 a b Evs Ha Hw). destruct (hasVar c w); [reflexivity|]. rewrite EA1. unfold A1. destruct (hasVar c v); [|reflexivity]. apply setBlock_out. lia.
Qed.
Lemma fillData_spec cs vs : forall cs0 csT i m A, (forall k c, nth_error csT k = Some c -> nth_error cs (i + k) = Some c) -> Forall2 later cs0 csT ->
  exists A', fillA cs (fillData cs0 i m vs) A = Ok A' /\
    (forall a b, ~ (m <= a < m + rows csT /\ b < size vs) -> A' a b = A a b) /\
    (forall c1 c c2 l1 v l2 a b, csT = c1 ++ c :: c2 -> vs = l1 ++ v :: l2 -> a < c_size c -> b < v_d v ->
       A' (m + rows c1 + a) (size l1 + b) = if hasVar c v then blk c v a b else A (m + rows c1 + a) (size l1 + b)).
Proof.
  induction cs0 as [|c0 cs0 IH]; intros csT i m A Hn F; inversion F as [|? cT ? csT' Hl F']; subst.
  - exists A. split; [reflexivity|]. split; [auto|]. intros [|? ?] ? ? ? ? ? ? ? E; discriminate.
  - cbn [fillData]. rewrite fillA_app. pose proof (Hn 0 cT eq_refl) as Hi. rewrite Nat.add_0_r in Hi.
    destruct (fillRow_spec cs c0 cT i m Hi Hl vs 0 A) as (A1 & E1 & Ho1 & Hb1). rewrite E1. cbn [bind].
    destruct (IH csT' (S i) (m + c_size c0) A1) as (A' & E & Ho & Hb); [intros k c Ek; replace (S i + k) with (i + S k) by lia; apply Hn; exact Ek|exact F'|].
    rewrite (proj1 Hl) in *. exists A'. split; [exact E|]. split.
    + intros a b H. rewrite rows_cons in H. rewrite Ho by lia. apply Ho1. lia.
    + intros c1 c c2 l1 v l2 a b Ec Ev Ha Hv. destruct c1 as [|y c1]; cbn [app] in Ec; injection Ec as <- Ec.
      * change (rows []) with 0. rewrite Nat.add_0_r. rewrite Ho by lia. rewrite <- (Nat.add_0_l (size l1)). apply (Hb1 l1 v l2 a b Ev Ha Hv).
      * rewrite rows_cons. replace (m + (c_size cT + rows c1) + a) with (m + c_size cT + rows c1 + a) by lia.
        rewrite (Hb c1 c c2 l1 v l2 a b Ec Ev Ha Hv). destruct (hasVar c v); [reflexivity|]. apply Ho1. lia.
Qed.

(* ---- the construction ---- *)
Lemma apart_iff l : apart l = true <-> pairwise (fun x y => intersects x y = false) l.
Proof.
  induction l as [|x l IH]; cbn; [tauto|]. rewrite andb_true_iff, forallb_forall, IH. split; intros [H1 H2]; (split; [|exact H2]); intros y Hy; specialize (H1 y Hy); destruct (intersects x y); cbn in *; congruence.
Qed.
Lemma addVars_apart xs : forall l, (forall x y, In x l -> In y xs -> intersects x y = false) -> apart xs = true -> addVars l xs = Ok (l ++ xs).
Proof.
  induction xs as [|x xs IH]; intros l Hl Ha; cbn [addVars]; [rewrite app_nil_r; reflexivity|].
  cbn [apart] in Ha. apply andb_true_iff in Ha as [Hx Ha]. rewrite forallb_forall in Hx.
  assert (E : addVar l x = Ok (l ++ [x])).
  { unfold addVar. replace (existsb (fun y => contains y x) l) with false.
    - assert (G : forall l', incl l' l -> addLoop l' x = Ok true).
      { induction l' as [|y l' IHl]; intros I; [reflexivity|]. cbn [addLoop].
        pose proof (Hl y x (I y (or_introl eq_refl)) (or_introl eq_refl)) as N. destruct (contains y x) eqn:Ec; [apply contains_intersects in Ec; congruence|].
        rewrite N. apply IHl. intros z Hz. apply I. right. exact Hz. }
      rewrite (G l (incl_refl l)). reflexivity.
    - symmetry. apply not_true_is_false. intros H. apply existsb_exists in H as (y & Hy & Hc). apply contains_intersects in Hc.
      rewrite (Hl y x Hy (or_introl eq_refl)) in Hc. discriminate. }
  rewrite E. cbn [bind]. rewrite IH; [rewrite <- app_assoc; reflexivity| |exact Ha].
  intros z y Hz Hy. apply in_app_or in Hz as [Hz|[<-|[]]]; [apply Hl; [exact Hz|right; exact Hy]|].
  specialize (Hx y Hy). destruct (intersects x y); cbn in Hx; congruence.
Qed.
Lemma newBase_ok cs xs r b : apart xs = true -> newBase cs xs r = Ok b ->
  b_vars b = xs /\ b_m b = rows cs /\ b_n b = size xs /\ Z.of_nat (b_r b) = r /\ b_m b <= b_n b /\ b_r b <= b_m b /\
  b_const b = constness cs xs /\ b_simple b = ((length cs =? 1) && (length xs =? 1)) /\ (b_simple b = false -> b_fill b = fillData cs 0 0 xs).
Proof.
  intros Ha. unfold newBase. rewrite (addVars_apart xs [] ltac:(intros ? ? []) Ha). cbn [bind app].
  destruct ((0 <=? r)%Z && (rows cs <=? size xs) && (r <=? Z.of_nat (rows cs))%Z) eqn:E; [|discriminate]. intros H. injection H as <-. cbn.
  rewrite !andb_true_iff, !Z.leb_le, Nat.leb_le in E. repeat (split; [try reflexivity; lia|]). intros Es. rewrite Es. reflexivity.
Qed.
Lemma newBase_not_throw cs xs r : apart xs = true -> newBase cs xs r <> Throw.
Proof. intros Ha. unfold newBase. rewrite (addVars_apart xs [] ltac:(intros ? ? []) Ha). cbn [bind app]. destruct (_ && _); discriminate. Qed.
Lemma makeImpl_base k cs xs r bi : makeImpl k cs xs r = Ok bi -> newBase cs xs r = Ok (fst bi).
Proof.
  unfold makeImpl, generic, diagonal. intros H.
  assert (G : forall c, diagonal c cs xs r = Ok bi -> newBase cs xs r = Ok (fst bi)).
  { intros c. unfold diagonal. destruct (newBase cs xs r) as [b| |]; cbn [bind]; try discriminate.
    destruct (DiagModel.newImpl _ _ _ _ _); cbn [bind]; try discriminate. intros E. injection E as <-. reflexivity. }
  assert (G' : generic cs xs r = Ok bi -> newBase cs xs r = Ok (fst bi)).
  { unfold generic. destruct (newBase cs xs r) as [b| |]; cbn [bind]; try discriminate. intros E. injection E as <-. reflexivity. }
  destruct k as [|c|]; [apply G'; exact H|apply (G c); exact H|].
  destruct cs as [|c [|c' cs]], xs as [|x [|x' xs]]; try discriminate; try (apply G'; exact H).
  destruct (jacobian c x) as [M| |]; cbn [bind] in H; try discriminate. destruct (_ && _); [apply (G _ H)|apply G'; exact H].
Qed.
Lemma newSubstitution_ok cs xs rank k s : newSubstitution cs xs rank k = Ok s ->
  xs <> [] /\ check cs xs (s_rank s) = true /\ s_rank s = (if (rank =? -1)%Z then Z.of_nat (rows cs) else rank) /\ s_m s = rows cs /\
  newBase cs xs (s_rank s) = Ok (s_base s) /\ makeImpl k cs xs (s_rank s) = Ok (s_base s, s_impl s).
Proof.
  unfold newSubstitution. set (r := if (rank =? -1)%Z then _ else _). destruct xs as [|x xs]; [destruct (forallb _ _); discriminate|].
  destruct (check _ _ _) eqn:Ec; [|discriminate]. destruct (makeImpl _ _ _ _) as [bi| |] eqn:Em; cbn [bind]; try discriminate.
  intros E. injection E as <-. cbn. split; [discriminate|]. split; [exact Ec|]. split; [reflexivity|]. split; [reflexivity|].
  split; [apply (makeImpl_base _ _ _ _ _ Em)|]. destruct bi. exact Em.
Qed.
Lemma check_apart cs xs r : check cs xs r = true -> apart xs = true.
Proof. unfold check. rewrite !andb_true_iff. tauto. Qed.

Lemma later_refl c : later c c.
Proof. split; reflexivity. Qed.
Lemma later_length cs cs' : Forall2 later cs cs' -> length cs = length cs'.
Proof. induction 1; cbn; lia. Qed.
Lemma later_rows cs cs' : Forall2 later cs cs' -> rows cs = rows cs'.
Proof. induction 1 as [|c c' l l' [H _] F IH]; [reflexivity|]. rewrite !rows_cons. lia. Qed.

(* what the current matrix is, whatever A_ was, provided it is zero out of the blocks *)
Definition clean (cs : list cons) (xs : list var) (A : mat) : Prop :=
  forall c1 c c2 l1 v l2 a b, cs = c1 ++ c :: c2 -> xs = l1 ++ v :: l2 -> a < c_size c -> b < v_d v -> hasVar c v = false ->
    A (rows c1 + a) (size l1 + b) = 0%Q.
Definition blocks (cs : list cons) (xs : list var) (A : mat) : Prop :=
  forall c1 c c2 l1 v l2 a b, cs = c1 ++ c :: c2 -> xs = l1 ++ v :: l2 -> a < c_size c -> b < v_d v ->
    A (rows c1 + a) (size l1 + b) = if hasVar c v then blk c v a b else 0%Q.
Lemma current_ok cs0 xs rank k s cs A_ : newSubstitution cs0 xs rank k = Ok s -> Forall2 later cs0 cs ->
  (b_simple (s_base s) = false -> clean cs xs A_) ->
  exists A, currentA (s_base s) cs A_ = Ok A /\ blocks cs xs A.
Proof.
  intros Hs F Hc. apply newSubstitution_ok in Hs as (Hx & Hk & _ & _ & Hb & _). pose proof (check_apart _ _ _ Hk) as Ha.
  apply (newBase_ok _ _ _ _ Ha) in Hb as (Hv & _ & _ & _ & _ & _ & _ & Hsi & Hf). unfold currentA.
  destruct (b_simple (s_base s)) eqn:Es.
  - symmetry in Hsi. apply andb_true_iff in Hsi as [H1 H2]. apply Nat.eqb_eq in H1, H2.
    rewrite (later_length _ _ F) in H1.
    destruct xs as [|x [|? ?]]; try discriminate. destruct cs as [|c [|? ?]]; try discriminate. rewrite Hv.
    assert (Hh : hasVar c x = true).
    { inversion F as [|c0 ? ? ? Hl F']; subst. inversion F'; subst. rewrite <- (later_hasVar _ _ x Hl). unfold check in Hk. rewrite !andb_true_iff in Hk. destruct Hk as [[[[_ _] Hk] _] _].
      cbn in Hk. rewrite orb_false_r, andb_true_r in Hk. exact Hk. }
    destruct (hasVar_jacobian c x Hh) as (M & p & EM). rewrite EM. cbn [bind fst]. exists M. split; [reflexivity|].
    intros c1 c' c2 l1 v l2 a b E1 E2 Hal Hbl. destruct c1 as [|? [|? ?]]; try discriminate. destruct l1 as [|? [|? ?]]; try discriminate.
    cbn [app] in E1, E2. injection E1 as <- _. injection E2 as <- _. rewrite Hh. unfold blk. rewrite EM. reflexivity.
  - rewrite (Hf eq_refl). destruct (fillData_spec cs xs cs0 cs 0 0 A_ (fun k c E => E) F) as (A & E & _ & HB). exists A. split; [exact E|].
    intros c1 c c2 l1 v l2 a b E1 E2 Hal Hbl. pose proof (HB c1 c c2 l1 v l2 a b E1 E2 Hal Hbl) as G. cbn [plus] in G. rewrite G.
    destruct (hasVar c v) eqn:Eh; [reflexivity|]. apply (Hc eq_refl c1 c c2 l1 v l2); assumption.
Qed.
Lemma Forall2_split {A B} (R : A -> B -> Prop) l l' : Forall2 R l l' -> forall l1' b l2', l' = l1' ++ b :: l2' ->
  exists l1 a l2, l = l1 ++ a :: l2 /\ Forall2 R l1 l1' /\ R a b /\ Forall2 R l2 l2'.
Proof.
  induction 1 as [|a b l l' Rab F IH]; intros l1' b' l2' E; [destruct l1'; discriminate|]. destruct l1' as [|b1 l1']; cbn in E; injection E as -> E.
  - subst l2'. exists [], a, l. auto.
  - destruct (IH l1' b' l2' E) as (l1 & a' & l2 & -> & F1 & R' & F2). exists (a :: l1), a', l2. auto.
Qed.
Lemma blocks_clean cs cs' xs A : Forall2 later cs cs' -> blocks cs xs A -> clean cs' xs A.
Proof.
  intros F B c1 c c2 l1 v l2 a b E1 E2 Ha Hb Hh. destruct (Forall2_split _ _ _ F _ _ _ E1) as (d1 & d & d2 & -> & F1 & L & F2).
  rewrite <- (later_rows _ _ F1). rewrite (B d1 d d2 l1 v l2 a b eq_refl E2); [|rewrite (proj1 L); exact Ha|exact Hb].
  rewrite (later_hasVar _ _ v L), Hh. reflexivity.
Qed.
Lemma later_trans cs0 cs cs' : Forall2 later cs0 cs -> Forall2 later cs0 cs' -> Forall2 later cs cs'.
Proof.
  intros F. revert cs'. induction F as [|c0 c l0 l [L1 L2] F IH]; intros cs' F'; inversion F' as [|? c' ? l' [L1' L2'] F'']; subst; constructor.
  - split; congruence.
  - apply IH; assumption.
Qed.
(* after any updates *)
Lemma successive_ok cs0 xs rank k s : newSubstitution cs0 xs rank k = Ok s -> forall h A_, Forall (Forall2 later cs0) h ->
  (b_simple (s_base s) = false -> clean cs0 xs A_) ->
  exists A, successiveA (s_base s) h A_ = Ok A /\ (b_simple (s_base s) = false -> clean cs0 xs A).
Proof.
  intros Hs. induction h as [|cs h IH]; intros A_ Fh Hc; [exists A_; split; [reflexivity|exact Hc]|].
  inversion Fh as [|? ? F Fh']; subst. cbn [successiveA].
  destruct (current_ok _ _ _ _ _ cs A_ Hs F) as (A & E & B).
  - intros Es. intros c1 c c2 l1 v l2 a b E1 E2 Ha Hb Hh. destruct (Forall2_split _ _ _ F _ _ _ E1) as (d1 & d & d2 & E & F1 & L & F2).
    rewrite <- (later_rows _ _ F1). apply (Hc Es d1 d d2 l1 v l2 a b E E2); [rewrite (proj1 L); exact Ha|exact Hb|rewrite (later_hasVar _ _ v L); exact Hh].
  - rewrite E. cbn [bind]. apply IH; [exact Fh'|]. intros Es. rewrite Es.
    assert (F' : Forall2 later cs cs0). { apply later_trans with cs0; [exact F|]. clear. induction cs0; constructor; auto using later_refl. }
    apply (blocks_clean cs cs0); assumption.
Qed.
Lemma A0_clean cs xs : clean cs xs A0.
Proof. intros c1 c c2 l1 v l2 a b. reflexivity. Qed.
Lemma matrix_now cs0 xs rank k s h cs : newSubstitution cs0 xs rank k = Ok s -> Forall (Forall2 later cs0) h -> Forall2 later cs0 cs ->
  exists A_ A, successiveA (s_base s) h A0 = Ok A_ /\ currentA (s_base s) cs A_ = Ok A /\ blocks cs xs A.
Proof.
  intros Hs Fh F. destruct (successive_ok _ _ _ _ _ Hs h A0 Fh (fun _ => A0_clean _ _)) as (A_ & E & Hc). exists A_.
  destruct (current_ok _ _ _ _ _ cs A_ Hs F) as (A & EA & B); [|exists A; auto].
  intros Es. intros c1 c c2 l1 v l2 a b E1 E2 Ha Hb Hh. destruct (Forall2_split _ _ _ F _ _ _ E1) as (d1 & d & d2 & E' & F1 & L & F2).
  rewrite <- (later_rows _ _ F1). apply (Hc Es d1 d d2 l1 v l2 a b E' E2); [rewrite (proj1 L); exact Ha|exact Hb|rewrite (later_hasVar _ _ v L); exact Hh].
Qed.

(* ---- the matrix of the substituted variables ---- *)
Lemma times_blocks A i g d : forall xs l1, (forall l2 x l3 t, l1 ++ xs = l2 ++ x :: l3 -> t < v_d x -> A i (size l2 + t) = g x t) ->
  (times A i (size l1) xs d == qsum (fun x => qsumn (fun t => g x t * d (v_b x) (v_s x + t)%nat) (v_d x)) xs)%Q.
Proof.
  induction xs as [|x xs IH]; intros l1 H; cbn [times qsum]; [reflexivity|].
  replace (size l1 + v_d x) with (size (l1 ++ [x])) by (unfold size; rewrite map_app, list_sum_app; cbn; lia).
  rewrite (IH (l1 ++ [x])); [|intros l2 y l3 t E; apply (H l2 y l3 t); rewrite <- E, <- app_assoc; reflexivity].
  rewrite (qsumn_ext _ (fun t => g x t * d (v_b x) (v_s x + t)%nat)%Q); [reflexivity|].
  intros t Ht. rewrite (H l1 x xs t eq_refl Ht). reflexivity.
Qed.
Lemma pairwise_In {A} (R : A -> A -> Prop) l : pairwise R l -> forall l1 x l2 y, l = l1 ++ x :: l2 -> In y l2 -> R x y.
Proof.
  induction l as [|z l IH]; intros P l1 x l2 y E Hy; [destruct l1; discriminate|]. destruct P as [P1 P2].
  destruct l1 as [|w l1]; cbn in E; injection E as <- E; [subst; apply P1; exact Hy|apply (IH P2 l1 x l2 y E Hy)].
Qed.
Lemma pairwise_filter {A} (R R' : A -> A -> Prop) p l : pairwise R l ->
  (forall x y, In x l -> In y l -> p x = true -> p y = true -> R x y -> R' x y) -> pairwise R' (filter p l).
Proof.
  induction l as [|z l IH]; intros P H; [exact I|]. destruct P as [P1 P2]. cbn [filter].
  assert (G : pairwise R' (filter p l)) by (apply IH; [exact P2|intros x y Hx Hy; apply H; right; assumption]).
  destruct (p z) eqn:E; [|exact G]. split; [|exact G]. intros y Hy. apply filter_In in Hy as [Hy Ey]. apply H; [left; reflexivity|right; exact Hy|exact E|exact Ey|apply P1; exact Hy].
Qed.
Lemma blk_value c v j a b : find (fun j => contains (j_var j) v) (c_jacs c) = Some j -> blk c v a b = j_mat j a (v_s v - v_s (j_var j) + b).
Proof.
  intros E. unfold blk, jacobian. rewrite E. destruct (same _ _) eqn:Es; [|reflexivity]. apply same_iff in Es. rewrite Es. f_equal. lia.
Qed.
(* the jacobian containing x, among disjoint ones *)
Lemma find_sum (g : jac -> Q) x l : pairwise (fun i j => ~ common (j_var i) (j_var j)) l -> nonEmpty x ->
  (qsum (fun j => if contains (j_var j) x then g j else 0) l == match find (fun j => contains (j_var j) x) l with Some j => g j | None => 0 end)%Q.
Proof.
  intros P Hx. induction l as [|j l IH]; cbn [qsum find]; [reflexivity|]. destruct P as [P1 P2]. destruct (contains (j_var j) x) eqn:E.
  - rewrite (qsum_zero _ l); [ring|]. intros i Hi. destruct (contains (j_var i) x) eqn:Ei; [|reflexivity]. exfalso. apply (P1 i Hi).
    apply (within_contains _ _ Hx) in E. apply (within_contains _ _ Hx) in Ei. exists (v_b x), (v_s x). unfold nonEmpty in Hx.
    split; [apply E|apply Ei]; split; auto; lia.
  - rewrite IH by assumption. ring.
Qed.
Lemma is_matrix cs xs A : proper cs xs -> pairwise (fun x y => intersects x y = false) xs -> aligned cs xs -> blocks cs xs A -> matrixOf cs xs A.
Proof.
  intros [Px Pc] Hd Hal HB l1 c l2 a val val' Ec Ha Hag. set (d := fun b t => (val' b t - val b t)%Q).
  assert (Hc : In c cs) by (rewrite Ec; apply in_elt). destruct (Pc c Hc) as [Pne Pj].
  rewrite (times_blocks A (rows l1 + a) (fun x t => if hasVar c x then blk c x a t else 0%Q) d xs []);
    [|intros m1 x m3 t E Ht; apply (HB l1 c l2 m1 x m3 a t Ec E Ha Ht)].
  set (f := fun j u => (j_mat j a (u - v_s (j_var j))%nat * d (v_b (j_var j)) u)%Q).
  transitivity (qsum (fun j => qsum (f j) (seq (v_s (j_var j)) (v_d (j_var j)))) (c_jacs c)).
  { unfold lhs. transitivity (qsum (fun j => qsumn (fun t => j_mat j a t * val' (v_b (j_var j)) (v_s (j_var j) + t)%nat)%Q (v_d (j_var j)) -
      qsumn (fun t => j_mat j a t * val (v_b (j_var j)) (v_s (j_var j) + t)%nat)%Q (v_d (j_var j))) (c_jacs c))%Q.
    - assert (G : forall (p q : jac -> Q) l, (qsum p l - qsum q l == qsum (fun j => p j - q j) l)%Q).
      { intros p q. induction l as [|z l IH]; cbn [qsum]; [ring|]. rewrite <- IH. ring. }
      apply G.
    - apply qsum_ext. intros j _. rewrite <- (qsumn_shift (f j) (v_s (j_var j)) (v_d (j_var j))). unfold qsumn.
      assert (G : forall (p q r : nat -> Q) l, (forall t, p t - q t == r t)%Q -> (qsum p l - qsum q l == qsum r l)%Q).
      { intros p q r l H. induction l as [|z l IH]; cbn [qsum]; [ring|]. rewrite <- IH, <- H. ring. }
      apply G. intros t. unfold f, d. replace (v_s (j_var j) + t - v_s (j_var j)) with t by lia. ring. }
  transitivity (qsum (fun j => qsum (fun x => if contains (j_var j) x then qsum (f j) (seq (v_s x) (v_d x)) else 0) xs) (c_jacs c))%Q.
  { apply qsum_ext. intros j Hj. rewrite <- (qsum_filter (fun x => qsum (f j) (seq (v_s x) (v_d x))) (fun x => contains (j_var j) x) xs). apply sum_parts.
    - intros x Hx. apply filter_In in Hx as [_ Hx]. apply contains_iff in Hx. lia.
    - intros t. apply (pairwise_filter _ _ _ _ Hd). intros x y _ _ Cx Cy N [Ix Iy]. apply contains_iff in Cx, Cy. apply inR_iff in Ix, Iy.
      assert (intersects x y = true) by (apply intersects_iff; split; [destruct Cx, Cy; congruence|lia]). congruence.
    - intros t Ht. destruct (existsb (fun x => (v_b x =? v_b (j_var j)) && inR x t) xs) eqn:E.
      + right. apply existsb_exists in E as (x & Hx & E). apply andb_true_iff in E as [Eb Er]. apply Nat.eqb_eq in Eb. exists x. split; [|exact Er].
        apply filter_In. split; [exact Hx|]. apply (within_contains _ _ (Px x Hx)). apply (Hal c j x Hc Hj Hx).
        exists (v_b (j_var j)), t. apply inR_iff in Er. split; split; auto.
      + left. unfold f, d. rewrite (Hag (v_b (j_var j)) t); [ring|]. intros (x & Hx & [Eb Hr]).
        apply Bool.not_true_iff_false in E. apply E. apply existsb_exists. exists x. split; [exact Hx|]. apply andb_true_iff. split; [apply Nat.eqb_eq; exact Eb|apply inR_iff; exact Hr]. }
  rewrite qsum_swap. apply qsum_ext. intros x Hx. rewrite (find_sum (fun j => qsum (f j) (seq (v_s x) (v_d x))) x _ Pj (Px x Hx)).
  destruct (find (fun j => contains (j_var j) x) (c_jacs c)) as [j|] eqn:Ef.
  - assert (Hh : hasVar c x = true). { apply existsb_exists. exists j. apply (find_some _ _ Ef). }
    rewrite <- (qsumn_shift (f j) (v_s x) (v_d x)). apply qsumn_ext. intros t Ht. rewrite Hh, (blk_value c x j a t Ef). unfold f.
    apply find_some in Ef as [_ Ef]. apply contains_iff in Ef as (Eb & E1 & _). rewrite Eb. replace (v_s x + t - v_s (j_var j)) with (v_s x - v_s (j_var j) + t) by lia. reflexivity.
  - symmetry. apply qsumn_zero. intros t _. replace (hasVar c x) with false; [ring|]. symmetry. apply not_true_is_false. intros Hh.
    apply existsb_exists in Hh as (j & Hj & Hcn). pose proof (find_none _ _ Ef j Hj) as N. cbn in N. congruence.
Qed.
Lemma proper_later cs cs' xs : Forall2 later cs cs' -> proper cs xs -> proper cs' xs.
Proof.
  intros F [Px Pc]. split; [exact Px|]. intros c' Hc'. apply in_split in Hc' as (l1' & l2' & E). destruct (Forall2_split _ _ _ F _ _ _ E) as (l1 & c & l2 & -> & _ & [_ L] & _).
  destruct (Pc c (in_elt c l1 l2)) as [P1 P2]. clear - L P1 P2. revert P1 P2 L. generalize (c_jacs c), (c_jacs c'). induction l as [|j l IH]; intros [|j' l'] P1 P2 L; try discriminate.
  - split; [intros ? []|exact I].
  - cbn [map] in L. injection L as E L. destruct P2 as [P2 P3]. destruct (IH l' (fun j Hj => P1 j (or_intror Hj)) P3 L) as [H1 H2]. split.
    + intros i [<-|Hi]; [rewrite <- E; apply P1; left; reflexivity|apply H1; exact Hi].
    + split; [|exact H2]. intros i Hi. rewrite <- E. apply (in_map j_var) in Hi. rewrite <- L in Hi. apply in_map_iff in Hi as (k & <- & Hk). apply P2. exact Hk.
Qed.
Lemma aligned_later cs cs' xs : Forall2 later cs cs' -> aligned cs xs -> aligned cs' xs.
Proof.
  intros F Hal c' j' x Hc' Hj' Hx. apply in_split in Hc' as (l1' & l2' & E). destruct (Forall2_split _ _ _ F _ _ _ E) as (l1 & c & l2 & -> & _ & [_ L] & _).
  apply (in_map j_var) in Hj'. rewrite <- L in Hj'. apply in_map_iff in Hj' as (j & <- & Hj). apply (Hal c j x (in_elt c l1 l2) Hj Hx).
Qed.
Lemma matrix_ok cs0 xs rank k s h cs : newSubstitution cs0 xs rank k = Ok s -> Forall (Forall2 later cs0) h -> Forall2 later cs0 cs ->
  proper cs0 xs -> aligned cs0 xs ->
  exists A_ A, successiveA (s_base s) h A0 = Ok A_ /\ currentA (s_base s) cs A_ = Ok A /\ matrixOf cs xs A.
Proof.
  intros Hs Fh F P Hal. destruct (matrix_now _ _ _ _ _ _ _ Hs Fh F) as (A_ & A & E1 & E2 & B). exists A_, A. split; [exact E1|]. split; [exact E2|].
  apply is_matrix; [apply (proper_later cs0); assumption| |apply (aligned_later cs0); assumption|exact B].
  apply newSubstitution_ok in Hs as (_ & Hk & _). apply apart_iff. apply (check_apart _ _ _ Hk).
Qed.

(* ---- acceptance ---- *)
Lemma check_iff cs xs r : proper cs xs -> (check cs xs r = true <-> accepted cs xs r).
Proof.
  intros [Px Pc]. unfold check, accepted. rewrite !andb_true_iff, !forallb_forall, apart_iff, Z.leb_le.
  assert (H1 : pairwise (fun x y => intersects x y = false) xs <-> pairwise (fun x y => ~ common x y) xs).
  { clear Pc. induction xs as [|x xs IH]; cbn; [tauto|]. rewrite (IH (fun y Hy => Px y (or_intror Hy))).
    split; intros [Ha Hb]; (split; [|exact Hb]); intros y Hy; specialize (Ha y Hy); pose proof (common_intersects x y (Px x (or_introl eq_refl)) (Px y (or_intror Hy))) as G.
    - rewrite G, Ha. discriminate.
    - rewrite G in Ha. destruct (intersects x y); congruence. }
  assert (H2 : forall c x, In x xs -> (hasVar c x = true <-> exists j, In j (c_jacs c) /\ within x (j_var j))).
  { intros c x Hx. unfold hasVar. rewrite existsb_exists. split; intros (j & Hj & Hw); exists j; (split; [exact Hj|]); apply (within_contains _ _ (Px x Hx)); exact Hw. }
  rewrite H1. split.
  - intros ((((Ha & Hb) & Hc) & Hd) & He). split; [exact Ha|]. split; [exact Hb|]. split; [|split; [|exact He]].
    + intros x Hx. specialize (Hc x Hx). apply existsb_exists in Hc as (c & Hci & Hh). apply (H2 c x Hx) in Hh as (j & Hj & Hw). eauto.
    + intros c Hci. specialize (Hd c Hci). apply existsb_exists in Hd as (x & Hx & Hh). apply (H2 c x Hx) in Hh as (j & Hj & Hw). eauto.
  - intros (Ha & Hb & Hc & Hd & He). repeat split; auto.
    + intros x Hx. destruct (Hc x Hx) as (c & j & Hci & Hj & Hw). apply existsb_exists. exists c. split; [exact Hci|]. apply (H2 c x Hx). eauto.
    + intros c Hci. destruct (Hd c Hci) as (j & x & Hj & Hx & Hw). apply existsb_exists. exists x. split; [exact Hx|]. apply (H2 c x Hx). eauto.
Qed.
Lemma constructed_generic cs xs rank : proper cs xs -> xs <> [] ->
  let r := if (rank =? -1)%Z then Z.of_nat (rows cs) else rank in
  (newSubstitution cs xs rank Generic = Throw <-> ~ accepted cs xs r) /\
  (is_ok (newSubstitution cs xs rank Generic) = true <-> accepted cs xs r /\ (0 <= r <= Z.of_nat (rows cs))%Z /\ rows cs <= size xs).
Proof.
  intros P Hx r. unfold newSubstitution. fold r. destruct xs as [|x xs]; [congruence|]. set (ys := x :: xs) in *.
  pose proof (check_iff cs ys r P) as C. destruct (check cs ys r) eqn:E.
  - assert (Hac : accepted cs ys r) by (apply C; reflexivity). cbn [makeImpl]. unfold generic, newBase.
    rewrite (addVars_apart ys [] ltac:(intros ? ? []) (check_apart _ _ _ E)). cbn [bind].
    destruct ((0 <=? r)%Z && (rows cs <=? size ys) && (r <=? Z.of_nat (rows cs))%Z) eqn:Eb; cbn [bind is_ok].
    + rewrite !andb_true_iff, !Z.leb_le, Nat.leb_le in Eb. split; [split; [discriminate|tauto]|]. split; [intros _; split; [exact Hac|]; split; lia|reflexivity].
    + split; [split; [discriminate|tauto]|]. split; [discriminate|]. intros (_ & H1 & H2). exfalso. apply Bool.not_true_iff_false in Eb. apply Eb.
      rewrite !andb_true_iff, !Z.leb_le, Nat.leb_le. lia.
  - assert (Hac : ~ accepted cs ys r) by (rewrite <- C; discriminate). cbn [is_ok]. split; [tauto|]. split; [discriminate|tauto].
Qed.
