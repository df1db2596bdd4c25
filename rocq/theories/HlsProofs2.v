(* Builds. *)
From Coq Require Import List Bool Arith Lia.
Import ListNotations.
From Verif Require Import Base HlsModel HlsSpec HlsProofs.

(* Stacking fills the levels. *)
Lemma taken_firstn : forall cs k k' c l, nth_error cs k = Some c -> clvl c = l -> k < k' -> taken (firstn k cs) l + csize c <= taken (firstn k' cs) l.
Proof.
  induction cs as [|x cs IH]; intros k k' c l H E L; [destruct k; discriminate|]. destruct k' as [|k']; [lia|].
  destruct k as [|k]; cbn [nth_error firstn] in *.
  - injection H as ->. change (c :: firstn k' cs) with ([c] ++ firstn k' cs). rewrite taken_app, taken_one, (proj2 (Nat.eqb_eq _ _) E). unfold taken at 1. cbn. lia.
  - specialize (IH k k' c l H E ltac:(lia)). change (x :: firstn k cs) with ([x] ++ firstn k cs). change (x :: firstn k' cs) with ([x] ++ firstn k' cs).
    rewrite !taken_app. lia.
Qed.
Lemma taken_end : forall cs k c l, nth_error cs k = Some c -> clvl c = l -> taken (firstn k cs) l + csize c <= taken cs l.
Proof.
  intros cs k c l H E. rewrite <- (firstn_all cs) at 2. apply taken_firstn; auto. apply nth_error_Some. congruence.
Qed.
Lemma taken_find : forall cs l r, r < taken cs l -> exists k c, nth_error cs k = Some c /\ clvl c = l /\ taken (firstn k cs) l <= r < taken (firstn k cs) l + csize c.
Proof.
  induction cs as [|x cs IH]; intros l r H; [unfold taken in H; cbn in H; lia|]. change (x :: cs) with ([x] ++ cs) in H. rewrite taken_app, taken_one in H.
  destruct (Nat.lt_ge_cases r (taken [x] l)) as [L|L].
  - exists 0, x. split; [reflexivity|]. rewrite taken_one in L. destruct (Nat.eqb_spec (clvl x) l); [|lia]. split; [assumption|]. unfold taken. cbn. lia.
  - rewrite taken_one in L. destruct (IH l (r - (if clvl x =? l then csize x else 0))) as (k & c & A & B & C); [lia|].
    exists (S k), c. split; [exact A|]. split; [exact B|]. cbn [firstn]. change (x :: firstn k cs) with ([x] ++ firstn k cs). rewrite taken_app, taken_one. lia.
Qed.
Lemma stacked_tiled : forall cs s l, stacked (fun _ => 0) cs s -> tiled s l (taken cs l).
Proof.
  intros cs s l [N K]. assert (C : forall k r, covers s k l r -> exists c, nth_error cs k = Some c /\ clvl c = l /\ taken (firstn k cs) l <= r < taken (firstn k cs) l + csize c).
  { intros k r (a & A1 & A2 & A3). destruct (nth_error cs k) as [c|] eqn:E.
    - exists c. split; [reflexivity|]. rewrite (K _ _ E) in A1. injection A1 as <-. cbn in *. subst l. split; [reflexivity|lia].
    - exfalso. apply nth_error_None in E. assert (k < length (assignments s)) by (apply nth_error_Some; congruence). lia. }
  split.
  - intros r H. destruct (taken_find cs l r H) as (k & c & A & B & D). exists k. split.
    + eexists. split; [apply K; exact A|]. cbn. rewrite B. split; [reflexivity|lia].
    + intros k' H'. destruct (C k' r H') as (c' & A' & B' & D'). destruct (Nat.lt_trichotomy k k') as [L|[L|L]]; [|lia|].
      * pose proof (taken_firstn _ _ _ _ _ A B L). lia.
      * pose proof (taken_firstn _ _ _ _ _ A' B' L). lia.
  - intros k r H. destruct (C k r H) as (c & A & B & D). pose proof (taken_end _ _ _ _ A B). lia.
Qed.

(* resizing *)
Lemma resizeLevels_spec : forall n extra ne ni d i nx d1 imp nx', resizeLevels n extra i d ne ni nx = (d1, imp, nx') -> length ne = length ni -> length ne <= length d ->
  map (fun m => (rows m, cols m)) d1 = map (fun r => (r, n + 2)) (allRows n extra i ne ni) ++ map (fun m => (rows m, cols m)) (skipn (length ne) d) /\ length d1 = length d.
Proof.
  intros n extra. induction ne as [|e ne IH]; intros ni d i nx d1 imp nx' R L1 L2.
  - destruct ni; [|discriminate]. destruct d; cbn in R; injection R as <- <- <-; split; reflexivity.
  - destruct ni as [|k ni]; [discriminate|]. destruct d as [|m d]; [cbn in L2; lia|]. cbn [resizeLevels] in R.
    destruct (resizeLevels n extra (S i) d ne ni (S nx)) as ((d2 & imp2) & nx2) eqn:E. injection R as <- <- <-.
    destruct (IH _ _ _ _ _ _ _ E) as [A B]; [cbn in L1; lia|cbn in L2; lia|]. cbn [map allRows length skipn app]. split; [|now rewrite B]. rewrite A. reflexivity.
Qed.
Lemma allRows_seq : forall n extra ne ni i, length ne = length ni ->
  map (fun r => (r, n + 2)) (allRows n extra i ne ni) = map (fun l => (nth l ne 0 + nth l ni 0 + (if (l + i =? 0) && extra then n else 0), n + 2)) (seq 0 (length ne)).
Proof.
  intros n extra. induction ne as [|e ne IH]; intros ni i L; [reflexivity|]. destruct ni as [|k ni]; [discriminate|]. cbn [allRows map length seq].
  rewrite IH by (cbn in L; lia). rewrite <- seq_shift, map_map. f_equal.
  - unfold levelRows. cbn [nth Nat.add]. destruct ((i =? 0) && extra); f_equal; lia.
  - apply map_ext. intros a. rewrite Nat.add_succ_r. reflexivity.
Qed.
Lemma allRows_len : forall n extra ne ni i, length ne = length ni -> length (allRows n extra i ne ni) = length ne.
Proof. intros n extra. induction ne as [|e ne IH]; intros [|k ni] i L; try discriminate; [reflexivity|]. cbn. rewrite IH; auto. Qed.

Lemma grow_len : forall d k, length (grow d k) = Nat.max (length d) k.
Proof. intros d k. unfold grow. rewrite app_length, repeat_length. lia. Qed.

(* With bounds, xl_ and xu_ are usable after startBuild. *)
Lemma resize_bounds : forall ffl s n ne ni, length ne = length ni -> (ffl = true \/ ne <> []) ->
  let s1 := resize_ ffl s n ne ni true in
  rsize (xlu s1) = n /\ ralias (xlu s1) = false /\
  ((rsize (xlu s1) =? 0) || existsb (fun m => (buffer m =? rbuf (xlu s1)) && negb (rows m * cols m =? 0)) (boundData s1 :: data s1)) = true.
Proof.
  intros ffl s n ne ni L H s1. unfold s1, resize_. destruct ffl; cbn [andb negb].
  - destruct (resizeLevels n false 0 _ ne ni _) as ((d1 & imp) & nx) eqn:E.
    cbn [xlu boundData data]. set (b := resize (boundData s) n 2 (next s)).
    replace (match d1, ne with m :: _, _ :: _ => mkB (buffer b) n false | _, _ => mkB (buffer b) n false end) with (mkB (buffer b) n false) by (destruct d1, ne; reflexivity).
    cbn [rsize ralias rbuf]. split; [reflexivity|]. split; [reflexivity|]. cbn [existsb]. rewrite Nat.eqb_refl. cbn [andb].
    assert (R : rows b = n /\ cols b = 2) by (split; reflexivity). destruct R as [-> ->]. destruct n as [|n]; [reflexivity|]. cbn [Nat.eqb orb].
    destruct (Nat.eqb_spec (S n * 2) 0) as [K|K]; [lia|]. reflexivity.
  - destruct H as [H|H]; [discriminate|]. destruct (resizeLevels n true 0 _ ne ni _) as ((d1 & imp) & nx) eqn:E.
    destruct (resizeLevels_spec _ _ _ _ _ _ _ _ _ _ E L) as [A B]; [rewrite grow_len; lia|].
    destruct ne as [|e ne]; [congruence|]. destruct ni as [|k ni]; [discriminate|]. destruct d1 as [|m d1].
    + exfalso. cbn [length] in B. rewrite grow_len in B. cbn in B. lia.
    + cbn [xlu boundData data rsize ralias rbuf]. split; [reflexivity|]. split; [reflexivity|]. cbn [existsb]. rewrite Nat.eqb_refl. cbn [andb map allRows app levelRows Nat.eqb] in *.
      injection A as A1 A2 _. rewrite A1, A2. destruct n as [|n]; [reflexivity|]. cbn [Nat.eqb orb].
      destruct (Nat.eqb_spec ((e + k + S n) * (S n + 2)) 0) as [K|K]; [lia|]. cbn [negb orb]. now rewrite orb_true_r.
Qed.

Lemma fill_eq : forall a b (W : nat -> nat) m, length a = length b -> (forall l, l < length a -> l < m -> nth l a 0 = W l) -> (forall l, l < length a -> ~ l < m -> nth l a 0 = nth l b 0) ->
  (forall l, l < length b -> l < m -> nth l b 0 = W l) -> a = b.
Proof. intros a b W m L H1 H2 H3. apply nth_ext0; [exact L|]. intros i Hi. destruct (Nat.lt_ge_cases i m). - rewrite H1, H3; auto; lia. - apply H2; lia. Qed.

(* A build on top of zero sizes. *)
Lemma build_ok : forall ffl s0 n ne ni ub cs mn bs,
  (forall l, l < length ne -> nth l (eqSize s0) 0 = 0 /\ nth l (ineqSize s0) 0 = 0) ->
  announced n ne ni cs mn -> boundsFit n ub bs -> (ub = true -> ffl = true \/ ne <> []) ->
  exists s, run ffl s0 (build n ne ni ub cs mn bs) = Ok s /\ stacked (fun _ => 0) cs s /\ boundRanges s = bs /\ building s = false /\
  nVar s = n /\ nEq s = ne /\ nIneq s = ni /\ useBounds s = ub /\
  identityAt s = (if mn then Some (Nat.max (length ne) (length (data s0)) - 1) else None) /\
  (let s1 := resize_ ffl s0 n ne ni ub in boundData s = boundData s1 /\ data s = data s1 /\ xlu s = xlu s1 /\ conf s = conf s1).
Proof.
  intros ffl s0 n ne ni ub cs mn bs Z (L & A1 & A2 & A3) BF UB.
  destruct (start_ok ffl s0 n ne ni ub L) as (s1 & R1 & W1 & V1 & E1 & I1 & U1 & As1 & B1 & Id1 & (D1 & D2 & D3 & D4) & Q1 & Q2).
  assert (P : forall l, nth l (eqSize s1) 0 = 0 /\ nth l (ineqSize s1) 0 = 0).
  { intros l. rewrite Q1, Q2. destruct (Nat.ltb_spec l (length ne)) as [H|H]; [now apply Z|auto]. }
  destruct (adds_progress ffl cs s1 W1) as (s2 & R2).
  { intros c I. rewrite E1. specialize (A1 c I). lia. }
  { intros l. unfold prior. destruct (P l) as [-> ->]. rewrite taken_wanted, E1, I1.
    destruct (Nat.lt_ge_cases l (length ne - (if mn then 1 else 0))) as [H|H].
    - destruct (A2 l H) as [-> ->]. lia.
    - rewrite !wanted_0; [lia| |]; intros c I K; specialize (A1 c I); lia. }
  destruct (adds_ok ffl cs s1 s2 R2 W1) as ((W2 & W3 & W4 & W5) & F2 & _ & (as_ & Aa & Ab & Ac) & Q3 & Q4).
  unfold rest in F2. injection F2 as G1 G2 G3 G4 G5 G6 G7 G8 G9 G10 G11.
  assert (S2 : assignments s2 = as_) by (rewrite Aa, As1; reflexivity).
  assert (M : exists s3, run ffl s2 (if mn then [SetMinimumNorm] else []) = Ok s3 /\ building s3 = true /\
    (nVar s3, nEq s3, nIneq s3, ineqSize s3, useBounds s3, assignments s3, boundRanges s3, (boundData s3, data s3, xlu s3, conf s3))
    = (nVar s2, nEq s2, nIneq s2, ineqSize s2, useBounds s2, assignments s2, boundRanges s2, (boundData s2, data s2, xlu s2, conf s2)) /\
    identityAt s3 = (if mn then Some (length (data s2) - 1) else None) /\ eqSize s3 = ne).
  { destruct mn.
    - destruct (A3 eq_refl) as (K1 & K2 & K3). cbn [run step]. unfold setMinimumNorm. rewrite G2, E1. destruct (length ne) as [|k] eqn:Ek; [destruct ne; [congruence|discriminate]|].
      cbn [Nat.sub] in K2, K3. rewrite Nat.sub_0_r in K2, K3. rewrite G3, I1, K2, K3, G1, V1, Nat.eqb_refl, W2. cbn [negb orb Nat.eqb bind].
      eexists. split; [reflexivity|]. cbn. split; [reflexivity|]. split; [congruence|]. split; [reflexivity|].
      assert (Le : length (eqSize s2) = S k) by (rewrite W4, G2, E1; exact Ek). apply nth_ext0; [rewrite upd_len; lia|].
      intros i Hi. rewrite upd_len in Hi. rewrite upd_nth. destruct (Nat.eqb_spec i k) as [->|Hk].
      + rewrite (proj2 (Nat.ltb_lt _ _)) by lia. cbn [andb]. auto.
      + cbn [andb]. rewrite Q3. destruct (P i) as [-> _]. symmetry. apply A2. lia.
    - exists s2. split; [reflexivity|]. split; [exact W2|]. split; [reflexivity|]. split; [congruence|].
      apply nth_ext0; [congruence|]. intros i Hi. rewrite Q3. destruct (P i) as [-> _]. symmetry. apply A2. assert (length (eqSize s2) = length ne) by congruence. lia. }
  destruct M as (s3 & R3 & B3 & F3 & Id3 & Eq3). injection F3 as H1 H2 H3 H4 H5 H6 H7 H8 H9 H10 H11.
  assert (In3 : ineqSize s3 = ni).
  { rewrite H4. apply nth_ext0; [congruence|]. intros i Hi. rewrite Q4. destruct (P i) as [_ ->]. assert (length (ineqSize s2) = length ne) by congruence.
    destruct (Nat.lt_ge_cases i (length ne - (if mn then 1 else 0))) as [H'|H'].
    - symmetry. apply A2. exact H'.
    - destruct mn; [|lia]. destruct (A3 eq_refl) as (_ & _ & K). replace i with (length ne - 1) in * by lia. rewrite K, wanted_0; [lia|]. intros c I J. specialize (A1 c I). lia. }
  destruct (bounds_run ffl bs s3 B3) as (s4 & R4 & B4 & Bs4 & F4).
  { intros NB. destruct bs as [|b bs']; [congruence|]. destruct (BF b) as [_ ->]; [now left|]. unfold validBounds, liveBuffer.
    rewrite H8, H9, H10, G6, G7, G8, D1, D2, D3. apply resize_bounds; auto. }
  { intros b I. destruct (BF b I) as [F ->]. rewrite H10, G8, D3. destruct (resize_bounds ffl s0 n ne ni L (UB eq_refl)) as (-> & _). exact F. }
  injection F4 as J1 J2 J3 J4 J5 J6 J7 J8 J9 J10 J11 J12 J13.
  assert (X : run ffl s0 (build n ne ni ub cs mn bs) = finalizeBuild s4).
  { unfold build. cbn [run step]. rewrite R1. cbn [bind]. rewrite run_app, R2. cbn [bind]. rewrite run_app, R3. cbn [bind]. rewrite run_app, R4. cbn [bind run step]. now destruct (finalizeBuild s4). }
  rewrite X. unfold finalizeBuild. replace (nEq s4) with (eqSize s4) by congruence. replace (nIneq s4) with (ineqSize s4) by congruence.
  assert (RR : forall x, listEqb x x = true) by (intros x; now apply listEqb_eq). rewrite !RR. cbn [negb orb]. eexists. split; [reflexivity|].
  cbn [building nEq nIneq eqSize ineqSize nVar useBounds boundRanges boundData data xlu identityAt conf next assignments]. cbv zeta. repeat match goal with |- _ /\ _ => split end; try congruence; try reflexivity.
  - unfold stacked. cbn [assignments]. rewrite J7, H6, S2. split; [exact Ab|]. intros k c Hk. rewrite (Ac k c Hk). unfold prior. destruct (P (clvl c)) as [-> ->]. reflexivity.
  - rewrite Bs4, H7, G5, B1. reflexivity.
  - rewrite J11, Id3. replace (length (data s2)) with (Nat.max (length ne) (length (data s0))); [reflexivity|]. rewrite G7, D2. unfold resize_.
    destruct (resizeLevels n (ub && negb ffl) 0 _ ne ni _) as ((d1 & imp) & nx) eqn:E. cbn [data]. destruct (resizeLevels_spec _ _ _ _ _ _ _ _ _ _ E L) as [_ ->]; rewrite grow_len; lia.
Qed.
