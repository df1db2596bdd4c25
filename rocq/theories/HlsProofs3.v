(* First builds, rebuilds, and the builds of the scheme. *)
From Coq Require Import List Bool Arith Lia.
Import ListNotations.
From Verif Require Import Base HlsModel HlsSpec HlsProofs HlsProofs2.

Lemma imp_fresh : forall n extra ne ni i nx k, length ne = length ni -> length ne = k ->
  snd (fst (resizeLevels n extra i (repeat (mkM 0 0 0) k) ne ni nx)) = existsb (fun r => negb (r =? 0)) (allRows n extra i ne ni).
Proof.
  intros n extra. induction ne as [|e ne IH]; intros ni i nx k L K.
  - destruct ni; [|discriminate]. subst k. reflexivity.
  - destruct ni as [|j ni]; [discriminate|]. subst k. cbn [length repeat resizeLevels allRows existsb]. specialize (IH ni (S i) (S nx) (length ne)). cbn in L.
    destruct (resizeLevels n extra (S i) _ ne ni (S nx)) as ((d & imp) & nx'). cbn [fst snd] in *. rewrite IH by lia. f_equal.
    unfold willReallocate. cbn [rows cols Nat.mul]. destruct (levelRows n extra i e j) as [|r]; [reflexivity|]. destruct (Nat.eqb_spec 0 (S r * (n + 2))); [lia|reflexivity].
Qed.
Lemma existsb_nth : forall (f : nat -> bool) a l, l < length a -> f (nth l a 0) = true -> existsb f a = true.
Proof. intros f a l H K. apply existsb_exists. exists (nth l a 0). split; [now apply nth_In|exact K]. Qed.
Lemma allRows_nth : forall n extra ne ni i l, length ne = length ni -> l < length ne ->
  nth l (allRows n extra i ne ni) 0 = nth l ne 0 + nth l ni 0 + (if (l + i =? 0) && extra then n else 0).
Proof.
  intros n extra. induction ne as [|e ne IH]; intros ni i l L K; [cbn in K; lia|]. destruct ni as [|j ni]; [discriminate|]. destruct l as [|l]; cbn [allRows nth Nat.add].
  - unfold levelRows. destruct (_ && _); lia.
  - rewrite IH by (cbn in *; lia). rewrite Nat.add_succ_r. reflexivity.
Qed.

Theorem first_build : forall ffl n ne ni ub cs mn bs,
  announced n ne ni cs mn -> boundsFit n ub bs -> (ub = true -> ffl = true \/ ne <> []) ->
  exists s c d, run ffl fresh (build n ne ni ub cs mn bs) = Ok s /\ stacked (fun _ => 0) cs s /\
  (forall l, l < length ne - (if mn then 1 else 0) -> tiled s l (nth l ne 0 + nth l ni 0)) /\
  nEq s = ne /\ nIneq s = ni /\ boundRanges s = bs /\ (ub = true -> ralias (xlu s) = false) /\
  identityAt s = (if mn then Some (length ne - 1) else None) /\
  solve ffl s = Ok (c, d) /\ d = expectedData ffl ub n ne ni /\
  ((exists l, l < length ne /\ 0 < nth l ne 0 + nth l ni 0) \/ ub = true /\ 0 < n -> accepts c d).
Proof.
  intros ffl n ne ni ub cs mn bs A BF UB.
  destruct (build_ok ffl fresh n ne ni ub cs mn bs) as (s & R & St & Bs & Bu & V & E & I & U & Id & (D1 & D2 & D3 & D4)); auto.
  { intros l _. cbn. destruct l; auto. }
  exists s, (conf s), (handed ffl s). pose proof A as (L & A1 & A2 & A3).
  assert (DL : exists d1 imp nx, resizeLevels n (ub && negb ffl) 0 (repeat (mkM 0 0 0) (length ne)) ne ni 2 = (d1, imp, nx)) by (destruct (resizeLevels _ _ _ _ _ _ _) as ((d1 & imp) & nx); eauto).
  destruct DL as (d1 & imp & nx & RL). destruct (resizeLevels_spec _ _ _ _ _ _ _ _ _ _ RL L) as [Mp Ml]; [rewrite repeat_length; lia|].
  assert (Hd : data s = d1 /\ conf s = (if (ub && ffl && true) || imp then Some (n, (if ub && ffl then [(n, true)] else []) ++ map (fun r => (r, false)) (allRows n (ub && negb ffl) 0 ne ni)) else None) /\
    boundData s = (if ub && ffl then resize (mkM 1 1 0) n 2 1 else mkM 1 1 0)).
  { rewrite D2, D4, D1. unfold resize_, fresh, grow. cbn [data next boundData conf length app xlu]. rewrite Nat.sub_0_r, RL. cbn [data conf boundData].
    split; [reflexivity|]. split; [|reflexivity]. replace (willReallocate (mkM 1 1 0) n 2) with true; [reflexivity|]. unfold willReallocate. cbn [rows cols]. destruct (Nat.eqb_spec (1 * 1) (n * 2)); [lia|reflexivity]. }
  destruct Hd as (Hd & Hc & Hb).
  assert (HH : handed ffl s = expectedData ffl ub n ne ni).
  { unfold handed, expectedData. rewrite U, Hb. f_equal.
    - destruct (ub && ffl); reflexivity.
    - rewrite Hd. rewrite (skipn_all2 (repeat (mkM 0 0 0) (length ne))) in Mp by (rewrite repeat_length; lia). cbn [map] in Mp. rewrite app_nil_r, allRows_seq in Mp by exact L.
      apply (f_equal (map (fun p : nat * nat => (fst p, snd p, false)))) in Mp. rewrite !map_map in Mp. cbn [fst snd] in Mp. rewrite Mp. apply map_ext. intros a. rewrite Nat.add_0_r. reflexivity. }
  assert (Imp : imp = existsb (fun r => negb (r =? 0)) (allRows n (ub && negb ffl) 0 ne ni)).
  { pose proof (imp_fresh n (ub && negb ffl) ne ni 0 2 (length ne) L eq_refl) as H. rewrite RL in H. exact H. }
  cbv zeta. repeat match goal with |- _ /\ _ => split end; try assumption.
  - intros l Hl. replace (nth l ne 0 + nth l ni 0) with (taken cs l); [now apply stacked_tiled|]. rewrite taken_wanted. destruct (A2 l Hl) as [-> ->]. reflexivity.
  - intros ->. rewrite D3. apply resize_bounds; auto.
  - rewrite Id. cbn [fresh data length]. now rewrite Nat.max_0_r.
  - unfold solve. rewrite Bu. replace (validBounds s) with true; [reflexivity|]. symmetry. destruct ub.
    + unfold validBounds, liveBuffer. rewrite D1, D2, D3. apply resize_bounds; auto.
    + unfold validBounds, liveBuffer. cbn [andb] in Hb. assert (Hx : xlu s = mkB 0 1 true).
      { rewrite D3. unfold resize_. cbn [andb]. destruct (resizeLevels n false 0 (grow (data fresh) (length ne)) ne ni (S (next fresh))) as ((d1' & imp') & nx'). cbn [xlu fresh]. destruct d1', ne; reflexivity. }
      rewrite Hx, Hb. reflexivity.
  - intros H. unfold accepts. exists n, ((if ub && ffl then [(n, true)] else []) ++ map (fun r => (r, false)) (allRows n (ub && negb ffl) 0 ne ni)). split.
    + rewrite Hc. replace ((ub && ffl && true) || imp) with true; [reflexivity|]. symmetry. apply orb_true_iff. rewrite andb_true_r. destruct (ub && ffl) eqn:F; [now left|]. right. rewrite Imp.
      destruct H as [(l & H1 & H2)|(-> & H)].
      * apply (existsb_nth _ _ l); [now rewrite allRows_len|]. rewrite allRows_nth by auto. apply negb_true_iff, Nat.eqb_neq. lia.
      * cbn [andb] in F. subst ffl. destruct UB as [X|X]; [reflexivity|discriminate|]. assert (0 < length ne) by (destruct ne; [congruence|cbn; lia]).
        apply (existsb_nth _ _ 0); [now rewrite allRows_len|]. rewrite allRows_nth by auto. cbn [Nat.add Nat.eqb andb negb]. apply negb_true_iff, Nat.eqb_neq. lia.
    + rewrite HH. unfold expectedData. rewrite map_app. f_equal; [destruct (ub && ffl); reflexivity|].
      pose proof (allRows_seq n (ub && negb ffl) ne ni 0 L) as Q. apply (f_equal (map (fun p : nat * nat => (fst p, snd p, false)))) in Q. rewrite !map_map in Q. cbn [fst snd] in Q.
      rewrite map_map. rewrite Q. apply map_ext. intros a. rewrite Nat.add_0_r. reflexivity.
Qed.

(* Rebuilding *)
Lemma finalize_sizes : forall s s', finalizeBuild s = Ok s' -> eqSize s' = nEq s' /\ ineqSize s' = nIneq s' /\ nEq s' = nEq s /\ nIneq s' = nIneq s /\ assignments s' = assignments s /\ eqSize s' = eqSize s /\ ineqSize s' = ineqSize s.
Proof.
  intros s s' H. unfold finalizeBuild in H. destruct (listEqb (nEq s) (eqSize s)) eqn:A; [|discriminate]. destruct (listEqb (nIneq s) (ineqSize s)) eqn:B; [|discriminate].
  apply listEqb_eq in A. apply listEqb_eq in B. injection H as <-. cbn. repeat split; congruence.
Qed.
Lemma minNorm_frame : forall s s', setMinimumNorm s = Ok s' -> nEq s' = nEq s /\ nIneq s' = nIneq s /\ assignments s' = assignments s.
Proof.
  intros s s' H. unfold setMinimumNorm in H. destruct (length (nEq s)) as [|k]; [discriminate|]. destruct (_ || _); [discriminate|]. destruct (negb _); [discriminate|]. injection H as <-. auto.
Qed.
Lemma build_inv : forall ffl s0 n ne ni ub cs mn bs s, run ffl s0 (build n ne ni ub cs mn bs) = Ok s ->
  nEq s = ne /\ nIneq s = ni /\ eqSize s = ne /\ ineqSize s = ni /\ length ne = length ni /\
  (forall c, In c cs -> clvl c < length ne) /\ stacked (prior s0) cs s /\
  (mn = false -> forall l, l < length ne -> nth l ne 0 = nth l (eqSize s0) 0 + wanted cs l true /\ nth l ni 0 = nth l (ineqSize s0) 0 + wanted cs l false).
Proof.
  intros ffl s0 n ne ni ub cs mn bs s R. unfold build in R. cbn [run step] in R. destruct (startBuild ffl s0 n ne ni ub) as [s1| |] eqn:R1; try discriminate. cbn [bind] in R.
  pose proof (start_uniq _ _ _ _ _ _ _ R1) as L. destruct (start_ok ffl s0 n ne ni ub L) as (s1' & R1' & W1 & V1 & E1 & I1 & U1 & As1 & B1 & Id1 & _ & Q1 & Q2).
  assert (s1' = s1) by congruence. subst s1'. rewrite run_app in R. destruct (run ffl s1 (map AddConstraint cs)) as [s2| |] eqn:R2; try discriminate. cbn [bind] in R.
  destruct (adds_ok ffl cs s1 s2 R2 W1) as ((W2 & W3 & W4 & W5) & F2 & Lv & (as_ & Aa & Ab & Ac) & Q3 & Q4).
  unfold rest in F2. injection F2 as G1 G2 G3 G4 G5 G6 G7 G8 G9 G10 G11.
  rewrite run_app in R. destruct (run ffl s2 (if mn then [SetMinimumNorm] else [])) as [s3| |] eqn:R3; try discriminate. cbn [bind] in R.
  rewrite run_app in R. destruct (run ffl s3 (map (fun b => AddBound (fst b) (snd b)) bs)) as [s4| |] eqn:R4; try discriminate. cbn [bind] in R.
  assert (R5 : finalizeBuild s4 = Ok s) by (cbn [run step] in R; destruct (finalizeBuild s4); cbn in R; congruence).
  destruct (finalize_sizes _ _ R5) as (X1 & X2 & X3 & X4 & X5 & X6 & X7). destruct (bounds_frame _ _ _ _ R4) as (Y1 & Y2 & Y3 & Y4 & Y5).
  assert (Z : nEq s3 = nEq s2 /\ nIneq s3 = nIneq s2 /\ assignments s3 = assignments s2).
  { destruct mn; cbn [run step] in R3; [|injection R3 as <-; auto]. destruct (setMinimumNorm s2) as [s3'| |] eqn:M; try discriminate. cbn in R3. injection R3 as <-. now apply minNorm_frame. }
  destruct Z as (Z1 & Z2 & Z3).
  assert (Lc : forall c, In c cs -> clvl c < length ne) by (intros c I; rewrite <- E1; now apply Lv).
  repeat match goal with |- _ /\ _ => split end; try congruence; try assumption.
  - unfold stacked. replace (assignments s) with as_ by (rewrite X5, Y5, Z3, Aa, As1; reflexivity). split; [exact Ab|]. intros k c Hk. rewrite (Ac k c Hk). do 2 f_equal. unfold prior. rewrite Q1, Q2.
    rewrite (proj2 (Nat.ltb_lt _ _)) by (apply Lc; eapply nth_error_In; eauto). reflexivity.
  - intros -> l Hl. cbn [run] in R3. injection R3 as <-. assert (Eq : eqSize s2 = ne) by congruence. assert (Ei : ineqSize s2 = ni) by congruence.
    specialize (Q3 l). specialize (Q4 l). rewrite Eq, Q1 in Q3. rewrite Ei, Q2 in Q4. rewrite (proj2 (Nat.ltb_lt _ _) Hl) in Q3, Q4. split; assumption.
Qed.

Lemma stacked_ext : forall f g cs s, (forall l, f l = g l) -> stacked f cs s -> stacked g cs s.
Proof. intros f g cs s H [A B]. split; [exact A|]. intros k c E. rewrite <- H. now apply B. Qed.

Theorem rebuild_offset : forall ffl h n0 ne0 ni0 ub0 cs0 mn0 bs0 n ne ni ub cs mn bs s,
  run ffl fresh (h ++ build n0 ne0 ni0 ub0 cs0 mn0 bs0 ++ build n ne ni ub cs mn bs) = Ok s ->
  stacked (fun l => nth l ne0 0 + nth l ni0 0) cs s.
Proof.
  intros ffl h n0 ne0 ni0 ub0 cs0 mn0 bs0 n ne ni ub cs mn bs s R. rewrite run_app in R. destruct (run ffl fresh h) as [s1| |]; try discriminate. cbn [bind] in R.
  rewrite run_app in R. destruct (run ffl s1 (build n0 ne0 ni0 ub0 cs0 mn0 bs0)) as [s2| |] eqn:R2; try discriminate. cbn [bind] in R.
  destruct (build_inv _ _ _ _ _ _ _ _ _ _ R2) as (_ & _ & E & I & _). destruct (build_inv _ _ _ _ _ _ _ _ _ _ R) as (_ & _ & _ & _ & _ & _ & S & _).
  eapply stacked_ext; [|exact S]. intros l. unfold prior. now rewrite E, I.
Qed.

Theorem rebuild_iff : forall ffl h n0 ne0 ni0 ub0 cs0 mn0 bs0 s0 n ne ni ub cs bs,
  run ffl fresh (h ++ build n0 ne0 ni0 ub0 cs0 mn0 bs0) = Ok s0 ->
  announced n ne ni cs false -> boundsFit n ub bs -> (ub = true -> ffl = true \/ ne <> []) ->
  ((exists s, run ffl s0 (build n ne ni ub cs false bs) = Ok s) <-> forall l, l < length ne -> nth l ne0 0 + nth l ni0 0 = 0).
Proof.
  intros ffl h n0 ne0 ni0 ub0 cs0 mn0 bs0 s0 n ne ni ub cs bs R A BF UB. rewrite run_app in R. destruct (run ffl fresh h) as [s1| |]; try discriminate. cbn [bind] in R.
  destruct (build_inv _ _ _ _ _ _ _ _ _ _ R) as (_ & _ & E & I & _). split.
  - intros (s & R') l Hl. destruct (build_inv _ _ _ _ _ _ _ _ _ _ R') as (_ & _ & _ & _ & _ & _ & _ & K). destruct (K eq_refl l Hl) as [K1 K2].
    destruct A as (_ & _ & A2 & _). rewrite Nat.sub_0_r in A2. destruct (A2 l Hl) as [B1 B2]. rewrite E in K1. rewrite I in K2. lia.
  - intros H. destruct (build_ok ffl s0 n ne ni ub cs false bs) as (s & R' & _); auto; [|now exists s]. intros l Hl. rewrite E, I. specialize (H l Hl). lia.
Qed.

(* The scheme *)
Lemma bump_spec : forall l p k, length (bump l p k) = Nat.max (length l) (S p) /\ forall j, nth j (bump l p k) 0 = nth j l 0 + (if j =? p then k else 0).
Proof.
  intros l p k. unfold bump. rewrite upd_len. split.
  - destruct (Nat.leb_spec (length l) p); [rewrite vresize_len|]; lia.
  - intros j. rewrite upd_nth. destruct (Nat.leb_spec (length l) p) as [H|H].
    + rewrite vresize_len, vresize_nth. rewrite (proj2 (Nat.ltb_lt p (S p))) by lia. rewrite andb_true_r. destruct (Nat.eqb_spec j p) as [->|N].
      * rewrite (proj2 (Nat.ltb_lt _ _)) by lia. reflexivity.
      * destruct (Nat.ltb_spec j (S p)); [lia|]. rewrite nth_overflow by lia. lia.
    + rewrite (proj2 (Nat.ltb_lt _ _) H), andb_true_r. destruct (j =? p); lia.
Qed.
Lemma levels_app : forall a b, levels (a ++ b) = Nat.max (levels a) (levels b).
Proof. unfold levels. induction a as [|c a IH]; intros b; [reflexivity|]. cbn [app map fold_right]. rewrite IH. lia. Qed.
Lemma levels_In : forall cs c, In c cs -> clvl c < levels cs.
Proof. induction cs as [|x cs IH]; intros c []; unfold levels in *; cbn [map fold_right]; subst; [lia|]. specialize (IH _ H). lia. Qed.
Lemma count_spec : forall cs ne ni, fold_left count cs ([], []) = (ne, ni) -> length ne = levels cs /\ length ni = levels cs /\
  forall l, nth l ne 0 = wanted cs l true /\ nth l ni 0 = wanted cs l false.
Proof.
  induction cs as [|c cs IH] using rev_ind; intros ne ni H.
  - injection H as <- <-. split; [reflexivity|]. split; [reflexivity|]. intros [|l]; auto.
  - rewrite fold_left_app in H. cbn [fold_left] in H. destruct (fold_left count cs ([], [])) as [ne1 ni1]. destruct (IH _ _ eq_refl) as (L1 & L2 & V).
    unfold count in H. rewrite levels_app. assert (Lc : levels [c] = S (clvl c)) by (unfold levels; cbn; lia). rewrite Lc.
    destruct (ceq c) eqn:E; injection H as <- <-; destruct (bump_spec ne1 (clvl c) (csize c)) as [A1 A2]; destruct (bump_spec ni1 (clvl c) (csize c)) as [B1 B2];
      destruct (bump_spec ne1 (clvl c) 0) as [C1 C2]; destruct (bump_spec ni1 (clvl c) 0) as [D1 D2]; (split; [lia|]); (split; [lia|]); intros l; destruct (V l) as [V1 V2];
      rewrite !wanted_app, !wanted_one, E, ?A2, ?B2, ?C2, ?D2, V1, V2, (Nat.eqb_sym (clvl c)); cbn [Bool.eqb]; rewrite ?andb_true_r, ?andb_false_r; destruct (l =? clvl c); lia.
Qed.
Lemma calls_build : forall n cs bs add (damping : bool) ne ni, fold_left count (cs ++ extraCstrs add) ([], []) = (ne, ni) ->
  calls n cs bs add damping = build n (if damping then ne ++ [n] else ne) (if damping then ni ++ [0] else ni) (match bs with [] => false | _ => true end) (cs ++ extraCstrs add) damping bs.
Proof. intros n cs bs add damping ne ni H. unfold calls, build. now rewrite H. Qed.

Lemma levels_0 : forall cs, levels cs = 0 <-> cs = [].
Proof. intros [|c cs]; split; try reflexivity; try discriminate. unfold levels. cbn [map fold_right]. intros H. exfalso. lia. Qed.
Lemma scheme_announced : forall n all (damping : bool) ne ni, fold_left count all ([], []) = (ne, ni) ->
  announced n (if damping then ne ++ [n] else ne) (if damping then ni ++ [0] else ni) all damping.
Proof.
  intros n all damping ne ni H. destruct (count_spec _ _ _ H) as (L1 & L2 & V). destruct damping.
  - split; [rewrite !app_length; cbn; lia|]. rewrite app_length. cbn [length]. split; [|split].
    + intros c I. apply levels_In in I. lia.
    + intros l Hl. rewrite !app_nth1 by lia. apply V.
    + intros _. split; [destruct ne; discriminate|]. replace (length ne + 1 - 1) with (length ne) by lia. rewrite nth_middle. replace (length ne) with (length ni) by lia. rewrite nth_middle. auto.
  - split; [lia|]. rewrite Nat.sub_0_r. split; [|split; [|discriminate]].
    + intros c I. apply levels_In in I. lia.
    + intros l _. apply V.
Qed.

Theorem scheme_build : forall ffl n cs bs add (damping : bool),
  (forall b, In b bs -> fst b + snd b <= n) -> bs = [] \/ ffl = true \/ damping = true \/ cs <> [] \/ add <> [] ->
  let all := cs ++ map (mkC 0 true) add in
  exists s c d, processProblem ffl n cs bs add damping = Ok s /\ stacked (fun _ => 0) all s /\
  length (nEq s) = levels all + (if damping then 1 else 0) /\
  (forall l, l < levels all -> nth l (nEq s) 0 = wanted all l true /\ nth l (nIneq s) 0 = wanted all l false /\ tiled s l (taken all l)) /\
  boundRanges s = bs /\ (bs <> [] -> ralias (xlu s) = false) /\ identityAt s = (if damping then Some (levels all) else None) /\
  solve ffl s = Ok (c, d) /\ ((exists x, In x all /\ 0 < csize x) \/ (damping = true \/ bs <> []) /\ 0 < n -> accepts c d).
Proof.
  intros ffl n cs bs add damping BF UB all. destruct (fold_left count all ([], [])) as [ne ni] eqn:H. unfold processProblem. rewrite (calls_build _ _ _ _ _ _ _ H). fold all.
  destruct (count_spec _ _ _ H) as (L1 & L2 & V). change (extraCstrs add) with (map (mkC 0 true) add). fold all.
  destruct (first_build ffl n (if damping then ne ++ [n] else ne) (if damping then ni ++ [0] else ni) (match bs with [] => false | _ => true end) all damping bs) as (s & c & d & R & St & Ti & E & I & Bs & Al & Id & So & De & Ac).
  { now apply scheme_announced. }
  { intros b Ib. split; [now apply BF|]. destruct bs; [destruct Ib|reflexivity]. }
  { intros Hb. destruct UB as [->|[->|[->|UB]]]; [discriminate|now left|right; destruct ne; discriminate|]. right. assert (all <> []). { unfold all. destruct UB as [X|X]; [destruct cs; [congruence|discriminate]|]. destruct add; [congruence|]. destruct cs; discriminate. }
    assert (levels all <> 0) by (now rewrite levels_0). destruct damping; destruct ne; try discriminate. cbn in L1. lia. }
  exists s, c, d. split; [exact R|]. split; [exact St|]. split; [rewrite E; destruct damping; rewrite ?app_length; cbn [length]; lia|]. split.
  { intros l Hl. rewrite E, I. destruct (V l) as [V1 V2].
    assert (N1 : nth l (if damping then ne ++ [n] else ne) 0 = wanted all l true) by (destruct damping; [rewrite app_nth1 by lia|]; exact V1).
    assert (N2 : nth l (if damping then ni ++ [0] else ni) 0 = wanted all l false) by (destruct damping; [rewrite app_nth1 by lia|]; exact V2).
    split; [exact N1|]. split; [exact N2|]. now apply stacked_tiled. }
  split; [exact Bs|]. split; [intros Hb; apply Al; destruct bs; [congruence|reflexivity]|]. split; [rewrite Id; destruct damping; [|reflexivity]; rewrite app_length; cbn [length]; f_equal; lia|].
  split; [exact So|]. intros Hy. apply Ac. destruct Hy as [(x & X1 & X2)|([->|X1] & X2)].
  - left. exists (clvl x). pose proof (levels_In _ _ X1) as Lx. split; [destruct damping; rewrite ?app_length; cbn [length]; lia|]. destruct (V (clvl x)) as [V1 V2].
    assert (T : 0 < taken all (clvl x)).
    { apply In_nth_error in X1 as (k & X1). pose proof (taken_end _ _ _ _ X1 eq_refl). lia. }
    rewrite taken_wanted in T. destruct damping; rewrite ?app_nth1 by lia; lia.
  - left. exists (length ne). split; [rewrite app_length; cbn; lia|]. rewrite nth_middle. lia.
  - right. split; [destruct bs; [congruence|reflexivity]|exact X2].
Qed.

Lemma bounds_only : forall ffl' n bs b, ffl' = false -> In b bs -> 1 < fst b + snd b -> processProblem ffl' n [] bs [] false = UB.
Proof.
  intros ffl' n bs b -> I H. unfold processProblem, calls. cbn [app extraCstrs map fold_left].
  set (ub := match bs with [] => false | _ => true end). destruct (start_ok false fresh n [] [] ub eq_refl) as (s1 & R1 & (W1 & _) & _ & _ & _ & _ & _ & _ & _ & (_ & _ & D3 & _) & _).
  cbn [run step]. rewrite R1. cbn [bind]. assert (X : xlu s1 = mkB 0 1 true) by (rewrite D3; unfold ub; destruct bs; reflexivity). clear R1 D3 ub.
  revert s1 W1 X. induction bs as [|x bs IH]; intros s W X; [destruct I|]. cbn [map app run step]. unfold addBound. rewrite W, X. cbn [negb rsize].
  destruct (Nat.ltb_spec 1 (fst x + snd x)) as [L|L]; [now rewrite orb_true_r|]. rewrite orb_false_r. destruct (negb (validBounds s)); [reflexivity|]. cbn [bind]. apply IH.
  - destruct I as [->|I]; [lia|exact I].
  - reflexivity.
  - reflexivity.
Qed.
