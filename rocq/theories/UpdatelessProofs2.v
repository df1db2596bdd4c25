(* Proofs about UpdatelessModel: values with velocities, and whole calls. *)
From Coq Require Import List Bool Arith QArith Lia.
Import ListNotations.
From Verif Require Import Base UpdatelessModel UpdatelessSpec UpdatelessProofs.
Local Open Scope nat_scope.

Lemma two_writes : forall (x : var) (v w : list Q) r m, apply ([(true, x, v)] ++ ([(false, x, w)] ++ r)) m = apply r (apply [(false, x, w)] (apply [(true, x, v)] m)).
Proof. reflexivity. Qed.
Lemma parseVals2_ok : forall xs vs v w i m, lens (v :: map fst vs) = sizes (skipn i xs) -> lens (w :: map snd vs) = dsizes (skipn i xs) ->
  parseVals2 xs i v w vs m = Done (apply (flat_map W2 (combine (skipn i xs) ((v, w) :: vs))) m).
Proof.
  intros xs. induction vs as [|[v' w'] vs IH]; intros v w i m H H2.
  - destruct (skipn i xs) as [|x [|y r]] eqn:E; cbn in H; try discriminate. injection H as H. cbn in H2. injection H2 as H2. destruct (nth_skip_cons _ _ _ _ _ E) as (N & E2 & L). apply skip_nil in E2.
    cbn [parseVals2 combine map]. unfold parseEnd2. rewrite (proj2 (Nat.eqb_eq _ _)) by lia. rewrite (assignI_ok _ _ x v true) by auto. cbn [next]. rewrite (assignI_ok _ _ x w false) by auto. reflexivity.
  - destruct (skipn i xs) as [|x r] eqn:E; [discriminate|]. cbn in H, H2. injection H as H H'. injection H2 as H2 H2'. destruct (nth_skip_cons _ _ _ _ _ E) as (N & E2 & L). cbn [parseVals2]. rewrite (assignI_ok _ _ x v true) by auto. cbn [next].
    rewrite (assignI_ok _ _ x w false) by auto. cbn [next]. rewrite IH by (rewrite E2; cbn [lens map]; unfold sizes, dsizes, lens in *; congruence). rewrite E2. reflexivity.
Qed.
Definition concat2 (xs : list var) (i : nat) (v w : list Q) (vs : list (list Q * list Q)) : Prop := i = 0 /\ vs = [] /\ xs <> [] /\ length v = total (sizes xs) /\ length w = total (dsizes xs).
Lemma assignAll2_cases : forall xs v w m, xs <> [] ->
  (length v = total (sizes xs) /\ length w = total (dsizes xs) /\ assignAll2 xs v w m = Done (apply (flat_map W2 (combine xs (combine (cut (sizes xs) 0 v) (cut (dsizes xs) 0 w)))) m)) \/
  (~ (length v = total (sizes xs) /\ length w = total (dsizes xs)) /\ assignAll2 xs v w m = Threw m).
Proof.
  intros [|x r] v w m N; [contradiction|]. unfold assignAll2. rewrite !fold_sum. change (sz x + total (map sz r)) with (total (sizes (x :: r))). change (dsz x + total (map dsz r)) with (total (dsizes (x :: r))).
  destruct (Nat.eqb_spec (length v) (total (sizes (x :: r)))) as [E|E]; cbn [negb]; [|right; split; [tauto|reflexivity]].
  destruct (Nat.eqb_spec (length w) (total (dsizes (x :: r)))) as [E'|E']; cbn [negb]; [|right; split; [tauto|reflexivity]].
  left. split; [exact E|]. split; [exact E'|]. apply setAll2_ok; lia.
Qed.
Lemma skip_last : forall (xs : list var) i x, i + 1 = length xs -> nth_error xs i = Some x -> skipn i xs = [x].
Proof. intros xs i x E X. rewrite (skip_cons _ _ _ _ X). rewrite skipn_all2 by lia. reflexivity. Qed.
Lemma both_cases : forall xs i x v w f ok m, nth_error xs i = Some x ->
  (length v = sz x -> length w = dsz x -> forall m', ends xs false ok m' (f m')) -> (~ (length v = sz x /\ length w = dsz x) -> ok = false) ->
  ends xs false ok m (next (assignI xs i v true m) (fun m1 => next (assignI xs i w false m1) f)).
Proof.
  intros xs i x v w f ok m X F B. destruct (Nat.eq_dec (length v) (sz x)) as [L|L].
  - rewrite (assignI_ok xs i x v true m X L). apply ends_next; [intros y [<-|[]]; split; [eapply nth_error_In; eauto|exact L]|discriminate|].
    intros m1. destruct (Nat.eq_dec (length w) (dsz x)) as [L'|L'].
    + rewrite (assignI_ok xs i x w false m1 X L'). apply ends_next; [intros y [<-|[]]; split; [eapply nth_error_In; eauto|exact L']|discriminate|]. intros m2. now apply F.
    + rewrite B by tauto. rewrite assignI_bad; [apply ends_threw|]. intros y Y. congruence.
  - rewrite B by tauto. rewrite assignI_bad; [apply ends_threw|]. intros y Y. congruence.
Qed.
Lemma parseVals2_bad : forall xs vs v w i m, ~ (lens (v :: map fst vs) = sizes (skipn i xs) /\ lens (w :: map snd vs) = dsizes (skipn i xs)) -> ~ concat2 xs i v w vs -> ends xs false false m (parseVals2 xs i v w vs m).
Proof.
  intros xs. induction vs as [|[v' w'] vs IH]; intros v w i m H C.
  - cbn [parseVals2]. unfold parseEnd2. destruct (Nat.eqb_spec (i + 1) (length xs)) as [E|E].
    + destruct (nth_error xs i) as [x|] eqn:X; [|rewrite assignI_bad; [apply ends_threw|intros y Y; congruence]].
      assert (Hx : ~ (length v = sz x /\ length w = dsz x)). { intros [L L']. apply H. rewrite (skip_last _ _ _ E X). cbn. split; congruence. }
      destruct (Nat.eq_dec (length v) (sz x)) as [L|L].
      * rewrite (assignI_ok xs i x v true m X L). apply ends_next; [intros y [<-|[]]; split; [eapply nth_error_In; eauto|exact L]|discriminate|]. intros m1. rewrite assignI_bad; [apply ends_threw|]. intros y Y. assert (y = x) as -> by congruence. tauto.
      * rewrite assignI_bad; [apply ends_threw|]. intros y Y. congruence.
    + destruct (Nat.ltb_spec i (length xs)) as [E'|E']; [|apply ends_threw]. destruct (Nat.eqb_spec i 0) as [->|E0]; [|apply ends_threw].
      assert (N : xs <> []) by (intros ->; cbn in E'; lia). destruct (assignAll2_cases xs v w m N) as [[L [L' _]]|[_ ->]]; [|apply ends_threw]. exfalso. apply C. repeat split; auto.
  - cbn [parseVals2]. destruct (nth_error xs i) as [x|] eqn:E; [|rewrite assignI_bad; [apply ends_threw|intros y Y; congruence]].
    apply (both_cases xs i x); [exact E| |reflexivity]. intros L L' m'. apply IH; [|intros [C1 _]; lia]. intros [E1 E2]. apply H. rewrite (skip_cons _ _ _ _ E).
    cbn [lens sizes dsizes map fst snd] in *. unfold lens, sizes, dsizes in *. rewrite L, L'. split; f_equal; assumption.
Qed.
Lemma parsePairs2_ok : forall xs ps m, NoDup (map vid xs) -> (forall n v w, In (n, (v, w)) ps -> exists x, In x xs /\ vid x = n /\ length v = sz x /\ length w = dsz x) ->
  exists ws, parsePairs2 xs ps m = Done (apply ws m) /\ (forall w, In w ws -> okw xs w) /\ forall n d e, (lastw true n ws d, lastw false n ws e) = lastGiven n ps (d, e).
Proof.
  intros xs ps m N. revert m. induction ps as [|[n [v w]] ps IH]; intros m H.
  - exists []. split; [reflexivity|]. split; [intros w []|reflexivity].
  - destruct (H n v w (or_introl eq_refl)) as (x & X & E & L & L'). cbn [parsePairs2]. rewrite (assignX_ok xs n x v true) by auto. cbn [next]. rewrite (assignX_ok xs n x w false) by auto. cbn [next].
    destruct (IH (apply [(false, x, w)] (apply [(true, x, v)] m))) as (ws & E1 & A & C); [intros; apply H; now right|].
    exists ((true, x, v) :: (false, x, w) :: ws). split; [exact E1|]. split; [intros y [<-|[<-|I]]; [split; auto|split; auto|auto]|]. intros n' d e. cbn [lastw lastGiven eqb andb]. rewrite E. destruct (n =? n'); apply C.
Qed.
Lemma parsePairs2_bad : forall xs ps m, NoDup (map vid xs) -> ~ (forall n v w, In (n, (v, w)) ps -> exists x, In x xs /\ vid x = n /\ length v = sz x /\ length w = dsz x) -> ends xs false false m (parsePairs2 xs ps m).
Proof.
  intros xs ps m N. revert m. induction ps as [|[n [v w]] ps IH]; intros m H; [exfalso; apply H; intros n v w []|]. cbn [parsePairs2].
  destruct (find (fun x => (vid x =? n) && (length v =? sz x)) xs) as [x|] eqn:F.
  - apply find_some in F as [X F]. apply andb_true_iff in F as [F1 F2]. apply Nat.eqb_eq in F1, F2. rewrite (assignX_ok xs n x v true) by auto. apply ends_next; [intros y [<-|[]]; split; auto|discriminate|].
    intros m1. destruct (Nat.eq_dec (length w) (dsz x)) as [L|L].
    + rewrite (assignX_ok xs n x w false) by auto. apply ends_next; [intros y [<-|[]]; split; auto|discriminate|]. intros m'. apply IH. intros H'. apply H. intros n' v' w' [I|I]; [injection I as <- <- <-; eauto|auto].
    + rewrite assignX_bad; [apply ends_threw|]. intros y Y E. assert (y = x) as -> by (eapply vid_inj; eauto; congruence). exact L.
  - rewrite assignX_bad; [apply ends_threw|]. intros x X E L. apply (find_none _ _ F) in X. rewrite E, L, !Nat.eqb_refl in X. discriminate.
Qed.

(* Last writes of lists *)
Lemma lastw_none : forall k n ws d, (forall b x v, In (b, x, v) ws -> vid x <> n) -> lastw k n ws d = d.
Proof.
  intros k n. induction ws as [|[[b x] v] ws IH]; intros d H; [reflexivity|]. cbn [lastw]. rewrite (proj2 (Nat.eqb_neq _ _)) by (eapply H; left; reflexivity). rewrite andb_false_r. apply IH. intros b' x' v' I. eapply H. right. exact I.
Qed.
Lemma lastw_vals : forall xs vs i x d e, NoDup (map vid xs) -> length vs = length xs -> nth_error xs i = Some x -> lastw true (vid x) (map W1 (combine xs vs)) d = nth i vs e.
Proof.
  induction xs as [|y xs IH]; intros vs i x d e N L X; [destruct i; discriminate|]. destruct vs as [|v vs]; [discriminate|]. cbn in N. inversion N as [|? ? N1 N2]; subst. cbn [combine map lastw W1 fst snd eqb andb]. destruct i as [|i]; cbn [nth_error nth] in *.
  - injection X as ->. rewrite Nat.eqb_refl. apply lastw_none. intros b x' v' I. apply in_map_iff in I as ([a c] & E & I). cbn in E. injection E as _ <- _. apply in_combine_l in I. intros E. apply N1. rewrite <- E. now apply in_map.
  - rewrite (proj2 (Nat.eqb_neq _ _)) by (intros E; apply N1; rewrite E; apply in_map; eapply nth_error_In; eauto). apply IH; auto.
Qed.
Lemma lastw_vals2 : forall xs vs i x d e d' e', NoDup (map vid xs) -> length vs = length xs -> nth_error xs i = Some x ->
  (lastw true (vid x) (flat_map W2 (combine xs vs)) d, lastw false (vid x) (flat_map W2 (combine xs vs)) e) = nth i vs (d', e').
Proof.
  induction xs as [|y xs IH]; intros vs i x d e d' e' N L X; [destruct i; discriminate|]. destruct vs as [|[v w] vs]; [discriminate|]. cbn in N. inversion N as [|? ? N1 N2]; subst. cbn [combine flat_map lastw W2 app fst snd eqb andb]. destruct i as [|i]; cbn [nth_error nth] in *.
  - injection X as ->. rewrite Nat.eqb_refl. rewrite !lastw_none; [reflexivity| |]; intros b x' v' I; apply in_flat_map in I as ([a c] & I & E); apply in_combine_l in I; cbn in E;
      (assert (E' : x' = a) by (destruct E as [E|[E|[]]]; congruence)); subst x'; intros E2; apply N1; rewrite <- E2; now apply in_map.
  - rewrite (proj2 (Nat.eqb_neq _ _)) by (intros E; apply N1; rewrite E; apply in_map; eapply nth_error_In; eauto). apply IH; auto.
Qed.
Lemma okw_vals : forall xs vs, lens vs = sizes xs -> forall w, In w (map W1 (combine xs vs)) -> okw xs w /\ isValue w = true.
Proof.
  intros xs vs H w I. split; [|apply in_map_iff in I as ([a c] & <- & _); reflexivity]. revert vs H w I. induction xs as [|x xs IH]; intros vs H w I; [destruct I|]. destruct vs as [|v vs]; [discriminate|].
  cbn in H. injection H as L H. cbn [combine map] in I. destruct I as [<-|I]; [split; [now left|exact L]|]. specialize (IH vs H w I). destruct w as [[k y] u]. cbn in *. destruct IH. auto.
Qed.
Lemma okw_vals2 : forall xs vs, lens (map fst vs) = sizes xs -> lens (map snd vs) = dsizes xs -> forall w, In w (flat_map W2 (combine xs vs)) -> okw xs w.
Proof.
  induction xs as [|x xs IH]; intros vs H H2 w I; [destruct I|]. destruct vs as [|[v u] vs]; [discriminate|].
  cbn in H, H2. injection H as L H. injection H2 as L2 H2. cbn [combine flat_map W2 app fst snd] in I. destruct I as [<-|[<-|I]]; [split; [now left|exact L]|split; [now left|exact L2]|]. specialize (IH vs H H2 w I). destruct w as [[k y] z]. cbn in *. destruct IH. auto.
Qed.
Lemma lens_length : forall vs (xs : list var) g, lens vs = map g xs -> length vs = length xs.
Proof. intros vs xs g H. apply (f_equal (@length nat)) in H. unfold lens in H. now rewrite !map_length in H. Qed.
Lemma nth_sizes : forall (xs : list var) g i x d, nth_error xs i = Some x -> nth i (map g xs) d = (g x : nat).
Proof. intros xs g i x d H. apply nth_error_nth. now apply map_nth_error. Qed.
Lemma firstn_sizes : forall (xs : list var) (g : var -> nat) i, firstn i (map g xs) = map g (firstn i xs).
Proof. intros. apply firstn_map. Qed.

Lemma single_given : forall xs v i x, lens [v] = sizes xs -> nth_error xs i = Some x -> firstn (sz x) (skipn (total (sizes (firstn i xs))) v) = v.
Proof. intros [|y [|z xs]] v i x H X; try discriminate. cbn in H. injection H as H. destruct i as [|[|i]]; try discriminate. injection X as ->. cbn. rewrite <- H. apply firstn_all. Qed.
Lemma parse_fits : forall xs a m, apartV xs -> fits xs a -> exists ws, parse xs a m = Done (apply ws m) /\ (forall w, In w ws -> okw xs w) /\ (forall w, In w ws -> isValue w = true) /\
  forall i x, nth_error xs i = Some x -> valueOf (apply ws m) x = given xs a i x (valueOf m x).
Proof.
  intros xs a m A F. destruct a as [v vs|p ps]; cbn [parse fits] in *.
  - destruct F as [F|(-> & Ne & L)].
    + rewrite (parseVals_ok xs vs v 0 m F). cbn [skipn]. exists (map W1 (combine xs (v :: vs))). split; [reflexivity|]. split; [intros w I; now apply (okw_vals xs (v :: vs) F)|]. split; [intros w I; now apply (okw_vals xs (v :: vs) F w)|].
      intros i x X. rewrite (value_after xs); auto; [|now intros w I; apply (okw_vals xs (v :: vs) F)|eapply nth_error_In; eauto|left; intros w I; now apply (okw_vals xs (v :: vs) F w)].
      rewrite (lastw_vals xs (v :: vs) i x _ (valueOf m x)); auto; [|apply A|eapply lens_length; exact F]. unfold given. destruct vs as [|v' vs]; [|reflexivity].
      rewrite (single_given xs v i x F X). assert (i = 0) as ->; [|reflexivity]. destruct xs as [|y [|z xs]]; try discriminate. destruct i as [|[|i]]; try discriminate. reflexivity.
    + destruct (Nat.eq_dec 1 (length xs)) as [E|E].
      * assert (F1 : lens [v] = sizes xs). { destruct xs as [|x [|y r]]; try discriminate. cbn in L. cbn. f_equal. lia. }
        rewrite (parseVals_ok xs [] v 0 m F1). cbn [skipn]. exists (map W1 (combine xs [v])). split; [reflexivity|]. split; [intros w I; now apply (okw_vals xs [v] F1)|]. split; [intros w I; now apply (okw_vals xs [v] F1 w)|].
        intros i x X. rewrite (value_after xs); auto; [|now intros w I; apply (okw_vals xs [v] F1)|eapply nth_error_In; eauto|left; intros w I; now apply (okw_vals xs [v] F1 w)].
        rewrite (lastw_vals xs [v] i x _ (valueOf m x)); auto; [|apply A]. unfold given. rewrite (single_given xs v i x F1 X). assert (i = 0) as ->; [|reflexivity]. destruct xs as [|y [|z xs]]; try discriminate. destruct i as [|[|i]]; try discriminate. reflexivity.
      * cbn [parseVals]. unfold parseEnd. rewrite (proj2 (Nat.eqb_neq _ _)) by exact E. rewrite (proj2 (Nat.ltb_lt 0 (length xs))) by (destruct xs; [contradiction|cbn; lia]). cbn [Nat.eqb].
        destruct (assignAll_cases xs v m Ne) as [[_ ->]|[C _]]; [|contradiction]. assert (Fc : lens (cut (sizes xs) 0 v) = sizes xs) by (apply cut_len; lia).
        exists (map W1 (combine xs (cut (sizes xs) 0 v))). split; [reflexivity|]. split; [intros w I; now apply (okw_vals xs _ Fc)|]. split; [intros w I; now apply (okw_vals xs _ Fc w)|].
        intros i x X. rewrite (value_after xs); auto; [|now intros w I; apply (okw_vals xs _ Fc)|eapply nth_error_In; eauto|left; intros w I; now apply (okw_vals xs _ Fc w)].
        rewrite (lastw_vals xs _ i x _ []); auto; [|apply A|eapply lens_length; exact Fc]. cbn [given]. assert (Hi : i < length xs) by (apply nth_error_Some; congruence).
        rewrite cut_nth by (unfold sizes; now rewrite map_length). unfold sizes. rewrite (nth_sizes xs sz i x) by exact X. cbn [Nat.add]. now rewrite firstn_sizes.
  - destruct (parsePairs_ok xs (p :: ps) m (proj1 A) F) as (ws & E & W & V & G). exists ws. split; [exact E|]. split; [exact W|]. split; [exact V|]. intros i x X. rewrite (value_after xs); auto; [|eapply nth_error_In; eauto]. apply G.
Qed.
Lemma parse_unfit : forall xs a m, NoDup (map vid xs) -> ~ fits xs a -> ends xs true false m (parse xs a m).
Proof.
  intros xs a m A F. destruct a as [v vs|p ps]; cbn [parse fits] in *; [|now apply parsePairs_bad]. apply parseVals_bad; [tauto|]. intros (_ & C). tauto.
Qed.
Lemma pair_eq_parts : forall (A B : Type) (a a' : A) (b b' : B), a = a' -> b = b' -> (a, b) = (a', b').
Proof. congruence. Qed.
Lemma single_dgiven : forall xs v i x, lens [v] = dsizes xs -> nth_error xs i = Some x -> firstn (dsz x) (skipn (total (dsizes (firstn i xs))) v) = v.
Proof. intros [|y [|z xs]] v i x H X; try discriminate. cbn in H. injection H as H. destruct i as [|[|i]]; try discriminate. injection X as ->. cbn. rewrite <- H. apply firstn_all. Qed.
Lemma lens_combine : forall a b, length a = length b -> map fst (combine a b) = (a : list (list Q)) /\ map snd (combine a b) = (b : list (list Q)).
Proof. induction a as [|x a IH]; intros [|y b] H; try discriminate; [split; reflexivity|]. cbn in *. injection H as H. destruct (IH b H) as [-> ->]. auto. Qed.
Lemma after2 : forall xs ws m i x r, apartD xs -> (forall w, In w ws -> okw xs w) -> nth_error xs i = Some x ->
  (lastw true (vid x) ws (valueOf m x), lastw false (vid x) ws (velOf m x)) = r -> (valueOf (apply ws m) x, velOf (apply ws m) x) = r.
Proof. intros xs ws m i x r A W X <-. apply nth_error_In in X. rewrite (value_after xs) by (auto; apply A). now rewrite (vel_after xs) by auto. Qed.
Lemma parse2_fits : forall xs a m, apartD xs -> fits2 xs a -> exists ws, parse2 xs a m = Done (apply ws m) /\ (forall w, In w ws -> okw xs w) /\
  forall i x, nth_error xs i = Some x -> (valueOf (apply ws m) x, velOf (apply ws m) x) = given2 xs a i x (valueOf m x, velOf m x).
Proof.
  intros xs a m A F. destruct a as [[v u] vs|p ps]; cbn [parse2 fits2 fst snd] in *.
  - assert (Main : lens (map fst ((v, u) :: vs)) = sizes xs -> lens (map snd ((v, u) :: vs)) = dsizes xs ->
      exists ws, parseVals2 xs 0 v u vs m = Done (apply ws m) /\ (forall w, In w ws -> okw xs w) /\
      forall i x, nth_error xs i = Some x -> (valueOf (apply ws m) x, velOf (apply ws m) x) = given2 xs (Vals2 (v, u) vs) i x (valueOf m x, velOf m x)).
    { intros F1 F2. rewrite (parseVals2_ok xs vs v u 0 m F1 F2). cbn [skipn]. exists (flat_map W2 (combine xs ((v, u) :: vs))). split; [reflexivity|]. pose proof (okw_vals2 xs _ F1 F2) as K. split; [exact K|].
      intros i x X. apply (after2 xs _ m i x _ A K X). rewrite (lastw_vals2 xs _ i x _ _ (valueOf m x) (velOf m x)); auto; [|apply A|rewrite <- (map_length fst); eapply lens_length; exact F1].
      unfold given2. destruct vs as [|v' vs]; [|reflexivity]. cbn [fst snd map] in *. rewrite (single_given xs v i x F1 X), (single_dgiven xs u i x F2 X). assert (i = 0) as ->; [|reflexivity]. destruct xs as [|y [|z xs]]; try discriminate. destruct i as [|[|i]]; try discriminate. reflexivity. }
    destruct F as [[F1 F2]|(-> & Ne & L & L')]; [now apply Main|].
    destruct (Nat.eq_dec 1 (length xs)) as [E|E].
    + apply Main; destruct xs as [|x [|y r]]; try discriminate; cbn in L, L'; cbn; f_equal; lia.
    + clear Main. cbn [parseVals2]. unfold parseEnd2. rewrite (proj2 (Nat.eqb_neq _ _)) by exact E. rewrite (proj2 (Nat.ltb_lt 0 (length xs))) by (destruct xs; [contradiction|cbn; lia]). cbn [Nat.eqb].
      destruct (assignAll2_cases xs v u m Ne) as [[_ [_ ->]]|[C _]]; [|tauto]. assert (Fc : lens (cut (sizes xs) 0 v) = sizes xs) by (apply cut_len; lia). assert (Fd : lens (cut (dsizes xs) 0 u) = dsizes xs) by (apply cut_len; lia).
      assert (Ll : length (cut (sizes xs) 0 v) = length (cut (dsizes xs) 0 u)) by (rewrite (lens_length _ _ _ Fc), (lens_length _ _ _ Fd); reflexivity). destruct (lens_combine _ _ Ll) as [C1 C2].
      eexists. split; [reflexivity|]. assert (K : forall w, In w (flat_map W2 (combine xs (combine (cut (sizes xs) 0 v) (cut (dsizes xs) 0 u)))) -> okw xs w) by (apply okw_vals2; congruence). split; [exact K|].
      intros i x X. apply (after2 xs _ m i x _ A K X). rewrite (lastw_vals2 xs _ i x _ _ [] []); auto; [|apply A|rewrite combine_length, <- Ll, Nat.min_id; eapply lens_length; exact Fc].
      rewrite combine_nth by exact Ll. unfold given2. cbn [fst snd]. assert (Hi : i < length xs) by (apply nth_error_Some; congruence).
      rewrite !cut_nth by (unfold sizes, dsizes; now rewrite map_length). unfold sizes, dsizes. rewrite (nth_sizes xs sz i x), (nth_sizes xs dsz i x) by exact X. cbn [Nat.add]. now rewrite !firstn_sizes.
  - destruct (parsePairs2_ok xs (p :: ps) m (proj1 (proj1 A)) F) as (ws & E & W & G). exists ws. split; [exact E|]. split; [exact W|]. intros i x X. apply (after2 xs _ m i x _ A W X). apply G.
Qed.
Lemma parse2_unfit : forall xs a m, NoDup (map vid xs) -> ~ fits2 xs a -> ends xs false false m (parse2 xs a m).
Proof.
  intros xs a m A F. destruct a as [[v u] vs|p ps]; cbn [parse2 fits2] in *; [|now apply parsePairs2_bad]. apply parseVals2_bad; [cbn [map fst snd] in F; tauto|]. intros (_ & C). cbn [fst snd] in F. tauto.
Qed.

(* Whole calls *)
Definition mapi {B} (g : nat -> var -> B) (xs : list var) : list B := map (fun p => g (fst p) (snd p)) (combine (seq 0 (length xs)) xs).
Lemma mapi_nth : forall B (g : nat -> var -> B) xs i x, nth_error xs i = Some x -> nth_error (mapi g xs) i = Some (g i x).
Proof.
  intros B g xs i x H. unfold mapi. rewrite (map_nth_error _ i _ (d := (i, x))); [reflexivity|]. assert (L : i < length xs) by (apply nth_error_Some; congruence).
  assert (E : nth_error (combine (seq 0 (length xs)) xs) i = Some (nth i (combine (seq 0 (length xs)) xs) (0, x))) by (apply nth_error_nth'; rewrite combine_length, seq_length; lia).
  rewrite E, combine_nth by (now rewrite seq_length). rewrite seq_nth by exact L. now rewrite (nth_error_nth _ _ x H).
Qed.
Lemma mapi_length : forall B (g : nat -> var -> B) xs, length (mapi g xs) = length xs.
Proof. intros. unfold mapi. rewrite map_length, combine_length, seq_length. lia. Qed.
Lemma nth_error_ext : forall B (a b : list B), (forall i, nth_error a i = nth_error b i) -> a = b.
Proof.
  intros B. induction a as [|x a IH]; intros [|y b] H; [reflexivity|specialize (H 0); discriminate|specialize (H 0); discriminate|]. f_equal; [specialize (H 0); cbn in H; congruence|]. apply IH. intros i. apply (H (S i)).
Qed.
Lemma map_is_mapi : forall B (h : var -> B) (g : nat -> var -> B) xs, (forall i x, nth_error xs i = Some x -> h x = g i x) -> map h xs = mapi g xs.
Proof.
  intros B h g xs H. apply nth_error_ext. intros i. destruct (nth_error xs i) as [x|] eqn:E.
  - rewrite (map_nth_error _ _ _ E), (mapi_nth _ _ _ _ _ E). f_equal. auto.
  - apply nth_error_None in E. rewrite (proj2 (nth_error_None _ _)) by (now rewrite map_length). symmetry. apply nth_error_None. now rewrite mapi_length.
Qed.
Section Calls.
  Variables (O V : Type) (eqO : O -> O -> bool).
  Hypothesis eqO_refl : forall o, eqO o o = true.
  Lemma evaluate_fits : forall (f : fn O V) o a s G, apartV (fvars f) -> enabled f o = true -> fits (fvars f) a -> (forall m, out f o m = G (map (valueOf m) (fvars f))) ->
    exists r s' vs, evaluate eqO f o a s = Returns r s' /\ r = G vs /\ length vs = length (fvars f) /\
      (forall i x, nth_error (fvars f) i = Some x -> nth_error vs i = Some (given (fvars f) a i x (valueOf (memory s) x)) /\ valueOf (memory s') x = given (fvars f) a i x (valueOf (memory s) x)) /\
      (forall b c, (forall x, In x (fvars f) -> ~ inValue x b c) -> memory s' b c = memory s b c).
  Proof.
    intros f o a s G A E F HG. destruct (parse_fits _ _ (memory s) A F) as (ws & P & W & K & R). unfold evaluate. rewrite E, P. cbn [finish].
    exists (G (map (valueOf (apply ws (memory s))) (fvars f))), (execute eqO f o (mkS (apply ws (memory s)) (cache s))), (mapi (fun i x => given (fvars f) a i x (valueOf (memory s) x)) (fvars f)).
    split; [|split; [|split; [|split]]].
    - cbn [cache execute memory]. rewrite eqO_refl, HG. reflexivity.
    - f_equal. apply map_is_mapi. exact R.
    - apply mapi_length.
    - intros i x X. split; [now rewrite (mapi_nth _ _ _ _ _ X)|]. cbn [memory execute]. now apply R.
    - intros b c H. cbn [memory execute]. apply (frame (fvars f)); auto.
  Qed.
  Lemma evaluate_unfit : forall (f : fn O V) o a s, NoDup (map vid (fvars f)) -> enabled f o = true -> ~ fits (fvars f) a -> exists s', evaluate eqO f o a s = Throws s' /\ cache s' = cache s /\
    (forall b c, (forall x, In x (fvars f) -> ~ inValue x b c) -> memory s' b c = memory s b c).
  Proof.
    intros f o a s A E F. destruct (parse_unfit _ _ (memory s) A F) as (ws & W & K & P). unfold evaluate. rewrite E, P. cbn [finish]. eexists. split; [reflexivity|]. split; [reflexivity|].
    intros b c H. cbn [memory]. apply (frame (fvars f)); auto.
  Qed.
  Lemma evaluate2_fits : forall (f : fn O V) o a s G, apartD (fvars f) -> enabled f o = true -> fits2 (fvars f) a -> (forall m, out f o m = G (map (fun x => (valueOf m x, velOf m x)) (fvars f))) ->
    exists r s' vs, evaluate2 eqO f o a s = Returns r s' /\ r = G vs /\ length vs = length (fvars f) /\
      (forall i x, nth_error (fvars f) i = Some x -> nth_error vs i = Some (given2 (fvars f) a i x (valueOf (memory s) x, velOf (memory s) x)) /\
         (valueOf (memory s') x, velOf (memory s') x) = given2 (fvars f) a i x (valueOf (memory s) x, velOf (memory s) x)) /\
      (forall b c, (forall x, In x (fvars f) -> ~ inValue x b c /\ ~ inVel x b c) -> memory s' b c = memory s b c).
  Proof.
    intros f o a s G A E F HG. destruct (parse2_fits _ _ (memory s) A F) as (ws & P & W & R). unfold evaluate2. rewrite E, P. cbn [finish].
    exists (G (map (fun x => (valueOf (apply ws (memory s)) x, velOf (apply ws (memory s)) x)) (fvars f))), (execute eqO f o (mkS (apply ws (memory s)) (cache s))), (mapi (fun i x => given2 (fvars f) a i x (valueOf (memory s) x, velOf (memory s) x)) (fvars f)).
    split; [|split; [|split; [|split]]].
    - cbn [cache execute memory]. rewrite eqO_refl, HG. reflexivity.
    - f_equal. apply map_is_mapi. exact R.
    - apply mapi_length.
    - intros i x X. split; [now rewrite (mapi_nth _ _ _ _ _ X)|]. cbn [memory execute]. now apply R.
    - intros b c H. cbn [memory execute]. apply (frame (fvars f)); auto; [intros x X; apply H; exact X|right; intros x X; apply H; exact X].
  Qed.
  Lemma evaluate2_unfit : forall (f : fn O V) o a s, NoDup (map vid (fvars f)) -> enabled f o = true -> ~ fits2 (fvars f) a -> exists s', evaluate2 eqO f o a s = Throws s' /\ cache s' = cache s /\
    (forall b c, (forall x, In x (fvars f) -> ~ inValue x b c /\ ~ inVel x b c) -> memory s' b c = memory s b c).
  Proof.
    intros f o a s A E F. destruct (parse2_unfit _ _ (memory s) A F) as (ws & W & K & P). unfold evaluate2. rewrite E, P. cbn [finish]. eexists. split; [reflexivity|]. split; [reflexivity|].
    intros b c H. cbn [memory]. apply (frame (fvars f)); auto; [intros x X; apply H; exact X|right; intros x X; apply H; exact X].
  Qed.
  Lemma evaluate_disabled : forall (f : fn O V) o s, enabled f o = false -> (forall a, evaluate eqO f o a s = Throws s) /\ (forall a, evaluate2 eqO f o a s = Throws s).
  Proof. intros f o s E. unfold evaluate, evaluate2. rewrite E. auto. Qed.
End Calls.
Lemma construct_keeps : forall xs m b c, (forall x, In x xs -> hasD x = false -> ~ inVel x b c) -> construct xs m b c = m b c.
Proof.
  induction xs as [|x xs IH]; intros m b c H; [reflexivity|]. cbn [construct]. rewrite IH by (intros y Y; apply H; now right). destruct (hasD x) eqn:D; [reflexivity|].
  apply put_out. rewrite repeat_length. intros [B C]. apply (H x (or_introl eq_refl) D). split; auto.
Qed.
