From Coq Require Import List Bool Arith ZArith QArith Lia Permutation.
Import ListNotations.
From Verif Require Import Base RobModel RobSpec RobProofs UfModel UfSpec.
Local Open Scope nat_scope.

Lemma setNth_nth {A} (x : A) : forall l k i, nth_error (setNth l k x) i = if (i =? k) && (k <? length l) then Some x else nth_error l i.
Proof.
  induction l as [|a l IH]; intros k i; [simpl; rewrite andb_false_r; destruct k; reflexivity|]. destruct k as [|k]; destruct i as [|i]; simpl; try reflexivity.
  rewrite IH. reflexivity.
Qed.
Lemma setNth_map {A B} (f : A -> B) x : forall l k, nth_error (map f l) k = Some (f x) -> map f (setNth l k x) = map f l.
Proof. induction l as [|a l IH]; intros [|k] E; simpl in *; try discriminate; [injection E as ->; reflexivity|rewrite IH; auto]. Qed.
Lemma jindex_at mb before j after : NoDup (map rj_name mb) -> mb = before ++ j :: after -> jindex mb (rj_name j) = Some (length before).
Proof.
  intros N ->. unfold jindex. assert (H : forall i, jindexFrom (before ++ j :: after) (rj_name j) i = Some (i + length before)).
  { induction before as [|b before IH]; intros i; simpl; [rewrite Nat.eqb_refl, Nat.add_0_r; reflexivity|].
    inversion N as [|? ? NI N']; subst. destruct (Nat.eqb_spec (rj_name b) (rj_name j)) as [E|_]; [exfalso; apply NI; rewrite E, map_app; simpl; apply in_elt|].
    rewrite (IH N'). f_equal. lia. }
  apply H.
Qed.
Lemma jindex_some mb n i : jindex mb n = Some i -> exists before j after, mb = before ++ j :: after /\ i = length before /\ rj_name j = n.
Proof. intros E. destruct (jindexFrom_split _ _ _ _ E) as (b & j & a & Em & Ek & En). exists b, j, a. repeat split; auto; lia. Qed.
Lemma shape_at {A} (mb : list rjoint) (l : list (list A)) before j after : map (@length A) l = map rj_np mb -> mb = before ++ j :: after -> exists v, nth_error l (length before) = Some v /\ length v = rj_np j.
Proof.
  intros S ->. assert (E : nth_error (map (@length A) l) (length before) = Some (rj_np j)) by (rewrite S, map_app, nth_error_app2; rewrite map_length; [rewrite Nat.sub_diag; reflexivity|lia]).
  rewrite nth_error_map in E. destruct (nth_error l (length before)) as [v|]; [|discriminate E]. exists v. split; [reflexivity|]. injection E as E. exact E.
Qed.

Lemma merge_ok mb : NoDup (map rj_name mb) -> forall q init, NoDup (map fst q) -> map (@length Q) init = map rj_np mb ->
  exists r w, mergeQ mb init q = Ok (r, w) /\ map (@length Q) r = map rj_np mb /\
    (forall before j after vs, mb = before ++ j :: after -> (nth_error r (length before) = Some vs <-> starting q init j (length before) vs)) /\
    (forall n, In n w <-> misfit mb q n) /\ NoDup w.
Proof.
  intros N. induction q as [|[n us] q IH]; intros init Nq S.
  - exists init, []. simpl. split; [reflexivity|]. split; [exact S|]. split; [|split; [|constructor]].
    + intros before j after vs E. unfold starting. simpl. split; [intros H; right; split; [intros (u & [] & _)|exact H]|intros [[[] _]|[_ H]]; exact H].
    + intros n. split; [intros []|intros (j & vs & _ & _ & [] & _)].
  - inversion Nq as [|? ? NI Nq']; subst. cbn [mergeQ]. assert (Un : forall vs, In (n, vs) ((n, us) :: q) -> vs = us).
    { intros vs [[= <-]|I]; [reflexivity|]. exfalso. apply NI. apply (in_map fst) in I. exact I. }
    destruct (jindex mb n) as [i|] eqn:Ej.
    + destruct (jindex_some _ _ _ Ej) as (b & j & a & Em & -> & En). destruct (shape_at mb init b j a S Em) as (cur & Ec & Lc). rewrite Ec. destruct (Nat.eqb_spec (length cur) (length us)) as [El|El].
      * assert (S' : map (@length Q) (setNth init (length b) us) = map rj_np mb). { rewrite setNth_map; [exact S|]. rewrite nth_error_map, Ec. simpl. congruence. }
        destruct (IH _ Nq' S') as (r & w & E & Sr & R & W & Nw). exists r, w. split; [exact E|]. split; [exact Sr|]. split; [|split; [|exact Nw]].
        -- intros b' j' a' vs E'. rewrite (R b' j' a' vs E'). unfold starting. rewrite setNth_nth. rewrite (proj2 (Nat.ltb_lt (length b) (length init))) by (apply nth_error_Some; rewrite Ec; discriminate). rewrite andb_true_r.
           destruct (Nat.eqb_spec (length b') (length b)) as [Eb|Eb].
           ++ assert (j' = j). { rewrite Em in E'. assert (H : nth_error (b ++ j :: a) (length b') = nth_error (b' ++ j' :: a') (length b')) by (rewrite E'; reflexivity). rewrite Eb in H at 1. rewrite !nth_error_app2, !Nat.sub_diag in H by lia. simpl in H. congruence. } subst j'. rewrite En. split.
              ** intros [[I L]|[_ [= <-]]]; [exfalso; apply NI; apply (in_map fst) in I; exact I|]. left. split; [left; reflexivity|lia].
              ** intros [[I L]|[Nx _]]; [|exfalso; apply Nx; exists us; split; [left; reflexivity|lia]]. rewrite (Un vs I). right. split; [|reflexivity]. intros (u & I' & _). apply NI. apply (in_map fst) in I'. exact I'.
           ++ assert (Nn : rj_name j' <> n). { intros Hn. assert (H : jindex mb (rj_name j') = Some (length b')) by (apply (jindex_at mb b' j' a' N E')). rewrite Hn, Ej in H. injection H. lia. }
              assert (P : forall v, In (rj_name j', v) ((n, us) :: q) <-> In (rj_name j', v) q) by (intros v; split; [intros [[= X _]|I]; [congruence|exact I]|right; assumption]).
              rewrite P. split; (intros [H|[Nx H]]; [left; exact H|right; split; [|exact H]; intros (u & I & L); apply Nx; exists u; split; [apply P; exact I|exact L]]).
        -- intros m. rewrite W. unfold misfit. split.
           ++ intros (j' & vs & I & Hn & Iq & L). exists j', vs. repeat split; auto. right. exact Iq.
           ++ intros (j' & vs & I & Hn & [[= <- <-]|Iq] & L); [|exists j', vs; auto]. exfalso. apply L. apply in_split in I. destruct I as (b' & a' & E'). pose proof (jindex_at mb b' j' a' N E') as H. rewrite Hn, Ej in H. injection H as H.
              assert (j' = j). { rewrite Em in E'. assert (K : nth_error (b ++ j :: a) (length b') = nth_error (b' ++ j' :: a') (length b')) by (rewrite E'; reflexivity). rewrite <- H in K at 1. rewrite !nth_error_app2, !Nat.sub_diag in K by lia. simpl in K. congruence. } subst j'. lia.
      * destruct (IH init Nq' S) as (r & w & E & Sr & R & W & Nw). rewrite E. exists r, (n :: w). split; [reflexivity|]. split; [exact Sr|]. split; [|split].
        -- intros b' j' a' vs E'. rewrite (R b' j' a' vs E'). unfold starting.
           assert (P : forall v, In (rj_name j', v) ((n, us) :: q) /\ length v = rj_np j' <-> In (rj_name j', v) q /\ length v = rj_np j').
           { intros v. split; [|intros [I L]; split; [right; exact I|exact L]]. intros [[[= Hn <-]|I] L]; [|auto]. exfalso. apply El. pose proof (jindex_at mb b' j' a' N E') as H. rewrite <- Hn, Ej in H. injection H as H.
             assert (j' = j). { rewrite Em in E'. assert (K : nth_error (b ++ j :: a) (length b') = nth_error (b' ++ j' :: a') (length b')) by (rewrite E'; reflexivity). rewrite <- H in K at 1. rewrite !nth_error_app2, !Nat.sub_diag in K by lia. simpl in K. congruence. } subst j'. lia. }
           rewrite P. split; (intros [H|[Nx H]]; [left; exact H|right; split; [|exact H]; intros (u & I & L); apply Nx; exists u; apply P; auto]).
        -- intros m. simpl. rewrite W. unfold misfit. split.
           ++ intros [<-|(j' & vs & I & Hn & Iq & L)]; [exists j, us; rewrite Em; repeat split; [apply in_elt|exact En|left; reflexivity|lia]|exists j', vs; repeat split; auto; right; exact Iq].
           ++ intros (j' & vs & I & Hn & [[= <- <-]|Iq] & L); [left; reflexivity|right; exists j', vs; auto].
        -- constructor; [|exact Nw]. rewrite W. intros (j' & vs & _ & _ & I & _). apply NI. apply (in_map fst) in I. exact I.
    + destruct (IH init Nq' S) as (r & w & E & Sr & R & W & Nw). exists r, w. split; [exact E|]. split; [exact Sr|]. assert (Nj : forall j, In j mb -> rj_name j <> n) by (apply (jindexFrom_none _ _ _ Ej)). split; [|split; [|exact Nw]].
      * intros b' j' a' vs E'. rewrite (R b' j' a' vs E'). unfold starting.
        assert (P : forall v, In (rj_name j', v) ((n, us) :: q) <-> In (rj_name j', v) q). { intros v; split; [intros [[= X _]|I]; [exfalso; apply (Nj j'); [rewrite E'; apply in_elt|auto]|exact I]|right; assumption]. }
        rewrite P. split; (intros [H|[Nx H]]; [left; exact H|right; split; [|exact H]; intros (u & I & L); apply Nx; exists u; split; [apply P; exact I|exact L]]).
      * intros m. rewrite W. unfold misfit. split; intros (j' & vs & I & Hn & Iq & L); exists j', vs; repeat split; auto; [right; exact Iq|]. destruct Iq as [[= <- <-]|Iq]; [|exact Iq]. exfalso. exact (Nj j' I Hn).
Qed.

Lemma concat_at {A} : forall (l : list (list A)) k v c x, nth_error l k = Some v -> nth_error v c = Some x -> nth_error (concat l) (fold_right plus 0 (map (@length A) (firstn k l)) + c) = Some x.
Proof.
  induction l as [|a l IH]; intros k v c x E Ec; [destruct k; discriminate E|]. destruct k as [|k]; simpl in *.
  - injection E as ->. rewrite nth_error_app1; [exact Ec|]. apply nth_error_Some. rewrite Ec. discriminate.
  - rewrite nth_error_app2 by lia. replace (length a + fold_right plus 0 (map (@length A) (firstn k l)) + c - length a) with (fold_right plus 0 (map (@length A) (firstn k l)) + c) by lia. eapply IH; eauto.
Qed.
Lemma len_concat {A} (l : list (list A)) : length (concat l) = fold_right plus 0 (map (@length A) l).
Proof. induction l as [|a l IH]; simpl; [reflexivity|]. rewrite app_length, IH. reflexivity. Qed.
Lemma sumOf_total w l : sumOf w l = fold_right plus 0 (map w l).
Proof. induction l as [|a l IH]; simpl; [reflexivity|]. rewrite IH. reflexivity. Qed.
Lemma construct_ok mb ticks q0 c : map (@length Q) (c_q c) = map rj_np mb -> length q0 = sumOf rj_np mb -> exists r, construct mb ticks q0 c = Ok r /\ r_c r = c /\ r_q r = concat (c_q c).
Proof.
  intros S L. unfold construct, paramToVector. assert (E : length (concat (c_q c)) = length q0) by (rewrite len_concat, S, L, sumOf_total; reflexivity).
  rewrite E, Nat.leb_refl. cbn [bind]. rewrite <- E, skipn_all2, app_nil_r by lia. unfold setVar. rewrite E, Nat.eqb_refl. cbn [bind]. eexists. split; [reflexivity|]. split; reflexivity.
Qed.

Lemma shaped_q mb c : shaped mb c -> map (@length Q) (c_q c) = map rj_np mb.
Proof. intros H. apply H. Qed.
Lemma from_ok ticks q0 p q : proper (u_mb p) -> shaped (u_mb p) (u_c p) -> NoDup (map fst q) -> length q0 = sumOf rj_np (u_mb p) ->
  exists r w, fromURDF ticks q0 (Some p) q = Ok (r, w) /\ shaped (u_mb p) (r_c r) /\ r_q r = concat (c_q (r_c r)) /\
    (forall before j vs, splits (u_mb p) before j -> (nth_error (c_q (r_c r)) (length before) = Some vs <-> starting q (c_q (u_c p)) j (length before) vs)) /\
    c_alpha (r_c r) = c_alpha (u_c p) /\ c_alphaD (r_c r) = c_alphaD (u_c p) /\
    (forall n, In n w <-> misfit (u_mb p) q n) /\ NoDup w.
Proof.
  intros [N _] S Nq L. destruct (merge_ok (u_mb p) N q (c_q (u_c p)) Nq (shaped_q _ _ S)) as (qi & w & E & Sr & R & W & Nw).
  unfold fromURDF. rewrite E. cbn [bind]. destruct (construct_ok (u_mb p) ticks q0 (mkC qi (c_alpha (u_c p)) (c_alphaD (u_c p))) Sr L) as (r & Er & Ec & Eq).
  rewrite Er. cbn [bind]. exists r, w. split; [reflexivity|]. rewrite Eq, Ec. cbn [c_q c_alpha c_alphaD]. destruct S as (S1 & S2 & S3).
  split; [repeat split; assumption|]. split; [reflexivity|]. split; [|auto]. intros before j vs (after & Em). apply (R before j after vs Em).
Qed.
Lemma configuration_ok ticks q0 p q : proper (u_mb p) -> shaped (u_mb p) (u_c p) -> NoDup (map fst q) -> length q0 = sumOf rj_np (u_mb p) ->
  exists r w, fromURDF ticks q0 (Some p) q = Ok (r, w) /\ shaped (u_mb p) (r_c r) /\
    (forall before j vs, splits (u_mb p) before j -> (nth_error (c_q (r_c r)) (length before) = Some vs <-> starting q (c_q (u_c p)) j (length before) vs)) /\
    c_alpha (r_c r) = c_alpha (u_c p) /\ c_alphaD (r_c r) = c_alphaD (u_c p) /\
    (forall n, In n w <-> misfit (u_mb p) q n) /\ NoDup w.
Proof. intros P S Nq L. destruct (from_ok ticks q0 p q P S Nq L) as (r & w & E & Sr & _ & H). exists r, w. auto. Qed.
Lemma variable_ok ticks q0 p q r w before j vs c x : proper (u_mb p) -> shaped (u_mb p) (u_c p) -> NoDup (map fst q) -> length q0 = sumOf rj_np (u_mb p) ->
  fromURDF ticks q0 (Some p) q = Ok (r, w) -> splits (u_mb p) before j -> starting q (c_q (u_c p)) j (length before) vs -> nth_error vs c = Some x ->
  nth_error (r_q r) (fullRank rj_np before c) = Some x.
Proof.
  intros P S Nq L E Sp St Ex. destruct (from_ok ticks q0 p q P S Nq L) as (r' & w' & E' & Sr & Eq & R & _). rewrite E in E'. injection E' as <- <-.
  rewrite Eq. unfold fullRank. replace (sumOf rj_np before) with (fold_right plus 0 (map (@length Q) (firstn (length before) (c_q (r_c r))))).
  - apply (concat_at _ _ vs); [|exact Ex]. apply (R before j vs Sp). exact St.
  - rewrite sumOf_total, <- firstn_map, (shaped_q _ _ Sr). destruct Sp as (after & ->). rewrite firstn_map, firstn_app, Nat.sub_diag, firstn_all. simpl. rewrite app_nil_r. reflexivity.
Qed.
Lemma same_nth {A} : forall a b : list A, (forall i, nth_error a i = nth_error b i) -> a = b.
Proof.
  induction a as [|x a IH]; intros [|y b] H; [reflexivity|specialize (H 0); discriminate H|specialize (H 0); discriminate H|].
  f_equal; [specialize (H 0); injection H as ->; reflexivity|]. apply IH. intros i. exact (H (S i)).
Qed.
Lemma relevant_ok ticks q0 p q q' : proper (u_mb p) -> shaped (u_mb p) (u_c p) -> NoDup (map fst q) -> NoDup (map fst q') -> length q0 = sumOf rj_np (u_mb p) ->
  (forall j vs, In j (u_mb p) -> length vs = rj_np j -> (In (rj_name j, vs) q <-> In (rj_name j, vs) q')) ->
  exists r w w', fromURDF ticks q0 (Some p) q = Ok (r, w) /\ fromURDF ticks q0 (Some p) q' = Ok (r, w').
Proof.
  intros [N _] S Nq Nq' L H. pose proof (shaped_q _ _ S) as Sq. destruct (merge_ok (u_mb p) N q _ Nq Sq) as (r1 & w1 & E1 & S1 & R1 & _). destruct (merge_ok (u_mb p) N q' _ Nq' Sq) as (r2 & w2 & E2 & S2 & R2 & _).
  assert (Er : r1 = r2).
  { apply same_nth. intros i. destruct (nth_error (u_mb p) i) as [j|] eqn:Ej.
    - destruct (nth_error_split _ _ Ej) as (b & a & Em & <-). destruct (shape_at _ r1 b j a S1 Em) as (v & Ev & Lv). rewrite Ev. symmetry. apply (R2 b j a v Em). pose proof (proj1 (R1 b j a v Em) Ev) as Hs.
      assert (Ij : In j (u_mb p)) by (rewrite Em; apply in_elt). destruct Hs as [[I Ls]|[Nx D]]; [left; split; [apply (H j v Ij Ls); exact I|exact Ls]|right; split; [|exact D]]. intros (u & I & Lu). apply Nx. exists u. split; [apply (H j u Ij Lu); exact I|exact Lu].
    - apply nth_error_None in Ej. rewrite !(proj2 (nth_error_None _ _)); [reflexivity| |]; [rewrite <- (map_length (@length Q)), S2, map_length|rewrite <- (map_length (@length Q)), S1, map_length]; exact Ej. }
  subst r2. unfold fromURDF. rewrite E1, E2. cbn [bind]. destruct (construct_ok (u_mb p) ticks q0 (mkC r1 (c_alpha (u_c p)) (c_alphaD (u_c p))) S1 L) as (r & Er & _). rewrite Er. cbn [bind]. exists r, w1, w2. auto.
Qed.
Lemma setNth_length {A} (x : A) : forall l k, length (setNth l k x) = length l.
Proof. induction l as [|a l IH]; intros [|k]; cbn; auto. Qed.
Lemma merge_short mb n i : jindex mb n = Some i -> forall q init vs, In (n, vs) q -> length init <= i -> mergeQ mb init q = UB.
Proof.
  intros J. induction q as [|[u us] q IH]; intros init vs I L; [destruct I|]. cbn [mergeQ]. destruct I as [I|I].
  - injection I as -> ->. rewrite J. rewrite (proj2 (nth_error_None init i) L). reflexivity.
  - destruct (jindex mb u) as [k|]; [|exact (IH init vs I L)]. destruct (nth_error init k) as [cur|]; [|reflexivity].
    destruct (length cur =? length us).
    + apply (IH _ vs I). rewrite setNth_length. exact L.
    + rewrite (IH init vs I L). reflexivity.
Qed.
Lemma short_ok ticks q0 p q before j vs : NoDup (map rj_name (u_mb p)) -> splits (u_mb p) before j -> In (rj_name j, vs) q -> length (c_q (u_c p)) <= length before ->
  fromURDF ticks q0 (Some p) q = UB.
Proof.
  intros N (after & E) I L. cbn [fromURDF]. rewrite (merge_short (u_mb p) (rj_name j) (length before) (jindex_at _ _ _ after N E) q _ vs I L). reflexivity.
Qed.
