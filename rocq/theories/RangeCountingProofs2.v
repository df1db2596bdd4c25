Require Import ZArith List Bool Sorting Lia.
Require Import Verif.Base Verif.RangeModel Verif.RangeCountingModel Verif.RangeCountingSpec.
Require Import Verif.RangeCountingProofs.
Import ListNotations.
Local Open Scope Z_scope.
Local Arguments Z.add : simpl never.
Local Arguments Z.sub : simpl never.
Local Arguments Z.opp : simpl never.
Local Arguments Z.leb : simpl never.
Local Arguments Z.ltb : simpl never.
Local Arguments Z.eqb : simpl never.

(* The representation invariant. *)
Record wf (l : list lim) : Prop := {
  wf_ss : SS l;
  wf_pos : forall x, 0 <= cnt l x;
  wf_sum : dsum l = 0;
  wf_cut : forall i, In (i, Cut) l -> 0 < cnt l (i - 1) \/ 0 < cnt l i }.

Lemma wf_nil : wf [].
Proof. constructor; simpl; try lia; try easy. apply SS_nil. Qed.

Lemma ind_ge r x : 0 < dim r -> ind r x = ge (start r) x - ge (rend r) x.
Proof.
  intros H. unfold ind, ge, rend.
  destruct (Z.leb_spec (start r) x), (Z.ltb_spec x (start r + dim r)), (Z.leb_spec (start r + dim r) x); simpl; lia.
Qed.

Lemma ind_1 r x : In_range r x -> ind r x = 1.
Proof.
  unfold In_range, ind. intros.
  destruct (Z.leb_spec (start r) x), (Z.ltb_spec x (start r + dim r)); simpl; lia.
Qed.
Lemma ind_0 r x : ~ In_range r x -> ind r x = 0.
Proof.
  unfold In_range, ind. intros.
  destruct (Z.leb_spec (start r) x), (Z.ltb_spec x (start r + dim r)); simpl; lia.
Qed.
Lemma ind_nonneg r x : 0 <= ind r x <= 1.
Proof. unfold ind. destruct (_ && _); lia. Qed.

Lemma in_ints r x : In x (ints r) <-> In_range r x.
Proof.
  unfold ints, In_range. rewrite in_map_iff. split.
  - intros (n & <- & Hn). apply in_seq in Hn. lia.
  - intros H. exists (Z.to_nat (x - start r)). rewrite in_seq. lia.
Qed.

Lemma effective_spec c r : effective c r = true <-> forall x, In_range r x -> 1 <= c x.
Proof.
  unfold effective. rewrite forallb_forall. split; intros H x Hx.
  - apply Z.leb_le, H, in_ints, Hx.
  - apply Z.leb_le, H, in_ints, Hx.
Qed.

Lemma effective_false c r : effective c r = false -> exists x, In_range r x /\ c x < 1.
Proof.
  unfold effective. intros H.
  assert (H' : existsb (fun x => c x <? 1) (ints r) = true).
  { revert H. induction (ints r) as [|y l IH]; simpl; intros H; [easy|].
    apply andb_false_iff in H as [H|H].
    - apply Z.leb_gt in H. apply orb_true_iff. left. apply Z.ltb_lt. lia.
    - apply orb_true_iff. auto. }
  apply existsb_exists in H' as (x & Hx & Hc). exists x. split; [apply in_ints; auto|apply Z.ltb_lt; auto].
Qed.

(* First element after depth 0 on a non-negative list: used to see that [move] with
   bound 0 never throws on a well-formed list. *)
Lemma wf_prefix l : wf l -> forall a b, l = a ++ b -> 0 <= dsum a.
Proof.
  intros W a b E. destruct (rev a) as [|[i t] ra] eqn:Er.
  - apply (f_equal (@rev _)) in Er. rewrite rev_involutive in Er. subst a. simpl. lia.
  - apply (f_equal (@rev _)) in Er. rewrite rev_involutive in Er. simpl in Er. subst a.
    pose proof (wf_ss _ W) as HS. rewrite E, <- app_assoc in HS. simpl in HS.
    apply after_elem in HS as (H1 & H2 & _). rewrite E, <- app_assoc in W. simpl in W.
    pose proof (wf_pos _ W) as P.
    destruct t.
    + specialize (H2 ltac:(discriminate)). specialize (P (i - 1)). lia.
    + specialize (H1 ltac:(discriminate)). specialize (P i). lia.
    + specialize (H1 ltac:(discriminate)). specialize (P i). lia.
Qed.

Lemma wf_move_ok l val : wf l -> exists h m p d, move val 0 0 l = Ok (h, m, p, d).
Proof.
  intros W. destruct (move val 0 0 l) as [[[[h m] p] d]| |] eqn:E.
  - eauto.
  - apply move_throw in E as (q & x & q' & -> & _ & Hs).
    pose proof (wf_prefix _ W (q ++ [x]) q') as H. rewrite <- app_assoc in H.
    specialize (H eq_refl). lia.
  - now apply move_not_ub in E.
Qed.

(* Properties of the part of a sorted list passed by [move]. *)
Lemma last_app_ne {A} (m : list A) : m <> [] -> exists q x, m = q ++ [x].
Proof.
  intros H. destruct (rev m) as [|x r] eqn:E.
  - apply (f_equal (@rev _)) in E. rewrite rev_involutive in E. simpl in E. congruence.
  - apply (f_equal (@rev _)) in E. rewrite rev_involutive in E. simpl in E. eauto.
Qed.

(* Depth criterion on a window: [pre] ends before the window, [mid] inside. *)
Section Window.
  Variables (pre mid post : list lim) (s e : Z).
  Let l := pre ++ mid ++ post.
  Hypothesis HS : SS l.
  Hypothesis Hse : s < e.
  Hypothesis Hpre : forall x, In x pre -> fst x <= s.
  Hypothesis Hmid1 : forall x, In x mid -> s < fst x \/ (fst x = s /\ snd x <> Lower).
  Hypothesis Hmid2 : forall x, In x mid -> fst x < e \/ (fst x = e /\ snd x <> Upper).
  Hypothesis Hpost : forall x, In x post -> e <= fst x.

  Lemma win_pre_ge : cnt l s <= dsum pre.
  Proof.
    unfold l. apply prefix_ge_cnt; auto. intros x Hx. apply in_app_iff in Hx as [Hx|Hx]; auto.
    left. apply Hpost in Hx. lia.
  Qed.

  Lemma win_step q i t q' : mid = q ++ (i, t) :: q' ->
    (exists x, s <= x < e /\ cnt l x <= dsum (pre ++ q ++ [(i, t)])) /\
    (t = Lower -> exists x, s <= x < e /\ cnt l x + 1 <= dsum (pre ++ q ++ [(i, t)])).
  Proof.
    intros E. assert (El : l = (pre ++ q) ++ (i, t) :: (q' ++ post)).
    { unfold l. rewrite E, <- !app_assoc. reflexivity. }
    pose proof HS as HS'. rewrite El in HS'. apply after_elem in HS' as (H1 & H2 & H3 & _).
    rewrite <- El in *. rewrite <- app_assoc in H1, H2, H3.
    assert (Hin : In (i, t) mid) by (rewrite E; apply in_app_iff; simpl; auto).
    pose proof (Hmid1 _ Hin) as M1. pose proof (Hmid2 _ Hin) as M2. simpl in M1, M2.
    split.
    - destruct (Z.eq_dec i e) as [->|Hne].
      + exists (e - 1). split; [lia|]. apply H2. destruct M2 as [M2|[_ M2]]; [lia|auto].
      + destruct t.
        * exists (i - 1). split; [|apply H2; discriminate]. destruct M1 as [M1|[M1 M1']]; [lia|congruence].
        * exists i. split; [lia|apply H1; discriminate].
        * exists i. split; [lia|apply H1; discriminate].
    - intros ->. exists (i - 1). split; [|apply H3; auto]. destruct M1 as [M1|[M1 M1']]; [lia|congruence].
  Qed.

  Lemma win_any x : s <= x < e ->
    cnt l x = dsum pre \/ exists q q', mid = q ++ q' /\ q <> [] /\ cnt l x = dsum pre + dsum q.
  Proof.
    intros Hx. destruct (cnt_prefix mid x) as (a & b & E & Ha & Hb & Hc).
    { unfold l in HS. apply SS_app in HS as (_ & H & _). apply SS_app in H as (H & _ & _). auto. }
    assert (Hl : cnt l x = dsum pre + dsum a).
    { unfold l. rewrite !cnt_app, (cnt_all pre), (cnt_none post), Hc by (intros y Hy; first [apply Hpre in Hy|apply Hpost in Hy]; lia). lia. }
    destruct a as [|y a]; [left; simpl in Hl; lia|].
    right. exists (y :: a), b. repeat split; auto; congruence.
  Qed.
End Window.

(* ---------- add ---------- *)
Lemma add_wf l l' s e : wf l -> s < e -> SS l' ->
  (forall x, cnt l' x = cnt l x + (ge s x - ge e x)) -> dsum l' = dsum l ->
  (forall j, In (j, Cut) l' -> In (j, Cut) l \/ j = s \/ j = e) -> wf l'.
Proof.
  intros W Hse HS Hc Hd Hcut.
  assert (G : forall x, 0 <= ge s x - ge e x).
  { intros x. unfold ge. destruct (Z.leb_spec s x), (Z.leb_spec e x); lia. }
  constructor; auto.
  - intros x. rewrite Hc. pose proof (wf_pos _ W x). specialize (G x). lia.
  - rewrite Hd. apply wf_sum; auto.
  - intros i Hi. rewrite !Hc. apply Hcut in Hi as [Hi|[->| ->]].
    + apply (wf_cut _ W) in Hi. pose proof (G i). pose proof (G (i - 1)). lia.
    + right. pose proof (wf_pos _ W s). unfold ge. destruct (Z.leb_spec s s), (Z.leb_spec e s); lia.
    + left. pose proof (wf_pos _ W (e - 1)). unfold ge. destruct (Z.leb_spec s (e - 1)), (Z.leb_spec e (e - 1)); lia.
Qed.

Lemma add_ok st r : wf (limits st) -> 0 <= dim r ->
  exists st' b, add st r = Ok (st', b) /\ wf (limits st') /\
    (forall x, cnt (limits st') x = cnt (limits st) x + ind r x) /\
    (b = true <-> exists x, In_range r x /\ cnt (limits st) x = 0) /\
    (dim r <> 0 -> recomputeSplit_ st' = true) /\ (dim r = 0 -> st' = st).
Proof.
  intros W Hd. unfold add. destruct (Z.eqb_spec (dim r) 0) as [E|E].
  { exists st, false. split; [auto|]. split; [auto|]. split; [|split; [|split]].
    - intros x. rewrite ind_0; [lia|]. unfold In_range. lia.
    - split; [easy|]. intros (x & Hx & _). unfold In_range in Hx. lia.
    - congruence.
    - auto. }
  assert (Hd' : 0 < dim r) by lia. clear Hd.
  set (s := start r). set (e := rend r). assert (Hse : s < e) by (unfold s, e, rend; lia).
  assert (Hir : forall x, In_range r x <-> s <= x < e) by (intros; unfold In_range, s, e, rend; lia).
  set (l := limits st) in *. 
  destruct l as [|f l0] eqn:El.
  { eexists _, true. split; [reflexivity|]. simpl.
    assert (Hc : forall x, cnt [(s, Lower); (e, Upper)] x = 0 + ind r x).
    { intros x. rewrite (ind_ge r) by auto. fold s e. simpl. unfold ge.
      destruct (Z.leb_spec s x), (Z.leb_spec e x); lia. }
    split; [|split; [|split; [|split]]]; auto.
    - apply (add_wf [] _ s e); auto using wf_nil.
      + apply SS_cons. split; [apply SS_cons; split; [apply SS_nil|easy]|].
        intros y [<-|[]]. left. simpl. auto.
      + intros x. rewrite Hc, (ind_ge r) by auto. reflexivity.
      + intros j [H|[H|[]]]; discriminate.
    - split; auto. intros _. exists s. split; [apply Hir; lia|auto].
    - congruence. }
  rewrite <- El in *. clear El f l0. 
  destruct (wf_move_ok l (s, Lower) W) as (h & pre & post & d & Em). rewrite Em. simpl.
  apply move_ok in Em as (El & Hpre & Hpost0 & Hdd & _ & _).
  pose proof (wf_ss _ W) as HS. rewrite El in HS.
  assert (HSpost : SS post) by (apply SS_app in HS; tauto).
  pose proof (SS_after _ _ HSpost Hpost0) as Hpost. clear Hpost0. simpl in Hdd.
  destruct post as [|y0 post0] eqn:Epost.
  { rewrite app_nil_r in El. subst pre.
    assert (Hbnd : forall x, In x l -> fst x <= s).
    { intros x Hx. apply Hpre in Hx. unfold le in Hx. simpl in Hx. lia. }
    assert (Hc : forall x, cnt (l ++ [(s, Lower); (e, Upper)]) x = cnt l x + ind r x).
    { intros x. rewrite cnt_app, (ind_ge r) by auto. fold s e. simpl. unfold ge.
      destruct (Z.leb_spec s x), (Z.leb_spec e x); lia. }
    eexists _, true. split; [reflexivity|]. simpl.
    split; [|split; [|split; [|split]]]; auto.
    - apply (add_wf l _ s e); auto.
      + apply SS_app. split; [rewrite app_nil_r in HS; auto|]. split.
        * apply SS_cons. split; [apply SS_cons; split; [apply SS_nil|easy]|].
          intros y [<-|[]]. left. simpl. auto.
        * intros x y Hx [<-|[<-|[]]].
          -- apply Hpre in Hx. limsolve.
          -- left. apply Hbnd in Hx. simpl. lia.
      + intros x. rewrite Hc, (ind_ge r) by auto. reflexivity.
      + rewrite dsum_app. simpl. lia.
      + intros j Hj. apply in_app_iff in Hj as [Hj|[Hj|[Hj|[]]]]; auto; discriminate.
    - split; auto. intros _. exists s. split; [apply Hir; lia|]. rewrite cnt_all by auto. apply wf_sum; auto.
    - congruence. }
  rewrite <- Epost in *. assert (Hne : post <> []) by congruence. clear Epost y0 post0.
  destruct (insertLower_ok s pre post d HS Hne Hpre Hpost)
    as (pre1 & post1 & d1 & -> & HS1 & Hc1 & Hd1 & Hs1 & Hcut1 & Hpre1 & Hpost1). simpl.
  assert (Hd1' : d1 = dsum pre1) by lia.
  set (l1 := pre1 ++ post1) in *.
  assert (Hc1' : forall x, cnt l1 x = cnt l x + ge s x) by (intros; rewrite Hc1, El; auto).
  assert (Hl1pos : forall x, s <= x -> 1 <= cnt l1 x).
  { intros x Hx. rewrite Hc1'. pose proof (wf_pos _ W x). unfold ge. destruct (Z.leb_spec s x); lia. }
  assert (Hpost1' : forall x, In x post1 -> s < fst x \/ (fst x = s /\ snd x <> Lower)).
  { intros x Hx. apply Hpost1 in Hx. limsolve. }
  destruct (move (e, Cut) 1 d1 post1) as [[[[hit mid] post2] d2]| |] eqn:Em.
  2:{ exfalso. apply move_throw in Em as (q & [i t] & q' & E2 & Hle & Hlt).
      assert (HSw : SS (pre1 ++ (q ++ [(i, t)]) ++ q')).
      { unfold l1 in HS1. rewrite E2 in HS1. rewrite <- app_assoc. exact HS1. }
      assert (Hq : s <= i /\ (i < e \/ (i = e /\ t <> Upper))).
      { assert (In (i, t) post1) by (rewrite E2; apply in_app_iff; simpl; auto).
        apply Hpost1' in H. simpl in H. specialize (Hle (i, t)).
        rewrite in_app_iff in Hle. simpl in Hle. specialize (Hle (or_intror (or_introl eq_refl))).
        unfold le in Hle. simpl in Hle. split; [lia|].
        destruct Hle as [Hle|[Hle1 Hle2]]; [left; lia|].
        destruct t; simpl in *; [right; split; [lia|congruence]|right; split; [lia|congruence]|lia]. }
      rewrite <- app_assoc in HSw. simpl in HSw. rewrite app_assoc in HSw.
      pose proof (after_elem _ _ _ _ HSw) as (H1 & H2 & H3 & _).
      assert (El1 : (pre1 ++ q) ++ (i, t) :: q' = l1) by (unfold l1; rewrite E2, <- app_assoc; auto).
      rewrite El1 in *. rewrite <- app_assoc, !dsum_app in *.
      assert (H0 : d1 + dsum (q ++ [(i,t)]) = dsum pre1 + (dsum q + dsum [(i,t)])) by (rewrite dsum_app; lia).
      assert (Hs0 : 0 <= cnt l1 (i-1)).
      { rewrite Hc1'. pose proof (wf_pos _ W (i-1)). unfold ge. destruct (Z.leb_spec s (i-1)); lia. }
      destruct t.
      - specialize (H3 eq_refl). lia.
      - specialize (H1 ltac:(discriminate)). pose proof (Hl1pos i ltac:(lia)). lia.
      - specialize (H1 ltac:(discriminate)). pose proof (Hl1pos i ltac:(lia)). lia. }
  2:{ now apply move_not_ub in Em. }
  simpl. apply move_ok in Em as (E2 & Hmid & Hpost20 & Hd2 & Hge & Hhit).
  assert (HS1' : SS ((pre1 ++ mid) ++ post2)) by (rewrite <- app_assoc, <- E2; auto).
  assert (HSp2 : SS post2) by (apply SS_app in HS1'; tauto).
  pose proof (SS_after _ _ HSp2 Hpost20) as Hpost2. clear Hpost20.
  assert (Hpre1ne : pre1 ++ mid <> []).
  { intros H. apply app_eq_nil in H as [-> ->]. simpl in *.
    pose proof (Hl1pos s ltac:(lia)).
    assert (cnt l1 s <= 0).
    { unfold l1. simpl. pose proof (prefix_ge_cnt [] post1 s) as P. simpl in P. apply P; [easy|]. auto. }
    lia. }
  assert (Hle2 : forall x, In x (pre1 ++ mid) -> le x (e, Cut)).
  { intros x Hx. apply in_app_iff in Hx as [Hx|Hx]; auto. apply Hpre1 in Hx. left. simpl. lia. }
  destruct (insertUpper_ok e (pre1 ++ mid) post2 d2 HS1' Hpre1ne Hle2 Hpost2)
    as (pre2 & -> & HS2 & Hc2 & Hs2 & Hcut2 & _). simpl.
  set (b := hit || (d1 =? 1)).
  assert (Hc : forall x, cnt (pre2 ++ post2) x = cnt l x + (ge s x - ge e x)).
  { intros x. rewrite cnt_app, Hc2. pose proof (Hc1' x) as H. unfold l1 in H.
    rewrite E2, !cnt_app in H. rewrite cnt_app. lia. }
  exists (mkRC (pre2 ++ post2) (recompute_ st || b) true (intervals_ st)), b. split; [reflexivity|]. simpl.
  split; [|split; [|split; [|split]]]; auto; try congruence.
  - apply (add_wf l _ s e); auto.
    + rewrite dsum_app, Hs2. unfold l1 in Hs1. rewrite E2 in Hs1. rewrite <- El in Hs1.
      rewrite !dsum_app in Hs1. rewrite dsum_app. lia.
    + intros j Hj. apply in_app_iff in Hj as [Hj|Hj].
      * apply Hcut2 in Hj as [Hj|Hj]; auto.
        assert (In (j, Cut) l1) by (unfold l1; rewrite E2; rewrite in_app_iff in *; rewrite in_app_iff; tauto).
        apply Hcut1 in H. rewrite <- El in H. tauto.
      * assert (In (j, Cut) l1) by (unfold l1; rewrite E2, !in_app_iff; tauto).
        apply Hcut1 in H. rewrite <- El in H. tauto.
  - intros x. rewrite Hc, (ind_ge r) by auto. reflexivity.
  - (* the change flag *)
    assert (Hm1 : forall x, In x mid -> s < fst x \/ (fst x = s /\ snd x <> Lower)).
    { intros x Hx. apply Hpost1'. rewrite E2. apply in_app_iff; auto. }
    assert (Hm2 : forall x, In x mid -> fst x < e \/ (fst x = e /\ snd x <> Upper)).
    { intros x Hx. apply Hmid in Hx. limsolve. }
    assert (Hp2 : forall x, In x post2 -> e <= fst x).
    { intros x Hx. apply Hpost2 in Hx. unfold lt in Hx. simpl in Hx. lia. }
    assert (HSw : SS (pre1 ++ mid ++ post2)) by (rewrite app_assoc; auto).
    assert (El1 : pre1 ++ mid ++ post2 = l1) by (unfold l1; rewrite E2; auto).
    assert (Hcr : forall x, In_range r x -> cnt l x = cnt l1 x - 1).
    { intros x Hx. apply (proj1 (Hir x)) in Hx. rewrite Hc1'. unfold ge. destruct (Z.leb_spec s x); lia. }
    unfold b. rewrite orb_true_iff, Z.eqb_eq. split.
    + intros [H|H].
      * apply Hhit in H as (q & q' & Eq & Hq & Hs). apply last_app_ne in Hq as (q0 & [i t] & ->).
        rewrite <- app_assoc in Eq. simpl in Eq.
        pose proof (win_step pre1 mid post2 s e HSw Hse Hm1 Hm2 q0 i t q' Eq) as [(x & Hx & Hcx) _].
        rewrite El1 in Hcx. rewrite dsum_app in Hcx. exists x. split; [apply Hir; auto|].
        rewrite Hcr by (apply Hir; auto). pose proof (Hl1pos x ltac:(lia)). lia.
      * exists s. split; [apply Hir; lia|]. rewrite Hcr by (apply Hir; lia).
        pose proof (win_pre_ge pre1 mid post2 s e Hse Hpre1 Hm1 Hp2) as Hw.
        rewrite El1 in Hw. pose proof (Hl1pos s ltac:(lia)). lia.
    + intros (x & Hx & Hx0). rewrite Hcr in Hx0 by auto. apply (proj1 (Hir x)) in Hx.
      pose proof (win_any pre1 mid post2 s e HSw Hpre1 Hp2 x Hx) as Hw. rewrite El1 in Hw.
      destruct Hw as [Hw|(q & q' & Eq & Hq & Hw)]; [right; lia|].
      left. apply Hhit. exists q, q'. repeat split; auto. lia.
Qed.
