Require Import ZArith List Bool Sorting Lia.
Require Import Verif.Base Verif.RangeModel Verif.RangeCountingModel Verif.RangeCountingSpec.
Require Import Verif.RangeCountingProofs Verif.RangeCountingProofs2.
Import ListNotations.
Local Open Scope Z_scope.
Local Arguments Z.add : simpl never.
Local Arguments Z.sub : simpl never.
Local Arguments Z.opp : simpl never.
Local Arguments Z.leb : simpl never.
Local Arguments Z.ltb : simpl never.
Local Arguments Z.eqb : simpl never.

(* ---------- scan ---------- *)
Lemma scan_incl : forall l d x, In x (scan d l) -> In x l.
Proof.
  induction l as [|e l IH]; simpl; intros d x H; [easy|].
  destruct ((d - tval (snd e) =? 0) && teq (snd e) Cut); [right; eauto|].
  destruct H as [H|H]; eauto.
Qed.

Lemma scan_SS : forall l d, SS l -> SS (scan d l).
Proof.
  induction l as [|e l IH]; simpl; intros d H; [apply SS_nil|].
  apply SS_cons in H as [H1 H2].
  destruct ((d - tval (snd e) =? 0) && teq (snd e) Cut); auto.
  apply SS_cons. split; auto. intros y Hy. apply scan_incl in Hy. auto.
Qed.

Lemma scan_cnt : forall l d x, cnt (scan d l) x = cnt l x.
Proof.
  induction l as [|e l IH]; simpl; intros d x; [auto|].
  destruct ((d - tval (snd e) =? 0) && teq (snd e) Cut) eqn:E.
  - rewrite IH. apply andb_true_iff in E as [_ E]. apply teq_spec in E. rewrite E. simpl.
    destruct (fst e <=? x); lia.
  - simpl. rewrite IH. auto.
Qed.

Lemma scan_dsum : forall l d, dsum (scan d l) = dsum l.
Proof.
  induction l as [|e l IH]; simpl; intros d; [auto|].
  destruct ((d - tval (snd e) =? 0) && teq (snd e) Cut) eqn:E.
  - rewrite IH. apply andb_true_iff in E as [_ E]. apply teq_spec in E. rewrite E. simpl. lia.
  - simpl. rewrite IH. auto.
Qed.

Lemma scan_cut : forall l d i, In (i, Cut) (scan d l) ->
  exists a b, l = a ++ (i, Cut) :: b /\ d + dsum a <> 0.
Proof.
  induction l as [|e l IH]; simpl; intros d i H; [easy|].
  destruct ((d - tval (snd e) =? 0) && teq (snd e) Cut) eqn:E.
  - apply IH in H as (a & b & -> & Hd). exists (e :: a), b. simpl. split; auto. lia.
  - destruct H as [->|H].
    + exists [], l. simpl. split; auto. simpl in E. rewrite andb_false_iff in E.
      destruct E as [E|E]; [apply Z.eqb_neq in E; lia|discriminate].
    + apply IH in H as (a & b & -> & Hd). exists (e :: a), b. simpl. split; auto. lia.
Qed.

Lemma scan_wf l : SS l -> (forall x, 0 <= cnt l x) -> dsum l = 0 -> wf (scan 0 l).
Proof.
  intros HS Hp Hs. constructor.
  - now apply scan_SS.
  - intros x. rewrite scan_cnt. auto.
  - now rewrite scan_dsum.
  - intros i Hi. rewrite !scan_cnt. apply scan_cut in Hi as (a & b & E & Hd).
    rewrite E in HS. pose proof (after_elem _ _ _ _ HS) as (H1 & H2 & _ & H4 & _).
    rewrite <- E in *. rewrite dsum_app in *. simpl in *.
    specialize (H1 ltac:(discriminate)). specialize (H2 ltac:(discriminate)). specialize (H4 ltac:(discriminate)).
    pose proof (Hp i). pose proof (Hp (i - 1)). destruct H4 as [H4|[_ H4]]; [right|left]; lia.
Qed.

(* ---------- remove ---------- *)
Lemma last_bound l f x : SS (f :: l) -> In x (f :: l) -> fst f <= fst x <= fst (last (f :: l) f).
Proof.
  intros HS Hx.
  assert (L : In (last (f :: l) f) (f :: l)).
  { destruct (@last_app_ne lim (f :: l)) as (q & y & E); [congruence|]. rewrite E, last_last. apply in_app_iff; simpl; auto. }
  split.
  - destruct Hx as [->|Hx]; [lia|]. apply SS_cons in HS as [_ H]. apply H in Hx. unfold R in Hx. lia.
  - destruct (@last_app_ne lim (f :: l)) as (q & y & E); [congruence|]. rewrite E in *. rewrite last_last.
    apply SS_app in HS as (_ & _ & H). apply in_app_iff in Hx as [Hx|[<-|[]]]; [|lia].
    specialize (H x y Hx (or_introl eq_refl)). unfold R in H. lia.
Qed.

Lemma cnt_pos_before l x : 0 < cnt l x -> exists e, In e l /\ fst e <= x.
Proof.
  induction l as [|e l IH]; simpl; intros H; [lia|].
  destruct (Z.leb_spec (fst e) x); [exists e; auto|].
  destruct IH as (f & Hf & Hx); [lia|]. exists f; auto.
Qed.

Lemma cnt_pos_after l x : dsum l = 0 -> 0 < cnt l x -> exists e, In e l /\ x < fst e.
Proof.
  intros Hs Hc.
  assert (H : forall l, cnt l x <> dsum l -> exists e, In e l /\ x < fst e).
  { clear. induction l as [|e l IH]; simpl; intros H; [lia|].
    destruct (Z.leb_spec (fst e) x); [|exists e; auto].
    destruct IH as (f & Hf & Hx); [lia|]. exists f; auto. }
  apply H. lia.
Qed.

Lemma remove_ok st r : wf (limits st) -> 0 <= dim r ->
  (effective (cnt (limits st)) r = false -> remove st r = Throw) /\
  (effective (cnt (limits st)) r = true ->
   exists st' b, remove st r = Ok (st', b) /\ wf (limits st') /\
    (forall x, cnt (limits st') x = cnt (limits st) x - ind r x) /\
    (b = true <-> exists x, In_range r x /\ cnt (limits st) x = 1) /\
    (dim r <> 0 -> recomputeSplit_ st' = true) /\ (dim r = 0 -> st' = st)).
Proof.
  intros W Hd. unfold remove. destruct (Z.eqb_spec (dim r) 0) as [E|E].
  { split.
    - intros H. apply effective_false in H as (x & Hx & _). unfold In_range in Hx. lia.
    - intros _. exists st, false. split; [auto|]. split; [auto|]. split; [|split; [|split]].
      + intros x. rewrite ind_0; [lia|]. unfold In_range. lia.
      + split; [easy|]. intros (x & Hx & _). unfold In_range in Hx. lia.
      + congruence.
      + auto. }
  assert (Hd' : 0 < dim r) by lia. clear Hd.
  set (s := start r). set (e := rend r). assert (Hse : s < e) by (unfold s, e, rend; lia).
  assert (Hir : forall x, In_range r x <-> s <= x < e) by (intros; unfold In_range, s, e, rend; lia).
  assert (Hirs : In_range r s) by (apply Hir; lia).
  assert (Hire : In_range r (e - 1)) by (apply Hir; lia).
  remember (limits st) as l eqn:Elst. clear Elst.
  assert (Hnot : (exists x, In_range r x /\ cnt l x < 1) -> effective (cnt l) r = true -> False).
  { intros (x & Hx & Hc) H. rewrite effective_spec in H. specialize (H x Hx). lia. }
  destruct l as [|f l0] eqn:El.
  { split; auto. intros H. exfalso. apply Hnot; auto. exists s. split; auto. simpl. lia. }
  pose proof (wf_ss _ W) as HS. pose proof (wf_sum _ W) as HZ. pose proof (wf_pos _ W) as HP.
  pose proof (last_bound l0 f) as HB. specialize (fun x => HB x HS).
  rewrite <- El in *. clear El.
  remember (last l f) as bk eqn:Ebk. clear Ebk.
  destruct ((s <? fst f) || (fst bk <=? s) || (e <=? fst f) || (fst bk <? e)) eqn:Echk.
  { split; auto. intros H. exfalso. rewrite effective_spec in H.
    pose proof (H s Hirs) as H1. pose proof (H (e - 1) Hire) as H2.
    destruct (cnt_pos_before l s) as (a & Ha & Ha2); [lia|]. apply HB in Ha.
    destruct (cnt_pos_after l (e - 1)) as (b & Hb & Hb2); [auto|lia|]. apply HB in Hb.
    destruct (Z.ltb_spec s (fst f)), (Z.leb_spec (fst bk) s), (Z.leb_spec e (fst f)), (Z.ltb_spec (fst bk) e); simpl in Echk; try discriminate; lia. }
  clear Echk. clear HB.
  destruct (wf_move_ok l (s, Cut) W) as (h & pre & post & d & Em). rewrite Em. simpl.
  apply move_ok in Em as (El & Hpre & Hpost0 & Hdd & _ & _). simpl in Hdd.
  rewrite El in HS.
  assert (HSpost : SS post) by (apply SS_app in HS; tauto).
  pose proof (SS_after _ _ HSpost Hpost0) as Hpost. clear Hpost0.
  assert (Hpre' : forall x, In x pre -> fst x <= s).
  { intros x Hx. apply Hpre in Hx. unfold le in Hx. simpl in Hx. lia. }
  assert (Hpost' : forall x, In x post -> s < fst x \/ (fst x = s /\ snd x <> Lower)).
  { intros x Hx. apply Hpost in Hx. limsolve. }
  assert (Hge : cnt l s <= dsum pre) by (rewrite El; apply prefix_ge_cnt; auto).
  destruct (Z.eqb_spec d 0) as [E0|E0].
  { split; auto. intros H. exfalso. apply Hnot; auto. exists s. split; auto. lia. }
  assert (Hpre0 : 0 <= dsum pre) by (apply (wf_prefix l W pre post); auto).
  destruct (move (e, Lower) 1 d post) as [[[[hit mid] post2] d2]| |] eqn:Em.
  2:{ split; auto. intros H. exfalso. rewrite effective_spec in H.
      apply move_throw in Em as (q & [i t] & q' & E2 & Hle & Hlt).
      rewrite E2 in HS. rewrite app_assoc in HS.
      pose proof (after_elem _ _ _ _ HS) as (H1 & _ & H3 & _).
      assert (El1 : (pre ++ q) ++ (i, t) :: q' = l) by (rewrite El, E2, <- app_assoc; auto).
      rewrite El1 in H1, H3. rewrite <- app_assoc, dsum_app in H1, H3.
      assert (Hi : s < i \/ (i = s /\ t <> Lower)).
      { assert (In (i, t) post) by (rewrite E2; apply in_app_iff; simpl; auto). apply Hpost' in H0. auto. }
      assert (Hi2 : i < e \/ (i = e /\ t = Lower)).
      { specialize (Hle (i, t)). rewrite in_app_iff in Hle. simpl in Hle.
        specialize (Hle (or_intror (or_introl eq_refl))). unfold le in Hle. simpl in Hle.
        destruct Hle as [Hle|[Hle1 Hle2]]; [left; lia|]. right. destruct t; simpl in Hle2; split; auto; lia. }
      destruct t.
      - specialize (H3 eq_refl). pose proof (HP (i - 1)). lia.
      - specialize (H1 ltac:(discriminate)). destruct Hi2 as [Hi2|[_ Hi2]]; [|discriminate].
        assert (In_range r i) by (apply Hir; lia). apply H in H0. lia.
      - specialize (H1 ltac:(discriminate)). destruct Hi2 as [Hi2|[_ Hi2]]; [|discriminate].
        assert (In_range r i) by (apply Hir; lia). apply H in H0. lia. }
  2:{ now apply move_not_ub in Em. }
  simpl. apply move_ok in Em as (E2 & Hmid & Hpost20 & Hd2 & Hge1 & Hhit).
  assert (HSw : SS (pre ++ mid ++ post2)) by (rewrite <- E2; auto).
  assert (HSp2 : SS post2) by (apply SS_app in HSw as (_ & HSw & _); apply SS_app in HSw; tauto).
  pose proof (SS_after _ _ HSp2 Hpost20) as Hpost2. clear Hpost20.
  assert (Elw : pre ++ mid ++ post2 = l) by (rewrite El, E2; auto).
  assert (Hm1 : forall x, In x mid -> s < fst x \/ (fst x = s /\ snd x <> Lower)).
  { intros x Hx. apply Hpost'. rewrite E2. apply in_app_iff; auto. }
  assert (Hm2 : forall x, In x mid -> fst x < e \/ (fst x = e /\ snd x <> Upper)).
  { intros x Hx. apply Hmid in Hx. limsolve. }
  assert (Hm3 : forall x, In x mid -> fst x < e \/ (fst x = e /\ snd x = Lower)).
  { intros x Hx. apply Hmid in Hx. limsolve. }
  assert (Hp2 : forall x, In x post2 -> e <= fst x).
  { intros x Hx. apply Hpost2 in Hx. unfold lt in Hx. simpl in Hx. lia. }
  (* effective *)
  assert (Heff : forall x, In_range r x -> 1 <= cnt l x).
  { intros x Hx. pose proof (win_any pre mid post2 s e HSw Hpre' Hp2 x (proj1 (Hir x) Hx)) as Hw.
    rewrite Elw in Hw. destruct Hw as [Hw|(q & q' & Eq & Hq & Hw)]; [lia|].
    specialize (Hge1 q q' Eq Hq). lia. }
  assert (Heff' : effective (cnt l) r = true) by (apply effective_spec; auto).
  split; [congruence|]. intros _.
  assert (Hpne : pre <> []) by (intros ->; simpl in *; lia).
  assert (Hpost_all : forall y, In y (mid ++ post2) -> lt (s, Cut) y).
  { intros y Hy. apply Hpost. rewrite E2. auto. }
  destruct (insertUpper_ok s pre (mid ++ post2) d HSw Hpne Hpre Hpost_all)
    as (pre1 & -> & HS1 & Hc1 & Hs1 & _ & Hpre1). simpl.
  assert (Hp2ne : post2 <> []).
  { intros ->. destruct (cnt_pos_after l (e - 1)) as (y & Hy & Hy2); [auto|specialize (Heff _ Hire); lia|].
    (* all elements are at most (e, Lower): the total is at least the count at e-1 *)
    rewrite app_nil_r in Elw.
    assert (cnt l (e - 1) <= dsum l).
    { pose proof (prefix_ge_cnt_pred l [] e) as P. rewrite app_nil_r in P. apply P; [|easy].
      intros z Hz. rewrite <- Elw in Hz. apply in_app_iff in Hz as [Hz|Hz]; auto.
      left. apply Hpre' in Hz. lia. }
    specialize (Heff _ Hire). lia. }
  assert (HS1' : SS ((pre1 ++ mid) ++ post2)) by (rewrite <- app_assoc; auto).
  assert (Hle1 : forall x, In x (pre1 ++ mid) -> le x (e, Lower)).
  { intros x Hx. apply in_app_iff in Hx as [Hx|Hx]; auto. apply Hpre1 in Hx. left. simpl. lia. }
  destruct (insertLower_ok e (pre1 ++ mid) post2 (d2 - 1) HS1' Hp2ne Hle1 Hpost2)
    as (pre2 & post3 & d3 & -> & HS2 & Hc2 & _ & Hs2 & _ & _ & _). simpl.
  set (b := hit || (d =? 1)). set (raw := pre2 ++ post3) in *.
  assert (Hc : forall x, cnt raw x = cnt l x - ind r x).
  { intros x. rewrite Hc2, (ind_ge r) by auto. fold s e. rewrite !cnt_app, Hc1.
    rewrite <- Elw, !cnt_app. lia. }
  exists (mkRC (scan 0 raw) (recompute_ st || b) true (intervals_ st)), b. split; [reflexivity|]. simpl.
  split; [|split; [|split; [|split]]]; auto; try congruence.
  - apply scan_wf; auto.
    + intros x. rewrite Hc. pose proof (HP x).
      assert (Hx : In_range r x \/ ~ In_range r x) by (unfold In_range; lia).
      destruct Hx as [Hx|Hx]; [rewrite ind_1 by auto; specialize (Heff x Hx); lia|rewrite ind_0 by auto; lia].
    + rewrite Hs2, !dsum_app, Hs1. rewrite <- Elw, !dsum_app in HZ. lia.
  - intros x. rewrite scan_cnt. auto.
  - unfold b. rewrite orb_true_iff, Z.eqb_eq. split.
    + intros [H|H].
      * apply Hhit in H as (q & q' & Eq & Hq & Hs). apply last_app_ne in Hq as (q0 & [i t] & ->).
        rewrite <- app_assoc in Eq. simpl in Eq.
        pose proof (win_step pre mid post2 s e HSw Hse Hm1 Hm2 q0 i t q' Eq) as [(x & Hx & Hcx) _].
        rewrite Elw in Hcx. rewrite dsum_app in Hcx. exists x. split; [apply Hir; auto|].
        assert (1 <= cnt l x) by (apply Heff, Hir; auto). lia.
      * exists s. split; [auto|]. specialize (Heff s Hirs). lia.
    + intros (x & Hx & Hx0).
      pose proof (win_any pre mid post2 s e HSw Hpre' Hp2 x (proj1 (Hir x) Hx)) as Hw. rewrite Elw in Hw.
      destruct Hw as [Hw|(q & q' & Eq & Hq & Hw)]; [right; lia|].
      left. apply Hhit. exists q, q'. repeat split; auto. lia.
Qed.
