Require Import ZArith List Bool Sorting Lia.
Require Import Verif.Base Verif.RangeModel Verif.RangeCountingModel Verif.RangeCountingSpec.
Require Import Verif.RangeCountingProofs Verif.RangeCountingProofs2 Verif.RangeCountingProofs3.
Import ListNotations.
Local Open Scope Z_scope.
Local Arguments Z.add : simpl never.
Local Arguments Z.sub : simpl never.
Local Arguments Z.opp : simpl never.
Local Arguments Z.leb : simpl never.
Local Arguments Z.ltb : simpl never.
Local Arguments Z.eqb : simpl never.

(* Bracket-sequence facts, from a starting depth. *)
Record bra (d : Z) (l : list lim) : Prop := {
  bra_ss : SS l;
  bra_pre : forall a b, l = a ++ b -> 0 <= d + dsum a;
  bra_cut : forall a i b, l = a ++ (i, Cut) :: b -> 0 < d + dsum a;
  bra_sum : d + dsum l = 0 }.

Lemma wf_bra l : wf l -> bra 0 l.
Proof.
  intros W. constructor.
  - apply W.
  - intros a b E. pose proof (wf_prefix l W a b E). lia.
  - intros a i b E. pose proof (wf_ss _ W) as HS. rewrite E in HS.
    pose proof (after_elem _ _ _ _ HS) as (H1 & H2 & _). rewrite <- E in *.
    specialize (H1 ltac:(discriminate)). specialize (H2 ltac:(discriminate)).
    rewrite dsum_app in *. simpl in *.
    assert (Hi : In (i, Cut) l) by (rewrite E; apply in_app_iff; simpl; auto).
    destruct (wf_cut _ W i Hi); lia.
  - rewrite (wf_sum _ W). lia.
Qed.

Lemma bra_tail d x l : bra d (x :: l) -> bra (d - tval (snd x)) l.
Proof.
  intros B. constructor.
  - pose proof (bra_ss _ _ B) as H. apply SS_cons in H. tauto.
  - intros a b ->. pose proof (bra_pre _ _ B (x :: a) b eq_refl) as H. simpl in H. lia.
  - intros a i b ->. pose proof (bra_cut _ _ B (x :: a) i b eq_refl) as H. simpl in H. lia.
  - pose proof (bra_sum _ _ B) as H. simpl in H. lia.
Qed.

Lemma bra0_head x l : bra 0 (x :: l) -> snd x = Lower.
Proof.
  intros B. destruct x as [i t]. destruct t; auto.
  - pose proof (bra_cut _ _ B [] i l eq_refl). simpl in *. lia.
  - pose proof (bra_pre _ _ B [(i, Upper)] l eq_refl). simpl in *. lia.
Qed.

(* The first return to depth 0. *)
Lemma first_return : forall l d, 0 < d -> bra d l ->
  exists blk e rest, l = blk ++ (e, Upper) :: rest /\ d + dsum blk = 1 /\
    (forall a b, blk = a ++ b -> 0 < d + dsum a) /\ bra 0 rest.
Proof.
  induction l as [|x l IH]; intros d Hd B.
  - pose proof (bra_sum _ _ B) as H. simpl in H. lia.
  - pose proof (bra_tail _ _ _ B) as B'.
    destruct (Z.eq_dec (d - tval (snd x)) 0) as [E|E].
    + destruct x as [i t]. simpl in E. destruct t; simpl in E; try lia.
      * exists [], i, l. simpl. split; [auto|]. split; [lia|]. split.
        -- intros a b Hab. symmetry in Hab. apply app_eq_nil in Hab as [-> _]. simpl. lia.
        -- simpl in B'. replace (d - 1) with 0 in B' by lia. exact B'.
    + pose proof (bra_pre _ _ B [x] l eq_refl) as Hx. simpl in Hx.
      destruct (IH (d - tval (snd x)) ltac:(lia) B') as (blk & e & rest & -> & H1 & H2 & H3).
      exists (x :: blk), e, rest. simpl. split; [auto|]. split; [lia|]. split; [|auto].
      intros a b Hab. destruct a as [|y a]; simpl in *; [lia|]. inversion Hab; subst.
      specialize (H2 a b eq_refl). lia.
Qed.

Lemma flat_block : forall blk d s0 e rest acc,
  (forall a b, blk = a ++ b -> 0 < d + dsum a) -> d + dsum blk = 1 ->
  flatLoop d (Some s0) (blk ++ (e, Upper) :: rest) acc =
  if e - fst s0 <? 0 then UB
  else flatLoop 0 (hd_error rest) rest (acc ++ [mkRange (fst s0) (e - fst s0)]).
Proof.
  induction blk as [|x blk IH]; intros d s0 e rest acc H1 H2; simpl in *.
  - replace (d - 1) with 0 by lia. rewrite Z.eqb_refl. reflexivity.
  - assert (0 < d - tval (snd x)).
    { specialize (H1 [x] blk eq_refl). simpl in H1. lia. }
    destruct (Z.eqb_spec (d - tval (snd x)) 0); [lia|].
    apply IH; [|lia]. intros a b ->. specialize (H1 (x :: a) b eq_refl). simpl in H1. lia.
Qed.

(* Counts of a block. *)
Lemma block_cnt s blk e : SS ((s, Lower) :: blk ++ [(e, Upper)]) ->
  (forall a b, blk = a ++ b -> 0 < 1 + dsum a) -> 1 + dsum blk = 1 ->
  s < e /\
  (forall x, s <= x < e -> 0 < cnt ((s, Lower) :: blk ++ [(e, Upper)]) x) /\
  (forall x, x < s \/ e <= x -> cnt ((s, Lower) :: blk ++ [(e, Upper)]) x = 0).
Proof.
  intros HS Hpos Htot.
  assert (Hlt : s < e).
  { apply SS_cons in HS as [_ H]. specialize (H (e, Upper)). rewrite in_app_iff in H.
    specialize (H (or_intror (or_introl eq_refl))). unfold R in H. simpl in H.
    intuition (try lia; try congruence). }
  assert (Hb : forall x, In x ((s, Lower) :: blk ++ [(e, Upper)]) -> s <= fst x <= e).
  { intros x Hx. apply (last_bound (blk ++ [(e, Upper)]) (s, Lower) x HS) in Hx.
    replace (last ((s, Lower) :: blk ++ [(e, Upper)]) (s, Lower)) with (e, Upper) in Hx; auto.
    change ((s, Lower) :: blk ++ [(e, Upper)]) with (((s, Lower) :: blk) ++ [(e, Upper)]).
    now rewrite last_last. }
  split; [auto|]. split.
  - intros x Hx. destruct (cnt_prefix _ x HS) as (a & b & E & Ha & Hbb & ->).
    destruct a as [|y a].
    { simpl in E. subst b. specialize (Hbb (s, Lower) (or_introl eq_refl)). simpl in Hbb. lia. }
    simpl in E. inversion E as [[E1 E2]]. subst y. clear E.
    destruct b as [|z b].
    { specialize (Ha (e, Upper)). rewrite app_nil_r in E2. subst a.
      assert (In (e, Upper) ((s, Lower) :: blk ++ [(e, Upper)])) by (right; apply in_app_iff; simpl; auto).
      apply Ha in H. simpl in H. lia. }
    (* a is a prefix of blk *)
    assert (exists c, blk = a ++ c) as (c & Ec).
    { destruct (@last_app_ne lim (z :: b)) as (q & w & Eq); [congruence|]. rewrite Eq, app_assoc in E2.
      apply app_inj_tail in E2 as [-> _]. eauto. }
    specialize (Hpos a c Ec). simpl. lia.
  - intros x [Hx|Hx].
    + apply cnt_none. intros y Hy. apply Hb in Hy. lia.
    + rewrite cnt_all by (intros y Hy; apply Hb in Hy; lia). simpl. rewrite dsum_app. simpl. lia.
Qed.

Definition after (k : Z) (l : list Range) : Prop := Forall (fun r => k < start r) l.

Lemma flat_ok : forall n l acc, (length l <= n)%nat -> bra 0 l ->
  exists out, flatLoop 0 (hd_error l) l acc = Ok (acc ++ out) /\
    canonical out (fun x => 0 < cnt l x) /\
    (forall k, (forall y, In y l -> k < fst y) -> after k out).
Proof.
  induction n as [|n IH]; intros l acc Hn B.
  - destruct l; [|simpl in Hn; lia]. exists []. simpl. rewrite app_nil_r. split; [auto|].
    split; [|constructor]. repeat split; try constructor; try lia. intros (r & [] & _).
  - destruct l as [|[s t] l].
    { exists []. simpl. rewrite app_nil_r. split; [auto|].
      split; [|constructor]. repeat split; try constructor; try lia. intros (r & [] & _). }
    pose proof (bra0_head _ _ B) as Ht. simpl in Ht. subst t.
    pose proof (bra_ss _ _ B) as HS.
    pose proof (bra_tail _ _ _ B) as B'. simpl in B'. change (0 - -1) with 1 in B'.
    destruct (first_return l 1 ltac:(lia) B') as (blk & e & rest & -> & H1 & H2 & H3).
    assert (HSb : SS ((s, Lower) :: blk ++ [(e, Upper)])).
    { change ((s, Lower) :: blk ++ (e, Upper) :: rest) with (((s, Lower) :: blk) ++ [(e, Upper)] ++ rest) in HS.
      rewrite app_assoc in HS. apply SS_app in HS as [HS _]. exact HS. }
    destruct (block_cnt s blk e HSb H2 H1) as (Hlt & Hc1 & Hc0).
    assert (Hrest : forall y, In y rest -> e < fst y).
    { destruct rest as [|y rest]; [easy|]. pose proof (bra0_head _ _ H3) as Hy.
      assert (HR : R (e, Upper) y).
      { change ((s, Lower) :: blk ++ (e, Upper) :: y :: rest) with (((s, Lower) :: blk) ++ (e, Upper) :: y :: rest) in HS.
        apply SS_app in HS as (_ & HS & _). apply SS_cons in HS as [_ HS]. apply HS. left; auto. }
      assert (e < fst y).
      { unfold R in HR. simpl in HR. rewrite Hy in HR. intuition (try lia; try congruence). }
      pose proof (bra_ss _ _ H3) as HS3. apply SS_cons in HS3 as [_ HS3].
      intros z [<-|Hz]; [auto|]. apply HS3 in Hz. unfold R in Hz. lia. }
    assert (Hlen : (length rest <= n)%nat) by (simpl in Hn; rewrite app_length in Hn; simpl in Hn; lia).
    assert (Hcl : forall x, cnt ((s, Lower) :: blk ++ (e, Upper) :: rest) x
                  = cnt ((s, Lower) :: blk ++ [(e, Upper)]) x + cnt rest x).
    { intros x. rewrite <- cnt_app. f_equal. simpl. rewrite <- app_assoc. reflexivity. }
    simpl flatLoop. change (0 - -1) with 1. change (1 =? 0) with false. cbv iota.
    rewrite (flat_block blk 1 (s, Lower) e rest acc H2 H1). simpl fst.
    destruct (Z.ltb_spec (e - s) 0) as [Hneg|_]; [lia|].
    destruct (IH rest (acc ++ [mkRange s (e - s)]) Hlen H3) as (out & Eo & (C1 & C2 & C3) & Ca).
    exists (mkRange s (e - s) :: out). rewrite Eo, <- app_assoc. split; [reflexivity|].
    assert (Hafter : after e out) by (apply Ca; auto).
    split.
    + split; [|split].
      * constructor; [simpl; lia|auto].
      * constructor; [auto|]. unfold rend; simpl. eapply Forall_impl; [|apply Hafter]. simpl. intros; lia.
      * intros x. rewrite Hcl. split.
        -- intros Hx. assert (s <= x < e \/ (x < s \/ e <= x)) as [Hi|Hi] by lia.
           ++ exists (mkRange s (e - s)). split; [left; auto|]. unfold In_range; simpl. lia.
           ++ rewrite Hc0 in Hx by auto. assert (0 < cnt rest x) as Hx' by lia.
              apply C3 in Hx' as (r & Hr & Hr'). exists r. split; [right; auto|auto].
        -- intros (r & [<-|Hr] & Hr').
           ++ unfold In_range in Hr'; simpl in Hr'.
              rewrite (cnt_none rest) by (intros y Hy; apply Hrest in Hy; lia).
              specialize (Hc1 x). lia.
           ++ assert (0 < cnt rest x) by (apply C3; eauto).
              assert (e < x).
              { unfold after in Hafter. rewrite Forall_forall in Hafter. apply Hafter in Hr.
                unfold In_range in Hr'. lia. }
              rewrite Hc0 by lia. lia.
    + intros k Hk. constructor.
      * simpl. apply (Hk (s, Lower)). left; auto.
      * eapply Forall_impl; [|apply Hafter]. simpl. intros r Hr.
        specialize (Hk (s, Lower) (or_introl eq_refl)). simpl in Hk. lia.
Qed.

(* ---------- split ---------- *)
Lemma skipEq_spec v : forall l d, exists a, l = a ++ snd (skipEq v d l) /\ (forall y, In y a -> y = v) /\
  fst (skipEq v d l) = d + dsum a /\ (forall z q, snd (skipEq v d l) = z :: q -> z <> v).
Proof.
  induction l as [|x l IH]; intros d; simpl.
  - exists []. simpl. repeat split; try easy; try lia.
  - destruct (lim_eq x v) eqn:E.
    + apply lim_eq_spec in E. subst x. destruct (IH (d - tval (snd v))) as (a & H1 & H2 & H3 & H4).
      exists (v :: a). simpl. rewrite <- H1. split; [auto|]. split; [|split; [|auto]].
      * intros y [<-|Hy]; auto.
      * rewrite H3. lia.
    + apply lim_eq_false in E. exists []. simpl. split; [auto|]. split; [easy|]. split; [lia|].
      intros z q Hz. inversion Hz; subst; auto.
Qed.

Lemma next_spec d x l : exists a rest, next d (x :: l) = (d + dsum (x :: a), rest) /\
  l = a ++ rest /\ (forall y, In y a -> y = x) /\ (forall z q, rest = z :: q -> z <> x).
Proof.
  simpl. rewrite (proj2 (lim_eq_spec x x) eq_refl).
  destruct (skipEq_spec x l (d - tval (snd x))) as (a & H1 & H2 & H3 & H4).
  exists a, (snd (skipEq x (d - tval (snd x)) l)). split; [|auto].
  destruct (skipEq x (d - tval (snd x)) l) as [d' r]; simpl in *. f_equal. lia.
Qed.

Lemma bra_app d a b : bra d (a ++ b) -> bra (d + dsum a) b.
Proof.
  revert d; induction a as [|x a IH]; simpl; intros d B.
  - replace (d + 0) with d by lia. auto.
  - apply bra_tail, IH in B. replace (d + (- tval (snd x) + dsum a)) with (d - tval (snd x) + dsum a) by lia. auto.
Qed.

(* No limit of [l] lies strictly inside [r]. *)
Definition uncut (l : list lim) (r : Range) : Prop :=
  forall y, In y l -> ~ (start r < fst y < rend r).

(* Every limit where the count is positive on both sides is a boundary of two pieces
   or lies in the border. *)
Lemma split_ok : forall fuel d s it acc,
  (length it <= fuel)%nat -> bra d it -> (it <> [] -> 0 < d) ->
  (forall y, In y it -> R s y /\ y <> s) ->
  exists out, splitLoop fuel d s it acc = Ok (acc ++ out) /\
    pieces out (fun x => fst s <= x /\ 0 < d + cnt it x) /\
    Forall (uncut it) out.
Proof.
  induction fuel as [|fuel IH]; intros d s it acc Hf B Hd Hs.
  { destruct it; [|simpl in Hf; lia]. simpl. exists []. rewrite app_nil_r. split; [auto|]. split; [|auto].
    pose proof (bra_sum _ _ B) as H. simpl in H.
    split; [constructor|]. split; [constructor|]. simpl. intros x. split; [lia|]. intros (r & [] & _). }
  destruct it as [|x it].
  { simpl. exists []. rewrite app_nil_r. split; [auto|]. split; [|auto].
    pose proof (bra_sum _ _ B) as H. simpl in H.
    split; [constructor|]. split; [constructor|]. simpl. intros x. split; [lia|]. intros (r & [] & _). }
  assert (Hd0 : 0 < d) by (apply Hd; discriminate). clear Hd.
  destruct (Hs x (or_introl eq_refl)) as [HRsx Hne].
  pose proof (bra_ss _ _ B) as HS. apply SS_cons in HS as [HS HRx].
  assert (Hxy : forall y, In y it -> fst x <= fst y).
  { intros y Hy. apply HRx in Hy. unfold R in Hy. lia. }
  (* the continuation *)
  assert (K : forall acc', exists out,
     (let (d1, it1) := next d (x :: it) in
      match it1 with
      | y :: _ => if d1 =? 0 then let (d', it2) := next d1 it1 in splitLoop fuel d' y it2 acc'
                  else splitLoop fuel d1 x it1 acc'
      | [] => splitLoop fuel d1 x it1 acc'
      end) = Ok (acc' ++ out) /\
     pieces out (fun z => fst x <= z /\ 0 < d + cnt (x :: it) z) /\ Forall (uncut (x :: it)) out).
  { intros acc'.
    destruct (next_spec d x it) as (a & it1 & -> & Eit & Ha & Hn1).
    assert (Eall : x :: it = (x :: a) ++ it1) by (rewrite Eit; auto).
    assert (B1 : bra (d + dsum (x :: a)) it1) by (apply bra_app; rewrite <- Eall; auto).
    assert (Hlen1 : (length it1 <= fuel)%nat).
    { rewrite Eit in Hf. simpl in Hf. rewrite app_length in Hf. lia. }
    assert (Hxa : forall y, In y (x :: a) -> y = x) by (intros y [<-|Hy]; auto).
    assert (HRx1 : forall y, In y it1 -> R x y /\ y <> x).
    { destruct it1 as [|z q]; [easy|]. intros y Hy.
      assert (Hxy' : R x y) by (apply HRx; rewrite Eit; apply in_app_iff; auto).
      split; auto. intros ->. assert (Hzx : z <> x) by (eapply Hn1; eauto).
      assert (HRz : R x z) by (apply HRx; rewrite Eit; apply in_app_iff; simpl; auto).
      destruct Hy as [Hy|Hy]; [congruence|].
      assert (HRzx : R z x).
      { rewrite Eit in HS. apply SS_app in HS as (_ & HS & _). apply SS_cons in HS as [_ HS]. apply HS; auto. }
      clear - HRz HRzx Hzx. destruct x as [i t], z as [j u]. unfold R in *; simpl in *.
      assert (i = j) by lia. subst j. destruct t, u; intuition (try lia; try congruence). }
    assert (Hcnt : forall z, fst x <= z -> d + cnt (x :: it) z = d + dsum (x :: a) + cnt it1 z).
    { intros z Hz. rewrite Eall, cnt_app, (cnt_all (x :: a)); [lia|]. intros y Hy. rewrite (Hxa y Hy). auto. }
    assert (Hunc : forall out, Forall (fun r => fst x <= start r) out -> Forall (uncut it1) out -> Forall (uncut (x :: it)) out).
    { intros out H1 H2. rewrite Forall_forall in *. intros r Hr y Hy Hc.
      rewrite Eall in Hy. apply in_app_iff in Hy as [Hy|Hy].
      - rewrite (Hxa y Hy) in Hc. specialize (H1 r Hr). lia.
      - now apply (H2 r Hr y Hy). }
    assert (Hbase : (it1 <> [] -> 0 < d + dsum (x :: a)) -> exists out,
       splitLoop fuel (d + dsum (x :: a)) x it1 acc' = Ok (acc' ++ out) /\
       pieces out (fun z => fst x <= z /\ 0 < d + cnt (x :: it) z) /\ Forall (uncut (x :: it)) out).
    { intros Hp. destruct (IH _ x it1 acc' Hlen1 B1 Hp HRx1) as (out & Eo & (P1 & P2 & P3) & PU).
      exists out. split; [auto|]. split.
      - split; [auto|]. split; [auto|]. intros z. rewrite <- P3. split; intros [H1 H2]; split; auto.
        + rewrite <- Hcnt; auto.
        + rewrite Hcnt; auto.
      - apply Hunc; auto. rewrite Forall_forall. intros r Hr.
        assert (Hst : In_range r (start r)).
        { rewrite Forall_forall in P1. specialize (P1 r Hr). unfold In_range; lia. }
        apply (proj2 (P3 (start r))); eauto. }
    destruct it1 as [|y it1']; [apply Hbase; congruence|].
    destruct (Z.eqb_spec (d + dsum (x :: a)) 0) as [E0|E0].
    2:{ apply Hbase. intros _. pose proof (bra_pre _ _ B1 [] _ eq_refl) as Hp. simpl dsum in *. lia. }
    rewrite E0 in B1. rewrite E0. pose proof (bra0_head _ _ B1) as Hy.
    destruct (next_spec 0 y it1') as (a2 & it2 & -> & Eit2 & Ha2 & Hn2).
    assert (Hya : forall z, In z (y :: a2) -> z = y) by (intros z [<-|Hz]; auto).
    assert (B2 : bra (0 + dsum (y :: a2)) it2) by (apply bra_app; simpl; rewrite <- Eit2; auto).
    pose proof (bra_ss _ _ B1) as HS1. apply SS_cons in HS1 as [HS1 HRy].
    assert (Hpos2 : it2 <> [] -> 0 < 0 + dsum (y :: a2)).
    { intros _. simpl. rewrite Hy. simpl.
      assert (0 <= dsum a2); [|lia]. clear - Ha2 Hy. induction a2 as [|z a2 IH]; simpl; [lia|].
      rewrite (Ha2 z (or_introl eq_refl)), Hy. simpl. specialize (IH (fun w Hw => Ha2 w (or_intror Hw))). lia. }
    assert (HRy2 : forall z, In z it2 -> R y z /\ z <> y).
    { destruct it2 as [|w q]; [easy|]. intros z Hz.
      assert (Hyz : R y z) by (apply HRy; rewrite Eit2; apply in_app_iff; auto).
      split; auto. intros ->. assert (Hwy : w <> y) by (eapply Hn2; eauto).
      assert (HRw : R y w) by (apply HRy; rewrite Eit2; apply in_app_iff; simpl; auto).
      destruct Hz as [Hz|Hz]; [congruence|].
      assert (HRwy : R w y).
      { rewrite Eit2 in HS1. apply SS_app in HS1 as (_ & HS1 & _). apply SS_cons in HS1 as [_ HS1]. apply HS1; auto. }
      clear - HRw HRwy Hwy. destruct y as [i t], w as [j u]. unfold R in *; simpl in *.
      assert (i = j) by lia. subst j. destruct t, u; intuition (try lia; try congruence). }
    assert (Hlen2 : (length it2 <= fuel)%nat).
    { rewrite Eit2 in Hlen1. simpl in Hlen1. rewrite app_length in Hlen1. lia. }
    assert (Hyx : fst x <= fst y) by (apply Hxy; rewrite Eit; apply in_app_iff; simpl; auto).
    destruct (IH _ y it2 acc' Hlen2 B2 Hpos2 HRy2) as (out & Eo & (P1 & P2 & P3) & PU).
    exists out. split; [auto|].
    assert (Hcy : forall z, fst y <= z -> d + cnt (x :: it) z = 0 + dsum (y :: a2) + cnt it2 z).
    { intros z Hz. rewrite Hcnt by lia. rewrite E0. rewrite Eit2.
      change (y :: a2 ++ it2) with ((y :: a2) ++ it2). rewrite cnt_app, (cnt_all (y :: a2)); [lia|].
      intros w Hw. rewrite (Hya w Hw). auto. }
    assert (Hc0 : forall z, fst x <= z < fst y -> d + cnt (x :: it) z = 0).
    { intros z Hz. rewrite Hcnt by lia. rewrite E0. rewrite cnt_none; [lia|].
      intros w [<-|Hw]; [lia|]. apply HRy in Hw. unfold R in Hw. lia. }
    assert (Hsty : Forall (fun r => fst y <= start r) out).
    { rewrite Forall_forall. intros r Hr.
      assert (Hst : In_range r (start r)).
      { rewrite Forall_forall in P1. specialize (P1 r Hr). unfold In_range; lia. }
      apply (proj2 (P3 (start r))); eauto. }
    split.
    - split; [auto|]. split; [auto|]. intros z. rewrite <- P3. split; intros [H1 H2].
      + assert (fst y <= z \/ z < fst y) as [H|H] by lia.
        * split; auto. rewrite <- Hcy; auto.
        * rewrite Hc0 in H2; lia.
      + split; [lia|]. rewrite Hcy; auto.
    - apply Hunc.
      + eapply Forall_impl; [|apply Hsty]. simpl. intros; lia.
      + rewrite Forall_forall in *. intros r Hr w Hw Hc. specialize (Hsty r Hr).
        rewrite Eit2 in Hw. change (y :: a2 ++ it2) with ((y :: a2) ++ it2) in Hw.
        apply in_app_iff in Hw as [Hw|Hw].
        * rewrite (Hya w Hw) in Hc. lia.
        * apply (PU r Hr w Hw Hc). }
  cbn [splitLoop].
  destruct (Z.eqb_spec (fst s) (fst x)) as [Ex|Ex]; simpl negb; cbv iota.
  - assert (Htt : (teq (snd s) Lower && teq (snd x) Cut) || (teq (snd s) Cut && teq (snd x) Upper) = true).
    { clear - HRsx Hne Ex. destruct s as [i t], x as [j u]. unfold R in HRsx. simpl in *. subst j.
      destruct t, u; cbv; auto; intuition (try lia; try congruence). }
    rewrite Htt. destruct (K acc) as (out & Eo & P & PU). exists out. rewrite Ex. auto.
  - assert (Hsx : fst s < fst x) by (unfold R in HRsx; lia).
    destruct (Z.ltb_spec (fst x - fst s) 0); [lia|].
    destruct (K (acc ++ [mkRange (fst s) (fst x - fst s)])) as (out & Eo & (P1 & P2 & P3) & PU).
    exists (mkRange (fst s) (fst x - fst s) :: out). rewrite <- app_assoc in Eo. split; [exact Eo|].
    assert (Hst : Forall (fun r => fst x <= start r) out).
    { rewrite Forall_forall. intros r Hr.
      assert (Hst : In_range r (start r)).
      { rewrite Forall_forall in P1. specialize (P1 r Hr). unfold In_range; lia. }
      apply (proj2 (P3 (start r))); eauto. }
    split.
    + split; [|split].
      * constructor; [simpl; lia|auto].
      * constructor; [auto|]. unfold rend; simpl. eapply Forall_impl; [|apply Hst]. simpl; intros; lia.
      * intros z. split.
        -- intros [H1 H2]. assert (z < fst x \/ fst x <= z) as [Hz|Hz] by lia.
           ++ eexists. split; [left; reflexivity|]. unfold In_range; simpl. lia.
           ++ destruct (proj1 (P3 z) (conj Hz H2)) as (r & Hr & Hr'). exists r. split; [right|]; auto.
        -- intros (r & [<-|Hr] & Hr').
           ++ unfold In_range in Hr'; simpl in Hr'. split; [lia|]. rewrite cnt_none; [lia|].
              intros y [<-|Hy]; [lia|]. apply Hxy in Hy. lia.
           ++ destruct (proj2 (P3 z)) as [H1 H2]; [eauto|]. split; [lia|auto].
    + constructor; auto. intros y Hy. unfold rend; simpl.
      destruct Hy as [<-|Hy]; [lia|]. apply Hxy in Hy. lia.
Qed.

Lemma uncut_const l r x y : uncut l r -> In_range r x -> In_range r y -> cnt l x = cnt l y.
Proof.
  intros U Hx Hy. unfold In_range in *. unfold uncut, rend in U.
  induction l as [|e l IH]; simpl; [auto|].
  rewrite IH by (intros z Hz; apply U; right; auto).
  specialize (U e (or_introl eq_refl)).
  destruct (Z.leb_spec (fst e) x), (Z.leb_spec (fst e) y); lia.
Qed.

(* ---------- ranges ---------- *)
Definition fresh (st : rc) : Prop :=
  recompute_ st = false -> recomputeSplit_ st = false -> limits st = [] /\ intervals_ st = [].

Lemma canonical_nil : canonical [] (fun _ => 0 < 0).
Proof. repeat split; try constructor; try lia. intros (r & [] & _). Qed.
Lemma pieces_nil : pieces [] (fun _ => 0 < 0).
Proof. repeat split; try constructor; try lia. intros (r & [] & _). Qed.

Lemma ranges_false_ok st : wf (limits st) -> fresh st ->
  exists st' out, ranges st false = Ok (st', out) /\ limits st' = limits st /\ fresh st' /\
    canonical out (fun x => 0 < cnt (limits st) x).
Proof.
  intros W F. unfold ranges.
  destruct (recompute_ st) eqn:E1, (recomputeSplit_ st) eqn:E2; cbn [negb andb].
  4:{ destruct (F E1 E2) as [-> ->]. exists st, []. repeat split; auto; try (now destruct (F E1 E2)); try constructor; try (simpl; lia).
      intros (r & [] & _). }
  all: destruct (limits st) as [|x l] eqn:El;
    [ exists (mkRC [] false false []), []; repeat split; auto; try constructor; try (simpl; lia); intros (r & [] & _) |].
  all: rewrite <- El in *; clear El;
    destruct (flat_ok (length (limits st)) (limits st) [] (le_n _) (wf_bra _ W)) as (out & -> & C & _);
    simpl; eexists _, out; repeat split; try apply C; discriminate.
Qed.

Lemma ranges_true_ok st : wf (limits st) -> fresh st ->
  exists st' out, ranges st true = Ok (st', out) /\ limits st' = limits st /\ fresh st' /\
    pieces out (fun x => 0 < cnt (limits st) x) /\
    (forall r, In r out -> forall x y, In_range r x -> In_range r y -> cnt (limits st) x = cnt (limits st) y).
Proof.
  intros W F. unfold ranges.
  assert (Main : forall x l, limits st = x :: l -> exists iv,
    (let (d, it) := next 0 (x :: l) in splitLoop (length (x :: l)) d x it []) = Ok iv /\
    pieces iv (fun x => 0 < cnt (limits st) x) /\
    (forall r, In r iv -> forall x y, In_range r x -> In_range r y -> cnt (limits st) x = cnt (limits st) y)).
  { intros x l El. rewrite El. pose proof (wf_bra _ W) as B. rewrite El in B.
    destruct (next_spec 0 x l) as (a & it & -> & Eit & Ha & Hn).
    pose proof (bra0_head _ _ B) as Hx.
    assert (Eall : x :: l = (x :: a) ++ it) by (rewrite Eit; auto).
    assert (Hxa : forall y, In y (x :: a) -> y = x) by (intros y [<-|Hy]; auto).
    assert (B1 : bra (0 + dsum (x :: a)) it) by (apply bra_app; rewrite <- Eall; auto).
    pose proof (bra_ss _ _ B) as HS. apply SS_cons in HS as [HS HRx].
    assert (Hpos : it <> [] -> 0 < 0 + dsum (x :: a)).
    { intros _. simpl. rewrite Hx. simpl.
      assert (0 <= dsum a); [|lia]. clear - Ha Hx. induction a as [|z a IH]; simpl; [lia|].
      rewrite (Ha z (or_introl eq_refl)), Hx. simpl. specialize (IH (fun w Hw => Ha w (or_intror Hw))). lia. }
    assert (HR : forall z, In z it -> R x z /\ z <> x).
    { destruct it as [|w q]; [easy|]. intros z Hz.
      assert (Hyz : R x z) by (apply HRx; rewrite Eit; apply in_app_iff; auto).
      split; auto. intros ->. assert (Hwy : w <> x) by (eapply Hn; eauto).
      assert (HRw : R x w) by (apply HRx; rewrite Eit; apply in_app_iff; simpl; auto).
      destruct Hz as [Hz|Hz]; [congruence|].
      assert (HRwy : R w x).
      { rewrite Eit in HS. apply SS_app in HS as (_ & HS & _). apply SS_cons in HS as [_ HS]. apply HS; auto. }
      clear - HRw HRwy Hwy. destruct x as [i t], w as [j u]. unfold R in *; simpl in *.
      assert (i = j) by lia. subst j. destruct t, u; intuition (try lia; try congruence). }
    assert (Hlen : (length it <= length (x :: l))%nat).
    { rewrite Eit. simpl. rewrite app_length. lia. }
    destruct (split_ok _ _ x it [] Hlen B1 Hpos HR) as (out & Eo & (P1 & P2 & P3) & PU).
    exists out. split; [exact Eo|].
    assert (Hcnt : forall z, fst x <= z -> cnt (x :: l) z = 0 + dsum (x :: a) + cnt it z).
    { intros z Hz. rewrite Eall, cnt_app, (cnt_all (x :: a)); [lia|]. intros y Hy. rewrite (Hxa y Hy). auto. }
    assert (Hin : forall r z, In r out -> In_range r z -> fst x <= z).
    { intros r z Hr Hz. apply (proj2 (P3 z)); eauto. }
    split.
    - split; [auto|]. split; [auto|]. intros z. rewrite <- P3. split.
      + intros H. assert (fst x <= z).
        { assert (z < fst x \/ fst x <= z) as [Hz|Hz] by lia; [|auto].
          rewrite cnt_none in H; [lia|]. intros y [<-|Hy]; [auto|]. apply HRx in Hy. unfold R in Hy. lia. }
        split; auto. rewrite <- Hcnt; auto.
      + intros [H1 H2]. rewrite Hcnt; auto.
    - intros r Hr y z Hy Hz. rewrite !Hcnt by eauto. f_equal.
      rewrite Forall_forall in PU. apply (uncut_const it r); auto. }
  destruct (recompute_ st) eqn:E1, (recomputeSplit_ st) eqn:E2; cbn [negb andb].
  4:{ destruct (F E1 E2) as [-> ->]. exists st, []. repeat split; auto; try (now destruct (F E1 E2)); try constructor; try (simpl; lia).
      intros (r & [] & _). }
  all: destruct (limits st) as [|x l] eqn:El;
    [ exists (mkRC [] false false []), []; repeat split; auto; try constructor; try (simpl; lia); try (intros (r & [] & _)); intros ? [] |].
  all: destruct (Main x l eq_refl) as (iv & E & P & C); destruct (next 0 (x :: l)) as [d it].
  all: rewrite E; simpl; eexists _, iv; repeat split; try apply P; try discriminate; apply C.
Qed.

(* ---------- maxCount ---------- *)
Lemma maxLoop_ge : forall l d mx, mx <= maxLoop d mx l /\ (forall a b, l = a ++ b -> a <> [] -> d + dsum a <= maxLoop d mx l).
Proof.
  induction l as [|x l IH]; simpl; intros d mx.
  - split; [lia|]. intros a b E H. destruct a; [congruence|discriminate].
  - set (m := if mx <? d - tval (snd x) then d - tval (snd x) else mx).
    assert (Hm : mx <= m /\ d - tval (snd x) <= m) by (unfold m; destruct (Z.ltb_spec mx (d - tval (snd x))); lia).
    clearbody m. destruct (IH (d - tval (snd x)) m) as [H1 H2].
    split; [lia|].
    intros a b E Ha. destruct a as [|y a]; [congruence|]. simpl in E. inversion E; subst. simpl.
    destruct a as [|z a]; [simpl in *; lia|].
    specialize (H2 (z :: a) b eq_refl ltac:(discriminate)). simpl in *. lia.
Qed.

Lemma maxLoop_att : forall l d mx, maxLoop d mx l = mx \/ exists a b, l = a ++ b /\ a <> [] /\ maxLoop d mx l = d + dsum a.
Proof.
  induction l as [|x l IH]; simpl; intros d mx; [auto|].
  destruct (IH (d - tval (snd x)) (if mx <? d - tval (snd x) then d - tval (snd x) else mx)) as [->|(a & b & -> & H & E)].
  - destruct (Z.ltb_spec mx (d - tval (snd x))); auto.
    right. exists [x], l. simpl. repeat split; auto; try easy. lia.
  - right. exists (x :: a), b. simpl. repeat split; auto; try easy. lia.
Qed.

Lemma maxCount_ok st : wf (limits st) ->
  (forall x, cnt (limits st) x <= maxCount st) /\ exists x, cnt (limits st) x = maxCount st.
Proof.
  intros W. unfold maxCount. set (l := limits st) in *.
  destruct (maxLoop_ge l 0 0) as [G1 G2].
  assert (A : forall x, cnt l x <= maxLoop 0 0 l).
  { intros x. destruct (cnt_prefix l x (wf_ss _ W)) as (a & b & E & _ & _ & ->).
    destruct a as [|y a]; [simpl; lia|]. specialize (G2 (y :: a) b E ltac:(discriminate)). lia. }
  split; [auto|].
  destruct (maxLoop_att l 0 0) as [H|(a & b & E & Ha & H)].
  - destruct l as [|f l0] eqn:El; [exists 0; auto|]. rewrite <- El in *.
    exists (fst f - 1). rewrite H. apply cnt_none. intros y Hy.
    assert (HS : SS (f :: l0)) by (rewrite <- El; apply W).
    rewrite El in Hy. apply (last_bound _ _ _ HS) in Hy. lia.
  - apply last_app_ne in Ha as (q & [i t] & ->). rewrite <- app_assoc in E. simpl in E.
    pose proof (wf_ss _ W) as HS. rewrite E in HS.
    pose proof (after_elem _ _ _ _ HS) as (_ & _ & _ & H4 & H5). rewrite <- E in *.
    destruct t.
    + destruct (H4 ltac:(discriminate)) as [K|[K _]]; [|discriminate]. exists i. specialize (A i). lia.
    + destruct (H4 ltac:(discriminate)) as [K|[_ K]]; [exists i; specialize (A i)|exists (i - 1); specialize (A (i - 1))]; lia.
    + specialize (H5 eq_refl). specialize (A (i - 1)). lia.
Qed.

(* ---------- isValid ---------- *)
Lemma R_bad2 a b : R a b -> bad2 a b = false.
Proof.
  destruct a as [i t], b as [j u]. unfold R, bad2, lim_lt, lim_eq. simpl. intros H.
  destruct (Z.ltb_spec j i), (Z.eqb_spec j i), (Z.eqb_spec i j); destruct t, u; cbv; auto; intuition (try lia; try congruence).
Qed.
Lemma R_bad3 a b c : R a c -> bad3 a b c = false.
Proof.
  destruct a as [i t], b as [j u], c as [k v]. unfold R, bad3. simpl. intros H.
  destruct (Z.eqb_spec i j), (Z.eqb_spec i k); destruct t, u, v; cbv; auto; intuition (try lia; try congruence).
Qed.
Lemma bra_last d q i t : bra d (q ++ [(i, t)]) -> t = Upper.
Proof.
  intros B. pose proof (bra_sum _ _ B) as S. rewrite dsum_app in S. simpl in S.
  pose proof (bra_pre _ _ B q _ eq_refl) as P. destruct t; auto; simpl in S.
  - lia.
  - pose proof (bra_cut _ _ B q i [] eq_refl). lia.
Qed.
Lemma last_any {A} : forall (l : list A) c a b, last (c :: l) a = last (c :: l) b.
Proof. induction l as [|x l IH]; intros c a b; [reflexivity|]. apply (IH x a b). Qed.
Lemma validLoop_ok : forall l a b, SS (a :: b :: l) -> snd (last (b :: l) b) = Upper -> validLoop a b l = true.
Proof.
  induction l as [|c l IH]; intros a b HS HL.
  - simpl in *. rewrite HL. reflexivity.
  - apply SS_cons in HS as [HS HRa].
    pose proof HS as HS'. apply SS_cons in HS' as [_ HRb].
    simpl. rewrite (R_bad2 b c), (R_bad3 a b c).
    + simpl. apply IH; auto. rewrite <- HL. f_equal.
      change (last (c :: l) c = last (c :: l) b). apply last_any.
    + apply HRa; simpl; auto.
    + apply HRb; simpl; auto.
Qed.
Lemma validDepth_ok : forall l d, bra d l -> validDepth d l = true.
Proof.
  induction l as [|[i t] l IH]; simpl; intros d B; [auto|].
  rewrite IH by (apply (bra_tail _ (i, t)); auto). rewrite andb_true_r.
  destruct t; auto. pose proof (bra_cut _ _ B [] i l eq_refl) as H. simpl in H.
  destruct (Z.eqb_spec d 0); [lia|]. auto.
Qed.

Lemma isValid_ok st : wf (limits st) -> isValid st = true.
Proof.
  intros W. apply wf_bra in W. unfold isValid. destruct (limits st) as [|a [|b l]] eqn:E; auto.
  - destruct a as [i t]. pose proof (bra0_head _ _ W) as H. pose proof (bra_last 0 [] i t W). simpl in *. congruence.
  - pose proof (bra0_head _ _ W) as Ha. pose proof (bra_ss _ _ W) as HS.
    assert (HRab : R a b) by (apply SS_cons in HS as [_ HS]; apply HS; simpl; auto).
    assert (HL : snd (last (b :: l) b) = Upper).
    { destruct (@last_app_ne lim (b :: l)) as (q & [i t] & Eq); [congruence|].
      rewrite Eq, last_last. simpl. rewrite Eq in W. apply (bra_last 0 (a :: q) i). exact W. }
    rewrite Ha. destruct l as [|c l].
    + simpl in HL. rewrite HL. change (teq Lower Lower) with true. change (teq Upper Upper) with true. cbn [andb]. rewrite andb_true_r.
      destruct a as [i t], b as [j u]; simpl in *; subst. unfold R in HRab. simpl in HRab. unfold lim_lt; simpl.
      destruct (Z.ltb_spec i j); auto. intuition (try lia; try congruence).
    + rewrite (R_bad2 a b HRab), (validLoop_ok (c :: l) a b HS HL), (validDepth_ok _ _ W). reflexivity.
Qed.
