(* RangeCounting commutes with strictly increasing relabellings of the integers. *)
Require Import ZArith List Bool Sorting Lia.
Require Import Verif.Base Verif.RangeModel Verif.RangeCountingModel Verif.RangeCountingSpec.
Import ListNotations.
Local Open Scope Z_scope.

Definition rmap {A B} (f : A -> B) (x : res A) : res B :=
  match x with Ok a => Ok (f a) | Throw => Throw | UB => UB end.

Section Relabel.
Variable phi : Z -> Z.
Hypothesis mono : forall a b, a < b -> phi a < phi b.

Lemma phi_lt a b : phi a < phi b <-> a < b.
Proof.
  split; [|apply mono]. intros H. destruct (Z.lt_trichotomy a b) as [?|[->|K]]; [auto|lia|].
  apply mono in K. lia.
Qed.
Lemma phi_inj a b : phi a = phi b <-> a = b.
Proof.
  split; [|congruence]. intros H. destruct (Z.lt_trichotomy a b) as [K|[?|K]]; auto; apply mono in K; lia.
Qed.
Lemma phi_ltb a b : (phi a <? phi b) = (a <? b).
Proof.
  generalize (phi_lt a b). intros H.
  destruct (Z.ltb_spec a b), (Z.ltb_spec (phi a) (phi b)); auto; exfalso; lia.
Qed.
Lemma phi_leb a b : (phi a <=? phi b) = (a <=? b).
Proof. rewrite !Z.leb_antisym, phi_ltb. auto. Qed.
Lemma phi_eqb a b : (phi a =? phi b) = (a =? b).
Proof.
  generalize (phi_inj a b). intros H.
  destruct (Z.eqb_spec a b), (Z.eqb_spec (phi a) (phi b)); auto; exfalso; tauto.
Qed.
Lemma phi_sub0 a b : (phi a - phi b <? 0) = (a - b <? 0).
Proof.
  generalize (phi_lt a b). intros H.
  destruct (Z.ltb_spec (phi a - phi b) 0), (Z.ltb_spec (a - b) 0); auto; exfalso; lia.
Qed.

Definition fl (x : lim) : lim := (phi (fst x), snd x).
Definition fr (r : Range) : Range := mkRange (phi (start r)) (phi (rend r) - phi (start r)).
Definition frc (s : rc) : rc :=
  mkRC (map fl (limits s)) (recompute_ s) (recomputeSplit_ s) (map fr (intervals_ s)).

Lemma rend_fr r : rend (fr r) = phi (rend r).
Proof. unfold rend, fr; simpl. unfold rend. lia. Qed.
Lemma dim0_fr r : (dim (fr r) =? 0) = (dim r =? 0).
Proof.
  unfold fr; simpl. generalize (phi_inj (rend r) (start r)). unfold rend. intros H.
  destruct (Z.eqb_spec (dim r) 0), (Z.eqb_spec (phi (start r + dim r) - phi (start r)) 0); auto; exfalso; lia.
Qed.
Lemma lim_le_fl a b : lim_le (fl a) (fl b) = lim_le a b.
Proof. unfold lim_le, fl; simpl. rewrite phi_ltb, phi_eqb. auto. Qed.
Lemma lim_eq_fl a b : lim_eq (fl a) (fl b) = lim_eq a b.
Proof. unfold lim_eq, fl; simpl. rewrite phi_eqb. auto. Qed.

Lemma move_fl v c : forall l d, move (fl v) c d (map fl l) =
  rmap (fun '(h, m, p, d') => (h, map fl m, map fl p, d')) (move v c d l).
Proof.
  induction l as [|x l IH]; intros d; cbn [move map]; [auto|].
  rewrite lim_le_fl. destruct (lim_le x v); [|auto]. cbn [snd fl].
  destruct (_ <? c); [auto|]. rewrite IH. destruct (move v c _ l) as [[[[h m] p] d']| |]; auto.
Qed.

Lemma insertLower_fl i pre post d : insertLower (phi i) (map fl pre) (map fl post) d =
  rmap (fun '(a, b, d') => (map fl a, map fl b, d')) (insertLower i pre post d).
Proof.
  unfold insertLower. destruct post as [|[j t] rest]; cbn [map fl fst snd]; [auto|].
  rewrite phi_eqb. destruct (i =? j).
  - destruct t; auto.
    + destruct rest as [|n rest]; cbn [map].
      * cbn [rmap]. rewrite map_app. auto.
      * change (phi i, Upper) with (fl (i, Upper)). rewrite lim_eq_fl.
        destruct (lim_eq n (i, Upper)); cbn [rmap].
        -- destruct (d =? 0); rewrite ?map_app; auto.
        -- rewrite map_app. auto.
    + destruct (d =? 0); cbn [rmap]; rewrite ?map_app; auto.
  - cbn [rmap]. rewrite map_app. auto.
Qed.

Lemma insertUpper_fl i pre d : insertUpper (phi i) (map fl pre) d =
  rmap (fun '(a, d') => (map fl a, d')) (insertUpper i pre d).
Proof.
  unfold insertUpper. rewrite <- map_rev. destruct (rev pre) as [|p pr]; cbn [map]; [auto|].
  change (phi i, Upper) with (fl (i, Upper)). rewrite lim_eq_fl. destruct (lim_eq p (i, Upper)); [auto|].
  cbn [fl fst snd]. rewrite phi_eqb. destruct (i =? fst p); [|cbn [rmap]; rewrite map_app; auto].
  destruct (snd p) eqn:Et.
  - destruct (d =? 1); cbn [rmap]; rewrite ?map_app, ?map_rev; auto.
  - destruct pr as [|q pr]; cbn [map]; [cbn [rmap]; rewrite map_app; auto|].
    change (phi i, Lower) with (fl (i, Lower)). rewrite lim_eq_fl. destruct (lim_eq q (i, Lower)); cbn [rmap].
    + destruct (d =? 0); rewrite ?map_app, ?map_rev; auto.
    + rewrite map_app. auto.
  - destruct (d =? 1); cbn [rmap]; rewrite ?map_app, ?map_rev; auto.
Qed.

Lemma add_fl s r : add (frc s) (fr r) = rmap (fun '(s', b) => (frc s', b)) (add s r).
Proof.
  unfold add. rewrite dim0_fr. destruct (dim r =? 0); [auto|].
  cbn [frc limits]. destruct (limits s) as [|x l]; cbn [map].
  - unfold rmap, recompute, frc, fl; cbn. rewrite rend_fr. auto.
  - change (fl x :: map fl l) with (map fl (x :: l)).
    change (start (fr r), Lower) with (fl (start r, Lower)). rewrite move_fl.
    destruct (move (start r, Lower) 0 0 (x :: l)) as [[[[h pre] post] d]| |]; cbn [rmap bind]; auto.
    destruct post as [|y post]; cbn [map].
    + unfold recompute, frc, rmap. cbn [limits recompute_ recomputeSplit_ intervals_]. rewrite map_app, rend_fr. auto.
    + change (fl y :: map fl post) with (map fl (y :: post)). change (start (fr r)) with (phi (start r)).
      rewrite insertLower_fl. destruct (insertLower (start r) pre (y :: post) d) as [[[pre1 post1] d1]| |]; cbn [rmap bind]; auto.
      rewrite rend_fr. change (phi (rend r), Cut) with (fl (rend r, Cut)). rewrite move_fl.
      destruct (move (rend r, Cut) 1 d1 post1) as [[[[hit mid] post2] d2]| |]; cbn [rmap bind]; auto.
      rewrite <- map_app, insertUpper_fl. destruct (insertUpper (rend r) (pre1 ++ mid) d2) as [[pre2 d3]| |]; cbn [rmap bind]; auto.
      unfold recompute, frc. cbn [limits recompute_ recomputeSplit_ intervals_]. rewrite map_app. auto.
Qed.

Lemma scan_fl : forall l d, scan d (map fl l) = map fl (scan d l).
Proof.
  induction l as [|x l IH]; intros d; simpl; [auto|]. rewrite IH. destruct (_ && _); auto.
Qed.

Lemma last_fl : forall l f, last (map fl l) (fl f) = fl (last l f).
Proof. induction l as [|x l IH]; intros f; [auto|]. destruct l; [auto|]. exact (IH f). Qed.

Lemma bounds_fl r f b :
  (start (fr r) <? fst (fl f)) || (fst (fl b) <=? start (fr r)) || (rend (fr r) <=? fst (fl f)) || (fst (fl b) <? rend (fr r))
  = (start r <? fst f) || (fst b <=? start r) || (rend r <=? fst f) || (fst b <? rend r).
Proof. rewrite rend_fr. cbn [fr start fl fst]. rewrite !phi_ltb, !phi_leb. auto. Qed.

Lemma remove_fl s r : remove (frc s) (fr r) = rmap (fun '(s', b) => (frc s', b)) (remove s r).
Proof.
  unfold remove. rewrite dim0_fr. destruct (dim r =? 0); [auto|].
  cbn [frc limits]. destruct (limits s) as [|x l]; cbn [map]; [auto|].
  change (fl x :: map fl l) with (map fl (x :: l)). rewrite last_fl, bounds_fl.
  destruct (_ || _); [auto|].
  change (start (fr r), Cut) with (fl (start r, Cut)). rewrite move_fl.
  destruct (move (start r, Cut) 0 0 (x :: l)) as [[[[h pre] post] d]| |]; cbn [rmap bind]; auto.
  destruct (d =? 0); [auto|]. rewrite rend_fr. change (phi (rend r), Lower) with (fl (rend r, Lower)).
  rewrite move_fl. destruct (move (rend r, Lower) 1 d post) as [[[[hit mid] post2] d2]| |]; cbn [rmap bind]; auto.
  change (start (fr r)) with (phi (start r)). rewrite insertUpper_fl.
  destruct (insertUpper (start r) pre d) as [[pre1 d3]| |]; cbn [rmap bind]; auto.
  rewrite <- map_app, insertLower_fl.
  destruct (insertLower (rend r) (pre1 ++ mid) post2 (d2 - 1)) as [[[pre2 post3] d4]| |]; cbn [rmap bind]; auto.
  unfold recompute, frc. cbn [limits recompute_ recomputeSplit_ intervals_]. rewrite <- map_app, scan_fl. auto.
Qed.

Lemma removeFail_fl s r : removeFail (frc s) (fr r) = frc (removeFail s r).
Proof.
  unfold removeFail. cbn [frc limits]. destruct (limits s) as [|x l] eqn:E; cbn [map].
  - auto.
  - change (fl x :: map fl l) with (map fl (x :: l)). rewrite last_fl, bounds_fl. destruct (_ || _); [auto|]. auto.
Qed.

Lemma skipEq_fl v : forall l d, skipEq (fl v) d (map fl l) = let (a, b) := skipEq v d l in (a, map fl b).
Proof.
  induction l as [|x l IH]; intros d; cbn [skipEq map]; [auto|]. rewrite lim_eq_fl.
  destruct (lim_eq x v); [apply IH|auto].
Qed.
Lemma next_fl d l : next d (map fl l) = let (a, b) := next d l in (a, map fl b).
Proof. destruct l as [|x l]; [auto|]. cbn [next map]. change (fl x :: map fl l) with (map fl (x :: l)). apply skipEq_fl. Qed.

Lemma piece_fl s x : mkRange (fst (fl s)) (fst (fl x) - fst (fl s)) = fr (mkRange (fst s) (fst x - fst s)).
Proof. unfold fr, rend; simpl. f_equal. replace (fst s + (fst x - fst s)) with (fst x) by lia. auto. Qed.

Lemma splitLoop_fl : forall fuel d s it acc,
  splitLoop fuel d (fl s) (map fl it) (map fr acc) = rmap (map fr) (splitLoop fuel d s it acc).
Proof.
  induction fuel as [|fuel IH]; intros d s it acc; destruct it as [|x it]; [auto|auto|auto|].
  cbn [splitLoop map].
  assert (C : forall a, (let (d0, it1) := next d (map fl (x :: it)) in
    match it1 with
    | [] => splitLoop fuel d0 (fl x) it1 (map fr a)
    | y :: _ => if d0 =? 0 then let (d', it2) := next d0 it1 in splitLoop fuel d' y it2 (map fr a)
                else splitLoop fuel d0 (fl x) it1 (map fr a)
    end) = rmap (map fr) (let (d0, it1) := next d (x :: it) in
    match it1 with
    | [] => splitLoop fuel d0 x it1 a
    | y :: _ => if d0 =? 0 then let (d', it2) := next d0 it1 in splitLoop fuel d' y it2 a
                else splitLoop fuel d0 x it1 a
    end)).
  { intros a. rewrite next_fl. destruct (next d (x :: it)) as [d0 it1]. destruct it1 as [|y it1]; cbn [map].
    - apply (IH d0 x [] a).
    - change (fl y :: map fl it1) with (map fl (y :: it1)). destruct (d0 =? 0); [|apply IH].
      rewrite next_fl. destruct (next d0 (y :: it1)) as [d' it2]. apply IH. }
  cbn [map] in C. cbn zeta. rewrite piece_fl.
  change (map fr acc ++ [fr (mkRange (fst s) (fst x - fst s))]) with (map fr acc ++ map fr [mkRange (fst s) (fst x - fst s)]).
  rewrite <- map_app. cbn [fl fst snd]. rewrite phi_eqb, phi_sub0.
  destruct (fst s =? fst x); cbn [negb].
  - destruct (_ || _); [apply C|auto].
  - destruct (_ <? 0); [auto|]. apply C.
Qed.

Lemma flatLoop_fl : forall l d s acc,
  flatLoop d (option_map fl s) (map fl l) (map fr acc) = rmap (map fr) (flatLoop d s l acc).
Proof.
  induction l as [|x l IH]; intros d s acc; cbn [flatLoop map]; [auto|].
  cbn [fl snd]. destruct (_ =? 0); [|apply IH]. destruct s as [s|]; cbn [option_map]; [|auto].
  rewrite (piece_fl s x). cbn [fl fst]. rewrite phi_sub0. destruct (_ <? 0); [auto|].
  change (map fr acc ++ [fr (mkRange (fst s) (fst x - fst s))]) with (map fr acc ++ map fr [mkRange (fst s) (fst x - fst s)]).
  rewrite <- map_app, <- IH. f_equal. destruct l; auto.
Qed.

Lemma ranges_fl s b : ranges (frc s) b = rmap (fun '(s', l) => (frc s', map fr l)) (ranges s b).
Proof.
  unfold ranges. cbn [frc limits recompute_ recomputeSplit_ intervals_].
  destruct (negb _ && _); [auto|]. destruct (limits s) as [|x l]; cbn [map]; [auto|].
  change (fl x :: map fl l) with (map fl (x :: l)). destruct b.
  - rewrite next_fl. destruct (next 0 (x :: l)) as [d it]. rewrite map_length.
    change (@nil Range) with (map fr []) at 1. rewrite splitLoop_fl.
    destruct (splitLoop _ d x it []) as [iv| |]; auto.
  - replace (hd_error (map fl (x :: l))) with (option_map fl (hd_error (x :: l))) by auto.
    change (@nil Range) with (map fr []) at 1. rewrite flatLoop_fl.
    destruct (flatLoop 0 _ _ []) as [iv| |]; auto.
Qed.

Lemma maxCount_fl s : maxCount (frc s) = maxCount s.
Proof.
  unfold maxCount. cbn [frc limits]. generalize 0 at 1 3. generalize 0.
  induction (limits s) as [|x l IH]; intros a b; cbn [maxLoop map]; auto.
Qed.
End Relabel.
