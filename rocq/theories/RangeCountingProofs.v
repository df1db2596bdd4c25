Require Import ZArith List Bool Sorting Lia.
Require Import Verif.Base Verif.RangeModel Verif.RangeCountingModel Verif.RangeCountingSpec.
Import ListNotations.
Local Open Scope Z_scope.

Local Arguments Z.add : simpl never.
Local Arguments Z.sub : simpl never.
Local Arguments Z.opp : simpl never.
Local Arguments Z.leb : simpl never.
Local Arguments Z.ltb : simpl never.
Local Arguments Z.eqb : simpl never.

(* ---------- basic measures ---------- *)
Fixpoint dsum (l : list lim) : Z :=
  match l with [] => 0 | e :: r => - tval (snd e) + dsum r end.

Fixpoint cnt (l : list lim) (x : Z) : Z :=
  match l with
  | [] => 0
  | e :: r => (if fst e <=? x then - tval (snd e) else 0) + cnt r x
  end.

Lemma dsum_app a b : dsum (a ++ b) = dsum a + dsum b.
Proof. induction a as [|e a IH]; simpl; lia. Qed.

Lemma cnt_app a b x : cnt (a ++ b) x = cnt a x + cnt b x.
Proof. induction a as [|e a IH]; simpl; lia. Qed.

Lemma cnt_all l x : (forall e, In e l -> fst e <= x) -> cnt l x = dsum l.
Proof.
  induction l as [|e l IH]; simpl; intros H; [easy|].
  rewrite IH by (intros; apply H; auto).
  specialize (H e (or_introl eq_refl)).
  destruct (Z.leb_spec (fst e) x); lia.
Qed.

Lemma cnt_none l x : (forall e, In e l -> x < fst e) -> cnt l x = 0.
Proof.
  induction l as [|e l IH]; simpl; intros H; [easy|].
  rewrite IH by (intros; apply H; auto).
  specialize (H e (or_introl eq_refl)).
  destruct (Z.leb_spec (fst e) x); lia.
Qed.

(* The order on consecutive limits: lexicographic, cuts unique, no Lower and Upper
   at the same place. *)
Definition R (a b : lim) : Prop :=
  fst a < fst b \/
  (fst a = fst b /\
   ((snd a = Lower /\ snd b = Lower) \/ (snd a = Lower /\ snd b = Cut) \/
    (snd a = Cut /\ snd b = Upper) \/ (snd a = Upper /\ snd b = Upper))).

Definition SS := StronglySorted R.

Lemma SS_app a b : SS (a ++ b) <-> SS a /\ SS b /\ (forall x y, In x a -> In y b -> R x y).
Proof.
  unfold SS. induction a as [|e a IH]; simpl.
  - split; [intros H; repeat split; auto; [constructor|intros ? ? []]|tauto].
  - split.
    + intros H. inversion H as [|? ? H1 H2]; subst. apply IH in H1 as (Ha & Hb & Hab).
      rewrite Forall_app in H2. destruct H2 as [F1 F2]. repeat split; auto.
      * constructor; auto.
      * intros x y [->|Hx] Hy; [rewrite Forall_forall in F2; auto|auto].
    + intros (Ha & Hb & Hab). inversion Ha; subst. constructor.
      * apply IH. repeat split; auto.
      * apply Forall_app. split; auto. apply Forall_forall. auto.
Qed.

Lemma SS_cons e l : SS (e :: l) <-> SS l /\ (forall y, In y l -> R e y).
Proof.
  unfold SS. split.
  - intros H; inversion H; subst. split; auto. now apply Forall_forall.
  - intros [H1 H2]. constructor; auto. now apply Forall_forall.
Qed.

Lemma SS_nil : SS [].
Proof. constructor. Qed.

Definition le (a b : lim) : Prop := fst a < fst b \/ (fst a = fst b /\ tval (snd a) <= tval (snd b)).
Definition lt (a b : lim) : Prop := fst a < fst b \/ (fst a = fst b /\ tval (snd a) < tval (snd b)).

Lemma lim_le_spec a b : lim_le a b = true <-> le a b.
Proof.
  unfold lim_le, le. rewrite orb_true_iff, andb_true_iff, Z.ltb_lt, Z.eqb_eq, Z.leb_le. tauto.
Qed.
Lemma lim_le_false a b : lim_le a b = false <-> lt b a.
Proof.
  unfold lim_le, lt. rewrite orb_false_iff, andb_false_iff, Z.ltb_ge, Z.eqb_neq, Z.leb_gt. lia.
Qed.
Lemma teq_spec a b : teq a b = true <-> a = b.
Proof. destruct a, b; cbv; split; congruence. Qed.
Lemma teq_false a b : teq a b = false <-> a <> b.
Proof. destruct a, b; cbv; split; congruence. Qed.
Lemma lim_eq_spec a b : lim_eq a b = true <-> a = b.
Proof.
  unfold lim_eq. rewrite andb_true_iff, Z.eqb_eq, teq_spec.
  destruct a, b; simpl. split; [intros [-> ->]; auto|intros H; inversion H; auto].
Qed.
Lemma lim_eq_false a b : lim_eq a b = false <-> a <> b.
Proof.
  rewrite <- lim_eq_spec. destruct (lim_eq a b); split; congruence.
Qed.
Lemma lt_of_R a b c : lt a b -> R b c -> lt a c.
Proof.
  unfold lt, R. destruct a as [i t], b as [j u], c as [k v]; simpl.
  intros H K. destruct t, u, v; simpl in *; intuition (try lia; try congruence).
Qed.

Lemma R_le a b : R a b -> le a b.
Proof.
  unfold le, R. destruct a as [i t], b as [j u]; simpl.
  intros K. destruct t, u; simpl in *; intuition (try lia; try congruence).
Qed.

(* tactic for relations between concrete limits *)
Ltac limsolve :=
  unfold le, lt, R in *; simpl in *;
  repeat match goal with
         | x : lim |- _ => let i := fresh "i" in let t := fresh "t" in destruct x as [i t]
         end; simpl in *;
  repeat match goal with
         | t : ltype |- _ => destruct t
         end; simpl in *; intuition (try lia; try congruence).

(* ---------- move ---------- *)
Lemma move_ok val cut : forall l d h m p d',
  move val cut d l = Ok (h, m, p, d') ->
  l = m ++ p /\ (forall x, In x m -> le x val) /\
  (forall y p', p = y :: p' -> lt val y) /\ d' = d + dsum m /\
  (forall q q', m = q ++ q' -> q <> [] -> cut <= d + dsum q) /\
  (h = true <-> exists q q', m = q ++ q' /\ q <> [] /\ d + dsum q = cut).
Proof.
  induction l as [|x l IH]; simpl; intros d h m p d' H.
  - inversion H; subst. repeat split; simpl; auto; try easy; try lia.
    + intros q q' E Hq. symmetry in E. apply app_eq_nil in E. tauto.
    + intros (q & q' & E & Hq & _). symmetry in E. apply app_eq_nil in E. tauto.
  - destruct (lim_le x val) eqn:Hle.
    + destruct (Z.ltb_spec (d - tval (snd x)) cut) as [Hc|Hc]; [easy|].
      destruct (move val cut (d - tval (snd x)) l) as [[[[h0 m0] p0] d0]| |] eqn:E; try easy.
      inversion H; subst. apply IH in E as (E1 & E2 & E3 & E4 & E5 & E6). subst.
      apply lim_le_spec in Hle. repeat split; auto.
      * simpl. intros y [->|Hy]; auto.
      * simpl; lia.
      * intros [|y q] q' Eq Hq; [congruence|]. simpl in Eq. inversion Eq; subst y m0.
        simpl. destruct q as [|z q]; [simpl; lia|].
        specialize (E5 (z :: q) q' eq_refl). simpl in *. assert (z :: q <> []) by congruence. 
        specialize (E5 H0). lia.
      * intros Hh. apply orb_true_iff in Hh as [Hh|Hh].
        -- apply Z.eqb_eq in Hh. exists [x], m0. simpl. repeat split; try congruence. lia.
        -- apply E6 in Hh as (q & q' & -> & Hq & Hs). exists (x :: q), q'. simpl.
           repeat split; try congruence. lia.
      * intros (q & q' & Eq & Hq & Hs). destruct q as [|y q]; [congruence|].
        simpl in Eq. inversion Eq; subst y m0. apply orb_true_iff.
        destruct q as [|z q].
        -- left. apply Z.eqb_eq. simpl in Hs. lia.
        -- right. apply E6. exists (z :: q), q'. simpl in *. repeat split; try congruence. lia.
    + inversion H; subst. apply lim_le_false in Hle. repeat split; simpl; auto; try easy; try lia.
      * intros y p' E. inversion E; subst; auto.
      * intros q q' E Hq. symmetry in E. apply app_eq_nil in E. tauto.
      * intros (q & q' & E & Hq & _). symmetry in E. apply app_eq_nil in E. tauto.
Qed.

Lemma move_throw val cut : forall l d,
  move val cut d l = Throw ->
  exists q x q', l = q ++ x :: q' /\ (forall y, In y (q ++ [x]) -> le y val) /\ d + dsum (q ++ [x]) < cut.
Proof.
  induction l as [|x l IH]; simpl; intros d H; [easy|].
  destruct (lim_le x val) eqn:Hle; [|easy]. apply lim_le_spec in Hle.
  destruct (Z.ltb_spec (d - tval (snd x)) cut) as [Hc|Hc].
  - exists [], x, l. simpl. repeat split; try lia. intros y [<-|[]]; auto.
  - destruct (move val cut (d - tval (snd x)) l) as [[[[h0 m0] p0] d0]| |] eqn:E; try easy.
    apply IH in E as (q & y & q' & -> & Hy & Hs). exists (x :: q), y, q'. simpl.
    repeat split; auto; try lia. intros z [<-|Hz]; auto.
Qed.

Lemma move_not_ub val cut : forall l d, move val cut d l <> UB.
Proof.
  induction l as [|x l IH]; simpl; intros d; [easy|].
  destruct (lim_le x val); [|easy].
  destruct (Z.ltb_spec (d - tval (snd x)) cut); [easy|].
  specialize (IH (d - tval (snd x))).
  destruct (move val cut (d - tval (snd x)) l) as [[[[h0 m0] p0] d0]| |]; easy.
Qed.

Lemma SS_after val p : SS p -> (forall y p', p = y :: p' -> lt val y) -> forall y, In y p -> lt val y.
Proof.
  intros HS H y Hy. destruct p as [|z p]; [easy|].
  specialize (H z p eq_refl). destruct Hy as [<-|Hy]; auto.
  apply SS_cons in HS as [_ HR]. eapply lt_of_R; eauto.
Qed.

(* ---------- prefixes of a sorted list and counts ---------- *)
Lemma cnt_prefix : forall l x, SS l ->
  exists a b, l = a ++ b /\ (forall e, In e a -> fst e <= x) /\ (forall e, In e b -> x < fst e)
              /\ cnt l x = dsum a.
Proof.
  induction l as [|e l IH]; intros x H.
  - exists [], []. simpl. repeat split; try easy.
  - apply SS_cons in H as [H1 H2].
    destruct (Z.leb_spec (fst e) x).
    + destruct (IH x H1) as (a & b & -> & Ha & Hb & Hs). exists (e :: a), b. simpl. repeat split; auto.
      * intros y [<-|Hy]; auto.
      * destruct (Z.leb_spec (fst e) x); lia.
    + exists [], (e :: l). simpl. repeat split; try easy.
      * intros y [<-|Hy]; auto. apply H2 in Hy. unfold R in Hy. lia.
      * destruct (Z.leb_spec (fst e) x); [lia|]. rewrite cnt_none; [lia|].
        intros y Hy. apply H2 in Hy. unfold R in Hy. lia.
Qed.

(* After a prefix whose remaining elements are at i (not Lower) or later, the
   depth is at least the count at i. *)
Lemma prefix_ge_cnt a b i :
  (forall e, In e a -> fst e <= i) ->
  (forall e, In e b -> i < fst e \/ (fst e = i /\ snd e <> Lower)) ->
  cnt (a ++ b) i <= dsum a.
Proof.
  intros Ha Hb. rewrite cnt_app, (cnt_all a) by auto.
  assert (cnt b i <= 0); [|lia].
  clear a Ha. induction b as [|e b IH]; simpl; [lia|].
  assert (cnt b i <= 0) by (apply IH; intros; apply Hb; right; auto).
  specialize (Hb e (or_introl eq_refl)).
  destruct (Z.leb_spec (fst e) i); [|lia].
  destruct Hb as [Hb|[_ Hb]]; [lia|]. destruct (snd e); simpl; try lia. congruence.
Qed.

(* symmetric: elements at i in the prefix are not Upper, then depth >= count at i-1 *)
Lemma prefix_ge_cnt_pred a b i :
  (forall e, In e a -> fst e < i \/ (fst e = i /\ snd e <> Upper)) ->
  (forall e, In e b -> i <= fst e) ->
  cnt (a ++ b) (i - 1) <= dsum a.
Proof.
  intros Ha Hb. rewrite cnt_app, (cnt_none b) by (intros e He; apply Hb in He; lia).
  clear b Hb. induction a as [|e a IH]; simpl; [lia|].
  assert (cnt a (i - 1) + 0 <= dsum a) by (apply IH; intros; apply Ha; right; auto).
  specialize (Ha e (or_introl eq_refl)).
  destruct (Z.leb_spec (fst e) (i - 1)); [lia|].
  destruct Ha as [Ha|[_ Ha]]; [lia|]. destruct (snd e); simpl; try lia. congruence.
Qed.

Lemma prefix_le_cnt a b i :
  (forall e, In e a -> fst e <= i) ->
  (forall e, In e b -> i < fst e \/ (fst e = i /\ snd e <> Upper)) ->
  dsum a <= cnt (a ++ b) i.
Proof.
  intros Ha Hb. rewrite cnt_app, (cnt_all a) by auto.
  assert (0 <= cnt b i); [|lia].
  clear a Ha. induction b as [|e b IH]; simpl; [lia|].
  assert (0 <= cnt b i) by (apply IH; intros; apply Hb; right; auto).
  specialize (Hb e (or_introl eq_refl)).
  destruct (Z.leb_spec (fst e) i); [|lia].
  destruct Hb as [Hb|[_ Hb]]; [lia|]. destruct (snd e); simpl; try lia. congruence.
Qed.

Lemma prefix_le_cnt_pred a b i :
  (forall e, In e a -> fst e < i \/ (fst e = i /\ snd e <> Lower)) ->
  (forall e, In e b -> i <= fst e) ->
  dsum a <= cnt (a ++ b) (i - 1).
Proof.
  intros Ha Hb. rewrite cnt_app, (cnt_none b) by (intros e He; apply Hb in He; lia).
  clear b Hb. induction a as [|e a IH]; simpl; [lia|].
  assert (dsum a <= cnt a (i - 1) + 0) by (apply IH; intros; apply Ha; right; auto).
  specialize (Ha e (or_introl eq_refl)).
  destruct (Z.leb_spec (fst e) (i - 1)); [lia|].
  destruct Ha as [Ha|[_ Ha]]; [lia|]. destruct (snd e); simpl; try lia. congruence.
Qed.

(* The depth right after an element. *)
Lemma after_elem a i t b :
  SS (a ++ (i, t) :: b) ->
  let l := a ++ (i, t) :: b in let d := dsum (a ++ [(i, t)]) in
  (t <> Lower -> cnt l i <= d) /\ (t <> Upper -> cnt l (i - 1) <= d) /\
  (t = Lower -> cnt l (i - 1) + 1 <= d) /\
  (t <> Upper -> d <= cnt l i \/ (t = Cut /\ d <= cnt l (i - 1))) /\
  (t = Upper -> d + 1 <= cnt l (i - 1)).
Proof.
  intros HS l d. pose proof HS as HS0.
  apply SS_app in HS as (HSa & HSb & Hab). apply SS_cons in HSb as (HSb & Hb).
  assert (Ea : forall e, In e a -> R e (i, t)) by (intros; apply Hab; simpl; auto).
  assert (El : l = (a ++ [(i, t)]) ++ b) by (unfold l; rewrite <- app_assoc; reflexivity).
  repeat split.
  - intros Ht. rewrite El. apply prefix_ge_cnt.
    + intros e He. apply in_app_iff in He as [He|[<-|[]]]; [apply Ea in He; unfold R in He; simpl in *; lia|simpl; lia].
    + intros e He. apply Hb in He. limsolve.
  - intros Ht. rewrite El. apply prefix_ge_cnt_pred.
    + intros e He. apply in_app_iff in He as [He|[<-|[]]].
      * apply Ea in He. destruct e as [j u]. unfold R in He. simpl in *. destruct t, u; intuition (try lia; try congruence).
      * simpl. auto.
    + intros e He. apply Hb in He. unfold R in He. simpl in *. lia.
  - intros ->. unfold l, d. rewrite dsum_app. simpl.
    assert (cnt (a ++ (i, Lower) :: b) (i - 1) <= dsum a); [|lia].
    apply prefix_ge_cnt_pred.
    + intros e He. apply Ea in He. limsolve.
    + intros e [<-|He]; [simpl; lia|]. apply Hb in He. unfold R in He. simpl in *. lia.
  - intros Ht. destruct t; [left| |congruence].
    + rewrite El. apply prefix_le_cnt.
      * intros e He. apply in_app_iff in He as [He|[<-|[]]]; [apply Ea in He; unfold R in He; simpl in *; lia|simpl; lia].
      * intros e He. apply Hb in He. limsolve.
    + (* Cut: either the elements at i before are Lower, or there are none *)
      assert (Hd : (exists e, In e a /\ fst e = i) \/ (forall e, In e a -> fst e < i)).
      { clear - Ea. induction a as [|e a IH]; [right; easy|].
        destruct (Z.eq_dec (fst e) i) as [E|E]; [left; exists e; simpl; auto|].
        destruct IH as [(f & Hf & Hi)|IH]; [intros; apply Ea; right; auto|left; exists f; simpl; auto|].
        right. intros f [<-|Hf]; auto. specialize (Ea e (or_introl eq_refl)). unfold R in Ea. simpl in *. lia. }
      destruct Hd as [(e & He & Hi)|Hn].
      * left. rewrite El. apply prefix_le_cnt.
        -- intros f Hf. apply in_app_iff in Hf as [Hf|[<-|[]]]; [apply Ea in Hf; unfold R in Hf; simpl in *; lia|simpl; lia].
        -- intros f Hf. assert (R e f) by (apply Hab; [auto|simpl; auto]).
           pose proof (Ea e He) as He2. pose proof (Hb f Hf) as Hf2. destruct e as [j u], f as [k v]. simpl in *. subst j.
           unfold R in *. simpl in *. destruct u, v; intuition (try lia; try congruence).
      * right. split; auto. rewrite El. apply prefix_le_cnt_pred.
        -- intros f Hf. apply in_app_iff in Hf as [Hf|[<-|[]]]; [left; auto|right; simpl; split; auto; congruence].
        -- intros f Hf. apply Hb in Hf. unfold R in Hf. simpl in *. lia.
  - intros ->. unfold d. rewrite dsum_app. simpl.
    assert (dsum a <= cnt l (i - 1)); [|lia]. unfold l.
    apply prefix_le_cnt_pred.
    + intros e He. apply Ea in He. limsolve.
    + intros e [<-|He]; [simpl; lia|]. apply Hb in He. unfold R in He. simpl in *. lia.
Qed.

(* ---------- insertion ---------- *)
Definition ge (i x : Z) : Z := if i <=? x then 1 else 0.

Lemma insertUpper_ok i pre post d :
  SS (pre ++ post) -> pre <> [] ->
  (forall x, In x pre -> le x (i, Cut)) -> (forall y, In y post -> lt (i, Cut) y) ->
  exists pre', insertUpper i pre d = Ok (pre', d - 1) /\ SS (pre' ++ post) /\
    (forall x, cnt pre' x = cnt pre x - ge i x) /\ dsum pre' = dsum pre - 1 /\
    (forall j, In (j, Cut) pre' -> In (j, Cut) pre \/ j = i) /\
    (forall x, In x pre' -> fst x <= i).
Proof.
  intros HS Hne Hpre Hpost. unfold insertUpper.
  destruct (rev pre) as [|p pr] eqn:Er.
  { apply (f_equal (@rev _)) in Er. rewrite rev_involutive in Er. simpl in Er. congruence. }
  apply (f_equal (@rev _)) in Er. rewrite rev_involutive in Er. simpl in Er. subst pre.
  set (a := rev pr) in *.
  assert (Hp : le p (i, Cut)) by (apply Hpre; apply in_app_iff; simpl; auto).
  rewrite <- app_assoc in HS. simpl in HS.
  pose proof HS as HS0. apply SS_app in HS as (HSa & HSp & Hap). apply SS_cons in HSp as (HSp & Hpp).
  destruct (lim_eq p (i, Upper)) eqn:E1.
  { apply lim_eq_spec in E1. subst p. limsolve. }
  assert (Hins : (forall x, In x (a ++ [p]) -> R x (i, Upper)) ->
    exists pre', Ok ((a ++ [p]) ++ [(i, Upper)], d - 1) = Ok (pre', d - 1) /\ SS (pre' ++ post) /\
    (forall x, cnt pre' x = cnt (a ++ [p]) x - ge i x) /\ dsum pre' = dsum (a ++ [p]) - 1 /\
    (forall j, In (j, Cut) pre' -> In (j, Cut) (a ++ [p]) \/ j = i) /\
    (forall x, In x pre' -> fst x <= i)).
  { intros HR. eexists. split; [reflexivity|]. split; [|split; [|split; [|split]]].
    - rewrite <- app_assoc. apply SS_app. split; [|split].
      + apply SS_app. split; [assumption|]. split; [apply SS_cons; split; [apply SS_nil|easy]|].
        intros x y Hx [<-|[]]. apply Hap; simpl; auto.
      + simpl. apply SS_cons. split; auto. intros y Hy. apply Hpost in Hy. limsolve.
      + intros x y Hx [<-|Hy]; auto. apply in_app_iff in Hx as [Hx|[<-|[]]]; auto.
        apply Hap; simpl; auto.
    - intros x. rewrite !cnt_app. simpl. unfold ge. destruct (Z.leb_spec i x); lia.
    - rewrite !dsum_app. simpl. lia.
    - intros j Hj. apply in_app_iff in Hj as [Hj|[Hj|[]]]; auto. congruence.
    - intros x Hx. apply in_app_iff in Hx as [Hx|[<-|[]]]; [|simpl; lia].
      apply Hpre in Hx. unfold le in Hx. simpl in Hx. lia. }
  destruct (Z.eqb_spec i (fst p)) as [Ei|Ei].
  2:{ apply Hins. intros x Hx. left. simpl. apply in_app_iff in Hx as [Hx|[<-|[]]].
      - assert (R x p) by (apply Hap; simpl; auto). unfold R, le in *; simpl in *. lia.
      - unfold le in Hp; simpl in *. lia. }
  assert (Hpost_i : forall y, In y post -> R (i, Cut) y) by (intros y Hy; apply Hpost in Hy; limsolve).
  assert (Hlow : snd p = Lower -> exists pre', (if d =? 1 then Ok (a, d - 1) else Ok (a ++ [(fst p, Cut)], d - 1)) = Ok (pre', d - 1)
    /\ SS (pre' ++ post) /\
    (forall x, cnt pre' x = cnt (a ++ [p]) x - ge i x) /\ dsum pre' = dsum (a ++ [p]) - 1 /\
    (forall j, In (j, Cut) pre' -> In (j, Cut) (a ++ [p]) \/ j = i) /\
    (forall x, In x pre' -> fst x <= i)).
  { intros Hl. destruct p as [pi pt]. simpl in *. subst pi pt.
    destruct (Z.eqb_spec d 1).
    - eexists. split; [reflexivity|]. split; [|split; [|split; [|split]]].
      + apply SS_app; split; [auto|split; [auto|]]; intros; apply Hap; simpl; auto.
      + intros x. rewrite cnt_app. simpl. unfold ge. destruct (Z.leb_spec i x); lia.
      + rewrite dsum_app. simpl. lia.
      + intros j Hj. left. apply in_app_iff; auto.
      + intros x Hx. assert (In x (a ++ [(i, Lower)])) by (apply in_app_iff; auto).
        apply Hpre in H. unfold le in H. simpl in H. lia.
    - eexists. split; [reflexivity|]. split; [|split; [|split; [|split]]].
      + rewrite <- app_assoc. simpl. apply SS_app. split; [assumption|]. split.
        * apply SS_cons. split; [assumption|]; auto.
        * intros x y Hx [<-|Hy]; [|apply Hap; simpl; auto].
          assert (R x (i, Lower)) by (apply Hap; simpl; auto). limsolve.
      + intros x. rewrite !cnt_app. simpl. unfold ge. destruct (Z.leb_spec i x); lia.
      + rewrite !dsum_app. simpl. lia.
      + intros j Hj. apply in_app_iff in Hj as [Hj|[Hj|[]]]; [left; apply in_app_iff; auto|].
        inversion Hj. auto.
      + intros x Hx. apply in_app_iff in Hx as [Hx|[<-|[]]]; [|simpl; lia].
        assert (In x (a ++ [(i, Lower)])) by (apply in_app_iff; auto).
        apply Hpre in H. unfold le in H. simpl in H. lia. }
  destruct (snd p) eqn:Et.
  - apply Hlow; auto.
  - (* Cut *)
    destruct pr as [|q pr'].
    + apply Hins. simpl in a. subst a. intros x [<-|[]]. limsolve.
    + destruct (lim_eq q (i, Lower)) eqn:Eq.
      * apply lim_eq_spec in Eq. subst q. simpl in a. subst a. set (a := rev pr') in *.
        rewrite <- app_assoc in HS0. simpl in HS0.
        apply SS_app in HS0 as (HSa' & HSq & Haq). apply SS_cons in HSq as (HSq & Hqq).
        destruct p as [pi pt]. simpl in *. subst pi pt.
        exists (if d =? 0 then a else a ++ [(i, Cut)]).
        destruct (Z.eqb_spec d 0); (split; [reflexivity|split; [|split; [|split; [|split]]]]).
        -- apply SS_app; split; [auto|split; [auto|]]; intros; apply Haq; simpl; auto.
        -- intros x. rewrite !cnt_app. simpl. unfold ge. destruct (Z.leb_spec i x); lia.
        -- rewrite !dsum_app. simpl. lia.
        -- intros j Hj. left. apply in_app_iff. left. apply in_app_iff; auto.
        -- intros x Hx. assert (In x ((a ++ [(i, Lower)]) ++ [(i, Cut)])) by (rewrite !in_app_iff; auto).
           apply Hpre in H. unfold le in H. simpl in H. lia.
        -- rewrite <- app_assoc. simpl. apply SS_app. split; [assumption|]. split.
           ++ apply SS_cons. split; [assumption|]; auto.
           ++ intros x y Hx [<-|Hy]; apply Haq; simpl; auto.
        -- intros x. rewrite !cnt_app. simpl. unfold ge. destruct (Z.leb_spec i x); lia.
        -- rewrite !dsum_app. simpl. lia.
        -- intros j Hj. left. apply in_app_iff in Hj as [Hj|Hj]; apply in_app_iff; auto.
           left. apply in_app_iff; auto.
        -- intros x Hx. apply in_app_iff in Hx as [Hx|[<-|[]]]; [|simpl; lia].
           assert (In x ((a ++ [(i, Lower)]) ++ [(i, Cut)])) by (rewrite !in_app_iff; auto).
           apply Hpre in H. unfold le in H. simpl in H. lia.
      * apply lim_eq_false in Eq. apply Hins. intros x Hx.
        apply in_app_iff in Hx as [Hx|[<-|[]]]; [|limsolve].
        assert (Hxp : R x p) by (apply Hap; simpl; auto).
        destruct p as [pi pt]; simpl in *; subst pi pt.
        subst a. apply in_app_iff in Hx as [Hx|[<-|[]]].
        -- apply SS_app in HSa as (_ & _ & Hq). specialize (Hq x q Hx (or_introl eq_refl)).
           assert (R q (i, Cut)) by (apply Hap; [apply in_app_iff|]; simpl; auto).
           clear - Eq Hq H Hxp.
           destruct q as [qi qt], x as [xi xt]. unfold R in *; simpl in *.
           destruct qt, xt; intuition (try lia; try congruence).
        -- destruct q as [qi qt]. unfold R in *; simpl in *.
           destruct qt; intuition (subst; try lia; try congruence).
  - destruct p as [pi pt]; simpl in *; subst. apply lim_eq_false in E1. congruence.
Qed.

Lemma insertLower_ok i pre post d :
  SS (pre ++ post) -> post <> [] ->
  (forall x, In x pre -> le x (i, Lower)) -> (forall y, In y post -> lt (i, Lower) y) ->
  exists pre' post' d', insertLower i pre post d = Ok (pre', post', d') /\ SS (pre' ++ post') /\
    (forall x, cnt (pre' ++ post') x = cnt (pre ++ post) x + ge i x) /\
    d' - dsum pre' = d - dsum pre /\ dsum (pre' ++ post') = dsum (pre ++ post) + 1 /\
    (forall j, In (j, Cut) (pre' ++ post') -> In (j, Cut) (pre ++ post) \/ j = i) /\
    (forall x, In x pre' -> fst x <= i) /\ (forall y, In y post' -> lt (i, Lower) y).
Proof.
  intros HS Hne Hpre Hpost. unfold insertLower.
  destruct post as [|[j t] rest]; [congruence|].
  assert (Hj : lt (i, Lower) (j, t)) by (apply Hpost; simpl; auto).
  apply SS_app in HS as (HSpre & HSpost & HR). pose proof HSpost as HSpost0.
  apply SS_cons in HSpost as (HSr & Hr).
  assert (Hprei : forall x, In x pre -> R x (i, Lower)) by (intros x Hx; apply Hpre in Hx; limsolve).
  assert (Hprei2 : forall x, In x pre -> R x (i, Cut)) by (intros x Hx; apply Hpre in Hx; limsolve).
  assert (Hfst : forall x, In x pre -> fst x <= i) by (intros x Hx; apply Hpre in Hx; unfold le in Hx; simpl in *; lia).
  assert (Hins : (forall y, In y ((j, t) :: rest) -> R (i, Lower) y) ->
    exists pre' post' d', Ok (pre ++ [(i, Lower)], (j, t) :: rest, d + 1) = Ok (pre', post', d') /\
    SS (pre' ++ post') /\
    (forall x, cnt (pre' ++ post') x = cnt (pre ++ (j, t) :: rest) x + ge i x) /\
    d' - dsum pre' = d - dsum pre /\ dsum (pre' ++ post') = dsum (pre ++ (j, t) :: rest) + 1 /\
    (forall k, In (k, Cut) (pre' ++ post') -> In (k, Cut) (pre ++ (j, t) :: rest) \/ k = i) /\
    (forall x, In x pre' -> fst x <= i) /\ (forall y, In y post' -> lt (i, Lower) y)).
  { intros HRi. do 3 eexists. split; [reflexivity|]. repeat split.
    - rewrite <- app_assoc. apply SS_app. split; [assumption|]. split.
      + simpl. apply SS_cons. split; [assumption|]; auto.
      + intros x y Hx Hy. simpl in Hy. destruct Hy as [<-|Hy]; auto.
    - intros x. rewrite !cnt_app. simpl. unfold ge. destruct (Z.leb_spec i x); lia.
    - rewrite dsum_app. simpl. lia.
    - rewrite !dsum_app. simpl. lia.
    - intros k Hk. rewrite !in_app_iff in *. destruct Hk as [[Hk|[Hk|[]]]|Hk]; auto. congruence.
    - intros x Hx. apply in_app_iff in Hx as [Hx|[<-|[]]]; [auto|simpl; lia].
    - apply Hpost. }
  destruct (Z.eqb_spec i j) as [E|E].
  2:{ apply Hins. intros y [<-|Hy].
      - left. unfold lt in Hj. simpl in *. lia.
      - left. apply Hr in Hy. unfold R, lt in *. simpl in *. lia. }
  subst j. destruct t.
  - unfold lt in Hj. simpl in Hj. lia.
  - destruct rest as [|n rest'].
    { apply Hins. intros y [<-|[]]. limsolve. }
    destruct (lim_eq n (i, Upper)) eqn:En.
    + apply lim_eq_spec in En. subst n. apply SS_cons in HSr as (HSr & Hr').
      exists (if d =? 0 then pre else pre ++ [(i, Cut)]), rest', d. split; [reflexivity|].
      assert (HS' : SS ((if d =? 0 then pre else pre ++ [(i, Cut)]) ++ rest')).
      { destruct (d =? 0).
        - apply SS_app; split; [auto|split; [auto|]]; intros; apply HR; simpl; auto.
        - rewrite <- app_assoc. simpl. apply SS_app. split; [assumption|]. split.
          + apply SS_cons. split; auto. intros y Hy. apply Hr. simpl; auto.
          + intros x y Hx [<-|Hy]; apply HR; simpl; auto. }
      split; [exact HS'|]. repeat split.
      * intros x. destruct (d =? 0); rewrite !cnt_app; simpl; unfold ge; destruct (Z.leb_spec i x); lia.
      * destruct (d =? 0); rewrite ?dsum_app; simpl; lia.
      * destruct (d =? 0); rewrite ?dsum_app; simpl; lia.
      * intros k Hk. left. rewrite in_app_iff. simpl. destruct (d =? 0); rewrite ?in_app_iff in Hk; simpl in Hk; tauto.
      * intros x Hx. destruct (d =? 0); auto. apply in_app_iff in Hx as [Hx|[<-|[]]]; simpl; auto; lia.
      * intros y Hy. apply Hpost. simpl; auto.
    + apply lim_eq_false in En. apply Hins. intros y [<-|Hy]; [limsolve|].
      left. simpl. assert (Hn : R (i, Cut) n) by (apply Hr; simpl; auto).
      assert (Hni : i < fst n).
      { destruct n as [ni nt]. unfold R in Hn. simpl in *. destruct nt; intuition (try lia; try congruence). }
      destruct Hy as [<-|Hy]; auto. apply SS_cons in HSr as (_ & Hr'). apply Hr' in Hy. unfold R in Hy. lia.
  - destruct (Z.eqb_spec d 0).
    + exists pre, rest, d. split; [reflexivity|]. repeat split; auto.
      * apply SS_app; split; [auto|split; [auto|]]; intros; apply HR; simpl; auto.
      * intros x. rewrite !cnt_app. simpl. unfold ge. destruct (Z.leb_spec i x); lia.
      * rewrite !dsum_app. simpl. lia.
      * intros k Hk. left. rewrite in_app_iff in *. simpl. tauto.
      * intros y Hy. apply Hpost. simpl; auto.
    + exists (pre ++ [(i, Cut)]), rest, d. split; [reflexivity|]. repeat split; auto.
      * rewrite <- app_assoc. simpl. apply SS_app. split; [assumption|]. split.
        -- apply SS_cons. split; auto. intros y Hy. apply Hr in Hy. limsolve.
        -- intros x y Hx [<-|Hy]; auto. apply HR; simpl; auto.
      * intros x. rewrite !cnt_app. simpl. unfold ge. destruct (Z.leb_spec i x); lia.
      * rewrite !dsum_app. simpl. lia.
      * rewrite !dsum_app. simpl. lia.
      * intros k Hk. rewrite !in_app_iff in *. simpl in *. destruct Hk as [[Hk|[Hk|[]]]|Hk]; auto.
        inversion Hk; auto.
      * intros x Hx. apply in_app_iff in Hx as [Hx|[<-|[]]]; [auto|simpl; lia].
      * intros y Hy. apply Hpost. simpl; auto.
Qed.
