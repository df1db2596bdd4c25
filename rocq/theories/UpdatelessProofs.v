(* Proofs about UpdatelessModel: every call is a list of writes to whole variables or derivatives. *)
From Coq Require Import List Bool Arith QArith Lia.
Import ListNotations.
From Verif Require Import Base UpdatelessModel UpdatelessSpec.
Local Open Scope nat_scope.

Definition wr := (bool * var * list Q)%type.
Definition apply1 (m : mem) (w : wr) : mem := let '(k, x, v) := w in if (k : bool) then put m (blk x) (off x) v else put m (dblk x) (doff x) v.
Definition apply (ws : list wr) (m : mem) : mem := fold_left apply1 ws m.
Definition okw (xs : list var) (w : wr) : Prop := let '(k, x, v) := w in In x xs /\ length v = if (k : bool) then sz x else dsz x.
Definition isValue (w : wr) : bool := fst (fst w).
Fixpoint lastw (k : bool) (n : nat) (ws : list wr) (d : list Q) : list Q :=
  match ws with [] => d | (k', x, v) :: r => lastw k n r (if eqb k' k && (vid x =? n) then v else d) end.

Lemma map_seq_nth : forall (v : list Q) (f : nat -> Q) o, (forall i, i < length v -> f (o + i) = nth i v 0%Q) -> map f (seq o (length v)) = v.
Proof.
  induction v as [|a v IH]; intros f o H; [reflexivity|]. cbn [length seq map]. f_equal.
  - rewrite <- (Nat.add_0_r o), H; [reflexivity|cbn; lia].
  - apply IH. intros i Hi. replace (S o + i) with (o + S i) by lia. rewrite H; [reflexivity|cbn; lia].
Qed.
Lemma put_same : forall m b o v, map (put m b o v b) (seq o (length v)) = v.
Proof.
  intros. apply map_seq_nth. intros i Hi. unfold put. rewrite Nat.eqb_refl, (proj2 (Nat.leb_le _ _)), (proj2 (Nat.ltb_lt _ _)) by lia. cbn. f_equal. lia.
Qed.
Lemma put_out : forall m b o v b' c, ~ (b' = b /\ o <= c < o + length v) -> put m b o v b' c = m b' c.
Proof. intros m b o v b' c H. unfold put. destruct (Nat.eqb_spec b' b), (Nat.leb_spec o c), (Nat.ltb_spec c (o + length v)); cbn; try reflexivity. exfalso. auto. Qed.
Lemma put_other : forall m b o v b' o' n, (forall c, o' <= c < o' + n -> ~ (b' = b /\ o <= c < o + length v)) -> map (put m b o v b') (seq o' n) = map (m b') (seq o' n).
Proof. intros. apply map_ext_in. intros c I. apply in_seq in I. apply put_out. auto. Qed.

Lemma vid_inj : forall xs x y, NoDup (map vid xs) -> In x xs -> In y xs -> vid x = vid y -> x = y.
Proof.
  induction xs as [|a xs IH]; intros x y N X Y E; [destruct X|]. cbn in N. inversion N; subst. destruct X as [->|X], Y as [->|Y]; auto.
  - exfalso. match goal with H : ~ In _ _ |- _ => apply H end. rewrite E. now apply in_map.
  - exfalso. match goal with H : ~ In _ _ |- _ => apply H end. rewrite <- E. now apply in_map.
Qed.
Lemma apart_vid : forall (P Q' : var -> nat -> nat -> Prop) xs x y, (forall i j x y, i <> j -> nth_error xs i = Some x -> nth_error xs j = Some y -> forall b c, P x b c -> Q' y b c -> False) ->
  In x xs -> In y xs -> vid x <> vid y -> forall b c, P x b c -> Q' y b c -> False.
Proof.
  intros P Q' xs x y H X Y N. apply In_nth_error in X as [i X]. apply In_nth_error in Y as [j Y]. apply (H i j x y); auto. intros ->. congruence.
Qed.

Lemma value_after : forall xs ws m x, apartV xs -> (forall w, In w ws -> okw xs w) -> In x xs ->
  (forall w, In w ws -> isValue w = true) \/ apartD xs ->
  valueOf (apply ws m) x = lastw true (vid x) ws (valueOf m x).
Proof.
  intros xs. induction ws as [|[[k y] v] ws IH]; intros m x A W X K; [reflexivity|]. cbn [apply fold_left apply1 lastw]. destruct (W _ (or_introl eq_refl)) as [Y L].
  change (valueOf (apply ws (if k then put m (blk y) (off y) v else put m (dblk y) (doff y) v)) x = lastw true (vid x) ws (if eqb k true && (vid y =? vid x) then v else valueOf m x)).
  assert (E : valueOf (if k then put m (blk y) (off y) v else put m (dblk y) (doff y) v) x = if eqb k true && (vid y =? vid x) then v else valueOf m x).
  { destruct k; cbn [eqb andb].
    - destruct (Nat.eqb_spec (vid y) (vid x)) as [E|E].
      + assert (y = x) as -> by (eapply vid_inj; eauto; apply A). unfold valueOf. rewrite <- L. apply put_same.
      + unfold valueOf. apply put_other. intros c Hc [B C]. rewrite L in C. apply (apart_vid inValue inValue xs x y (proj2 A) X Y) with (b := blk x) (c := c); [congruence|split; auto|split; auto].
    - destruct K as [K|K]; [specialize (K _ (or_introl eq_refl)); discriminate|]. unfold valueOf. apply put_other. intros c Hc [B C]. rewrite L in C.
      apply (proj2 (proj2 K) x y X Y (blk x) c); [split; auto|split; auto]. }
  rewrite <- E. apply IH; auto. { intros w I. apply W. now right. } destruct K as [K|K]; [left; intros w I; apply K; now right|now right].
Qed.
Lemma vel_after : forall xs ws m x, apartD xs -> (forall w, In w ws -> okw xs w) -> In x xs ->
  velOf (apply ws m) x = lastw false (vid x) ws (velOf m x).
Proof.
  intros xs. induction ws as [|[[k y] v] ws IH]; intros m x A W X; [reflexivity|]. cbn [apply fold_left apply1 lastw]. destruct (W _ (or_introl eq_refl)) as [Y L].
  change (velOf (apply ws (if k then put m (blk y) (off y) v else put m (dblk y) (doff y) v)) x = lastw false (vid x) ws (if eqb k false && (vid y =? vid x) then v else velOf m x)).
  assert (E : velOf (if k then put m (blk y) (off y) v else put m (dblk y) (doff y) v) x = if eqb k false && (vid y =? vid x) then v else velOf m x).
  { destruct k; cbn [eqb andb].
    - unfold velOf. apply put_other. intros c Hc [B C]. rewrite L in C. apply (proj2 (proj2 A) y x Y X (dblk x) c); [split; auto|split; auto].
    - destruct (Nat.eqb_spec (vid y) (vid x)) as [E|E].
      + assert (y = x) as -> by (eapply vid_inj; eauto; apply A). unfold velOf. rewrite <- L. apply put_same.
      + unfold velOf. apply put_other. intros c Hc [B C]. rewrite L in C. apply (apart_vid inVel inVel xs x y (proj1 (proj2 A)) X Y) with (b := dblk x) (c := c); [congruence|split; auto|split; auto]. }
  rewrite <- E. apply IH; auto. intros w I. apply W. now right.
Qed.
Lemma frame : forall xs ws m b c, (forall w, In w ws -> okw xs w) -> (forall x, In x xs -> ~ inValue x b c) ->
  (forall w, In w ws -> isValue w = true) \/ (forall x, In x xs -> ~ inVel x b c) -> apply ws m b c = m b c.
Proof.
  intros xs. induction ws as [|[[k y] v] ws IH]; intros m b c W V K; [reflexivity|]. destruct (W _ (or_introl eq_refl)) as [Y L]. cbn [apply fold_left].
  change (apply ws (apply1 m (k, y, v)) b c = m b c). rewrite IH; auto.
  - cbn [apply1]. destruct k.
    + apply put_out. intros [B C]. rewrite L in C. apply (V y Y). split; auto.
    + destruct K as [K|K]; [specialize (K _ (or_introl eq_refl)); discriminate|]. apply put_out. intros [B C]. rewrite L in C. apply (K y Y). split; auto.
  - intros w I. apply W. now right.
  - destruct K as [K|K]; [left; intros w I; apply K; now right|now right].
Qed.
Lemma apply_app : forall a b m, apply (a ++ b) m = apply b (apply a m).
Proof. intros. apply fold_left_app. Qed.
Lemma lastw_app : forall k n a b d, lastw k n (a ++ b) d = lastw k n b (lastw k n a d).
Proof. intros k n. induction a as [|[[k' x] v] a IH]; intros b d; [reflexivity|]. cbn [app lastw]. apply IH. Qed.

(* Throwing or ending with a list of writes. *)
Definition ends (xs : list var) (vonly : bool) (ok : bool) (m : mem) (r : outcome) : Prop :=
  exists ws, (forall w, In w ws -> okw xs w) /\ (vonly = true -> forall w, In w ws -> isValue w = true) /\ r = (if ok then Done (apply ws m) else Threw (apply ws m)).
Lemma ends_threw : forall xs b m, ends xs b false m (Threw m).
Proof. intros. exists []. split; [intros w []|]. split; [intros _ w []|reflexivity]. Qed.
Lemma ends_next : forall xs b m ws f ok, (forall w, In w ws -> okw xs w) -> (b = true -> forall w, In w ws -> isValue w = true) ->
  (forall m', ends xs b ok m' (f m')) -> ends xs b ok m (next (Done (apply ws m)) f).
Proof.
  intros xs b m ws f ok W V H. cbn [next]. destruct (H (apply ws m)) as (ws' & W' & V' & ->). exists (ws ++ ws'). split; [intros w I; apply in_app_or in I as [I|I]; auto|].
  split; [intros B w I; apply in_app_or in I as [I|I]; auto|]. now rewrite apply_app.
Qed.

Lemma assignI_ok : forall xs i x v k m, nth_error xs i = Some x -> length v = (if (k : bool) then sz x else dsz x) -> assignI xs i v k m = Done (apply [(k, x, v)] m).
Proof. intros xs i x v k m E L. unfold assignI, set, dset. rewrite E. destruct k; rewrite L, Nat.eqb_refl; reflexivity. Qed.
Lemma assignI_bad : forall xs i v k m, (forall x, nth_error xs i = Some x -> length v <> (if (k : bool) then sz x else dsz x)) -> assignI xs i v k m = Threw m.
Proof. intros xs i v k m H. unfold assignI. destruct (nth_error xs i) as [x|]; [|reflexivity]. specialize (H x eq_refl). destruct k; now rewrite (proj2 (Nat.eqb_neq _ _) H). Qed.
Lemma assignX_ok : forall xs n x v k m, NoDup (map vid xs) -> In x xs -> vid x = n -> length v = (if (k : bool) then sz x else dsz x) -> assignX xs n v k m = Done (apply [(k, x, v)] m).
Proof.
  intros xs n x v k m N X E L. unfold assignX. destruct xs as [|x0 xs]; [destruct X|]. destruct (find (fun x1 => vid x1 =? n) (x0 :: xs)) as [y|] eqn:F.
  - apply find_some in F as [Y F]. apply Nat.eqb_eq in F. assert (y = x) as -> by (eapply vid_inj; eauto; congruence). unfold set, dset. destruct k; rewrite L, Nat.eqb_refl; reflexivity.
  - exfalso. apply (find_none _ _ F) in X. rewrite E, Nat.eqb_refl in X. discriminate.
Qed.
Lemma assignX_bad : forall xs n v k m, (forall x, In x xs -> vid x = n -> length v <> (if (k : bool) then sz x else dsz x)) -> assignX xs n v k m = Threw m.
Proof.
  intros xs n v k m H. unfold assignX. destruct xs as [|x0 xs]; [reflexivity|]. destruct (find (fun x1 => vid x1 =? n) (x0 :: xs)) as [y|] eqn:F; [|reflexivity].
  apply find_some in F as [Y F]. apply Nat.eqb_eq in F. specialize (H y Y F). destruct k; now rewrite (proj2 (Nat.eqb_neq _ _) H).
Qed.

(* Concatenated values *)
Fixpoint cut (l : list nat) (s : nat) (v : list Q) : list (list Q) := match l with [] => [] | n :: r => firstn n (skipn s v) :: cut r (s + n) v end.
Lemma cut_len : forall l s v, s + total l <= length v -> lens (cut l s v) = l.
Proof. induction l as [|n l IH]; intros s v H; [reflexivity|]. cbn [cut lens map total fold_right] in *. rewrite firstn_length, skipn_length. f_equal; [lia|]. apply IH. unfold total. lia. Qed.
Lemma cut_nth : forall l s v i d, i < length l -> nth i (cut l s v) d = firstn (nth i l 0) (skipn (s + total (firstn i l)) v).
Proof.
  induction l as [|n l IH]; intros s v i d H; [cbn in H; lia|]. destruct i as [|i]; cbn [cut nth firstn total fold_right]; [now rewrite Nat.add_0_r|].
  rewrite IH by (cbn in H; lia). unfold total. f_equal. f_equal. lia.
Qed.
Lemma fold_sum : forall (g : var -> nat) xs s, fold_left (fun s y => s + g y) xs s = s + total (map g xs).
Proof. intros g. induction xs as [|x xs IH]; intros s; [cbn; lia|]. cbn [fold_left map]. rewrite IH. unfold total. cbn [fold_right]. lia. Qed.

Definition W1 (p : var * list Q) : wr := (true, fst p, snd p).
Definition W2 (p : var * (list Q * list Q)) : list wr := [(true, fst p, fst (snd p)); (false, fst p, snd (snd p))].
Lemma setAll_ok : forall xs s v m, s + total (sizes xs) <= length v -> setAll xs s v m = Done (apply (map W1 (combine xs (cut (sizes xs) s v))) m).
Proof.
  induction xs as [|x xs IH]; intros s v m H; [reflexivity|]. cbn [setAll sizes map cut combine total fold_right] in *. unfold set.
  rewrite (proj2 (Nat.eqb_eq _ _)) by (rewrite firstn_length, skipn_length; lia). cbn [next]. rewrite IH by (unfold total, sizes; lia). reflexivity.
Qed.
Lemma setAll2_ok : forall xs sp sd v w m, sp + total (sizes xs) <= length v -> sd + total (dsizes xs) <= length w ->
  setAll2 xs sp sd v w m = Done (apply (flat_map W2 (combine xs (combine (cut (sizes xs) sp v) (cut (dsizes xs) sd w)))) m).
Proof.
  induction xs as [|x xs IH]; intros sp sd v w m H H'; [reflexivity|]. cbn [setAll2 sizes dsizes map cut combine total fold_right] in *. unfold set, dset.
  rewrite (proj2 (Nat.eqb_eq _ _)) by (rewrite firstn_length, skipn_length; lia). cbn [next]. rewrite (proj2 (Nat.eqb_eq _ _)) by (rewrite firstn_length, skipn_length; lia). cbn [next].
  rewrite IH by (unfold total, sizes, dsizes; lia). reflexivity.
Qed.

Lemma nth_skip_cons : forall A (l : list A) i x r, skipn i l = x :: r -> nth_error l i = Some x /\ skipn (i + 1) l = r /\ i < length l.
Proof.
  intros A l i x r H. assert (L : i < length l) by (assert (length (skipn i l) = S (length r)) by (rewrite H; reflexivity); rewrite skipn_length in *; lia).
  split; [|split; [|exact L]].
  - rewrite <- (firstn_skipn i l), H, nth_error_app2 by (rewrite firstn_length; lia). rewrite firstn_length, Nat.min_l, Nat.sub_diag by lia. reflexivity.
  - rewrite <- (firstn_skipn i l) at 1. rewrite H, skipn_app, firstn_length, Nat.min_l by lia. rewrite skipn_all2 by (rewrite firstn_length; lia). now replace (i + 1 - i) with 1 by lia.
Qed.
Lemma skip_cons : forall A (l : list A) i x, nth_error l i = Some x -> skipn i l = x :: skipn (i + 1) l.
Proof. intros A. induction l as [|a l IH]; intros [|i] x H; try discriminate; cbn in *; [congruence|]. now apply IH. Qed.
Lemma skip_nil : forall A (l : list A) i, skipn i l = [] -> length l <= i.
Proof. intros A l i H. apply (f_equal (@length A)) in H. rewrite skipn_length in H. cbn in H. lia. Qed.

Lemma parseVals_ok : forall xs vs v i m, lens (v :: vs) = sizes (skipn i xs) -> parseVals xs i v vs m = Done (apply (map W1 (combine (skipn i xs) (v :: vs))) m).
Proof.
  intros xs. induction vs as [|v' vs IH]; intros v i m H.
  - destruct (skipn i xs) as [|x [|y r]] eqn:E; cbn in H; try discriminate. injection H as H. destruct (nth_skip_cons _ _ _ _ _ E) as (N & E2 & L). apply skip_nil in E2.
    cbn [parseVals combine map]. unfold parseEnd. rewrite (proj2 (Nat.eqb_eq _ _)) by lia. rewrite (assignI_ok _ _ x); auto.
  - destruct (skipn i xs) as [|x r] eqn:E; [discriminate|]. cbn in H. injection H as H H'. destruct (nth_skip_cons _ _ _ _ _ E) as (N & E2 & L). cbn [parseVals]. rewrite (assignI_ok _ _ x); auto. cbn [next].
    rewrite IH by (rewrite E2; cbn [lens map]; unfold sizes in *; congruence). rewrite E2. reflexivity.
Qed.
Definition concat1 (xs : list var) (i : nat) (v : list Q) (vs : list (list Q)) : Prop := i = 0 /\ vs = [] /\ xs <> [] /\ length v = total (sizes xs).
Lemma assignAll_cases : forall xs v m, xs <> [] -> (length v = total (sizes xs) /\ assignAll xs v m = Done (apply (map W1 (combine xs (cut (sizes xs) 0 v))) m)) \/
  (length v <> total (sizes xs) /\ assignAll xs v m = Threw m).
Proof.
  intros [|x r] v m N; [contradiction|]. unfold assignAll. rewrite fold_sum. change (sz x + total (map sz r)) with (total (sizes (x :: r))).
  destruct (Nat.eqb_spec (length v) (total (sizes (x :: r)))) as [E|E]; [left|right; auto]. split; [exact E|]. apply setAll_ok. lia.
Qed.
Lemma parseVals_bad : forall xs vs v i m, lens (v :: vs) <> sizes (skipn i xs) -> ~ concat1 xs i v vs -> ends xs true false m (parseVals xs i v vs m).
Proof.
  intros xs. induction vs as [|v' vs IH]; intros v i m H C.
  - cbn [parseVals]. unfold parseEnd. destruct (Nat.eqb_spec (i + 1) (length xs)) as [E|E].
    + rewrite assignI_bad; [apply ends_threw|]. intros x X L. apply H. assert (S1 : skipn i xs = [x]). { apply nth_error_split in X as (l1 & l2 & -> & E1). rewrite app_length in E. cbn [length] in E. destruct l2; [|cbn in E; lia].
        rewrite skipn_app, skipn_all2 by lia. now rewrite E1, Nat.sub_diag. }
      rewrite S1. cbn. congruence.
    + destruct (Nat.ltb_spec i (length xs)) as [E'|E']; [|apply ends_threw]. destruct (Nat.eqb_spec i 0) as [->|E0]; [|apply ends_threw].
      assert (N : xs <> []) by (intros ->; cbn in E'; lia). destruct (assignAll_cases xs v m N) as [[L _]|[_ ->]]; [|apply ends_threw]. exfalso. apply C. repeat split; auto.
  - cbn [parseVals]. destruct (nth_error xs i) as [x|] eqn:E.
    + destruct (Nat.eq_dec (length v) (sz x)) as [L|L].
      * rewrite (assignI_ok _ _ x); auto. apply ends_next; [intros w [<-|[]]; split; [eapply nth_error_In; eauto|exact L]|intros _ w [<-|[]]; reflexivity|].
        intros m'. apply IH; [|intros [C1 _]; lia]. intros E1. apply H. pose proof (skip_cons _ _ _ _ E) as S1.
        rewrite S1. cbn [lens sizes map] in *. unfold lens, sizes in *. rewrite L. f_equal. exact E1.
      * rewrite assignI_bad; [apply ends_threw|]. intros y Y. congruence.
    + rewrite assignI_bad; [apply ends_threw|]. intros y Y. congruence.
Qed.

Lemma parsePairs_ok : forall xs ps m, NoDup (map vid xs) -> (forall n v, In (n, v) ps -> exists x, In x xs /\ vid x = n /\ length v = sz x) ->
  exists ws, parsePairs xs ps m = Done (apply ws m) /\ (forall w, In w ws -> okw xs w) /\ (forall w, In w ws -> isValue w = true) /\ forall n d, lastw true n ws d = lastGiven n ps d.
Proof.
  intros xs ps m N. revert m. induction ps as [|[n v] ps IH]; intros m H.
  - exists []. split; [reflexivity|]. split; [intros w []|]. split; [intros w []|reflexivity].
  - destruct (H n v (or_introl eq_refl)) as (x & X & E & L). cbn [parsePairs]. rewrite (assignX_ok xs n x); auto. cbn [next]. destruct (IH (apply [(true, x, v)] m)) as (ws & E1 & A & B & C); [intros; apply H; now right|].
    exists ((true, x, v) :: ws). split; [exact E1|]. split; [intros w [<-|I]; [split; auto|auto]|]. split; [intros w [<-|I]; [reflexivity|auto]|]. intros n' d. cbn [lastw lastGiven eqb andb]. rewrite E. apply C.
Qed.
Lemma parsePairs_bad : forall xs ps m, NoDup (map vid xs) -> ~ (forall n v, In (n, v) ps -> exists x, In x xs /\ vid x = n /\ length v = sz x) -> ends xs true false m (parsePairs xs ps m).
Proof.
  intros xs ps m N. revert m. induction ps as [|[n v] ps IH]; intros m H; [exfalso; apply H; intros n v []|]. cbn [parsePairs].
  destruct (find (fun x => (vid x =? n) && (length v =? sz x)) xs) as [x|] eqn:F.
  - apply find_some in F as [X F]. apply andb_true_iff in F as [F1 F2]. apply Nat.eqb_eq in F1, F2. rewrite (assignX_ok xs n x); auto. apply ends_next; [intros w [<-|[]]; split; auto|intros _ w [<-|[]]; reflexivity|].
    intros m'. apply IH. intros H'. apply H. intros n' v' [I|I]; [injection I as <- <-; eauto|auto].
  - rewrite assignX_bad; [apply ends_threw|]. intros x X E L. apply (find_none _ _ F) in X. rewrite E, L, !Nat.eqb_refl in X. discriminate.
Qed.
