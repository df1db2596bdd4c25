(* Proofs about PostureModel. *)
From Coq Require Import List Bool Arith QArith Lia.
Import ListNotations.
From Verif Require Import Base PostureModel PostureSpec.
Local Open Scope nat_scope.

Lemma write_ok : forall v pos x, pos < length v -> exists v', write v pos x = Ok v' /\ length v' = length v /\
  forall c, nth_error v' c = if c =? pos then Some x else nth_error v c.
Proof.
  intros v pos x H. unfold write. rewrite (proj2 (Nat.ltb_lt _ _) H). eexists. split; [reflexivity|]. split.
  - rewrite app_length. cbn [length]. rewrite firstn_length, skipn_length. lia.
  - intros c. destruct (Nat.eqb_spec c pos) as [->|N].
    + rewrite nth_error_app2 by (rewrite firstn_length; lia). rewrite firstn_length, Nat.min_l by lia. now rewrite Nat.sub_diag.
    + destruct (Nat.lt_ge_cases c pos) as [L|L].
      * rewrite nth_error_app1 by (rewrite firstn_length; lia). rewrite <- (firstn_skipn pos v) at 2. now rewrite nth_error_app1 by (rewrite firstn_length; lia).
      * rewrite nth_error_app2 by (rewrite firstn_length; lia). rewrite firstn_length, Nat.min_l by lia. destruct (c - pos) as [|m] eqn:E; [lia|]. cbn [nth_error].
        rewrite <- (firstn_skipn (S pos) v) at 2. rewrite nth_error_app2 by (rewrite firstn_length; lia). rewrite firstn_length, Nat.min_l by lia. f_equal. lia.
Qed.
Lemma writes_ok : forall xs v pos, pos + length xs <= length v -> exists v', writes v pos xs = Ok v' /\ length v' = length v /\
  forall c, nth_error v' c = if (pos <=? c) && (c <? pos + length xs) then nth_error xs (c - pos) else nth_error v c.
Proof.
  induction xs as [|x xs IH]; intros v pos H.
  - exists v. split; [reflexivity|]. split; [reflexivity|]. intros c. cbn [length]. destruct (Nat.leb_spec pos c), (Nat.ltb_spec c (pos + 0)); try reflexivity; lia.
  - cbn [writes length] in *. destruct (write_ok v pos x) as (v1 & E1 & L1 & V1); [lia|]. rewrite E1. cbn [bind]. destruct (IH v1 (S pos)) as (v2 & E2 & L2 & V2); [lia|].
    exists v2. split; [exact E2|]. split; [lia|]. intros c. rewrite V2, V1.
    destruct (Nat.leb_spec pos c), (Nat.ltb_spec c (pos + S (length xs))), (Nat.leb_spec (S pos) c), (Nat.ltb_spec c (S pos + length xs)), (Nat.eqb_spec c pos); cbn [andb]; try reflexivity; try lia.
    + replace (c - pos) with (S (c - S pos)) by lia. reflexivity.
    + subst c. rewrite Nat.sub_diag. reflexivity.
Qed.

Lemma nrDof_cons : forall j mb, nrDof (j :: mb) = dof (jt j) + nrDof mb.
Proof. reflexivity. Qed.
Lemma shaped_cons : forall s j mb x, shaped s (j :: mb) x -> exists a x', x = a :: x' /\ length a = s (jt j) /\ shaped s mb x'.
Proof. intros s j mb [|a x] H; unfold shaped in *; cbn in H; [discriminate|]. injection H as A B. eauto. Qed.
Lemma shaped_skipn : forall s k mb x, shaped s mb x -> shaped s (skipn k mb) (skipn k x).
Proof.
  intros s. induction k as [|k IH]; intros mb x H; [exact H|]. destruct mb as [|j mb]; [destruct x; [exact H|discriminate]|].
  destruct (shaped_cons _ _ _ _ H) as (a & x' & -> & _ & H'). cbn [skipn]. now apply IH.
Qed.
Lemma shaped_nth : forall s k mb x j, shaped s mb x -> nth_error mb k = Some j -> exists a, nth_error x k = Some a /\ length a = s (jt j).
Proof.
  intros s k mb x j H E. unfold shaped in H. pose proof (map_nth_error (fun j => s (jt j)) _ _ E) as A. rewrite <- H in A. rewrite nth_error_map in A. destruct (nth_error x k) as [a|]; [|discriminate].
  exists a. split; [reflexivity|]. cbn in A. congruence.
Qed.

(* Without the free-flyer *)
Definition oneOf (js : mbody) (k : nat) : nat := length (filter (fun j => dof (jt j) =? 1) (firstn k js)).
Lemma ones_le : forall js, length (filter (fun j => dof (jt j) =? 1) js) <= nrDof js.
Proof. induction js as [|j js IH]; [cbn; lia|]. cbn [filter]. rewrite nrDof_cons. destruct (Nat.eqb_spec (dof (jt j)) 1); cbn [length]; lia. Qed.

Lemma values_ok : forall rot js q t pos v, shaped params js q -> shaped params js t -> pos + nrDof js <= length v ->
  exists v', values rot js q t pos v = Ok v' /\ length v' = length v /\
  (forall k j a b, nth_error js k = Some j -> dof (jt j) = 1 -> nth_error q k = Some a -> nth_error t k = Some b -> nth_error v' (pos + oneOf js k) = Some (nth 0 a 0 - nth 0 b 0)%Q) /\
  (forall c, c < pos \/ pos + oneOf js (length js) <= c -> nth_error v' c = nth_error v c).
Proof.
  intros rot. induction js as [|j js IH]; intros q t pos v Hq Ht L.
  - exists v. split; [reflexivity|]. split; [reflexivity|]. split; [intros [|k] j a b H; discriminate|reflexivity].
  - destruct (shaped_cons _ _ _ _ Hq) as (a & q' & -> & La & Hq'). destruct (shaped_cons _ _ _ _ Ht) as (b & t' & -> & Lb & Ht'). rewrite nrDof_cons in L. cbn [values].
    assert (D4 : (dof (jt j) =? 4) = false) by (destruct (jt j); reflexivity). rewrite D4. destruct (Nat.eqb_spec (dof (jt j)) 1) as [D|D].
    + assert (P1 : params (jt j) = 1) by (destruct (jt j); try discriminate; reflexivity). rewrite P1 in La, Lb. destruct a as [|x a]; [discriminate|]. destruct b as [|y b]; [discriminate|].
      destruct (write_ok v pos (x - y)%Q) as (v1 & E1 & L1 & V1); [lia|]. rewrite E1. cbn [bind]. destruct (IH q' t' (pos + 1) v1 Hq' Ht') as (v2 & E2 & L2 & V2 & V3); [lia|].
      exists v2. split; [exact E2|]. split; [lia|].
      assert (O : forall k, oneOf (j :: js) (S k) = S (oneOf js k)) by (intros k; unfold oneOf; cbn [firstn filter]; rewrite (proj2 (Nat.eqb_eq _ _) D); reflexivity). split.
      * intros [|k] j' a' b' N D' A B; cbn [nth_error] in *.
        -- injection A as <-. injection B as <-. unfold oneOf. cbn [firstn filter length]. rewrite Nat.add_0_r, V3 by lia. rewrite V1, Nat.eqb_refl. reflexivity.
        -- rewrite O. rewrite <- (V2 k j' a' b' N D' A B). f_equal. lia.
      * intros c Hc. cbn [length] in Hc. rewrite O in Hc. rewrite V3 by lia. rewrite V1. destruct (Nat.eqb_spec c pos); [lia|reflexivity].
    + destruct (IH q' t' pos v Hq' Ht') as (v2 & E2 & L2 & V2 & V3); [lia|]. exists v2. split; [exact E2|]. split; [lia|].
      assert (O : forall k, oneOf (j :: js) (S k) = oneOf js k) by (intros k; unfold oneOf; cbn [firstn filter]; rewrite (proj2 (Nat.eqb_neq _ _) D); reflexivity). split.
      * intros [|k] j' a' b' N D' A B; cbn [nth_error] in *; [injection N as <-; contradiction|]. rewrite O. eapply V2; eauto.
      * intros c Hc. cbn [length] in Hc. rewrite O in Hc. now apply V3.
Qed.

Lemma velocities_ok : forall js alpha pos v, shaped dof js alpha -> pos + nrDof js <= length v ->
  exists v', velocities alpha pos v = Ok v' /\ length v' = length v /\
  (forall k j a i, nth_error js k = Some j -> nth_error alpha k = Some a -> i < dof (jt j) -> nth_error v' (pos + nrDof (firstn k js) + i) = nth_error a i) /\
  (forall c, c < pos -> nth_error v' c = nth_error v c).
Proof.
  induction js as [|j js IH]; intros alpha pos v H L.
  - destruct alpha; [|discriminate]. exists v. split; [reflexivity|]. split; [reflexivity|]. split; [intros [|k] j a i E; discriminate|reflexivity].
  - destruct (shaped_cons _ _ _ _ H) as (a & al & -> & La & H'). rewrite nrDof_cons in L. cbn [velocities]. destruct (writes_ok a v pos) as (v1 & E1 & L1 & V1); [lia|]. rewrite E1. cbn [bind].
    destruct (IH al (pos + length a) v1 H') as (v2 & E2 & L2 & V2 & V3); [lia|]. exists v2. split; [exact E2|]. split; [lia|]. split.
    + intros [|k] j' a' i N A Hi; cbn [nth_error firstn] in *.
      * injection N as <-. injection A as <-. cbn [nrDof map fold_right]. rewrite V3 by lia. rewrite V1. destruct (Nat.leb_spec pos (pos + 0 + i)), (Nat.ltb_spec (pos + 0 + i) (pos + length a)); try lia. cbn [andb]. f_equal. lia.
      * rewrite nrDof_cons. rewrite <- (V2 k j' a' i N A Hi). f_equal. lia.
    + intros c Hc. rewrite V3 by lia. rewrite V1. destruct (Nat.leb_spec pos c); [lia|reflexivity].
Qed.

Lemma place_skip : forall mb k, j0 mb <= k -> place mb k = nrDof (firstn (k - j0 mb) (skipn (j0 mb) mb)).
Proof. intros mb k H. unfold place. now rewrite skipn_firstn_comm. Qed.
Lemma ones_skip : forall mb k, j0 mb <= k -> ones mb k = oneOf (skipn (j0 mb) mb) (k - j0 mb).
Proof. intros mb k H. unfold ones, oneOf. now rewrite skipn_firstn_comm. Qed.
Lemma nth_skip : forall A (l : list A) n k, n <= k -> nth_error (skipn n l) (k - n) = nth_error l k.
Proof. intros A l. induction l as [|x l IH]; intros [|n] k H; cbn [skipn]; try (now rewrite Nat.sub_0_r); [destruct (k - S n), k; reflexivity|]. destruct k as [|k]; [lia|]. cbn [nth_error]. rewrite <- (IH n k) by lia. f_equal. Qed.
Lemma nth_some : forall A (l : list A) k d, k < length l -> nth_error l k = Some (nth k l d).
Proof. intros A l k d H. now apply nth_error_nth'. Qed.
Lemma shaped_len : forall s mb x, shaped s mb x -> length x = length mb.
Proof. intros s mb x H. unfold shaped in H. apply (f_equal (@length nat)) in H. now rewrite !map_length in H. Qed.

(* The state *)
Definition wf (mb : mbody) (p : pf) : Prop := shaped params mb (posture p) /\ length (value p) = tSize mb /\ length (velocity p) = tSize mb.
Lemma index_first : forall mb n i k, index mb n i = Some k -> i <= k /\ exists j, nth_error mb (k - i) = Some j /\ jname j = n.
Proof.
  induction mb as [|j mb IH]; intros n i k H; [discriminate|]. cbn [index] in H. destruct (Nat.eqb_spec (jname j) n) as [E|E].
  - injection H as <-. split; [lia|]. exists j. rewrite Nat.sub_diag. auto.
  - apply IH in H as (L & j' & A & B). split; [lia|]. exists j'. replace (k - i) with (S (k - S i)) by lia. auto.
Qed.
Lemma index_of : forall mb k j, NoDup (map jname mb) -> nth_error mb k = Some j -> index mb (jname j) 0 = Some k.
Proof.
  intros mb k j N H. assert (E : exists k', index mb (jname j) 0 = Some k').
  { generalize 0. clear N. revert k H. induction mb as [|x mb IH]; intros k H i; [destruct k; discriminate|]. cbn [index]. destruct (Nat.eqb_spec (jname x) (jname j)) as [E|E]; [eauto|].
    destruct k as [|k]; [cbn in H; congruence|]. eapply IH; eauto. }
  destruct E as (k' & E). rewrite E. f_equal. apply index_first in E as (_ & j' & A & B). rewrite Nat.sub_0_r in A. rewrite NoDup_nth_error in N. apply N.
  - rewrite map_length. apply nth_error_Some. congruence.
  - rewrite (map_nth_error _ _ _ A), (map_nth_error _ _ _ H). congruence.
Qed.
Lemma shaped_upd : forall s mb x k j a, shaped s mb x -> nth_error mb k = Some j -> length a = s (jt j) -> shaped s mb (firstn k x ++ a :: skipn (S k) x).
Proof.
  intros s. induction mb as [|m mb IH]; intros x k j a H E L; [destruct k; discriminate|]. destruct (shaped_cons _ _ _ _ H) as (b & x' & -> & Lb & H'). destruct k as [|k]; cbn [nth_error] in E.
  - injection E as ->. unfold shaped in *. cbn [firstn app skipn map]. rewrite H'. congruence.
  - specialize (IH x' k j a H' E L). unfold shaped in *. cbn [firstn app skipn map] in *. rewrite <- IH, Lb. reflexivity.
Qed.
Lemma valid_shape : forall a b, map (@length Q) a = map (@length Q) b -> isValidPosture a b = true.
Proof. induction a as [|x a IH]; intros [|y b] H; try discriminate; [reflexivity|]. cbn in *. injection H as A B. rewrite A, Nat.eqb_refl. now apply IH. Qed.

Lemma step_ok : forall rot mb p c, NoDup (map jname mb) -> wf mb p -> valid mb c -> exists p', step rot mb p c = Ok p' /\ wf mb p' /\
  (forall k, k < length mb -> nth k (posture p') [] = target mb k [c] (nth k (posture p) [])) /\
  (match c with
   | UpdateValue q => velocity p' = velocity p /\
       (forall k j, isJoint mb k j -> dof (jt j) = 1 -> nth_error (value p') (ones mb k) = Some (nth 0 (nth k q []) 0 - nth 0 (nth k (posture p) []) 0)%Q) /\
       (forall c', ones mb (length mb) <= c' -> nth_error (value p') c' = nth_error (value p) c')
   | UpdateVelocity a => value p' = value p /\ (forall k j i, isJoint mb k j -> i < dof (jt j) -> nth_error (velocity p') (place mb k + i) = nth_error (nth k a []) i)
   | _ => value p' = value p /\ velocity p' = velocity p end).
Proof.
  intros rot mb p c ND (W1 & W2 & W3) V. destruct c as [q|a|q|n q|t]; cbn [valid step] in *.
  - pose proof (shaped_skipn _ (j0 mb) _ _ V) as Sq. pose proof (shaped_skipn _ (j0 mb) _ _ W1) as St.
    destruct (values_ok rot (skipn (j0 mb) mb) (skipn (j0 mb) q) (skipn (j0 mb) (posture p)) 0 (value p) Sq St) as (v & E & L & A & B); [rewrite W2; reflexivity|].
    unfold updateValue. rewrite E. cbn [bind]. eexists. split; [reflexivity|]. split; [repeat split; cbn; auto; lia|]. cbn [posture value velocity target]. split; [reflexivity|]. split; [reflexivity|]. split.
    + intros k j [J1 J2] D. rewrite ones_skip by exact J1. assert (Lk : k < length mb) by (apply nth_error_Some; congruence).
      rewrite <- (A (k - j0 mb) j (nth k q []) (nth k (posture p) [])); [reflexivity|now rewrite nth_skip|exact D| |]; rewrite nth_skip by exact J1; apply nth_some; [rewrite (shaped_len _ _ _ V)|rewrite (shaped_len _ _ _ W1)]; exact Lk.
    + intros c' Hc. apply B. right. assert (J : j0 mb <= length mb) by (destruct mb as [|x mb']; cbn; [lia|destruct (jt x); lia]). rewrite ones_skip in Hc by exact J. rewrite skipn_length. exact Hc.
  - pose proof (shaped_skipn _ (j0 mb) _ _ V) as Sa. destruct (velocities_ok (skipn (j0 mb) mb) (skipn (j0 mb) a) 0 (velocity p) Sa) as (v & E & L & A & B); [rewrite W3; reflexivity|].
    unfold updateVelocity. rewrite E. cbn [bind]. eexists. split; [reflexivity|]. split; [repeat split; cbn; auto; lia|]. cbn [posture value velocity target]. split; [reflexivity|]. split; [reflexivity|].
    intros k j i [J1 J2] Hi. rewrite place_skip by exact J1. assert (Lk : k < length mb) by (apply nth_error_Some; congruence).
    rewrite <- (A (k - j0 mb) j (nth k a []) i); [reflexivity|now rewrite nth_skip| |exact Hi]. rewrite nth_skip by exact J1. apply nth_some. now rewrite (shaped_len _ _ _ V).
  - eexists. split; [reflexivity|]. split; [repeat split; auto|]. cbn [posture value velocity target reset]. auto.
  - destruct V as (k & j & E & <- & Lq). unfold setJoint. rewrite (index_of _ _ _ ND E).
    destruct (shaped_nth _ _ _ _ _ W1 E) as (b & Eb & Lb). rewrite (nth_error_nth _ _ [] Eb), Lb, Lq, Nat.eqb_refl.
    eexists. split; [reflexivity|]. split; [split; cbn [posture value velocity]; [eapply shaped_upd; eauto|auto]|]. cbn [posture value velocity target]. split; [|auto].
    intros k' Hk. assert (Lp : length (posture p) = length mb) by (eapply shaped_len; eauto). destruct (nth_error mb k') as [j'|] eqn:E'; [|apply nth_error_None in E'; lia].
    assert (Hkk : S k < length mb) by (apply nth_error_Some; congruence).
    destruct (Nat.eqb_spec (jname j') (jname j)) as [En|En].
    + assert (k' = S k). { pose proof (index_of _ _ _ ND E') as X. rewrite En, (index_of _ _ _ ND E) in X. congruence. } subst k'.
      rewrite app_nth2 by (rewrite firstn_length; lia). rewrite firstn_length, Nat.min_l by lia. now rewrite Nat.sub_diag.
    + assert (Nk : k' <> S k) by (intros ->; congruence). destruct (Nat.lt_ge_cases k' (S k)) as [L|L].
      * rewrite app_nth1 by (rewrite firstn_length; lia). rewrite <- (firstn_skipn (S k) (posture p)) at 2. now rewrite app_nth1 by (rewrite firstn_length; lia).
      * rewrite app_nth2 by (rewrite firstn_length; lia). rewrite firstn_length, Nat.min_l by lia. destruct (k' - S k) as [|m] eqn:Em; [lia|]. cbn [nth].
        rewrite <- (firstn_skipn (S (S k)) (posture p)) at 2. rewrite app_nth2 by (rewrite firstn_length; lia). rewrite firstn_length, Nat.min_l by lia. f_equal. lia.
  - unfold setAll. rewrite valid_shape by (unfold shaped in *; congruence). eexists. split; [reflexivity|]. split; [repeat split; auto|]. cbn [posture value velocity target]. auto.
Qed.

Lemma run_app : forall rot mb a b p, run rot mb p (a ++ b) = bind (run rot mb p a) (fun p' => run rot mb p' b).
Proof. intros rot mb. induction a as [|c a IH]; intros b p; [reflexivity|]. cbn [run app]. destruct (step rot mb p c); cbn [bind]; auto. Qed.
Lemma target_app : forall mb k a b t, target mb k (a ++ b) t = target mb k b (target mb k a t).
Proof. intros mb k. induction a as [|c a IH]; intros b t; [reflexivity|]. cbn [app target]. apply IH. Qed.

Lemma wf_construct : forall mb q, shaped params mb q -> wf mb (construct mb q).
Proof. intros mb q H. split; [exact H|]. cbn. rewrite !repeat_length. auto. Qed.
Lemma run_ok : forall rot mb cs p, NoDup (map jname mb) -> wf mb p -> (forall c, In c cs -> valid mb c) -> exists p', run rot mb p cs = Ok p' /\ wf mb p' /\
  (forall k, k < length mb -> nth k (posture p') [] = target mb k cs (nth k (posture p) [])) /\
  (forall c, ones mb (length mb) <= c -> nth_error (value p') c = nth_error (value p) c) /\
  ((forall c, In c cs -> match c with UpdateValue _ => False | _ => True end) -> value p' = value p) /\
  ((forall c, In c cs -> match c with UpdateVelocity _ => False | _ => True end) -> velocity p' = velocity p).
Proof.
  intros rot mb. induction cs as [|c cs IH]; intros p ND W V.
  - exists p. cbn [run target]. repeat split; auto; apply W.
  - destruct (step_ok rot mb p c ND W) as (p1 & E1 & W1 & T1 & F1); [apply V; now left|]. cbn [run]. rewrite E1. cbn [bind].
    destruct (IH p1 ND W1) as (p2 & E2 & W2 & T2 & O2 & A2 & B2); [intros c' I; apply V; now right|]. exists p2. split; [exact E2|]. split; [exact W2|]. split; [|split; [|split]].
    + intros k Hk. rewrite T2, T1 by exact Hk. change (c :: cs) with ([c] ++ cs). now rewrite target_app.
    + intros c' Hc. rewrite O2 by exact Hc. destruct c; try (destruct F1 as [-> _]; reflexivity). destruct F1 as (_ & _ & F1). now apply F1.
    + intros N. rewrite A2 by (intros c' I; apply N; now right). specialize (N c (or_introl eq_refl)). destruct c; try contradiction; destruct F1 as [F1 _]; exact F1.
    + intros N. rewrite B2 by (intros c' I; apply N; now right). specialize (N c (or_introl eq_refl)). destruct c; try contradiction; destruct F1 as [F1 F2]; exact F2 || exact F1.
Qed.

Lemma velocity_placed : forall rot mb q0 h1 a h2, NoDup (map jname mb) -> shaped params mb q0 -> (forall c, In c (h1 ++ UpdateVelocity a :: h2) -> valid mb c) ->
  (forall c, In c h2 -> match c with UpdateVelocity _ => False | _ => True end) ->
  exists p, run rot mb (construct mb q0) (h1 ++ UpdateVelocity a :: h2) = Ok p /\ length (velocity p) = tSize mb /\
  forall k j i, isJoint mb k j -> i < dof (jt j) -> nth_error (velocity p) (place mb k + i) = nth_error (nth k a []) i.
Proof.
  intros rot mb q0 h1 a h2 ND S0 V N. destruct (run_ok rot mb h1 _ ND (wf_construct _ _ S0)) as (p1 & E1 & W1 & _); [intros c I; apply V; apply in_or_app; now left|].
  destruct (step_ok rot mb p1 (UpdateVelocity a) ND W1) as (p2 & E2 & W2 & _ & _ & F2); [apply V; apply in_or_app; right; now left|].
  destruct (run_ok rot mb h2 p2 ND W2) as (p3 & E3 & W3 & _ & _ & _ & F3); [intros c I; apply V; apply in_or_app; right; now right|].
  exists p3. rewrite run_app, E1. cbn [bind run]. rewrite E2. cbn [bind]. split; [exact E3|]. split; [apply W3|]. rewrite (F3 N). exact F2.
Qed.
Lemma value_exact : forall rot mb q0 h1 q h2, NoDup (map jname mb) -> shaped params mb q0 -> (forall c, In c (h1 ++ UpdateValue q :: h2) -> valid mb c) ->
  (forall c, In c h2 -> match c with UpdateValue _ => False | _ => True end) ->
  exists p, run rot mb (construct mb q0) (h1 ++ UpdateValue q :: h2) = Ok p /\ length (value p) = tSize mb /\
  (forall k j, isJoint mb k j -> dof (jt j) = 1 -> nth_error (value p) (ones mb k) = Some (nth 0 (nth k q []) 0 - nth 0 (target mb k h1 (nth k q0 [])) 0)%Q) /\
  (forall c, ones mb (length mb) <= c < tSize mb -> nth_error (value p) c = Some 0%Q).
Proof.
  intros rot mb q0 h1 q h2 ND S0 V N. destruct (run_ok rot mb h1 _ ND (wf_construct _ _ S0)) as (p1 & E1 & W1 & T1 & O1 & _); [intros c I; apply V; apply in_or_app; now left|].
  destruct (step_ok rot mb p1 (UpdateValue q) ND W1) as (p2 & E2 & W2 & _ & _ & F2 & F2'); [apply V; apply in_or_app; right; now left|].
  destruct (run_ok rot mb h2 p2 ND W2) as (p3 & E3 & W3 & _ & _ & F3 & _); [intros c I; apply V; apply in_or_app; right; now right|].
  exists p3. rewrite run_app, E1. cbn [bind run]. rewrite E2. cbn [bind]. split; [exact E3|]. split; [apply W3|]. rewrite (F3 N). split.
  - intros k j J D. rewrite (F2 k j J D). rewrite T1; [reflexivity|]. apply nth_error_Some. destruct J. congruence.
  - intros c [Hc1 Hc2]. rewrite F2', O1 by exact Hc1. cbn [construct value]. rewrite (nth_some _ _ c 0%Q) by (rewrite repeat_length; exact Hc2). f_equal. apply nth_repeat.
Qed.
Lemma ones_place : forall mb k, ones mb k = place mb k <-> forall j, In j (skipn (j0 mb) (firstn k mb)) -> dof (jt j) <= 1.
Proof.
  intros mb k. unfold ones, place. induction (skipn (j0 mb) (firstn k mb)) as [|j js IH]; [cbn; split; [intros _ j []|reflexivity]|].
  cbn [filter]. rewrite nrDof_cons. pose proof (ones_le js) as L. destruct (Nat.eqb_spec (dof (jt j)) 1) as [D|D]; cbn [length]; split.
  - intros H j' [<-|I]; [lia|]. apply IH; [lia|exact I].
  - intros H. rewrite D. cbn. f_equal. apply IH. intros j' I. apply H. now right.
  - intros H j' [<-|I]; [lia|]. apply IH; [lia|exact I].
  - intros H. pose proof (H j (or_introl eq_refl)). assert (dof (jt j) = 0) as -> by lia. apply IH. intros j' I. apply H. now right.
Qed.
Lemma in_firstn : forall A k (l : list A) x, In x (firstn k l) -> In x l.
Proof. intros A k l x I. rewrite <- (firstn_skipn k l). apply in_or_app. now left. Qed.
Lemma in_skipn : forall A k (l : list A) x, In x (skipn k l) -> In x l.
Proof. intros A k l x I. rewrite <- (firstn_skipn k l). apply in_or_app. now right. Qed.
Lemma value_placed : forall rot mb q0 h1 q h2, NoDup (map jname mb) -> shaped params mb q0 -> (forall c, In c (h1 ++ UpdateValue q :: h2) -> valid mb c) ->
  (forall c, In c h2 -> match c with UpdateValue _ => False | _ => True end) ->
  (forall k j, isJoint mb k j -> dof (jt j) <= 1) ->
  exists p, run rot mb (construct mb q0) (h1 ++ UpdateValue q :: h2) = Ok p /\ length (value p) = tSize mb /\
  forall k j, isJoint mb k j -> dof (jt j) = 1 -> nth_error (value p) (place mb k) = Some (nth 0 (nth k q []) 0 - nth 0 (target mb k h1 (nth k q0 [])) 0)%Q.
Proof.
  intros rot mb q0 h1 q h2 ND S0 V N D1. destruct (value_exact rot mb q0 h1 q h2 ND S0 V N) as (p & E & L & A & _). exists p. split; [exact E|]. split; [exact L|].
  intros k j J D. rewrite <- (A k j J D). f_equal. symmetry. apply ones_place. intros j' I. rewrite skipn_firstn_comm in I. apply in_firstn in I.
  apply In_nth_error in I as [i I]. apply (D1 (i + j0 mb) j'). split; [lia|]. rewrite <- (nth_skip _ mb (j0 mb)) by lia. now replace (i + j0 mb - j0 mb) with i by lia.
Qed.
(* Every entry of the value is the error of a joint of one degree of freedom, or zero. *)
Lemma entry_cases : forall js c, c < oneOf js (length js) -> exists k j, nth_error js k = Some j /\ dof (jt j) = 1 /\ oneOf js k = c.
Proof.
  induction js as [|j js IH]; intros c H; [cbn in H; lia|]. unfold oneOf in H. cbn [length firstn filter] in H. destruct (Nat.eqb_spec (dof (jt j)) 1) as [D|D].
  - destruct c as [|c]; [exists 0, j; repeat split; auto|]. cbn [length] in H. destruct (IH c) as (k & j' & A & B & C); [unfold oneOf; lia|]. exists (S k), j'. split; [exact A|]. split; [exact B|].
    unfold oneOf in *. cbn [firstn filter]. rewrite (proj2 (Nat.eqb_eq _ _) D). cbn [length]. now rewrite C.
  - destruct (IH c H) as (k & j' & A & B & C). exists (S k), j'. split; [exact A|]. split; [exact B|]. unfold oneOf in *. cbn [firstn filter]. now rewrite (proj2 (Nat.eqb_neq _ _) D).
Qed.
Lemma reset_zero : forall rot mb q0 h q, NoDup (map jname mb) -> shaped params mb q0 -> (forall c, In c h -> valid mb c) -> shaped params mb q ->
  exists p, run rot mb (construct mb q0) (h ++ [Reset q; UpdateValue q]) = Ok p /\ length (value p) = tSize mb /\ forall c x, nth_error (value p) c = Some x -> (x == 0)%Q.
Proof.
  intros rot mb q0 h q ND S0 V Sq.
  assert (V' : forall c, In c ((h ++ [Reset q]) ++ UpdateValue q :: []) -> valid mb c).
  { intros c I. rewrite <- app_assoc in I. apply in_app_or in I as [I|[<-|[<-|[]]]]; [now apply V|exact Sq|exact Sq]. }
  destruct (value_exact rot mb q0 (h ++ [Reset q]) q [] ND S0 V') as (p & E & L & A & B); [intros c []|]. rewrite <- app_assoc in E. exists p. split; [exact E|]. split; [exact L|].
  intros c x Ex. assert (J : j0 mb <= length mb) by (destruct mb as [|m mb']; cbn; [lia|destruct (jt m); lia]). destruct (Nat.lt_ge_cases c (ones mb (length mb))) as [Hc|Hc].
  - rewrite ones_skip in Hc by exact J. rewrite <- skipn_length in Hc. destruct (entry_cases _ _ Hc) as (k & j & K1 & K2 & K3).
    assert (Jk : isJoint mb (k + j0 mb) j). { split; [lia|]. rewrite <- (nth_skip _ mb (j0 mb)) by lia. now replace (k + j0 mb - j0 mb) with k by lia. }
    specialize (A _ _ Jk K2). rewrite ones_skip in A by lia. replace (k + j0 mb - j0 mb) with k in A by lia. rewrite K3, target_app in A. cbn [target] in A. rewrite Ex in A. injection A as ->. ring.
  - rewrite B in Ex; [injection Ex as <-; reflexivity|]. split; [exact Hc|]. rewrite <- L. apply nth_error_Some. congruence.
Qed.
