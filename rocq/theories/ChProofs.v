Require Import Reals List Bool Arith Lia Lra.
Require Import Verif.Base Verif.ConeModel Verif.DfModel Verif.CtcModel Verif.CtcSpec Verif.CtcProofs Verif.PlSpec Verif.ChModel Verif.ChSpec.
Import ListNotations.
Local Open Scope R_scope.

Section Ch.
Variable junk : nat -> R.
Notation run := (chrun junk).
Notation step := (chstep junk).
Lemma transform_point t x : schPoint (transformOf junk t) x = place t x.
Proof. unfold schPoint, transformOf, place, mrow, comp. cbn. f_equal; ring. Qed.
Lemma run_app l1 : forall s l2, run s (l1 ++ l2) = (do s' <- run s l1; run s' l2).
Proof. induction l1 as [|c l1 IH]; intros s l2; cbn; [reflexivity|]. destruct (step s c); cbn; auto. Qed.
Definition asHull (t : nat * nat * ptr) : chull := mkCh (fst (fst t)) (snd (fst t)) (snd t).
Lemma created_app l1 l2 : created (l1 ++ l2) = created l1 ++ created l2.
Proof. apply flat_map_app. Qed.
Lemma frames_app P l1 l2 : framesAfter P (l1 ++ l2) = framesAfter (framesAfter P l1) l2.
Proof. apply fold_left_app. Qed.
Lemma attached_update s u : attached (updatePosition junk s u) (ch_obj u) (ch_x u) (cs_frames s (ch_frame u)).
Proof.
  eexists. split; [cbn; rewrite Nat.eqb_refl; reflexivity|]. intros x. rewrite transform_point. apply place_pmul.
Qed.
Lemma last_snoc_other P l c o f X Pf : lastPlaced P l o f X Pf -> (forall f' X', ~ places l c o f' X') -> lastPlaced P (l ++ [c]) o f X Pf.
Proof.
  intros (l1 & d & l2 & -> & A & B & C) N. exists l1, d, (l2 ++ [c]). split; [rewrite <- app_assoc; reflexivity|].
  split; [exact A|]. split; [exact B|]. intros l3 c' l4 f' X' E K.
  destruct l4 as [|e l4] using rev_ind.
  - apply app_inj_tail in E. destruct E as [-> ->]. exact (N f' X' K).
  - rewrite app_comm_cons, app_assoc in E. apply app_inj_tail in E. destruct E as [-> _]. exact (C l3 c' l4 f' X' eq_refl K).
Qed.
Lemma last_snoc_here P l c o f X : places l c o f X -> lastPlaced P (l ++ [c]) o f X (framesAfter P l f).
Proof.
  intros A. exists l, c, []. split; [reflexivity|]. split; [exact A|]. split; [reflexivity|]. intros l3 c' l4 f' X' E. destruct l3; discriminate.
Qed.
Lemma places_unique l c o f X f' X' : places l c o f X -> places l c o f' X' -> f = f' /\ X = X'.
Proof.
  intros [->|(h & -> & E)] [H|(h' & H & E')]; try discriminate.
  - injection H as -> ->. auto.
  - injection H as <-. rewrite E in E'. injection E' as -> ->. auto.
Qed.
Lemma run_inv P l : forall s, run (chinit P) l = Ok s ->
  cs_frames s = framesAfter P l /\ cs_hulls s = map asHull (created l) /\
  (forall o, (exists f X Pf, lastPlaced P l o f X Pf /\ attached s o X Pf) \/
             ((forall l1 c l2 f X, l = l1 ++ c :: l2 -> ~ places l1 c o f X) /\ cs_tr s o = None)).
Proof.
  induction l as [|c l IH] using rev_ind; intros s H.
  - injection H as <-. split; [reflexivity|]. split; [reflexivity|]. intros o. right. split; [|reflexivity].
    intros l1 c l2 f X E. destruct l1; discriminate.
  - rewrite run_app in H. destruct (run (chinit P) l) as [s1| |]; cbn in H; try discriminate.
    destruct (IH s1 eq_refl) as (F & U & T). rewrite created_app, frames_app.
    assert (KEEP : forall o, cs_tr s o = cs_tr s1 o -> (forall f X, ~ places l c o f X) ->
      (exists f X Pf, lastPlaced P (l ++ [c]) o f X Pf /\ attached s o X Pf) \/
      ((forall l1 c' l2 f X, l ++ [c] = l1 ++ c' :: l2 -> ~ places l1 c' o f X) /\ cs_tr s o = None)).
    { intros o E N. destruct (T o) as [(f & X & Pf & L & (m & M & A))|[NP E0]].
      - left. exists f, X, Pf. split; [apply last_snoc_other; auto|]. exists m. rewrite E. auto.
      - right. split; [|rewrite E; exact E0]. intros l1 c' l2 f X E'. destruct l2 as [|e l2] using rev_ind.
        + apply app_inj_tail in E'. destruct E' as [-> ->]. apply N.
        + rewrite app_comm_cons, app_assoc in E'. apply app_inj_tail in E'. destruct E' as [E' _]. apply (NP l1 c' l2 f X E'). }
    assert (HERE : forall o f X, places l c o f X -> attached s o X (framesAfter P l f) ->
      (exists f X Pf, lastPlaced P (l ++ [c]) o f X Pf /\ attached s o X Pf) \/
      ((forall l1 c' l2 f X, l ++ [c] = l1 ++ c' :: l2 -> ~ places l1 c' o f X) /\ cs_tr s o = None)).
    { intros o f X A B. left. exists f, X, (framesAfter P l f). split; [apply last_snoc_here; exact A|exact B]. }
    destruct c as [o f X|P'|h]; cbn in H.
    + injection H as <-. split; [exact F|]. split; [cbn; rewrite U, map_app; reflexivity|]. intros o'.
      destruct (Nat.eq_dec o' o) as [->|Ne].
      * apply (HERE o f X); [left; reflexivity|]. rewrite <- F.
        exact (attached_update (mkChs (cs_frames s1) (cs_hulls s1 ++ [mkCh o f X]) (cs_tr s1)) (mkCh o f X)).
      * apply KEEP; [cbn; destruct (Nat.eqb_spec o' o); [contradiction|reflexivity]|].
        intros f' X' [K|(h & K & _)]; [injection K as -> _ _; contradiction|discriminate].
    + injection H as <-. split; [reflexivity|]. split; [cbn; rewrite U, app_nil_r; reflexivity|]. intros o'.
      apply KEEP; [reflexivity|]. intros f' X' [K|(h & K & _)]; discriminate.
    + destruct (nth_error (cs_hulls s1) h) as [u|] eqn:N; [|discriminate]. cbn in H. injection H as <-.
      split; [exact F|]. split; [cbn; rewrite U, app_nil_r; reflexivity|].
      rewrite U, nth_error_map in N. destruct (nth_error (created l) h) as [[[o f] X]|] eqn:NC; [|discriminate]. cbn in N. injection N as <-.
      intros o'. destruct (Nat.eq_dec o' o) as [->|Ne].
      * apply (HERE o f X); [right; exists h; auto|]. rewrite <- F. exact (attached_update s1 (mkCh o f X)).
      * apply KEEP; [cbn; destruct (Nat.eqb_spec o' o); [contradiction|reflexivity]|].
        intros f' X' [K|(h' & K & E)]; [discriminate|]. injection K as <-. rewrite NC in E. injection E as -> _ _. contradiction.
Qed.
Lemma app_split {A} (l1 l1' l2 l2' : list A) c c' : l1 ++ c :: l2 = l1' ++ c' :: l2' ->
  (l1 = l1' /\ c = c' /\ l2 = l2') \/ (exists k, l1' = l1 ++ c :: k /\ l2 = k ++ c' :: l2') \/ (exists k, l1 = l1' ++ c' :: k /\ l2' = k ++ c :: l2).
Proof.
  revert l1'. induction l1 as [|a l1 IH]; intros [|b l1'] E; cbn in E; injection E as E1 E2.
  - auto.
  - subst b. right. left. exists l1'. auto.
  - subst a. right. right. exists l1. auto.
  - subst b. destruct (IH l1' E2) as [(-> & -> & ->)|[(k & -> & ->)|(k & -> & ->)]]; [auto|right; left|right; right]; exists k; auto.
Qed.
Lemma last_unique P l o f X Pf f' X' Pf' : lastPlaced P l o f X Pf -> lastPlaced P l o f' X' Pf' -> X = X' /\ Pf = Pf'.
Proof.
  intros (l1 & c & l2 & -> & A & -> & C) (l1' & c' & l2' & E & A' & -> & C').
  apply app_split in E. destruct E as [(<- & <- & _)|[(k & -> & ->)|(k & -> & ->)]].
  - destruct (places_unique _ _ _ _ _ _ _ A A') as [-> ->]. auto.
  - destruct (C k c' l2' f' X' eq_refl A').
  - destruct (C' k c l2 f X eq_refl A).
Qed.
Lemma position P l s o : run (chinit P) l = Ok s ->
  (forall f X Pf, lastPlaced P l o f X Pf -> attached s o X Pf) /\
  ((exists m, cs_tr s o = Some m) <-> exists f X Pf, lastPlaced P l o f X Pf).
Proof.
  intros H. destruct (run_inv P l s H) as (_ & _ & T). destruct (T o) as [(f & X & Pf & L & A)|[N E]].
  - split; [|split; [eauto|intros _; destruct A as (m & M & _); eauto]].
    intros f' X' Pf' L'. destruct (last_unique _ _ _ _ _ _ _ _ _ L L') as [-> ->]. exact A.
  - assert (NL : forall f X Pf, ~ lastPlaced P l o f X Pf).
    { intros f X Pf (l1 & c & l2 & E' & A & _). exact (N l1 c l2 f X E' A). }
    split; [intros f X Pf L; destruct (NL f X Pf L)|]. split; [intros (m & M); congruence|intros (f & X & Pf & L); destruct (NL f X Pf L)].
Qed.
Lemma defined P l : (exists s, run (chinit P) l = Ok s) <-> forall l1 h l2, l = l1 ++ CUpdate h :: l2 -> (h < length (created l1))%nat.
Proof.
  induction l as [|c l IH] using rev_ind.
  - split; [intros _ l1 h l2 E; destruct l1; discriminate|intros _; eexists; reflexivity].
  - rewrite run_app. split.
    + intros [s H] l1 h l2 E. destruct (run (chinit P) l) as [s1| |] eqn:R; cbn in H; try discriminate.
      destruct l2 as [|e l2] using rev_ind.
      * apply app_inj_tail in E. destruct E as [-> ->]. cbn in H. destruct (run_inv P l1 s1 R) as (_ & U & _).
        destruct (nth_error (cs_hulls s1) h) eqn:N; [|discriminate]. assert (N' : nth_error (cs_hulls s1) h <> None) by congruence.
        apply nth_error_Some in N'. rewrite U, map_length in N'. exact N'.
      * rewrite app_comm_cons, app_assoc in E. apply app_inj_tail in E. destruct E as [E _]. apply (proj1 IH (ex_intro _ s1 eq_refl) l1 h l2 E).
    + intros B. destruct (proj2 IH) as [s1 R].
      { intros l1 h l2 E. apply (B l1 h (l2 ++ [c])). rewrite E, <- app_assoc. reflexivity. }
      rewrite R. cbn. destruct c as [o f X|P'|h]; cbn; try (eexists; reflexivity).
      destruct (run_inv P l s1 R) as (_ & U & _). pose proof (B l h [] eq_refl) as L.
      destruct (nth_error (cs_hulls s1) h) as [u|] eqn:N; [cbn; eexists; reflexivity|].
      apply nth_error_None in N. rewrite U, map_length in N. lia.
Qed.
(* updates of all the hulls *)
Lemma pair_objects P l s a b u v o1 f1 X1 o2 f2 X2 : run (chinit P) l = Ok s ->
  nth_error (cs_hulls s) a = Some u -> nth_error (cs_hulls s) b = Some v ->
  nth_error (created l) a = Some (o1, f1, X1) -> nth_error (created l) b = Some (o2, f2, X2) -> makePair u v = (o1, o2).
Proof.
  intros H A B C D. destruct (run_inv P l s H) as (_ & U & _). rewrite U in A, B.
  rewrite (map_nth_error asHull a _ C) in A. rewrite (map_nth_error asHull b _ D) in B. injection A as <-. injection B as <-. reflexivity.
Qed.
Lemma created_updates hs : created (map CUpdate hs) = [].
Proof. induction hs; cbn; auto. Qed.
Lemma frames_updates P hs : framesAfter P (map CUpdate hs) = P.
Proof. revert P. induction hs as [|h hs IH]; intros P; cbn; [reflexivity|apply IH]. Qed.
Lemma all_updated P l P' hs s o f X : run (chinit P) (l ++ CMove P' :: map CUpdate hs) = Ok s ->
  (forall h, (h < length (created l))%nat -> In h hs) -> NoDup (map (fun t => fst (fst t)) (created l)) ->
  In (o, f, X) (created l) -> attached s o X (P' f).
Proof.
  intros H A ND I. destruct (position P _ s o H) as [PL _]. apply (PL f X (P' f)).
  apply In_nth_error in I. destruct I as [h NH]. assert (LT : (h < length (created l))%nat) by (apply nth_error_Some; congruence).
  pose proof (A h LT) as IH'. clear PL A.
  (* the last update of h *)
  assert (SP : forall hs : list nat, In h hs -> exists a b, hs = a ++ h :: b /\ ~ In h b).
  { induction hs0 as [|x r IHr]; intros J; [destruct J|]. destruct (in_dec Nat.eq_dec h r) as [J'|J'].
    - destruct (IHr J') as (a & b & -> & N). exists (x :: a), b. auto.
    - destruct J as [->|J]; [|contradiction]. exists [], r. auto. }
  destruct (SP hs IH') as (a & b & E & NB).
  exists (l ++ CMove P' :: map CUpdate a), (CUpdate h), (map CUpdate b). split.
  { rewrite E, map_app, <- app_assoc. reflexivity. }
  assert (CR : forall k, created (l ++ CMove P' :: map CUpdate k) = created l).
  { intros k. rewrite created_app. cbn. fold (created (map CUpdate k)). rewrite created_updates. apply app_nil_r. }
  split; [right; exists h; split; [reflexivity|]; rewrite CR; exact NH|]. split.
  { rewrite frames_app. cbn. fold (framesAfter P' (map CUpdate a)). rewrite frames_updates. reflexivity. }
  intros l3 c' l4 f' X' EB [K|(h' & K & N')].
  - subst c'. assert (J : In (CNew o f' X') (map CUpdate b)) by (rewrite EB; apply in_or_app; right; left; reflexivity).
    apply in_map_iff in J. destruct J as (x & J & _). discriminate.
  - subst c'. assert (J : In (CUpdate h') (map CUpdate b)) by (rewrite EB; apply in_or_app; right; left; reflexivity).
    apply in_map_iff in J. destruct J as (x & J & JB). injection J as ->.
    assert (C3 : created ((l ++ CMove P' :: map CUpdate a) ++ CUpdate h :: l3) = created l).
    { rewrite created_app, CR. cbn. fold (created l3). assert (L3 : created l3 = []).
      { assert (Q : created (map CUpdate b) = []) by apply created_updates. rewrite EB, created_app in Q. apply app_eq_nil in Q. tauto. }
      rewrite L3. apply app_nil_r. }
    rewrite C3 in N'. assert (HH : h = h').
    { apply (proj1 (NoDup_nth_error _) ND); [rewrite map_length; exact LT|]. rewrite !nth_error_map, NH, N'. reflexivity. }
    subst h'. contradiction.
Qed.
End Ch.
(* distances *)
Lemma rigid_place X x y : orthonormal (p_rot X) -> distance (place X x) (place X y) = distance x y.
Proof.
  intros O. unfold distance. f_equal.
  pose proof (proj2 (O (mkV3 1 0 0))) as A. pose proof (proj2 (O (mkV3 0 1 0))) as B. pose proof (proj2 (O (mkV3 0 0 1))) as C.
  unfold coordinates, place in *. cbn in *. injection A as A1 A2 A3. injection B as B1 B2 B3. injection C as C1 C2 C3.
  destruct X as [[[a b c] [d e f] [g h i]] [t u v]], x as [x1 x2 x3], y as [y1 y2 y3]. cbn in *.
  transitivity ((x1 - y1) * (x1 - y1) * (a * a + b * b + c * c) + (x2 - y2) * (x2 - y2) * (d * d + e * e + f * f) + (x3 - y3) * (x3 - y3) * (g * g + h * h + i * i)
     + 2 * (x1 - y1) * (x2 - y2) * (a * d + b * e + c * f) + 2 * (x1 - y1) * (x3 - y3) * (a * g + b * h + c * i) + 2 * (x2 - y2) * (x3 - y3) * (d * g + e * h + f * i)); [ring|].
  assert (E1 : a * a + b * b + c * c = 1) by lra. assert (E2 : d * d + e * e + f * f = 1) by lra. assert (E3 : g * g + h * h + i * i = 1) by lra.
  assert (E4 : a * d + b * e + c * f = 0) by lra. assert (E5 : a * g + b * h + c * i = 0) by lra. assert (E6 : d * g + e * h + f * i = 0) by lra.
  rewrite E1, E2, E3, E4, E5, E6. ring.
Qed.
Lemma rigid s o X Pf m : attached s o X Pf -> cs_tr s o = Some m -> orthonormal (p_rot X) -> orthonormal (p_rot Pf) ->
  forall x y, distance (schPoint m x) (schPoint m y) = distance x y.
Proof.
  intros (m' & E & A) E' OX OP x y. rewrite E in E'. injection E' as <-. rewrite !A, !rigid_place by assumption. reflexivity.
Qed.
