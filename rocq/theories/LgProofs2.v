(* Proofs about the walks from the outputs of a graph, and what they have to do with its plan. *)
From Coq Require Import List Bool Arith Lia Relations.
Import ListNotations.
From Verif Require Import Base CallGraphModel CallGraphSpec InputsModel InputsSpec NdModel NdSpec NdProofs NdProofs2 NdProofs3 LgModel LgSpec LgProofs.
Local Open Scope nat_scope.

Lemma pushFor_all {D X} (f : D -> res X) (h : D -> X) l : (forall d, In d l -> f d = Ok (h d)) -> forall st, pushFor (fun _ => true) f l st = Ok (rev (map h l) ++ st).
Proof.
  induction l as [|d l IH]; intros H st; [reflexivity|]. cbn [pushFor]. rewrite (H d (or_introl eq_refl)). cbn [bind].
  rewrite IH by (intros d' J; apply H; right; exact J). cbn [map rev]. rewrite <- app_assoc. reflexivity.
Qed.
Lemma inputsOfGraph_alt L g : inputsOfGraph L g =
  map (fun i => (snd (fst i), snd i)) (flat_map (fun p => filter (fun i => fst (fst i) =? p) (lgInp L)) (map snd (filter (fun p => fst p =? g) (lgGraph L)))).
Proof.
  unfold inputsOfGraph. induction (lgGraph L) as [|p l IH]; [reflexivity|]. cbn [flat_map filter]. rewrite IH. destruct (fst p =? g); [|reflexivity].
  cbn [map flat_map]. rewrite map_app. reflexivity.
Qed.
Lemma startingPoints_spec L g : startingPoints L (map snd (filter (fun p => fst p =? g) (lgGraph L))) = Ok (inputsOfGraph L g).
Proof.
  unfold startingPoints. rewrite (pushFor_all (X := out_) (fun i => findOutput (allOutputs L) i) (fun i : nat * nat * nat => (snd (fst i), snd i))).
  - cbn [bind]. rewrite app_nil_r, rev_involutive, <- inputsOfGraph_alt. reflexivity.
  - intros [[n s] i] J. apply in_flat_map in J. destruct J as [p [_ J]]. apply filter_In in J. exact (findOutput_In L n s i (proj1 J)).
Qed.
Lemma subGraph_follow fuel L g : subGraph fuel L g = followUpDependency fuel L (allOutputs L) (inputsOfGraph L g).
Proof.
  unfold subGraph. pose proof (startingPoints_spec L g) as S. destruct (filter (fun p => fst p =? g) (lgGraph L)) as [|p l] eqn:E.
  - cbn [map] in S. cbn in S. injection S as <-. unfold followUpDependency. destruct fuel; reflexivity.
  - rewrite S. reflexivity.
Qed.
Lemma inputsOfGraph_In L g n o : In (n, o) (inputsOfGraph L g) <-> isGraphOutput L g n o.
Proof.
  unfold inputsOfGraph, isGraphOutput. rewrite in_flat_map. split.
  - intros [[g' p] [J K]]. cbn [fst snd] in K. destruct (Nat.eqb_spec g' g) as [->|]; [|destruct K]. apply in_map_iff in K. destruct K as [[[p' s] i] [E K]].
    cbn [fst snd] in E. injection E as -> ->. apply filter_In in K. destruct K as [K1 K2]. cbn [fst] in K2. apply Nat.eqb_eq in K2. subst p'. exists p. auto.
  - intros [p [J K]]. exists (g, p). split; [exact J|]. cbn [fst snd]. rewrite Nat.eqb_refl. apply in_map_iff. exists (p, n, o). split; [reflexivity|].
    apply filter_In. split; [exact K|]. apply Nat.eqb_refl.
Qed.

(* ---- the log ---- *)
Lemma logOf_snoc evs e : logOf (evs ++ [e]) = tell (logOf evs) e.
Proof.
  unfold logOf, lrun. rewrite map_app, fold_left_app. cbn [map fold_left].
  assert (N : forall l s, snd s = false -> snd (fold_left lexec (map LTell l) s) = false).
  { induction l as [|x l IH]; intros s E; [exact E|]. cbn [map fold_left]. apply IH. cbn [lexec]. rewrite E. reflexivity. }
  set (s := fold_left lexec (map LTell evs) (log0, false)). assert (E : snd s = false) by (apply N; reflexivity). unfold lexec. rewrite E. reflexivity.
Qed.
Lemma logOf_In evs :
  (forall n u f, In (n, u, f) (lgUpd (logOf evs)) <-> In (EUpdate n u f) evs) /\
  (forall n s i, In (n, s, i) (lgInp (logOf evs)) <-> In (EInput n s i) evs) /\
  (forall n o u, In (n, o, u) (lgOutDep (logOf evs)) <-> In (EOutputDep n o u) evs) /\
  (forall n ud u, In (n, ud, u) (lgIntDep (logOf evs)) <-> In (EInternalDep n ud u) evs) /\
  (forall n u s i, In (n, u, s, i) (lgInDep (logOf evs)) <-> In (EInputDep n u s i) evs) /\
  (forall n o s i, In (n, o, s, i) (lgDir (logOf evs)) <-> In (EDirectDep n o s i) evs) /\
  (forall g n, In (g, n) (lgGraph (logOf evs)) <-> In (EGraph g n) evs).
Proof.
  induction evs as [|e evs IH] using rev_ind; [cbn; intuition|].
  destruct IH as [I1 [I2 [I3 [I4 [I5 [I6 I7]]]]]]. rewrite logOf_snoc.
  split; [|split; [|split; [|split; [|split; [|split]]]]]; intros; destruct e; cbn [tell lgUpd lgInp lgOutDep lgIntDep lgInDep lgDir lgGraph]; rewrite ?In_snoc;
  rewrite ?I1, ?I2, ?I3, ?I4, ?I5, ?I6, ?I7; intuition congruence.
Qed.

(* ---- the plan ---- *)
Section Plan.
Variable H : nat -> list nop.
Variable evs : list logev.
Hypothesis T : toldBy H evs.
Let L := logOf evs.
Let N := netOf (world H).
Definition stOf (n : nat) : nst := fst (nrun n nst0 (H n)).

Lemma told n e : declaredBy n e = true -> (In e evs <-> In e (snd (nrun n nst0 (H n)))).
Proof. intros D. rewrite <- T, filter_In. tauto. Qed.
Lemma madeOf n : exists a, holdsDecl n (stOf n) (snd (nrun n nst0 (H n))) a.
Proof.
  destruct (made_exists n (H n)) as [st [ev [a [_ M]]]]. exists a. unfold stOf. rewrite (made_run n (H n) st ev a M). exact (made_holds n (H n) st ev a M).
Qed.
Lemma toldDecl n a e : holdsDecl n (stOf n) (snd (nrun n nst0 (H n))) a -> notInput e = true -> declaredBy n e = true ->
  (In e evs <-> exists c, In c a /\ In e (declarations n c)).
Proof.
  intros HD NI D. rewrite (told n e D). rewrite <- in_flat_map, <- (hd_decl _ _ _ _ HD), filter_In. tauto.
Qed.
Lemma asList_In {A} (l : list A) x : (exists l', asList l = Some l' /\ In x l') <-> In x l.
Proof. destruct l as [|y l]; cbn [asList]; [split; [intros [l' [E _]]; discriminate|intros []]|]. split; [intros [l' [E J]]; injection E as <-; exact J|intros J; eexists; split; [reflexivity|exact J]]. Qed.
Lemma log_upd n u f : In (n, u, f) (lgUpd L) <-> nUpd (stOf n) u = Some f.
Proof.
  destruct (madeOf n) as [a HD]. rewrite (hd_upd _ _ _ _ HD). unfold L. rewrite (proj1 (logOf_In evs)). rewrite (toldDecl n a _ HD) by (cbn; rewrite ?Nat.eqb_refl; reflexivity).
  unfold registers. split.
  - intros [c [J K]]. destruct c; cbn [declarations] in K; try (apply in_map_iff in K; destruct K as [x [E K]]; try discriminate); try (destruct K as [K|[]]; discriminate); try destruct K.
    injection E as <- <-. eexists. eexists. split; [exact J|]. destruct x; exact K.
  - intros [uen [ufs [J K]]]. exists (NRegister uen ufs). split; [exact J|]. cbn [declarations]. apply in_map_iff. exists (u, f). auto.
Qed.
Lemma log_inp n s i : In (n, s, i) (lgInp L) <-> hasInput (stOf n) s i.
Proof.
  destruct (madeOf n) as [a HD]. unfold L. rewrite (proj1 (proj2 (logOf_In evs))). rewrite (told n _) by (cbn; apply Nat.eqb_refl).
  pose proof (hd_logged _ _ _ _ HD (EInput n s i)) as K. rewrite filter_In in K. cbn [isInput] in K. split.
  - intros J. destruct (proj1 K (conj J eq_refl)) as [s' [i' [E J']]]. injection E as <- <-. exact J'.
  - intros J. apply K. exists s, i. auto.
Qed.
Lemma log_out n o u : In (n, o, u) (lgOutDep L) <-> exists us, outDep (nDeps (stOf n)) o = Some us /\ In u us.
Proof.
  destruct (madeOf n) as [a HD]. rewrite (hd_out _ _ _ _ HD), asList_In. unfold L. rewrite (proj1 (proj2 (proj2 (logOf_In evs)))).
  rewrite (toldDecl n a _ HD) by (cbn; rewrite ?Nat.eqb_refl; reflexivity). rewrite in_flat_map. split; intros [c [J K]]; exists c; (split; [exact J|]).
  - destruct c; cbn [declarations updatesFor] in *; try (apply in_map_iff in K; destruct K as [x [E K]]; try discriminate); try (destruct K as [K|[]]; discriminate); try destruct K.
    injection E as <- <-. apply in_map_iff. exists x. split; [reflexivity|]. apply filter_In. split; [exact K|apply Nat.eqb_refl].
  - destruct c; cbn [declarations updatesFor] in *; try destruct K. apply in_map_iff in K. destruct K as [x [<- K]]. apply filter_In in K. destruct K as [K E].
    apply Nat.eqb_eq in E. subst x. apply in_map_iff. exists o. auto.
Qed.
Lemma log_int n ud u : In (n, ud, u) (lgIntDep L) <-> exists us, intDep (nDeps (stOf n)) ud = Some us /\ In u us.
Proof.
  destruct (madeOf n) as [a HD]. rewrite (hd_int _ _ _ _ HD), asList_In. unfold L. rewrite (proj1 (proj2 (proj2 (proj2 (logOf_In evs))))).
  rewrite (toldDecl n a _ HD) by (cbn; rewrite ?Nat.eqb_refl; reflexivity). rewrite in_flat_map. split; intros [c [J K]]; exists c; (split; [exact J|]).
  - destruct c; cbn [declarations updatesBefore] in *; try (apply in_map_iff in K; destruct K as [x [E K]]; discriminate); try contradiction; (destruct K as [K|[]]; try discriminate).
    injection K as <- <-. rewrite Nat.eqb_refl. left. reflexivity.
  - destruct c as [| |uen ud' u'| | |]; cbn [declarations updatesBefore] in *; try destruct K. destruct (Nat.eqb_spec ud' ud) as [->|]; [|destruct K]. destruct K as [<-|[]]. left. reflexivity.
Qed.
Lemma log_in n u s i : In (n, u, s, i) (lgInDep L) <-> depends (stOf n) u s i.
Proof.
  destruct (madeOf n) as [a HD]. rewrite (hd_in _ _ _ _ HD). unfold L. rewrite (proj1 (proj2 (proj2 (proj2 (proj2 (logOf_In evs)))))).
  rewrite (toldDecl n a _ HD) by (cbn; rewrite ?Nat.eqb_refl; reflexivity). unfold usesInput. split.
  - intros [c [J K]]. destruct c; cbn [declarations] in *; try (apply in_map_iff in K; destruct K as [x [E K]]; try discriminate); try (destruct K as [K|[]]; discriminate); try destruct K.
    injection E as <- <- <-. eexists. eexists. eexists. eexists. split; [exact J|exact K].
  - intros [sh [uen [sen [is_ [J K]]]]]. eexists. split; [exact J|]. cbn [declarations]. apply in_map_iff. exists i. auto.
Qed.
Lemma log_dir n o s i : In (n, o, s, i) (lgDir L) <-> dirDep (nDeps (stOf n)) o = Some (s, i).
Proof.
  destruct (madeOf n) as [a HD]. rewrite (hd_dir _ _ _ _ HD). unfold L. rewrite (proj1 (proj2 (proj2 (proj2 (proj2 (proj2 (logOf_In evs))))))).
  rewrite (toldDecl n a _ HD) by (cbn; rewrite ?Nat.eqb_refl; reflexivity). unfold forwards. split.
  - intros [c [J K]]. destruct c; cbn [declarations] in *; try (apply in_map_iff in K; destruct K as [x [E K]]; discriminate); try contradiction; (destruct K as [K|[]]; try discriminate).
    injection K as <- <- <-. eexists. eexists. eexists. exact J.
  - intros [sh [oen [sen J]]]. eexists. split; [exact J|]. left. reflexivity.
Qed.
Lemma N_some s : N s = Some (nDeps (stOf s)).
Proof. reflexivity. Qed.
Lemma no_mix n o : dirDep (nDeps (stOf n)) o = None \/ outDep (nDeps (stOf n)) o = None.
Proof. destruct (madeOf n) as [a HD]. exact (hd_mix _ _ _ _ HD o). Qed.

Lemma feeds_path s o c : feeds N s o c -> clos_refl_trans item (uses L) (AnOutput s o) (AnUpdate (fst c) (snd c)).
Proof.
  induction 1 as [s nd o us u E O J|s nd o s' o' c E O D F IH].
  - rewrite N_some in E. injection E as <-. apply rt_step. constructor. apply log_out. exists us. auto.
  - rewrite N_some in E. injection E as <-. eapply rt_trans; [|exact IH]. apply rt_step. constructor. apply log_dir. exact D.
Qed.
Lemma dep_path c d : dep N c d -> clos_refl_trans item (uses L) (AnUpdate (fst c) (snd c)) (AnUpdate (fst d) (snd d)).
Proof.
  induction 1 as [s nd u us u' E I J|s nd u ins s' os o d E I J K F].
  - rewrite N_some in E. injection E as <-. apply rt_step. constructor. apply log_int. exists us. auto.
  - rewrite N_some in E. injection E as <-. eapply rt_trans; [|apply (feeds_path s' o d F)]. apply rt_step. constructor. apply log_in. exists ins, os. auto.
Qed.
Lemma deps_path c d : clos_refl_trans call (dep N) c d -> clos_refl_trans item (uses L) (AnUpdate (fst c) (snd c)) (AnUpdate (fst d) (snd d)).
Proof. induction 1 as [c d D|c|c d e _ I1 _ I2]; [exact (dep_path c d D)|apply rt_refl|eapply rt_trans; eassumption]. Qed.
Lemma path_deps x y : clos_refl_trans item (uses L) x y ->
  match y with AnOutput _ _ => True | AnUpdate m v =>
    match x with AnOutput s o => exists c, feeds N s o c /\ clos_refl_trans call (dep N) c (m, v) | AnUpdate n u => clos_refl_trans call (dep N) (n, u) (m, v) end end.
Proof.
  intros R. apply clos_rt_rt1n in R. induction R as [x|x y z U R IH].
  - destruct x; [exact I|apply rt_refl].
  - destruct z as [m v|m v]; [exact I|]. inversion U as [n o u J|n o s i J|n ud u J|n u s i J]; subst x y.
    + apply log_out in J. destruct J as [us [O J]]. exists (n, u). split; [exact (feeds_out N n _ o us u (N_some n) O J)|exact IH].
    + apply log_dir in J. destruct IH as [c [F IH]]. exists c. split; [|exact IH]. apply (feeds_dir N n _ o s i c (N_some n)); [|exact J|exact F].
      destruct (no_mix n o) as [E|E]; [congruence|exact E].
    + apply log_int in J. destruct J as [us [O J]]. eapply rt_trans; [|exact IH]. apply rt_step. exact (dep_int N n _ ud us u (N_some n) O J).
    + apply log_in in J. destruct J as [l [is_ [E [J K]]]]. destruct IH as [c [F IH]]. eapply rt_trans; [|exact IH]. apply rt_step.
      exact (dep_in N n _ u l s is_ i c (N_some n) E J K F).
Qed.
Lemma needed_iff g ins n u : addedTo H evs g ins -> (needed N ins (n, u) <-> usedBy L (inputsOfGraph L g) (AnUpdate n u)).
Proof.
  intros A.
  assert (G : forall s o, In (s, o) (inputsOfGraph L g) <-> exists os, In (s, os) ins /\ In o os).
  { intros s o. rewrite inputsOfGraph_In, (A s o). unfold isGraphOutput. split; intros [p [J K]]; exists p; (split; [apply (logOf_In evs) in J || (unfold L; apply (logOf_In evs)); exact J|apply (log_inp p s o); exact K]). }
  split.
  - intros [s [os [o [c0 [J [K [F R]]]]]]]. exists s, o. split; [apply G; exists os; auto|]. eapply rt_trans; [exact (feeds_path s o c0 F)|exact (deps_path c0 (n, u) R)].
  - intros [s [o [J R]]]. apply G in J. destruct J as [os [J K]]. destruct (path_deps _ _ R) as [c [F D]]. exists s, os, o, c. auto.
Qed.
(* an update reached in a walk that meets no dangling item is registered *)
Lemma reached_registered start n u : ~ bad L start -> usedBy L start (AnUpdate n u) -> exists f, firstFunction L n u f.
Proof.
  intros NB [s [o [J R]]]. apply clos_rt_rtn1 in R. inversion R as [|y z U R' E]; subst. apply clos_rtn1_rt in R'.
  assert (B : usedBy L start y) by (exists s, o; auto).
  assert (D : ~ forall f, ~ In (n, u, f) (lgUpd L)).
  { intros K. apply NB. exists y. split; [exact B|]. inversion U; subst; [eapply dg_out|eapply dg_int]; eassumption. }
  pose proof (findUpdate_spec L n u) as F. destruct (findUpdate (lgUpd L) n u) as [x| |]; [|contradiction|contradiction]. destruct F as [f [_ F]]. exists f. exact F.
Qed.
Lemma graph_updates g ins fuel outs upds : addedTo H evs g ins -> turns L (inputsOfGraph L g) <= fuel -> subGraph fuel L g = Ok (outs, upds) ->
  (forall n u, needed N ins (n, u) <-> exists f, In (n, u, f) upds) /\ (forall n u f, In (n, u, f) upds -> nUpd (stOf n) u = Some f).
Proof.
  intros A B E. rewrite subGraph_follow in E. pose proof (follow_spec L (inputsOfGraph L g) fuel B) as F. rewrite E in F. destruct F as [[_ [_ [_ F]]] NB].
  split.
  - intros n u. rewrite (needed_iff g ins n u A). split.
    + intros U. destruct (reached_registered _ n u NB U) as [f K]. exists f. apply F. auto.
    + intros [f K]. apply F in K. exact (proj1 K).
  - intros n u f K. apply F in K. apply log_upd. exact (firstFunction_In _ _ _ _ (proj2 K)).
Qed.
Lemma tidy_returns g fuel : turns L (inputsOfGraph L g) <= fuel ->
  (forall n u s i, depends (stOf n) u s i -> hasInput (stOf n) s i) ->
  (forall n o us u, outDep (nDeps (stOf n)) o = Some us -> In u us -> nUpd (stOf n) u <> None) ->
  (forall n v us u, intDep (nDeps (stOf n)) v = Some us -> In u us -> nUpd (stOf n) u <> None) ->
  exists r, subGraph fuel L g = Ok r.
Proof.
  intros B C1 C2 C3. rewrite subGraph_follow. pose proof (follow_spec L (inputsOfGraph L g) fuel B) as F.
  destruct (followUpDependency fuel L (allOutputs L) (inputsOfGraph L g)) as [r| |]; [exists r; reflexivity| |destruct F].
  exfalso. destruct F as [x [_ D]]. inversion D as [n o u J K|n o s i J K|n ud u J K|n u s i J K]; subst x.
  - apply log_out in J. destruct J as [us [E J]]. apply (C2 n o us u E J). destruct (nUpd (stOf n) u) as [f|] eqn:Q; [|reflexivity]. apply log_upd in Q. destruct (K f Q).
  - apply K. apply log_inp. apply log_dir in J. destruct (madeOf n) as [a HD]. apply (hd_inp _ _ _ _ HD). apply (hd_dir _ _ _ _ HD) in J.
    right. right. destruct J as [sh [oen [sen J]]]. exists sh, oen, sen, o. exact J.
  - apply log_int in J. destruct J as [us [E J]]. apply (C3 n ud us u E J). destruct (nUpd (stOf n) u) as [f|] eqn:Q; [|reflexivity]. apply log_upd in Q. destruct (K f Q).
  - apply K. apply log_inp. apply log_in in J. exact (C1 n u s i J).
Qed.
End Plan.
Lemma usedBy_ext L s1 s2 x : (forall n o, In (n, o) s1 <-> In (n, o) s2) -> usedBy L s1 x -> usedBy L s2 x.
Proof. intros E [n [o [J R]]]. exists n, o. split; [apply E; exact J|exact R]. Qed.
Lemma graph_spec L g start : (forall n o, In (n, o) start <-> isGraphOutput L g n o) -> forall fuel, turns L (inputsOfGraph L g) <= fuel ->
  match subGraph fuel L g with
  | Ok (outs, upds) => rightWalk L start outs upds /\ ~ (exists x, usedBy L start x /\ dangling L x)
  | Throw => exists x, usedBy L start x /\ dangling L x
  | UB => False
  end.
Proof.
  intros S fuel B. rewrite subGraph_follow. pose proof (follow_spec L (inputsOfGraph L g) fuel B) as F.
  assert (E : forall n o, In (n, o) (inputsOfGraph L g) <-> In (n, o) start) by (intros n o; rewrite S; apply inputsOfGraph_In).
  assert (U : forall x, usedBy L (inputsOfGraph L g) x <-> usedBy L start x).
  { intros x. split; apply usedBy_ext; [exact E|]. intros n o. symmetry. apply E. }
  destruct (followUpDependency fuel L (allOutputs L) (inputsOfGraph L g)) as [[outs upds]| |]; [| |exact F].
  - destruct F as [[F1 [F2 [F3 F4]]] NB]. split; [split; [exact F1|split; [exact F2|split]]|].
    + intros n o. rewrite F3. apply U.
    + intros n u f. rewrite F4, U. tauto.
    + intros [x [J D]]. apply NB. exists x. split; [apply U; exact J|exact D].
  - destruct F as [x [J D]]. exists x. split; [apply U; exact J|exact D].
Qed.
Lemma disabled_spec h : fst (lrun h) = logOf (heard true h).
Proof.
  assert (G : forall h s, snd s = false \/ snd s = true -> fst (fold_left lexec h s) = fst (fold_left lexec (map LTell (heard (negb (snd s)) h)) (fst s, false))).
  { clear h. induction h as [|o h IH]; intros s D; [reflexivity|]. cbn [fold_left]. destruct o as [| |e]; cbn [heard lexec].
    - rewrite IH by (cbn; auto). reflexivity.
    - rewrite IH by (cbn; auto). reflexivity.
    - destruct s as [L d]. cbn [fst snd] in *. destruct d; cbn [negb].
      + rewrite IH by (cbn; auto). reflexivity.
      + rewrite IH by (cbn; auto). reflexivity. }
  unfold lrun, logOf, lrun. rewrite (G h (log0, false)) by (cbn; auto). reflexivity.
Qed.
