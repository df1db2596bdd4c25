(* Proofs for C33: the statements. *)
From Coq Require Import List Bool Arith QArith Lia Lqa.
Import ListNotations.
From Verif Require Import Base QSum SubstModel SubstSpec SubstProofs SubstProofs2 SubstProofs3 SubstProofs4.
Local Open Scope nat_scope.

Lemma ctxOk_start sz : ctxOk sz start.
Proof. split; [constructor|intros x []]. Qed.
Lemma fresh_start l : wellFormed l -> fresh start l.
Proof. intros [H1 H2]. split; [exact H1|]. split; [intros v _ []|exact H2]. Qed.
Lemma updates_zero sz l : wellFormed l -> forall ds s s', zeroAll (scan sz start l) s -> updates sz (scan sz start l) ds s = Ok s' -> zeroAll (scan sz start l) s'.
Proof.
  intros W. induction ds as [|d ds IH]; intros s s' Z0 E; simpl in E; [injection E as <-; exact Z0|].
  destruct (update sz (d_jac d) (d_e d) (d_cal d) (scan sz start l) s) as [s1| |] eqn:E1; try discriminate. simpl in E.
  apply (IH s1 s'); [|exact E]. eapply update_frame; eauto using ctxOk_start, fresh_start.
Qed.
Lemma updates_app sz l ds d : forall s s', updates sz l (ds ++ [d]) s = Ok s' ->
  exists s1, updates sz l ds s = Ok s1 /\ update sz (d_jac d) (d_e d) (d_cal d) l s1 = Ok s'.
Proof.
  induction ds as [|d0 ds IH]; intros s s' E; simpl in E.
  - exists s. split; [reflexivity|]. destruct (update sz (d_jac d) (d_e d) (d_cal d) l s) as [s1| |]; try discriminate. simpl in E. exact E.
  - destruct (update sz (d_jac d0) (d_e d0) (d_cal d0) l s) as [s1| |] eqn:E1; try discriminate. simpl in E. destruct (IH s1 s' E) as (s2 & A & C).
    exists s2. split; [|exact C]. simpl. rewrite E1. exact A.
Qed.
Lemma equivalence sz l s0 ds d s val : wellFormed l -> contracts sz (d_jac d) (d_cal d) 0 l -> unitAfter sz l s0 (ds ++ [d]) = Ok s ->
  (satisfied sz (d_jac d) (d_e d) 0 l val <->
   exists zv, (forall v f, In (v, f) (varSubstitutions sz (d_cal d) (scan sz start l) s) -> forall b, b < sz v -> (val v b == f val zv b)%Q) /\
              (forall n g, In (n, g) (remaining sz (scan sz start l) s) -> forall a, a < n -> (g val zv a == 0)%Q)).
Proof.
  intros W C E. destruct (updates_app _ _ _ _ _ _ E) as (s1 & E1 & E2).
  pose proof (updates_zero sz l W ds _ _ (initialize_zero sz start l s0) E1) as Z0.
  pose proof (group sz (d_jac d) (d_e d) (d_cal d) (zs (scan sz start l)) val l start s1 s (fun _ _ => 0%Q) (ctxOk_start sz) (fresh_start l W) Z0 E2
    (zs_scan sz l) C (fun x (F : In x []) => match F with end)) as G.
  cbn [start t_k] in G. rewrite G. split.
  - intros (zv & _ & H). exists zv. split.
    + intros v f I b Lb. unfold varSubstitutions in I. apply in_map_iff in I. destruct I as (x & Ex & I). injection Ex as <- <-.
      apply in_flat_map in I. destruct I as (r & Ir & Ix). now apply (proj1 (H r Ir)).
    + intros n g I a La. unfold remaining in I. apply in_map_iff in I. destruct I as (r & Er & Ir). injection Er as <- <-. apply (proj2 (H r Ir) a La).
  - intros (zv & H1 & H2). exists zv. split; [intros j Lj; lia|]. intros r Ir. split.
    + intros x Ix b Lb. apply (H1 (x_v x)); [|exact Lb]. unfold varSubstitutions. apply in_map_iff. exists x. split; [reflexivity|]. apply in_flat_map. eauto.
    + intros a La. apply (H2 (u_m r - u_r r) (fun val zv a => remRow sz (zs (scan sz start l)) val s r zv a)); [|exact La].
      unfold remaining. apply in_map_iff. exists r. split; [reflexivity|exact Ir].
Qed.

Lemma eliminated sz l cal s : ordered l ->
  map fst (varSubstitutions sz cal (scan sz start l) s) = flat_map s_xs l /\
  forall val val', (forall v, ~ In v (flat_map s_xs l) -> val v = val' v) ->
    (forall v f, In (v, f) (varSubstitutions sz cal (scan sz start l) s) -> forall zv b, (f val zv b == f val' zv b)%Q) /\
    (forall n g, In (n, g) (remaining sz (scan sz start l) s) -> forall zv a, (g val zv a == g val' zv a)%Q).
Proof.
  intros O. split.
  - unfold varSubstitutions. rewrite map_map. cbn [fst]. apply scan_vars.
  - intros val val' H.
    assert (P : forall r, In r (scan sz start l) -> (forall j, In j (u_SY r) -> ~ In j (flat_map s_xs l)) /\ (forall x, In x (u_xs r) -> x_Y x = u_SY r)).
    { intros r. apply (scan_Y sz (fun j => ~ In j (flat_map s_xs l))).
      - intros x [].
      - intros l1 y l2 cc v E J1 J2 J3 _ J5 K. rewrite E, flat_map_app in K. cbn [flat_map] in K. rewrite !in_app_iff in K.
        destruct K as [K|[K|K]]; [contradiction|contradiction|]. exact (O l1 y l2 cc v E J1 J2 K). }
    split.
    + intros v f I zv b. unfold varSubstitutions in I. apply in_map_iff in I. destruct I as (x & Ex & I). injection Ex as <- <-.
      apply in_flat_map in I. destruct I as (r & Ir & Ix). destruct (P r Ir) as [P1 P2]. unfold valueOf. rewrite (P2 x Ix).
      apply Qplus_comp; [apply Qplus_comp; [|reflexivity]|reflexivity]. apply qsum_ext. intros j Ij. now rewrite (H j (P1 j Ij)).
    + intros n g I zv a. unfold remaining in I. apply in_map_iff in I. destruct I as (r & Er & Ir). injection Er as <- <-.
      apply Qplus_comp; [apply Qplus_comp; [|reflexivity]|reflexivity]. apply qsum_ext. intros j Ij. now rewrite (H j (proj1 (P r Ir) j Ij)).
Qed.

Lemma defined sz l s0 ds : length (flat_map s_cs l) <= length (flat_map s_xs l) -> length (flat_map s_xs l) <= length l ->
  exists s, unitAfter sz l s0 ds = Ok s.
Proof.
  intros H1 H2. unfold unitAfter.
  assert (G : forall s, length (cIsZero s) = length (flat_map s_xs l) -> length (uIsZero s) = length l ->
    exists s', updates sz (scan sz start l) ds s = Ok s').
  { induction ds as [|d ds IH]; intros s L1 L2; [eexists; reflexivity|]. simpl.
    destruct (update_Ok sz (d_jac d) (d_e d) (d_cal d) (scan sz start l) s) as (s1 & E & A & C).
    - intros r I. split.
      + pose proof (scan_idx sz l start (fun x (F : In x []) => match F with end) r I) as Hi. intros cr J. destruct (Hi cr J) as [Hi1 Hi2].
        cbn [start t_c t_x length] in Hi1, Hi2. split; [lia|]. intros x Ix. specialize (Hi2 x Ix). lia.
      + apply In_nth_error in I. destruct I as (i & E). rewrite (scan_k sz _ _ _ _ E). cbn [start t_k].
        assert (nth_error (scan sz start l) i <> None) by congruence. apply nth_error_Some in H. rewrite scan_length in H. lia.
    - rewrite E. simpl. apply IH; congruence. }
  apply G; unfold initialize; cbn [cIsZero uIsZero]; rewrite map_length.
  - rewrite <- (scan_vars sz l start), map_length. reflexivity.
  - apply scan_length.
Qed.

Lemma zero_flag sz l s0 ds d s : wellFormed l -> (forall x, In x l -> length (s_xs x) = 1) -> unitAfter sz l s0 (ds ++ [d]) = Ok s ->
  forall x, In x (flat_map u_xs (scan sz start l)) -> bIsZero s x = true -> forall b, b < sz (x_v x) -> (u s (x_row x + b)%nat == 0)%Q.
Proof.
  intros W H1 E x Ix Fl b Lb. destruct (updates_app _ _ _ _ _ _ E) as (s1 & E1 & E2).
  pose proof (updates_zero sz l W ds _ _ (initialize_zero sz start l s0) E1) as Z0.
  destruct (flags sz (d_jac d) (d_e d) (d_cal d) l start s1 s (ctxOk_start sz) (fresh_start l W) H1 eq_refl (fun x (F : In x []) => match F with end) Z0 E2 x) as [A C].
  - exact Ix.
  - apply C; [|exact Lb]. rewrite A. exact Fl.
Qed.
Lemma zero_flagged sz l s0 ds d s : wellFormed l -> (forall x, In x l -> length (s_xs x) = 1) -> unitAfter sz l s0 (ds ++ [d]) = Ok s ->
  forall v f, In (true, (v, f)) (flagged sz (d_cal d) (scan sz start l) s) -> forall b, b < sz v -> (f zeros zeros b == 0)%Q.
Proof.
  intros W H1 E v f I b Lb. unfold flagged in I. apply in_map_iff in I. destruct I as (x & Ex & Ix). injection Ex as Fl <- <-.
  unfold valueOf. rewrite (zero_flag sz l s0 ds d s W H1 E x Ix Fl b Lb), !qsum_zero; [reflexivity| |];
    intros j _; apply qsumn_zero; intros; unfold zeros; ring.
Qed.
