(* Proofs for C54: the set after the updates, and the elimination. *)
From Coq Require Import List Bool Arith QArith Lia.
Import ListNotations.
From Verif Require Import Base QSum SubstModel SubSetModel SubSetSpec SubSetProofs SubSetProofs2.
From Verif Require SubstSpec SubstProofs SubstProofs2 SubstProofs3 SubstProofs4 SubstProofs5.
Local Open Scope nat_scope.

Lemma nth_indexed {A} (l : list A) : forall k p, nth_error (indexed k l) p = option_map (pair (k + p)) (nth_error l p).
Proof.
  induction l as [|a l IH]; intros k [|p]; simpl; auto; [now rewrite Nat.add_0_r|]. rewrite IH. now replace (S k + p) with (k + S p) by lia.
Qed.
Lemma In_indexed {A} (l : list A) k q a : In (q, a) (indexed k l) <-> exists p, q = k + p /\ nth_error l p = Some a.
Proof.
  split.
  - intros I. apply In_nth in I. destruct I as [p E]. rewrite nth_indexed in E. destruct (nth_error l p) as [b|] eqn:F; [|discriminate].
    injection E as <- <-. eauto.
  - intros (p & -> & E). apply (nth_error_In _ p). rewrite nth_indexed, E. reflexivity.
Qed.
Lemma indexed_length {A} (l : list A) : forall k, length (indexed k l) = length l.
Proof. induction l as [|a l IH]; intros k; simpl; auto. Qed.
Lemma map_snd_indexed {A} (l : list A) : forall k, map snd (indexed k l) = l.
Proof. induction l as [|a l IH]; intros k; simpl; f_equal; auto. Qed.

Lemma choice {A B} (P : nat -> A -> B -> Prop) (b0 : B) (l : list A) :
  (forall p a, nth_error l p = Some a -> exists b, P p a b) -> exists f, forall p a, nth_error l p = Some a -> P p a (f p).
Proof.
  revert P. induction l as [|a l IH]; intros P H.
  - exists (fun _ => b0). intros [|p] a E; discriminate.
  - destruct (H 0 a eq_refl) as [b Hb]. destruct (IH (fun p => P (S p)) (fun p c => H (S p) c)) as [f F].
    exists (fun p => match p with 0 => b | S p' => f p' end). intros [|p] c E; simpl in E; [injection E as <-; exact Hb|auto].
Qed.
Lemma combine_flat {U A B C} (a : U -> list A) (b : U -> list (A * B)) (h : nat -> B -> C) : forall us k,
  (forall x, map fst (b x) = a x) ->
  combine (flat_map a us) (flat_map (fun pu => map (fun f => h (fst pu) (snd f)) (b (snd pu))) (indexed k us)) =
  flat_map (fun pu => map (fun f => (fst f, h (fst pu) (snd f))) (b (snd pu))) (indexed k us).
Proof.
  induction us as [|x us IH]; intros k H; [reflexivity|]. cbn [flat_map indexed fst snd]. rewrite <- IH, <- (H x) by exact H.
  generalize (b x). induction l as [|[y z] l IHl]; [reflexivity|]. cbn [map app combine fst snd]. now rewrite IHl.
Qed.

Section P.
Variable sz : nat -> nat.
Variable cdef : nat -> cons.
Notation acceptable := (acceptable sz cdef).
Notation run := (run sz cdef).
Notation scanned := (scanned sz cdef).

Lemma run_app h h' : forall t, run (h ++ h') t = match run h t with Some t' => run h' t' | None => None end.
Proof. induction h as [|o h IH]; intros t; simpl; [reflexivity|]. destruct (step sz cdef o t); auto. Qed.
Lemma finalize_keeps mm t : match finalize sz cdef mm t with Done t' | Threw t' => subs t' = subs t /\ deps t' = deps t | Undef => True end.
Proof.
  unfold finalize. destruct (bind _ _) as [[us [|]]| |]; auto.
Qed.
Lemma update_keeps D t t' : updateSubstitutions sz cdef D t = Ok t' ->
  subs t' = subs t /\ deps t' = deps t /\ vars t' = vars t /\ addVars t' = addVars t /\ others t' = others t /\ gen t' = gen t /\ cur t' = cur t.
Proof. unfold updateSubstitutions. destruct (mapR _ _) as [us| |]; cbn [bind]; [|discriminate|discriminate]. intros E. injection E as <-. repeat (split; [reflexivity|]). reflexivity. Qed.
Lemma inv_same t t' : subs t' = subs t -> deps t' = deps t -> inv sz cdef t -> inv sz cdef t'.
Proof. intros E1 E2 [I1 I2]. split; [now rewrite E1|]. now rewrite E1, E2. Qed.

Lemma reached hist l : present sz cdef hist l -> forall t, run hist init = Some t -> inv sz cdef t /\ subs t = l.
Proof.
  induction 1 as [|h l cs xs r _ IH A|h l cs xs r _ IH A|h l i _ IH|h l mm _ IH|h l D _ IH]; intros t E.
  - simpl in E. injection E as <-. split; [apply inv_init|reflexivity].
  - rewrite run_app in E. destruct (run h init) as [t0|]; [|discriminate]. destruct (IH t0 eq_refl) as [I <-]. cbn [SubSetModel.run step] in E.
    rewrite (proj2 (newSub_ok sz cdef cs xs r _) (conj eq_refl A)) in E. destruct (add_inv sz cdef _ t0 I A) as (t' & E' & I' & S'). rewrite E' in E. injection E as <-. auto.
  - rewrite run_app in E. destruct (run h init) as [t0|]; [|discriminate]. destruct (IH t0 eq_refl) as [I <-]. cbn [SubSetModel.run step] in E.
    destruct (newSub sz cdef cs xs r) as [s| |] eqn:N; [|injection E as <-; auto|discriminate]. apply newSub_ok in N. destruct N as [-> A']. contradiction.
  - rewrite run_app in E. destruct (run h init) as [t0|]; [|discriminate]. destruct (IH t0 eq_refl) as [I <-]. cbn [SubSetModel.run step] in E.
    destruct (remove_inv sz cdef i t0 I) as (t' & E' & I' & S'). rewrite E' in E. injection E as <-. auto.
  - rewrite run_app in E. destruct (run h init) as [t0|]; [|discriminate]. destruct (IH t0 eq_refl) as [I <-]. cbn [SubSetModel.run step] in E.
    pose proof (finalize_keeps mm t0) as K. destruct (finalize sz cdef mm t0) as [t'|t'|]; [| |discriminate]; injection E as <-; destruct K as [K1 K2]; (split; [now apply (inv_same t0)|exact K1]).
  - rewrite run_app in E. destruct (run h init) as [t0|]; [|discriminate]. destruct (IH t0 eq_refl) as [I <-]. cbn [SubSetModel.run step] in E.
    destruct (updateSubstitutions sz cdef D t0) as [t'| |] eqn:U; [|discriminate|discriminate]. injection E as <-. apply update_keeps in U. destruct U as (K1 & K2 & _).
    split; [now apply (inv_same t0)|exact K1].
Qed.

(* the updates, unit by unit *)
Definition dOf (p : nat) (l : list ssub) (D : data) : SubstSpec.data := SubstSpec.mkD (jacOf D l) (eOf D l) (d_cal D p).
Definition follows (ups : list data) (p : nat) (u1 u : unit_) : Prop :=
  n_subs u = n_subs u1 /\ SubstSpec.updates sz (scanned (n_subs u)) (map (dOf p (n_subs u)) ups) (n_mem u1) = Ok (n_mem u) /\
  forall ups' D, ups = ups' ++ [D] -> n_cal u = d_cal D p.
Lemma updates_units : forall ups t1 t, updates sz cdef ups t1 = Ok t ->
  length (units t) = length (units t1) /\
  (forall p u, nth_error (units t) p = Some u -> exists u1, nth_error (units t1) p = Some u1 /\ follows ups p u1 u) /\
  subs t = subs t1 /\ deps t = deps t1 /\ vars t = vars t1 /\ addVars t = addVars t1 /\ others t = others t1 /\ gen t = gen t1 /\ cur t = cur t1.
Proof.
  induction ups as [|D ups IH]; intros t1 t E.
  - simpl in E. injection E as <-. split; [reflexivity|]. split; [|repeat (split; [reflexivity|]); reflexivity].
    intros p u H. exists u. split; [exact H|]. split; [reflexivity|]. split; [reflexivity|]. intros ups' D K. destruct ups'; discriminate.
  - cbn [updates] in E. destruct (updateSubstitutions sz cdef D t1) as [t2| |] eqn:U; cbn [bind] in E; [|discriminate|discriminate].
    pose proof (update_keeps _ _ _ U) as (K1 & K2 & K3 & K4 & K5 & K6 & K7).
    destruct (IH _ _ E) as (L & F & S1 & S2 & S3 & S4 & S5 & S6 & S7).
    assert (M : Forall2 (fun pu u => updateUnit sz cdef D pu = Ok u) (indexed 0 (units t1)) (units t2)).
    { unfold updateSubstitutions in U. destruct (mapR (updateUnit sz cdef D) (indexed 0 (units t1))) as [us| |] eqn:MR; cbn [bind] in U; [|discriminate|discriminate].
      injection U as <-. cbn [units]. now apply mapR_Forall2. }
    split; [rewrite L; rewrite <- (indexed_length (units t1) 0); symmetry; eapply Forall2_len; exact M|]. split; [|repeat split; congruence].
    intros p u H. destruct (F p u H) as (u2 & U2 & N2 & M2 & C2). destruct (Forall2_nth _ _ _ M _ _ U2) as ((q & u1) & Q1 & Q2).
    rewrite nth_indexed in Q1. destruct (nth_error (units t1) p) as [u1'|] eqn:U1; [|discriminate]. injection Q1 as <- ->. cbn [Nat.add] in Q2.
    unfold updateUnit in Q2. destruct (update _ _ _ _ _ _) as [m| |] eqn:UP; cbn [bind] in Q2; [|discriminate|discriminate]. injection Q2 as <-. cbn [n_subs n_mem n_cal] in *.
    exists u1. split; [reflexivity|]. split; [exact N2|]. split.
    + cbn [map SubstSpec.updates]. rewrite N2 in *. cbn [dOf SubstSpec.d_jac SubstSpec.d_e SubstSpec.d_cal]. rewrite UP. exact M2.
    + intros ups' D' K. destruct ups' as [|D0 ups'].
      * injection K as <- ->. clear - E H U2 C2 M2. cbn [updates] in E. injection E as <-. rewrite U2 in H. injection H as <-. reflexivity.
      * injection K as <- K. eauto.
Qed.

(* a finalized and updated set *)
Record settled (pool : list ssub) (mm : nat -> ust * (nat -> calc)) (ups : list data) (t : st) : Prop := {
  s_ok : unitsOk sz cdef pool (units t);
  s_unit : forall p u, nth_error (units t) p = Some u ->
     SubstSpec.unitAfter sz (map (toSub cdef) (n_subs u)) (fst (mm p)) (map (dOf p (n_subs u)) ups) = Ok (n_mem u);
  s_cal : forall p u ups' D, nth_error (units t) p = Some u -> ups = ups' ++ [D] -> n_cal u = d_cal D p;
  s_vars : vars t = flat_map (fun u => flat_map ss_xs (n_subs u)) (units t);
  s_others : others t = uniq (flat_map (fun u => unitY sz cdef (n_subs u)) (units t)) }.

Lemma same_subs us us' : map n_subs us = map n_subs us' -> forall (P : list ssub -> Prop) p u', nth_error us' p = Some u' -> exists u, nth_error us p = Some u /\ n_subs u = n_subs u'.
Proof.
  intros E _ p u' H. pose proof (map_nth_error n_subs p us' H) as M. rewrite <- E in M. rewrite nth_error_map in M.
  destruct (nth_error us p) as [u|]; [|discriminate]. injection M as M. eauto.
Qed.
Lemma flat_map_subs {B} (f : list ssub -> list B) us us' : map n_subs us = map n_subs us' -> flat_map (fun u => f (n_subs u)) us = flat_map (fun u => f (n_subs u)) us'.
Proof.
  revert us'. induction us as [|u us IH]; intros [|u' us'] E; try discriminate; [reflexivity|]. simpl in E. injection E as E1 E2. simpl. rewrite E1. f_equal. auto.
Qed.
Lemma unitsOk_same pool us us' : map n_subs us = map n_subs us' -> unitsOk sz cdef pool us -> unitsOk sz cdef pool us'.
Proof.
  intros E [U1 U2 U3 U4 U5 U6].
  assert (F : forall a b, map n_subs a = map n_subs b -> forall u', In u' b -> exists u, In u a /\ n_subs u = n_subs u').
  { intros a b K u' I. apply In_nth in I. destruct I as [p I]. destruct (same_subs a b K (fun _ => True) p u' I) as (u & H1 & H2). exists u. split; [eapply nth_error_In; eassumption|exact H2]. }
  split.
  - intros u s I J. destruct (F _ _ E u I) as (u0 & I0 & E0). rewrite <- E0 in J. eauto.
  - intros c. rewrite <- U2. split; intros (u & s & I & J & K).
    + destruct (F _ _ E u I) as (u0 & I0 & E0). exists u0, s. rewrite E0. auto.
    + destruct (F _ _ (eq_sym E) u I) as (u0 & I0 & E0). exists u0, s. rewrite E0. auto.
  - intros c. rewrite <- U3. split; intros (u & s & I & J & K).
    + destruct (F _ _ E u I) as (u0 & I0 & E0). exists u0, s. rewrite E0. auto.
    + destruct (F _ _ (eq_sym E) u I) as (u0 & I0 & E0). exists u0, s. rewrite E0. auto.
  - rewrite <- (flat_map_subs (flat_map ss_xs) us us' E). exact U4.
  - intros u l1 s l2 c v I J. destruct (F _ _ E u I) as (u0 & I0 & E0). rewrite <- E0 in J. eauto.
  - intros p q u u' s s' c v H1 H2 J1 J2. destruct (same_subs us us' E (fun _ => True) p u H1) as (u0 & I0 & E0). destruct (same_subs us us' E (fun _ => True) q u' H2) as (u0' & I0' & E0').
    rewrite <- E0 in J1. rewrite <- E0' in J2. eauto.
Qed.
Lemma nth_eq {A} (l l' : list A) : (forall p, nth_error l p = nth_error l' p) -> l = l'.
Proof.
  revert l'. induction l as [|a l IH]; intros [|b l'] H; [reflexivity|specialize (H 0); discriminate|specialize (H 0); discriminate|].
  pose proof (H 0) as H0. simpl in H0. injection H0 as ->. f_equal. apply IH. intros p. apply (H (S p)).
Qed.

Lemma settles t0 mm t1 ups t : inv sz cdef t0 -> finalize sz cdef mm t0 = Done t1 -> updates sz cdef ups t1 = Ok t ->
  settled (subs t0) mm ups t /\ map n_subs (units t) = map n_subs (units t1).
Proof.
  intros I E1 E2. destruct (finalize_units sz cdef t0 mm t1 I E1) as (OK & _ & _ & NU & V & O & _).
  destruct (updates_units ups t1 t E2) as (L & F & _ & _ & S3 & _ & S5 & _).
  assert (SM : map n_subs (units t) = map n_subs (units t1)).
  { apply nth_eq. intros p. rewrite !nth_error_map. destruct (nth_error (units t) p) as [u|] eqn:H.
    - destruct (F p u H) as (u1 & U1 & N & _). rewrite U1. simpl. now rewrite N.
    - apply nth_error_None in H. rewrite L in H. apply nth_error_None in H. now rewrite H. }
  split; [|exact SM]. split.
  - now apply (unitsOk_same _ (units t1)).
  - intros p u H. destruct (F p u H) as (u1 & U1 & N & M & _). unfold SubstSpec.unitAfter. rewrite (NU p u1 U1) in M. cbn [newUnit n_mem] in M. rewrite <- N in M. exact M.
  - intros p u ups' D H K. destruct (F p u H) as (u1 & U1 & N & M & C). eauto.
  - rewrite S3, V. symmetry. apply (flat_map_subs (flat_map ss_xs)). exact SM.
  - rewrite S5, O. f_equal. symmetry. apply (flat_map_subs (unitY sz cdef)). exact SM.
Qed.

Section Set_.
Variable pool : list ssub.
Variable mm : nat -> ust * (nat -> calc).
Variable ups : list data.
Variable t : st.
Hypothesis ST : settled pool mm ups t.
Hypothesis ND : forall c, NoDup (c_vars (k_cst (cdef c))).

Lemma toSub_xs l : flat_map s_xs (map (toSub cdef) l) = flat_map ss_xs l.
Proof. induction l as [|s l IH]; simpl; [reflexivity|]. now rewrite IH. Qed.
Lemma split_map {A B} (f : A -> B) (l : list A) : forall l1 b l2, map f l = l1 ++ b :: l2 -> exists k1 a k2, l = k1 ++ a :: k2 /\ map f k1 = l1 /\ f a = b /\ map f k2 = l2.
Proof.
  induction l as [|a l IH]; intros [|b1 l1] b l2 E; try discriminate; simpl in E.
  - injection E as <- <-. exists [], a, l. auto.
  - injection E as <- E. destruct (IH _ _ _ E) as (k1 & a' & k2 & -> & <- & <- & <-). exists (a :: k1), a', k2. auto.
Qed.
Lemma unit_ordered u : In u (units t) -> SubstSpec.ordered (map (toSub cdef) (n_subs u)).
Proof.
  intros I l1 s l2 c v E J1 J2 J3. destruct (split_map _ _ _ _ _ E) as (k1 & s0 & k2 & Es & <- & <- & <-). cbn [toSub s_cs] in J1.
  apply in_map_iff in J1. destruct J1 as (c0 & <- & J1). rewrite toSub_xs in J3. exact (uo_order _ _ _ _ (s_ok _ _ _ _ ST) u k1 s0 k2 c0 v I Es J1 J2 J3).
Qed.
Lemma unit_wf u : In u (units t) -> SubstSpec.wellFormed (map (toSub cdef) (n_subs u)).
Proof.
  intros I. split.
  - rewrite toSub_xs. pose proof (uo_nodup _ _ _ _ (s_ok _ _ _ _ ST)) as N. apply in_split in I. destruct I as (a & b & E). rewrite E in N.
    rewrite flat_map_app in N. cbn [flat_map] in N. clear - N. revert N. generalize (flat_map (fun u => flat_map ss_xs (n_subs u)) a) (flat_map (fun u => flat_map ss_xs (n_subs u)) b) (flat_map ss_xs (n_subs u)).
    intros x y z N. induction x as [|w x IH]; simpl in N; [|inversion N; auto]. induction z as [|w z IH]; [constructor|]. simpl in N. inversion N as [|? ? N1 N2]. subst. constructor; [|auto]. intros K. apply N1. apply in_app_iff. auto.
  - intros s c J K. apply in_map_iff in J. destruct J as (s0 & <- & J). cbn [toSub s_cs] in K. apply in_map_iff in K. destruct K as (c0 & <- & K). apply ND.
Qed.
Lemma functions_In v f : In (v, f) (combine (vars t) (functions sz cdef t)) <->
  exists p u f0, nth_error (units t) p = Some u /\ In (v, f0) (varSubstitutions sz (n_cal u) (scanned (n_subs u)) (n_mem u)) /\ f = (fun val zv => f0 val (zv p)).
Proof.
  unfold functions. rewrite (s_vars _ _ _ _ ST).
  rewrite (combine_flat (fun u => flat_map ss_xs (n_subs u)) (fun u => varSubstitutions sz (n_cal u) (scanned (n_subs u)) (n_mem u)) (fun p f val zv => f val (zv p))).
  - rewrite in_flat_map. split.
    + intros ((p & u) & I & J). apply In_indexed in I. destruct I as (p' & -> & I). cbn [fst snd Nat.add] in J. apply in_map_iff in J. destruct J as ((v0 & f0) & E & J). cbn [fst snd] in E. injection E as <- <-.
      exists p', u, f0. auto.
    + intros (p & u & f0 & I & J & ->). exists (p, u). split; [apply In_indexed; exists p; split; [reflexivity|exact I]|]. apply in_map_iff. exists (v, f0). auto.
  - intros u. unfold varSubstitutions. rewrite map_map. cbn [fst]. unfold scanned. rewrite SubstProofs4.scan_vars. apply toSub_xs.
Qed.
Lemma additional_In n g : In (n, g) (additionalConstraints sz cdef t) <->
  0 < n /\ exists p u g0, nth_error (units t) p = Some u /\ In (n, g0) (remaining sz (scanned (n_subs u)) (n_mem u)) /\ g = (fun val zv => g0 val (zv p)).
Proof.
  unfold additionalConstraints. rewrite filter_In. cbn [fst]. rewrite Nat.ltb_lt. rewrite (and_comm (In _ _)). apply and_iff_compat_l. rewrite in_flat_map. split.
  - intros ((p & u) & I & J). apply In_indexed in I. destruct I as (p' & -> & I). cbn [fst snd Nat.add] in J. apply in_map_iff in J. destruct J as ((n0 & g0) & E & J). cbn [fst snd] in E. injection E as <- <-.
    exists p', u, g0. auto.
  - intros (p & u & g0 & I & J & ->). exists (p, u). split; [apply In_indexed; exists p; split; [reflexivity|exact I]|]. apply in_map_iff. exists (n, g0). auto.
Qed.

(* one unit *)
Lemma unit_satisfied D val l : SubstSpec.satisfied sz (jacOf D l) (eOf D l) 0 (map (toSub cdef) l) val <->
  (forall s c, In s l -> In c (ss_cs s) -> holds sz cdef D val c).
Proof.
  unfold SubstSpec.satisfied, holds. split.
  - intros H s c I J a L. apply In_nth in I, J. destruct I as [k I]. destruct J as [i J].
    specialize (H k (toSub cdef s) i (k_cst (cdef c)) a (map_nth_error _ _ _ I) (map_nth_error (fun c => k_cst (cdef c)) _ _ J) L).
    cbn [Nat.add] in H. unfold jacOf, eOf, cstr in H. rewrite I, J in H. exact H.
  - intros H k s i c a E1 E2 L. rewrite nth_error_map in E1. destruct (nth_error l k) as [s0|] eqn:K; [|discriminate]. injection E1 as <-.
    cbn [toSub s_cs] in E2. rewrite nth_error_map in E2. destruct (nth_error (ss_cs s0) i) as [c0|] eqn:J; [|discriminate]. injection E2 as <-.
    cbn [Nat.add]. unfold jacOf, eOf, cstr. rewrite K, J. apply (H s0 c0); [eapply nth_error_In; eassumption|eapply nth_error_In; eassumption|exact L].
Qed.
Lemma rows_sum cs : rows (map (fun c => k_cst (cdef c)) cs) = list_sum (map (fun c => c_size (k_cst (cdef c))) cs).
Proof. induction cs as [|c cs IH]; [reflexivity|]. unfold rows in *. simpl. now rewrite IH. Qed.
Lemma unit_contracts D p u : contracted sz cdef D t -> nth_error (units t) p = Some u ->
  SubstSpec.contracts sz (jacOf D (n_subs u)) (d_cal D p) 0 (map (toSub cdef) (n_subs u)).
Proof.
  intros C E k s K. rewrite nth_error_map in K. destruct (nth_error (n_subs u) k) as [s0|] eqn:K0; [|discriminate]. injection K as <-. cbn [Nat.add].
  specialize (C p u k s0 E K0). cbn [toSub s_cs s_xs s_rank]. rewrite rows_sum, total_sum. unfold jacOf, cstr. rewrite K0. exact C.
Qed.

Lemma elimination_t D ups' val : ups = ups' ++ [D] -> contracted sz cdef D t ->
  (all_hold sz cdef D val pool <->
   exists zv, (forall v f, In (v, f) (combine (vars t) (functions sz cdef t)) -> forall b, b < sz v -> (val v b == f val zv b)%Q) /\
              (forall n g, In (n, g) (additionalConstraints sz cdef t) -> forall a, a < n -> (g val zv a == 0)%Q)).
Proof.
  intros EU C.
  assert (EQ : forall p u, nth_error (units t) p = Some u ->
    ((forall s c, In s (n_subs u) -> In c (ss_cs s) -> holds sz cdef D val c) <->
     exists zv, (forall v f, In (v, f) (varSubstitutions sz (n_cal u) (scanned (n_subs u)) (n_mem u)) -> forall b, b < sz v -> (val v b == f val zv b)%Q) /\
                (forall n g, In (n, g) (remaining sz (scanned (n_subs u)) (n_mem u)) -> forall a, a < n -> (g val zv a == 0)%Q))).
  { intros p u E. rewrite <- unit_satisfied. pose proof (s_unit _ _ _ _ ST p u E) as UA. rewrite EU, map_app in UA. cbn [map] in UA.
    rewrite (s_cal _ _ _ _ ST p u ups' D E EU).
    exact (SubstProofs5.equivalence sz (map (toSub cdef) (n_subs u)) (fst (mm p)) (map (dOf p (n_subs u)) ups') (dOf p (n_subs u) D) (n_mem u) val (unit_wf u (nth_error_In _ _ E)) (unit_contracts D p u C E) UA). }
  split.
  - intros H.
    destruct (choice (fun p u z => (forall v f, In (v, f) (varSubstitutions sz (n_cal u) (scanned (n_subs u)) (n_mem u)) -> forall b, b < sz v -> (val v b == f val z b)%Q) /\
                (forall n g, In (n, g) (remaining sz (scanned (n_subs u)) (n_mem u)) -> forall a, a < n -> (g val z a == 0)%Q)) (fun _ _ => 0%Q) (units t)) as [zv Z].
    + intros p u E. apply (EQ p u E). intros s c I J. destruct (proj1 (uo_cs _ _ _ _ (s_ok _ _ _ _ ST) c)) as (s' & I' & J'); [exists u, s; split; [eapply nth_error_In; eassumption|auto]|]. exact (H s' c I' J').
    + exists zv. split.
      * intros v f I. apply functions_In in I. destruct I as (p & u & f0 & E & I & ->). apply (Z p u E). exact I.
      * intros n g I. apply additional_In in I. destruct I as (_ & p & u & g0 & E & I & ->). apply (Z p u E). exact I.
  - intros (zv & H1 & H2) s c I J. destruct (proj2 (uo_cs _ _ _ _ (s_ok _ _ _ _ ST) c)) as (u & s' & Iu & I' & J'); [eauto|]. apply In_nth in Iu. destruct Iu as [p Iu].
    apply (proj2 (EQ p u Iu)) with (s := s'); [|exact I'|exact J']. exists (zv p). split.
    + intros v f K b Lb. apply (H1 v (fun val zv => f val (zv p))); [|exact Lb]. apply functions_In. eauto 6.
    + intros n g K a La. apply (H2 n (fun val zv => g val (zv p))); [|exact La]. apply additional_In. split; [lia|]. eauto 6.
Qed.
End Set_.
End P.
