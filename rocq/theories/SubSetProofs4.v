(* Proofs for C54: the variables, the values, the replacement of a variable. *)
From Coq Require Import List Bool Arith QArith Lia.
Import ListNotations.
From Verif Require Import Base QSum SubstModel SubSetModel SubSetSpec SubSetProofs SubSetProofs2 SubSetProofs3.
From Verif Require SubstSpec SubstProofs SubstProofs2 SubstProofs3 SubstProofs4 SubstProofs5.
Local Open Scope nat_scope.

Section S.
Variable sz : nat -> nat.
Lemma scanCs_all prev own : forall cs idx loc row cc, In cc cs -> exists cr, In cr (scanCs prev own cs idx loc row) /\
  k_Y cr = filter (fun v => negb (SubstModel.mem v (map x_v prev)) && negb (SubstModel.mem v own)) (c_vars cc).
Proof.
  induction cs as [|c cs IH]; intros idx loc row cc I; [destruct I|]. cbn [scanCs]. destruct I as [->|I].
  - eexists. split; [left; reflexivity|reflexivity].
  - destruct (IH (S idx) (S loc) (row + c_size c) cc I) as (cr & I1 & I2). exists cr. split; [right; exact I1|exact I2].
Qed.
Lemma scanned_Y v : forall l t, (exists r cr, In r (scan sz t l) /\ In cr (u_cs r) /\ In v (k_Y cr)) <->
  (exists l1 s l2 cc, l = l1 ++ s :: l2 /\ In cc (s_cs s) /\ In v (c_vars cc) /\ ~ In v (s_xs s) /\ ~ In v (map x_v (t_x t)) /\ ~ In v (flat_map s_xs l1)).
Proof.
  assert (FI : forall prev own cc, In v (filter (fun v => negb (SubstModel.mem v (map x_v prev)) && negb (SubstModel.mem v own)) (c_vars cc)) <-> In v (c_vars cc) /\ ~ In v (map x_v prev) /\ ~ In v own).
  { intros prev own cc. rewrite filter_In, andb_true_iff, !negb_true_iff, !SubstProofs.mem_not. reflexivity. }
  induction l as [|s l IH]; intros t.
  - split; [intros (r & cr & [] & _)|intros ([|s0 l0] & s & l2 & cc & E & _); discriminate].
  - cbn [scan]. split.
    + intros (r & cr & [<-|I] & J & K).
      * cbn [scanOne u_cs] in J. destruct (SubstProofs2.scanCs_In _ _ _ _ _ _ _ J) as (_ & (cc & C1 & _ & C3) & _). rewrite C3 in K. apply FI in K.
        exists [], s, l, cc. simpl. tauto.
      * destruct (proj1 (IH _) ltac:(eauto)) as (l1 & s' & l2 & cc & -> & C1 & C2 & C3 & C4 & C5). exists (s :: l1), s', l2, cc.
        cbn [next t_x] in C4. rewrite map_app, in_app_iff in C4. cbn [scanOne u_xs] in C4. rewrite SubstProofs2.scanXs_map in C4.
        cbn [flat_map]. rewrite in_app_iff. tauto.
    + intros (l1 & s' & l2 & cc & E & C1 & C2 & C3 & C4 & C5). destruct l1 as [|s0 l1]; simpl in E; injection E as -> ->.
      * destruct (scanCs_all (t_x t) (s_xs s') (s_cs s') (t_c t) 0 (t_m t) cc C1) as (cr & K1 & K2). exists (scanOne sz t s'), cr. split; [left; reflexivity|].
        split; [exact K1|]. rewrite K2. apply FI. auto.
      * cbn [flat_map] in C5. rewrite in_app_iff in C5.
        destruct (proj2 (IH (next t s0 (scanOne sz t s0)))) as (r & cr & I & J & K).
        -- exists l1, s', l2, cc. cbn [next t_x]. rewrite map_app, in_app_iff. cbn [scanOne u_xs]. rewrite SubstProofs2.scanXs_map. tauto.
        -- exists r, cr. split; [right; exact I|auto].
Qed.
Lemma scan_Z (P : nat -> Prop) : forall l t, (forall x, In x (t_x t) -> forall j, In j (x_Z x) -> P j) ->
  (forall r, In r (scan sz t l) -> 0 < u_nz r -> P (u_k r)) ->
  forall r, In r (scan sz t l) -> (forall j, In j (u_SZ r) -> P j) /\ (forall x j, In x (u_xs r) -> In j (x_Z x) -> P j) /\
     (forall x, In x (u_xs r) -> 0 < u_nz r -> In (u_k r) (x_Z x)).
Proof.
  induction l as [|s l IH]; intros t H1 H2 r I; [destruct I|]. cbn [scan] in I, H2.
  assert (SZs : forall j, In j (u_SZ (scanOne sz t s)) -> P j).
  { intros j J. cbn [u_SZ scanOne] in J. apply nodup_In, in_flat_map in J. destruct J as (cr & Ic & J). destruct (SubstProofs2.scanCs_In _ _ _ _ _ _ _ Ic) as (K1 & _).
    apply in_flat_map in J. destruct J as (x & Ix & J). eauto. }
  assert (XZ : forall x, In x (u_xs (scanOne sz t s)) -> x_Z x = if 0 <? u_nz (scanOne sz t s) then u_SZ (scanOne sz t s) ++ [u_k (scanOne sz t s)] else u_SZ (scanOne sz t s)).
  { intros x Ix. cbn [u_xs scanOne] in Ix. destruct (SubstProofs2.scanXs_In _ _ _ _ _ _ _ _ _ Ix) as (_ & _ & X & _). exact X. }
  assert (XP : forall x j, In x (u_xs (scanOne sz t s)) -> In j (x_Z x) -> P j).
  { intros x j Ix J. rewrite (XZ x Ix) in J. destruct (Nat.ltb_spec 0 (u_nz (scanOne sz t s))) as [L|_]; [|auto]. apply in_app_iff in J. destruct J as [J|[<-|[]]]; [auto|]. apply H2; [left; reflexivity|exact L]. }
  destruct I as [<-|I].
  - split; [exact SZs|]. split; [exact XP|]. intros x Ix L. rewrite (XZ x Ix). apply Nat.ltb_lt in L. rewrite L. apply in_app_iff. right. left. reflexivity.
  - apply (IH (next t s (scanOne sz t s))); [| |exact I].
    + intros x Ix j J. cbn [next t_x] in Ix. apply in_app_iff in Ix. destruct Ix as [Ix|Ix]; eauto.
    + intros r' I' L. apply H2; [right; exact I'|exact L].
Qed.
Lemma scan_xs : forall l t r, In r (scan sz t l) -> exists s, In s l /\ map x_v (u_xs r) = s_xs s.
Proof.
  induction l as [|s l IH]; intros t r I; [destruct I|]. cbn [scan] in I. destruct I as [<-|I].
  - exists s. split; [left; reflexivity|]. cbn [scanOne u_xs]. apply SubstProofs2.scanXs_map.
  - destruct (IH _ _ I) as (s' & I' & E). exists s'. split; [right; exact I'|exact E].
Qed.
End S.

Section P.
Variable sz : nat -> nat.
Variable cdef : nat -> cons.
Notation scanned := (scanned sz cdef).

Section Set_.
Variable pool : list ssub.
Variable mm : nat -> ust * (nat -> calc).
Variable ups : list data.
Variable t : st.
Hypothesis ST : settled sz cdef pool mm ups t.

Lemma vars_NoDup : NoDup (vars t).
Proof. rewrite (s_vars _ _ _ _ _ _ ST). apply (uo_nodup _ _ _ _ (s_ok _ _ _ _ _ _ ST)). Qed.
Lemma vars_In v : In v (vars t) <-> exists s, In s pool /\ In v (ss_xs s).
Proof.
  rewrite (s_vars _ _ _ _ _ _ ST), <- (uo_vs _ _ _ _ (s_ok _ _ _ _ _ _ ST)). rewrite in_flat_map. split.
  - intros (u & I & J). apply in_flat_map in J. destruct J as (s & J & K). eauto.
  - intros (u & s & I & J & K). exists u. split; [exact I|]. apply in_flat_map. eauto.
Qed.
Lemma others_NoDup : NoDup (others t).
Proof. rewrite (s_others _ _ _ _ _ _ ST). apply NoDup_uniq. Qed.
(* what a unit uses is not substituted by any *)
Lemma unit_uses u l1 s l2 c v : In u (units t) -> n_subs u = l1 ++ s :: l2 -> In c (ss_cs s) -> In v (c_vars (k_cst (cdef c))) ->
  ~ In v (ss_xs s) -> ~ In v (flat_map ss_xs l1) -> In v (others t).
Proof.
  intros I E C V N1 N2. rewrite (s_others _ _ _ _ _ _ ST). apply In_uniq, in_flat_map. exists u. split; [exact I|]. unfold unitY. apply In_uniq.
  destruct (proj2 (scanned_Y sz v (map (toSub cdef) (n_subs u)) start)) as (r & cr & R1 & R2 & R3).
  - exists (map (toSub cdef) l1), (toSub cdef s), (map (toSub cdef) l2), (k_cst (cdef c)). split; [now rewrite E, map_app|]. cbn [toSub s_cs s_xs].
    split; [now apply (in_map (fun c => k_cst (cdef c)))|]. split; [exact V|]. split; [exact N1|]. split; [intros []|]. now rewrite toSub_xs.
  - apply in_flat_map. exists cr. split; [apply in_flat_map; exists r; auto|exact R3].
Qed.
Lemma others_In v : In v (others t) <-> (exists s c, In s pool /\ In c (ss_cs s) /\ In v (c_vars (k_cst (cdef c)))) /\ ~ In v (vars t).
Proof.
  pose proof (s_ok _ _ _ _ _ _ ST) as OK. split.
  - intros I. rewrite (s_others _ _ _ _ _ _ ST) in I. apply (proj1 (In_uniq _ _)), in_flat_map in I. destruct I as (u & Iu & I). unfold unitY in I. apply (proj1 (In_uniq _ _)), in_flat_map in I.
    destruct I as (cr & I & K). apply in_flat_map in I. destruct I as (r & I & J).
    destruct (proj1 (scanned_Y sz v (map (toSub cdef) (n_subs u)) start) ltac:(eauto)) as (l1 & s & l2 & cc & E & C1 & C2 & C3 & _ & C5).
    destruct (split_map _ _ _ _ _ E) as (k1 & s0 & k2 & Es & <- & <- & <-). cbn [toSub s_cs s_xs] in C1, C3. apply in_map_iff in C1. destruct C1 as (c & <- & C1). rewrite toSub_xs in C5.
    assert (Is0 : In s0 (n_subs u)) by (rewrite Es; apply in_app_iff; right; left; reflexivity).
    split.
    + destruct (proj1 (uo_cs _ _ _ _ OK c)) as (s' & I1 & I2); [eauto|]. eauto.
    + intros V. rewrite (s_vars _ _ _ _ _ _ ST) in V. apply in_flat_map in V. destruct V as (u' & Iu' & V). apply in_flat_map in V. destruct V as (s' & Is' & V).
      apply In_nth in Iu, Iu'. destruct Iu as [p Iu]. destruct Iu' as [q Iu'].
      pose proof (uo_cross _ _ _ _ OK p q u u' s0 s' c v Iu Iu' Is0 Is' C1 C2 V) as PQ. subst q. rewrite Iu in Iu'. injection Iu' as <-.
      rewrite Es in Is'. apply in_app_iff in Is'. destruct Is' as [K1|[<-|K1]].
      * apply C5. apply in_flat_map. eauto.
      * exact (C3 V).
      * apply (uo_order _ _ _ _ OK u k1 s0 k2 c v (nth_error_In _ _ Iu) Es C1 C2). apply in_flat_map. eauto.
  - intros [(s & c & I & C & V) N]. destruct (proj2 (uo_cs _ _ _ _ OK c)) as (u & s' & Iu & Is & C'); [eauto|].
    apply in_split in Is. destruct Is as (l1 & l2 & E).
    assert (NV : forall s1, In s1 (n_subs u) -> ~ In v (ss_xs s1)).
    { intros s1 I1 K. apply N. rewrite (s_vars _ _ _ _ _ _ ST). apply in_flat_map. exists u. split; [exact Iu|]. apply in_flat_map. eauto. }
    apply (unit_uses u l1 s' l2 c v Iu E C' V).
    + apply NV. rewrite E. apply in_app_iff. right. left. reflexivity.
    + intros K. apply in_flat_map in K. destruct K as (s1 & I1 & K). apply (NV s1); [rewrite E; apply in_app_iff; auto|exact K].
Qed.

(* what the functions depend on *)
Lemma unit_Y u r : In u (units t) -> In r (scanned (n_subs u)) -> (forall j, In j (u_SY r) -> In j (others t)) /\ (forall x, In x (u_xs r) -> x_Y x = u_SY r).
Proof.
  intros I. apply (SubstProofs4.scan_Y sz (fun j => In j (others t))).
  - intros x [].
  - intros l1 s l2 cc v E C1 C2 C3 _ C5. destruct (split_map _ _ _ _ _ E) as (k1 & s0 & k2 & Es & <- & <- & <-). cbn [toSub s_cs s_xs] in C1, C3.
    apply in_map_iff in C1. destruct C1 as (c & <- & C1). rewrite toSub_xs in C5. exact (unit_uses u k1 s0 k2 c v I Es C1 C2 C3 C5).
Qed.
Definition agree (l : list nat) (val val' : valuation) : Prop := forall v b, In v l -> b < sz v -> (val v b == val' v b)%Q.
Lemma functions_dep v f val val' : In (v, f) (combine (vars t) (functions sz cdef t)) -> agree (others t) val val' -> forall zv b, (f val zv b == f val' zv b)%Q.
Proof.
  intros I A zv b. apply (proj1 (functions_In sz cdef _ _ _ _ ST _ _)) in I. destruct I as (p & u & f0 & E & I & ->). unfold varSubstitutions in I. apply in_map_iff in I. destruct I as (x & Ex & I).
  injection Ex as _ <-. apply in_flat_map in I. destruct I as (r & Ir & Ix). destruct (unit_Y u r (nth_error_In _ _ E) Ir) as [Y1 Y2]. unfold valueOf.
  apply Qplus_comp; [apply Qplus_comp; [|reflexivity]|reflexivity]. apply qsum_ext. intros j J. rewrite (Y2 x Ix) in J. apply SubstProofs.mulv_ext; [reflexivity|]. intros k K. apply A; auto.
Qed.
Lemma additional_dep n g val val' : In (n, g) (additionalConstraints sz cdef t) -> agree (others t) val val' -> forall zv a, (g val zv a == g val' zv a)%Q.
Proof.
  intros I A zv a. apply (proj1 (additional_In sz cdef t _ _)) in I. destruct I as (_ & p & u & g0 & E & I & ->). unfold remaining in I. apply in_map_iff in I. destruct I as (r & Er & Ir).
  injection Er as _ <-. destruct (unit_Y u r (nth_error_In _ _ E) Ir) as [Y1 Y2].
  apply Qplus_comp; [apply Qplus_comp; [|reflexivity]|reflexivity]. apply qsum_ext. intros j J. apply SubstProofs.mulv_ext; [reflexivity|]. intros k K. apply A; auto.
Qed.

(* updateVariableValues *)
Lemma values_fold zv : forall (L : list (nat * (valuation -> zvaluation -> vec))) val,
  NoDup (map fst L) -> (forall v f, In (v, f) L -> forall val val', agree (others t) val val' -> forall b, (f val zv b == f val' zv b)%Q) ->
  (forall v, In v (map fst L) -> ~ In v (others t)) ->
  let val' := fold_left (fun val p => fupd val (fst p) (snd p val zv)) L val in
  (forall v, ~ In v (map fst L) -> val' v = val v) /\ (forall v f, In (v, f) L -> forall b, (val' v b == f val zv b)%Q).
Proof.
  induction L as [|[v f] L IH]; intros val N H O; cbn [fold_left map fst snd]; [split; [reflexivity|intros v f []]|].
  cbn [map fst] in N. inversion N as [|? ? N1 N2]. subst.
  destruct (IH (fupd val v (f val zv)) N2 (fun w g I => H w g (or_intror I)) (fun w I => O w (or_intror I))) as [A1 A2]. split.
  - intros w NW. rewrite A1 by (intros I; apply NW; right; exact I). unfold fupd. destruct (Nat.eqb_spec w v) as [->|_]; [exfalso; apply NW; left; reflexivity|reflexivity].
  - intros w g [E|I] b.
    + injection E as <- <-. rewrite A1 by exact N1. unfold fupd. rewrite Nat.eqb_refl. reflexivity.
    + rewrite (A2 w g I b). apply (H w g (or_intror I)). intros x c Ix _. unfold fupd. destruct (Nat.eqb_spec x v) as [->|_]; [|reflexivity].
      exfalso. apply (O v (or_introl eq_refl)). exact Ix.
Qed.
Lemma combine_fst {A B} (l : list A) (l' : list B) : length l = length l' -> map fst (combine l l') = l.
Proof. revert l'. induction l as [|a l IH]; intros [|b l'] E; try discriminate; [reflexivity|]. simpl. f_equal. apply IH. simpl in E. lia. Qed.
Lemma functions_length : length (vars t) = length (functions sz cdef t).
Proof.
  rewrite (s_vars _ _ _ _ _ _ ST). unfold functions. generalize 0. induction (units t) as [|u us IH]; intros k; [reflexivity|].
  cbn [indexed flat_map fst snd]. rewrite !app_length, map_length, (IH (S k)). f_equal.
  rewrite <- toSub_xs with (cdef := cdef), <- (SubstProofs4.scan_vars sz (map (toSub cdef) (n_subs u)) start). unfold varSubstitutions, SubSetModel.scanned. now rewrite !map_length.
Qed.
Lemma others_not_vars v : In v (vars t) -> ~ In v (others t).
Proof. intros I J. apply others_In in J. destruct J as [_ J]. contradiction. Qed.
Lemma values_ok zv val : let val' := updateVariableValues sz cdef t zv val in
  (forall v, ~ In v (vars t) -> val' v = val v) /\ (forall v f, In (v, f) (combine (vars t) (functions sz cdef t)) -> forall b, (val' v b == f val zv b)%Q).
Proof.
  unfold updateVariableValues.
  pose proof (combine_fst _ _ functions_length) as C.
  pose proof (values_fold zv (combine (vars t) (functions sz cdef t)) val) as V. rewrite C in V. apply V.
  - apply vars_NoDup.
  - intros v f I v1 v2 A b. exact (functions_dep v f v1 v2 I A zv b).
  - exact others_not_vars.
Qed.
Lemma agree_values zv val : agree (others t) val (updateVariableValues sz cdef t zv val).
Proof.
  intros v b I _. rewrite (proj1 (values_ok zv val)); [reflexivity|]. apply others_In in I. apply I.
Qed.

(* the places of the substituted variables *)
Definition place := (nat * unit_ * xrec)%type.
Definition places : list place := flat_map (fun pu => map (fun x => (fst pu, snd pu, x)) (flat_map u_xs (scanned (n_subs (snd pu))))) (indexed 0 (units t)).
Definition pV (y : place) : nat := x_v (snd y).
Definition pF (y : place) : valuation -> zvaluation -> vec :=
  fun val zv => valueOf sz (n_cal (snd (fst y))) (zs (scanned (n_subs (snd (fst y))))) (n_mem (snd (fst y))) (snd y) val (zv (fst (fst y))).
Definition pZ (g : nat) (y : place) (j : nat) : zvar := mkZv g (fst (fst y)) j (zs (scanned (n_subs (snd (fst y)))) j).
Definition pS (g : nat) (y : place) : list svar := map SV (x_Y (snd y)) ++ map (fun j => SZ (pZ g y j)) (x_Z (snd y)).
Lemma places_In p u x : In (p, u, x) places <-> nth_error (units t) p = Some u /\ In x (flat_map u_xs (scanned (n_subs u))).
Proof.
  unfold places. rewrite in_flat_map. split.
  - intros ((q & u') & I & J). cbn [fst snd] in J. apply in_map_iff in J. destruct J as (x' & E & J). injection E as -> -> ->. apply In_indexed in I. destruct I as (p' & -> & I). auto.
  - intros [E I]. exists (p, u). split; [apply In_indexed; exists p; auto|]. apply in_map_iff. exists x. auto.
Qed.
Lemma places_vars : vars t = map pV places.
Proof.
  rewrite (s_vars _ _ _ _ _ _ ST). unfold places. generalize 0. induction (units t) as [|u us IH]; intros k; [reflexivity|].
  cbn [indexed flat_map fst snd]. rewrite map_app, <- IH, map_map. f_equal. unfold pV. cbn [snd]. unfold SubSetModel.scanned. rewrite SubstProofs4.scan_vars. now rewrite toSub_xs.
Qed.
Lemma places_functions : functions sz cdef t = map pF places.
Proof.
  unfold functions, places. generalize 0. induction (units t) as [|u us IH]; intros k; [reflexivity|].
  cbn [indexed flat_map fst snd]. rewrite map_app, <- IH, map_map. f_equal. unfold varSubstitutions. rewrite map_map. reflexivity.
Qed.
Lemma places_subst g : flat_map (functionVars sz cdef g) (indexed 0 (units t)) = map (pS g) places.
Proof.
  unfold functionVars, places. generalize 0. induction (units t) as [|u us IH]; intros k; [reflexivity|].
  cbn [indexed flat_map fst snd]. rewrite map_app, <- IH, map_map. f_equal.
Qed.
Lemma combine_map {A B C} (f : A -> B) (g : A -> C) l : combine (map f l) (map g l) = map (fun a => (f a, g a)) l.
Proof. induction l as [|a l IH]; simpl; [reflexivity|]. now rewrite IH. Qed.
Lemma assoc_map {A} (f : A -> nat) (C : Type) (g : A -> C) l a : NoDup (map f l) -> In a l -> assoc (f a) (map (fun a => (f a, g a)) l) = Some (g a).
Proof.
  induction l as [|b l IH]; intros N I; [destruct I|]. simpl in N. inversion N as [|? ? N1 N2]. subst. simpl. destruct (Nat.eqb_spec (f b) (f a)) as [E|E].
  - destruct I as [->|I]; [reflexivity|]. exfalso. apply N1. rewrite E. now apply in_map.
  - destruct I as [->|I]; [contradiction|auto].
Qed.
Lemma assoc_none {A} (f : A -> nat) (C : Type) (g : A -> C) l v : ~ In v (map f l) -> assoc v (map (fun a => (f a, g a)) l) = None.
Proof.
  induction l as [|b l IH]; intros N; [reflexivity|]. simpl in *. destruct (Nat.eqb_spec (f b) v) as [E|E]; [exfalso; auto|auto].
Qed.
Lemma substitute_place y : In y places -> substitute sz cdef t (pV y) = pS (cur t) y.
Proof.
  intros I. unfold substitute. rewrite places_vars, places_subst, combine_map. rewrite (assoc_map pV _ (pS (cur t)) places y); [reflexivity| |exact I].
  rewrite <- places_vars. apply vars_NoDup.
Qed.
Lemma substitute_none v : ~ In v (vars t) -> substitute sz cdef t v = [SV v].
Proof. intros N. unfold substitute. rewrite places_vars, places_subst, combine_map. rewrite assoc_none; [reflexivity|]. now rewrite <- places_vars. Qed.
Lemma vars_place v : In v (vars t) <-> exists y, In y places /\ v = pV y.
Proof. rewrite places_vars, in_map_iff. split; intros (y & A & B); exists y; auto. Qed.
Lemma functions_place v f : In (v, f) (combine (vars t) (functions sz cdef t)) <-> exists y, In y places /\ v = pV y /\ f = pF y.
Proof.
  rewrite places_vars, places_functions, combine_map, in_map_iff. split.
  - intros (y & E & I). injection E as <- <-. eauto.
  - intros (y & I & -> & ->). eauto.
Qed.
Lemma SV_pS g y w : In (SV w) (pS g y) <-> In w (x_Y (snd y)).
Proof.
  unfold pS. rewrite in_app_iff, !in_map_iff. split; [intros [(a & E & I)|(a & E & I)]; [injection E as <-; exact I|discriminate]|eauto].
Qed.
Lemma SZ_pS g y z : In (SZ z) (pS g y) <-> exists j, z = pZ g y j /\ In j (x_Z (snd y)).
Proof.
  unfold pS. rewrite in_app_iff, !in_map_iff. split; [intros [(a & E & I)|(a & E & I)]; [discriminate|injection E as <-; eauto]|].
  intros (j & -> & I). right. eauto.
Qed.
Lemma substitute_dep v f : In (v, f) (combine (vars t) (functions sz cdef t)) -> forall val val' zv zv',
  (forall w, In (SV w) (substitute sz cdef t v) -> forall b, b < sz w -> (val w b == val' w b)%Q) ->
  (forall z, In (SZ z) (substitute sz cdef t v) -> forall b, b < z_size z -> (zv (z_unit z) (z_idx z) b == zv' (z_unit z) (z_idx z) b)%Q) ->
  forall b, (f val zv b == f val' zv' b)%Q.
Proof.
  intros I val val' zv zv' H1 H2 b. apply functions_place in I. destruct I as (y & I & -> & ->). rewrite (substitute_place y I) in *.
  unfold pF, valueOf. apply Qplus_comp; [apply Qplus_comp|reflexivity].
  - apply qsum_ext. intros j J. apply SubstProofs.mulv_ext; [reflexivity|]. intros k K. apply H1; [now apply SV_pS|exact K].
  - apply qsum_ext. intros j J. apply SubstProofs.mulv_ext; [reflexivity|]. intros k K. apply (H2 (pZ (cur t) y j)); [apply SZ_pS; eauto|exact K].
Qed.
Lemma substitute_others v w : In v (vars t) -> In (SV w) (substitute sz cdef t v) -> In w (others t).
Proof.
  intros I J. apply vars_place in I. destruct I as (y & I & ->). rewrite (substitute_place y I) in J. apply SV_pS in J. destruct y as [[p u] x]. cbn [snd] in J.
  apply places_In in I. destruct I as [E I]. apply in_flat_map in I. destruct I as (r & Ir & Ix). destruct (unit_Y u r (nth_error_In _ _ E) Ir) as [Y1 Y2]. rewrite (Y2 x Ix) in J. auto.
Qed.
(* the nullspace variables *)
Definition current (z : zvar) : Prop := z_gen z = cur t /\ 0 < z_size z /\ exists u r, nth_error (units t) (z_unit z) = Some u /\ In r (scanned (n_subs u)) /\ z_idx z = u_k r /\ z_size z = u_nz r.
Lemma current_In z : current z <-> In z (flat_map (fun pu => filter (fun z => 0 <? z_size z) (unitZ sz cdef (cur t) (fst pu) (n_subs (snd pu)))) (indexed 0 (units t))).
Proof.
  rewrite in_flat_map. split.
  - destruct z as [g p k n]. intros (G & L & u & r & E & I & K & N). cbn [z_gen z_unit z_idx z_size] in *. subst.
    exists (p, u). split; [apply In_indexed; exists p; auto|]. apply filter_In. split; [|now apply Nat.ltb_lt]. apply in_map_iff. exists r. auto.
  - intros ((q & u) & I & J). apply In_indexed in I. destruct I as (p & -> & E). cbn [fst snd Nat.add] in J. apply filter_In in J. destruct J as [J L]. apply Nat.ltb_lt in L.
    apply in_map_iff in J. destruct J as (r & <- & Ir). cbn [z_size] in L. split; [reflexivity|]. split; [exact L|]. exists u, r. auto.
Qed.
Lemma current_used z : current z <-> exists v, In v (vars t) /\ In (SZ z) (substitute sz cdef t v).
Proof.
  pose proof (s_ok _ _ _ _ _ _ ST) as OK. split.
  - intros (G & L & u & r & E & I & K & N). destruct (scan_xs sz _ _ _ I) as (s & Is & X). apply in_map_iff in Is. destruct Is as (s0 & <- & Is).
    assert (NE : ss_xs s0 <> []) by (apply (uo_acc _ _ _ _ OK u s0 (nth_error_In _ _ E) Is)). cbn [toSub s_xs] in X.
    destruct (u_xs r) as [|x xs] eqn:XS; [exfalso; apply NE; symmetry; exact X|].
    assert (Ix : In x (u_xs r)) by (rewrite XS; left; reflexivity).
    assert (Ip : In (z_unit z, u, x) places) by (apply places_In; split; [exact E|]; apply in_flat_map; eauto).
    exists (pV (z_unit z, u, x)). split; [apply vars_place; eauto|]. rewrite (substitute_place _ Ip). apply SZ_pS. exists (u_k r). split.
    + destruct z as [g p k n]. cbn [z_gen z_unit z_idx z_size] in *. subst. unfold pZ. cbn [fst snd]. f_equal. symmetry. now apply SubstProofs3.zs_scan.
    + cbn [snd]. apply (proj2 (proj2 (scan_Z sz (fun _ => True) (map (toSub cdef) (n_subs u)) start (fun _ _ _ _ => Logic.I) (fun _ _ _ => Logic.I) r I))); [exact Ix|lia].
  - intros (v & I & J). apply vars_place in I. destruct I as (y & I & ->). rewrite (substitute_place y I) in J. apply SZ_pS in J. destruct J as (j & -> & J). destruct y as [[p u] x]. cbn [snd] in J.
    apply places_In in I. destruct I as [E I]. apply in_flat_map in I. destruct I as (r & Ir & Ix).
    destruct (proj1 (proj2 (scan_Z sz (fun j => exists r, In r (scanned (n_subs u)) /\ u_k r = j /\ 0 < u_nz r) (map (toSub cdef) (n_subs u)) start
       ltac:(intros x0 []) ltac:(intros r0 I0 L0; cbv beta; exists r0; auto) r Ir)) x j Ix J) as (r' & Ir' & <- & L).
    assert (ZS : zs (scanned (n_subs u)) (u_k r') = u_nz r') by now apply SubstProofs3.zs_scan.
    split; [reflexivity|]. unfold pZ. cbn [fst snd z_size z_unit z_idx]. rewrite ZS. split; [exact L|]. exists u, r'. auto.
Qed.
Lemma current_NoDup : NoDup (flat_map (fun pu => filter (fun z => 0 <? z_size z) (unitZ sz cdef (cur t) (fst pu) (n_subs (snd pu)))) (indexed 0 (units t))).
Proof.
  apply NoDup_flat.
  - intros p [q u] E. cbn [fst snd]. apply NoDup_filter. unfold unitZ. apply (NoDup_map_inv z_idx). rewrite map_map. cbn [z_idx].
    apply NoDup_nth_error. intros i j L H. rewrite map_length in L. rewrite !nth_error_map in H.
    destruct (nth_error (scanned (n_subs u)) i) as [r|] eqn:Ri; [|apply nth_error_None in Ri; lia]. destruct (nth_error (scanned (n_subs u)) j) as [r'|] eqn:Rj; [|discriminate].
    cbn [option_map] in H. injection H as H. unfold SubSetModel.scanned in Ri, Rj. rewrite (SubstProofs3.scan_k _ _ _ _ _ Ri), (SubstProofs3.scan_k _ _ _ _ _ Rj) in H. lia.
  - intros p q [p' u] [q' u'] z E1 E2 I1 I2. rewrite nth_indexed in E1, E2. destruct (nth_error (units t) p); [|discriminate]. destruct (nth_error (units t) q); [|discriminate].
    injection E1 as <- _. injection E2 as <- _. cbn [fst snd Nat.add] in I1, I2. apply filter_In in I1, I2. destruct I1 as [I1 _]. destruct I2 as [I2 _].
    apply in_map_iff in I1, I2. destruct I1 as (r1 & <- & _). destruct I2 as (r2 & E & _). congruence.
Qed.
End Set_.
End P.
