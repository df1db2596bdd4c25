(* Proofs for C33: induction over the substitutions of a group. *)
From Coq Require Import List Bool Arith QArith Lia Lqa.
Import ListNotations.
From Verif Require Import Base QSum SubstModel SubstSpec SubstProofs SubstProofs2.
From Verif Require DiagSpec.
Local Open Scope nat_scope.

Section Group.
Variable sz : nat -> nat.

(* the zero pattern of B_ and Z_ *)
Definition zeroAll (l : list urec) (s : ust) : Prop := forall r, In r l -> zeroSub r s.
Lemma ctxOk_next t s : ctxOk sz t -> NoDup (s_xs s) -> (forall v, In v (s_xs s) -> ~ In v (map x_v (t_x t))) -> ctxOk sz (next t s (scanOne sz t s)).
Proof.
  intros T Nx D. pose proof T as [T1 T2]. split.
  - cbn [next t_x]. rewrite map_app. cbn [u_xs scanOne]. rewrite scanXs_map. clear T T2.
    induction (map x_v (t_x t)) as [|v l IH]; simpl; [exact Nx|]. inversion T1 as [|? ? N N']. subst. constructor.
    + rewrite in_app_iff. intros [I|I]; [contradiction|]. apply (D v I). now left.
    + apply IH; [|exact N']. intros w Iw I. apply (D w Iw). now right.
  - cbn [next t_x t_n t_k]. intros x I. apply in_app_iff in I. destruct I as [I|I].
    + destruct (T2 x I) as (H1 & H2 & H3). repeat split; try lia. intros j J. specialize (H3 j J). lia.
    + cbn [u_xs scanOne] in I. destruct (scanXs_In _ _ _ _ _ _ _ _ _ I) as (X1 & X2 & X3 & X4 & X5 & X6 & _).
      cbn [u_n scanOne]. repeat split; try lia. intros j. rewrite X3.
      destruct (0 <? _); [rewrite in_app_iff; intros [J|[<-|[]]]; [|lia]|intros J]; apply (SZ_lt sz t s T) in J; lia.
Qed.
Lemma scan_rows t l r : In r (scan sz t l) -> forall cr, In cr (u_cs r) -> t_m t <= k_row cr.
Proof.
  revert t. induction l as [|s l IH]; intros t I cr J; [destruct I|]. cbn [scan] in I. destruct I as [<-|I].
  - cbn [u_cs scanOne] in J. destruct (scanCs_In _ _ _ _ _ _ _ J) as (_ & _ & H & _). exact H.
  - specialize (IH _ I cr J). cbn [next t_m] in IH. lia.
Qed.
Lemma scan_k t l : forall i r, nth_error (scan sz t l) i = Some r -> u_k r = t_k t + i.
Proof.
  revert t. induction l as [|s l IH]; intros t i r E; [destruct i; discriminate|]. destruct i as [|i].
  - simpl in E. injection E as <-. cbn [u_k scanOne]. lia.
  - cbn [scan nth_error] in E. rewrite (IH _ _ _ E). cbn [next t_k]. lia.
Qed.
Lemma scan_k_In t l r : In r (scan sz t l) -> t_k t <= u_k r.
Proof. intros I. apply In_nth_error in I. destruct I as (i & E). rewrite (scan_k _ _ _ _ E). lia. Qed.

Definition fresh (t : ctx) (l : list sub) : Prop :=
  NoDup (flat_map s_xs l) /\ (forall v, In v (flat_map s_xs l) -> ~ In v (map x_v (t_x t))) /\
  (forall s cc, In s l -> In cc (s_cs s) -> NoDup (c_vars cc)).
Lemma NoDup_app_l {A} (l l' : list A) : NoDup (l ++ l') -> NoDup l.
Proof. induction l as [|a l IH]; intros H; [constructor|]. inversion H as [|? ? N N']. subst. constructor; [intros I; apply N, in_or_app; auto|auto]. Qed.
Lemma NoDup_app_r {A} (l l' : list A) : NoDup (l ++ l') -> NoDup l'.
Proof. induction l as [|a l IH]; intros H; [exact H|]. inversion H as [|? ? N N']. subst. auto. Qed.
Lemma NoDup_app_disj {A} (l l' : list A) a : NoDup (l ++ l') -> In a l -> In a l' -> False.
Proof. induction l as [|b l IH]; intros H I J; [destruct I|]. inversion H as [|? ? N N']. subst. destruct I as [->|I]; [apply N, in_or_app; auto|eauto]. Qed.
Lemma fresh_next t s l : ctxOk sz t -> fresh t (s :: l) ->
  NoDup (s_xs s) /\ (forall cc, In cc (s_cs s) -> NoDup (c_vars cc)) /\ ctxOk sz (next t s (scanOne sz t s)) /\ fresh (next t s (scanOne sz t s)) l.
Proof.
  intros T (F1 & F2 & F3). cbn [flat_map] in F1, F2. pose proof (NoDup_app_l _ _ F1) as N1. pose proof (NoDup_app_r _ _ F1) as N2.
  split; [exact N1|]. split; [intros cc I; apply (F3 s cc); simpl; auto|]. split.
  - apply ctxOk_next; [exact T|exact N1|]. intros v I. apply F2, in_or_app. auto.
  - split; [exact N2|]. split; [|intros s' cc I J; apply (F3 s' cc); simpl; auto]. intros v I J. cbn [next t_x] in J.
    rewrite map_app in J. cbn [u_xs scanOne] in J. rewrite scanXs_map in J. apply in_app_iff in J. destruct J as [J|J].
    + apply (F2 v); [apply in_or_app; auto|exact J].
    + eapply NoDup_app_disj; eauto.
Qed.

Section Data.
Variable jac : nat -> nat -> nat -> mat.
Variable e : nat -> nat -> vec.
Variable cal : nat -> calc.

(* what an update leaves unchanged, and the zero pattern *)
Lemma update_frame : forall l t s s', ctxOk sz t -> fresh t l -> zeroAll (scan sz t l) s -> update sz jac e cal (scan sz t l) s = Ok s' ->
  zeroAll (scan sz t l) s' /\
  (forall a, a < t_m t -> forall j b, (B s' j a b == B s j a b)%Q /\ (Z s' j a b == Z s j a b)%Q) /\
  (forall a, a < t_n t -> (forall j b, M s' j a b = M s j a b /\ AsZ s' j a b = AsZ s j a b) /\ u s' a = u s a) /\
  (forall k', k' < t_k t -> StB s' k' = StB s k' /\ StZ s' k' = StZ s k' /\ Stc s' k' = Stc s k').
Proof.
  induction l as [|x l IH]; intros t s s' T F Z0 E.
  - simpl in E. injection E as <-. split; [exact Z0|]. split; [intros; split; reflexivity|]. split; [intros; split; auto|auto].
  - cbn [scan] in *. cbn [update] in E. destruct (updSub sz jac e cal s (scanOne sz t x)) as [s1| |] eqn:E1; try discriminate. cbn [bind] in E.
    destruct (fresh_next t x l T F) as (N1 & N2 & T' & F').
    destruct (updSub_frame sz jac e cal (fun _ => 0) (fun _ _ => 0%Q) t x N2 s s1 (fun _ _ => 0%Q) (Z0 _ (or_introl eq_refl)) E1) as (_ & G1 & G2 & G3 & G4).
    assert (Z1 : zeroAll (scan sz (next t x (scanOne sz t x)) l) s1).
    { intros r I cr J. apply zeroFact_frame with (s := s); [|apply (Z0 r (or_intror I) cr J)]. intros a La j b. apply G2. right.
      pose proof (scan_rows _ _ _ I cr J) as H. cbn [next t_m] in H. lia. }
    destruct (IH _ s1 s' T' F' Z1 E) as (K1 & K2 & K3 & K4). split; [|split; [|split]].
    + intros r [<-|I]; [|exact (K1 r I)]. intros cr J. apply zeroFact_frame with (s := s1); [|apply (G1 cr J)]. intros a La j b. apply K2.
      cbn [u_cs scanOne] in J. destruct (scanCs_In _ _ _ _ _ _ _ J) as (_ & _ & _ & H). cbn [next t_m u_m scanOne]. lia.
    + intros a La j b. destruct (K2 a ltac:(cbn [next t_m]; lia) j b) as [A1 A2]. destruct (G2 a (or_introl La) j b) as [A3 A4].
      split; [now rewrite A1|now rewrite A2].
    + intros a La. destruct (K3 a ltac:(cbn [next t_n]; lia)) as [A1 A2]. destruct (G3 a La) as [A3 A4]. split; [|congruence].
      intros j b. destruct (A1 j b), (A3 j b). split; congruence.
    + intros k' L. destruct (K4 k' ltac:(cbn [next t_k]; lia)) as (A1 & A2 & A3). destruct (G4 k' ltac:(lia)) as (A4 & A5 & A6). repeat split; congruence.
Qed.

Variable zz : nat -> nat.
Variable val : nat -> vec.
Definition remRow (s : ust) (r : urec) (zv : nat -> vec) (a : nat) : Q :=
  (qsum (fun j => mulv (sz j) (StB s (u_k r) j) (val j) a) (u_SY r)
   + qsum (fun j => mulv (zz j) (StZ s (u_k r) j) (zv j) a) (u_SZ r) - Stc s (u_k r) a)%Q.
Definition solved (s : ust) (zv : nat -> vec) (r : urec) : Prop :=
  (forall x, In x (u_xs r) -> forall b, b < sz (x_v x) -> (val (x_v x) b == valueOf sz cal zz s x val zv b)%Q) /\
  (forall a, a < u_m r - u_r r -> (remRow s r zv a == 0)%Q).

Lemma valueOf_frame s s' x zv zv' b n k : x_row x + sz (x_v x) <= n -> b < sz (x_v x) -> (forall j, In j (x_Z x) -> j < k) ->
  (forall j, j < k -> zv' j = zv j) ->
  (forall a, a < n -> (forall j b, M s' j a b = M s j a b /\ AsZ s' j a b = AsZ s j a b) /\ u s' a = u s a) ->
  (valueOf sz cal zz s' x val zv' b == valueOf sz cal zz s x val zv b)%Q.
Proof.
  intros L Lb Hz Ez F. unfold valueOf. destruct (F (x_row x + b) ltac:(lia)) as [F1 F2]. rewrite F2.
  apply Qplus_comp; [apply Qplus_comp|reflexivity].
  - apply qsum_ext. intros j _. apply qsumn_ext. intros q _. unfold block. rewrite (proj1 (F1 j q)). reflexivity.
  - apply qsum_ext. intros j Ij. rewrite (Ez j (Hz j Ij)). apply qsumn_ext. intros q _. unfold zBlock. destruct (j =? x_sub x); [reflexivity|].
    unfold block. rewrite (proj2 (F1 j q)). reflexivity.
Qed.

Lemma group : forall l t s s' zv, ctxOk sz t -> fresh t l -> zeroAll (scan sz t l) s -> update sz jac e cal (scan sz t l) s = Ok s' ->
  (forall r, In r (scan sz t l) -> zz (u_k r) = u_nz r) ->
  (forall k x, nth_error l k = Some x -> contract (rows (s_cs x)) (total sz (s_xs x)) (s_rank x) (fillA sz (jac (t_k t + k)) x) (cal (t_k t + k))) ->
  (forall x, In x (t_x t) -> forall b, b < sz (x_v x) -> (val (x_v x) b == valueOf sz cal zz s x val zv b)%Q) ->
  (satisfied sz jac e (t_k t) l val <->
   exists zv', (forall j, j < t_k t -> zv' j = zv j) /\ (forall r, In r (scan sz t l) -> solved s' zv' r)).
Proof.
  induction l as [|x l IH]; intros t s s' zv T F Z0 E Hz HC Hp.
  - split; [intros _; exists zv; split; [auto|intros r []]|]. intros _ k y i cc a Ek. destruct k; discriminate.
  - cbn [scan] in *. set (r := scanOne sz t x) in *. set (t' := next t x r) in *.
    cbn [update] in E. destruct (updSub sz jac e cal s r) as [s1| |] eqn:E1; try discriminate. cbn [bind] in E.
    destruct (fresh_next t x l T F) as (N1 & N2 & T' & F'). fold r in T', F'. fold t' in T', F'.
    destruct (updSub_frame sz jac e cal zz val t x N2 s s1 zv (Z0 _ (or_introl eq_refl)) E1) as (_ & G1 & G2 & G3 & G4).
    assert (Z1 : zeroAll (scan sz t' l) s1).
    { intros r' I cr J. apply zeroFact_frame with (s := s); [|apply (Z0 r' (or_intror I) cr J)]. intros a La j b. apply G2. right.
      pose proof (scan_rows _ _ _ I cr J) as H. cbn [t' next t_m] in H. fold r. lia. }
    destruct (update_frame l t' s1 s' T' F' Z1 E) as (_ & _ & K3 & K4).
    pose proof (HC 0 x eq_refl) as C0. rewrite Nat.add_0_r in C0.
    pose proof (step sz jac e cal zz val t x T N2 s s1 zv N1 (Hz r (or_introl eq_refl)) C0 (Z0 _ (or_introl eq_refl)) E1 Hp) as ST.
    assert (HC' : forall k y, nth_error l k = Some y -> contract (rows (s_cs y)) (total sz (s_xs y)) (s_rank y) (fillA sz (jac (t_k t' + k)) y) (cal (t_k t' + k))).
    { intros k y Ek. specialize (HC (S k) y Ek). cbn [t' next t_k]. replace (S (t_k t) + k) with (t_k t + S k) by lia. exact HC. }
    assert (Rx : forall y, In y (u_xs r) -> x_row y + sz (x_v y) <= t_n t' /\ (forall j, In j (x_Z y) -> j < t_k t')).
    { intros y Iy. destruct (proj2 T' y) as (A1 & A2 & A3); [cbn [t' next t_x]; apply in_or_app; right; exact Iy|]. auto. }
    assert (Px : forall y, In y (t_x t) -> x_row y + sz (x_v y) <= t_n t /\ (forall j, In j (x_Z y) -> j < t_k t)).
    { intros y Iy. destruct (proj2 T y Iy) as (A1 & A2 & A3). auto. }
    (* the previous variables, after this substitution *)
    assert (Hp' : forall z, (forall y, In y (u_xs r) -> forall b, b < sz (x_v y) -> (val (x_v y) b == valueOf sz cal zz s1 y val (fupd zv (t_k t) z) b)%Q) ->
       forall y, In y (t_x t') -> forall b, b < sz (x_v y) -> (val (x_v y) b == valueOf sz cal zz s1 y val (fupd zv (t_k t) z) b)%Q).
    { intros z Hx y Iy b Lb. cbn [t' next t_x] in Iy. apply in_app_iff in Iy. destruct Iy as [Iy|Iy]; [|now apply Hx].
      rewrite (Hp y Iy b Lb). destruct (Px y Iy) as [P1 P2]. symmetry. apply (valueOf_frame s s1 y zv _ b (t_n t) (t_k t) P1 Lb P2); [|exact G3].
      intros j Lj. unfold fupd. replace (j =? t_k t) with false by (symmetry; apply Nat.eqb_neq; lia). reflexivity. }
    (* the equations of this substitution, at its end and at the end of the update *)
    assert (Q : forall zv1 zv', (forall j, j <= t_k t -> zv' j = zv1 j) ->
       (forall y, In y (u_xs r) -> forall b, b < sz (x_v y) -> (valueOf sz cal zz s' y val zv' b == valueOf sz cal zz s1 y val zv1 b)%Q) /\
       (forall a, (remRow s' r zv' a == remRow s1 r zv1 a)%Q)).
    { intros zv1 zv' A. split.
      - intros y Iy b Lb. destruct (Rx y Iy) as [R1 R2]. apply (valueOf_frame s1 s' y zv1 zv' b (t_n t') (t_k t') R1 Lb R2); [|exact K3].
        intros j Lj. apply A. cbn [t' next t_k] in Lj. lia.
      - intros a. unfold remRow. destruct (K4 (t_k t) ltac:(cbn [t' next t_k]; lia)) as (B1 & B2 & B3).
        change (u_k r) with (t_k t). rewrite B1, B2, B3. apply Qplus_comp; [apply Qplus_comp; [reflexivity|]|reflexivity].
        apply qsum_ext. intros j Ij. rewrite (A j); [reflexivity|]. pose proof (SZ_lt sz t x T j Ij). lia. }
    assert (RZ : forall a z, (remRow s1 r (fupd zv (t_k t) z) a == remRow s1 r zv a)%Q).
    { intros a z. unfold remRow. apply Qplus_comp; [apply Qplus_comp; [reflexivity|]|reflexivity]. apply qsum_ext. intros j Ij.
      pose proof (SZ_lt sz t x T j Ij) as Lj. unfold fupd. replace (j =? t_k t) with false by (symmetry; apply Nat.eqb_neq; lia). reflexivity. }
    split.
    + intros Sat.
      assert (S0 : forall i cc a, nth_error (s_cs x) i = Some cc -> a < c_size cc -> cstEq sz jac e val (t_k t) i cc a).
      { intros i cc a Ei La. specialize (Sat 0 x i cc a eq_refl Ei La). rewrite Nat.add_0_r in Sat. exact Sat. }
      destruct (proj1 ST S0) as [(z & Hx) HR].
      assert (Sl : satisfied sz jac e (t_k t') l val).
      { intros k y i cc a Ek Ei La. specialize (Sat (S k) y i cc a Ek Ei La). cbn [t' next t_k]. replace (S (t_k t) + k) with (t_k t + S k) by lia. exact Sat. }
      destruct (proj1 (IH t' s1 s' (fupd zv (t_k t) z) T' F' Z1 E (fun r' I => Hz r' (or_intror I)) HC' (Hp' z Hx)) Sl) as (zv' & A & SO).
      exists zv'. split.
      * intros j Lj. rewrite (A j) by (cbn [t' next t_k]; lia). unfold fupd. replace (j =? t_k t) with false by (symmetry; apply Nat.eqb_neq; lia). reflexivity.
      * intros r' [<-|I]; [|auto]. destruct (Q (fupd zv (t_k t) z) zv') as [Q1 Q2]; [intros j Lj; apply A; cbn [t' next t_k]; lia|]. split.
        -- intros y Iy b Lb. rewrite (Hx y Iy b Lb). symmetry. now apply Q1.
        -- intros a La. rewrite Q2, RZ. apply (HR a La).
    + intros (zv' & A & SO).
      set (zv1 := fupd zv (t_k t) (zv' (t_k t))).
      assert (A1 : forall j, j <= t_k t -> zv' j = zv1 j).
      { intros j Lj. unfold zv1, fupd. destruct (Nat.eqb_spec j (t_k t)) as [->|D]; [reflexivity|]. apply A. lia. }
      destruct (Q zv1 zv' A1) as [Q1 Q2]. destruct (SO r (or_introl eq_refl)) as [O1 O2].
      assert (Hx : forall y, In y (u_xs r) -> forall b, b < sz (x_v y) -> (val (x_v y) b == valueOf sz cal zz s1 y val zv1 b)%Q).
      { intros y Iy b Lb. rewrite (O1 y Iy b Lb). now apply Q1. }
      assert (S0 : forall i cc a, nth_error (s_cs x) i = Some cc -> a < c_size cc -> cstEq sz jac e val (t_k t) i cc a).
      { apply (proj2 ST). split; [exists (zv' (t_k t)); exact Hx|]. intros a La. specialize (O2 a La). rewrite Q2 in O2. unfold zv1 in O2. rewrite RZ in O2. exact O2. }
      assert (Sl : satisfied sz jac e (t_k t') l val).
      { apply (proj2 (IH t' s1 s' zv1 T' F' Z1 E (fun r' I => Hz r' (or_intror I)) HC' (Hp' _ Hx))). exists zv'. split.
        - intros j Lj. apply A1. cbn [t' next t_k] in Lj. lia.
        - intros r' I. apply SO. now right. }
      intros k y i cc a Ek Ei La. destruct k as [|k].
      * simpl in Ek. injection Ek as <-. rewrite Nat.add_0_r. now apply S0.
      * specialize (Sl k y i cc a Ek Ei La). cbn [t' next t_k] in Sl. replace (t_k t + S k) with (S (t_k t) + k) by lia. exact Sl.
Qed.
End Data.

(* initialization sets the zero pattern *)
Lemma initOne_keeps l : forall s j a b,
  ((B s j a b == 0)%Q -> (B (fold_left initOne l s) j a b == 0)%Q) /\ ((Z s j a b == 0)%Q -> (Z (fold_left initOne l s) j a b == 0)%Q).
Proof.
  induction l as [|r l IH]; intros s j a b; [split; auto|]. cbn [fold_left]. destruct (IH (initOne s r) j a b) as [H1 H2]. split; intros H.
  - apply H1. cbn [initOne B]. destruct (mem j (u_SY r)); [|exact H]. unfold setBlock. destruct (inRows _ _ _); [reflexivity|exact H].
  - apply H2. cbn [initOne Z]. destruct (mem j (u_SZ r)); [|exact H]. unfold setBlock. destruct (inRows _ _ _); [reflexivity|exact H].
Qed.
Lemma initialize_zero t l s : zeroAll (scan sz t l) (initialize (scan sz t l) s).
Proof.
  assert (R : forall r, In r (scan sz t l) -> forall cr, In cr (u_cs r) -> u_m0 r <= k_row cr /\ k_row cr + k_size cr <= u_m0 r + u_m r).
  { revert t. induction l as [|x l IH]; intros t r I cr J; [destruct I|]. cbn [scan] in I. destruct I as [<-|I]; [|eauto].
    cbn [u_cs scanOne] in J. destruct (scanCs_In _ _ _ _ _ _ _ J) as (_ & _ & H). exact H. }
  assert (G : forall q r s0, In r q -> forall j a b, inRows (u_m0 r) (u_m r) a = true ->
     (In j (u_SY r) -> (B (fold_left initOne q s0) j a b == 0)%Q) /\ (In j (u_SZ r) -> (Z (fold_left initOne q s0) j a b == 0)%Q)).
  { induction q as [|r0 q IH]; intros r s0 I j a b Ra; [destruct I|]. destruct I as [->|I]; [|cbn [fold_left]; now apply IH].
    cbn [fold_left]. destruct (initOne_keeps q (initOne s0 r) j a b) as [H1 H2]. split; intros J.
    - apply H1. cbn [initOne B]. rewrite (proj2 (mem_In _ _) J). unfold setBlock. rewrite Ra. reflexivity.
    - apply H2. cbn [initOne Z]. rewrite (proj2 (mem_In _ _) J). unfold setBlock. rewrite Ra. reflexivity. }
  intros r I cr J j a b La. destruct (R r I cr J) as [R1 R2].
  assert (Ra : inRows (u_m0 r) (u_m r) (k_row cr + a) = true).
  { unfold inRows. apply andb_true_iff. split; [apply Nat.leb_le|apply Nat.ltb_lt]; lia. }
  destruct (G _ r s I j (k_row cr + a) b Ra) as [G1 G2]. split; intros K _; [now apply G1|now apply G2].
Qed.
Lemma zs_scan l r : In r (scan sz start l) -> zs (scan sz start l) (u_k r) = u_nz r.
Proof.
  intros I. apply In_nth_error in I. destruct I as (i & E). rewrite (scan_k _ _ _ _ E). cbn [start t_k]. rewrite Nat.add_0_l. unfold zs. now rewrite E.
Qed.
End Group.
