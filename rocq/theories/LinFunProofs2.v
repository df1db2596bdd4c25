Require Import QArith ZArith List Bool Sorting Lia Lqa Arith.
Require Import Verif.Base Verif.QSum Verif.RangeModel Verif.RangeCountingModel Verif.RangeCountingSpec.
Require Import Verif.SpaceModel Verif.VarCountingModel Verif.VarCountingSpec Verif.VarCountingProofs2 Verif.VarCountingProofs4 Verif.VarCountingProofs6.
Require Import Verif.LinFunModel Verif.LinFunSpec Verif.LinFunProofs.
Import ListNotations.
Local Open Scope Z_scope.
Local Arguments Z.add : simpl never.
Local Arguments Z.sub : simpl never.
Local Arguments Z.of_nat : simpl never.
Local Arguments Z.to_nat : simpl never.

Definition inP (q p : nat * Range) : Prop := fst p = fst q /\ start (snd p) <= start (snd q) /\ rend (snd q) <= rend (snd p).
Definition meet (p q : nat * Range) : Prop := fst p = fst q /\ exists a, In_range (snd p) a /\ In_range (snd q) a.

Section Layout.
Variables (L : layout) (spOf : nat -> space) (base : nat -> bool).
Hypothesis G : good L spOf.
Notation part := (part L). Notation einv := (einv L). Notation flatp := (flatp L base).

Lemma ex_cont n jac es x q : Forall2 (einv n) jac es -> part x q ->
  (existsb (fun j => vcont base (j_var j) x) jac = true <-> exists e, In e es /\ inP q e).
Proof.
  intros F P. rewrite existsb_exists. induction F as [|j e jac es E F IH].
  - split; [intros (j & [] & _)|intros (e & [] & _)].
  - destruct E as (Pj & _). pose proof (vcont_iff L spOf base G _ _ e q Pj P) as V. split.
    + intros (j' & [<-|Hi] & Hc); [exists e; split; [left; auto|apply V, Hc]|]. destruct (proj1 IH) as (e' & H1 & H2); [eauto|]. exists e'. split; [right|]; auto.
    + intros (e' & [<-|Hi] & Hc); [exists j; split; [left; auto|apply V, Hc]|]. destruct (proj2 IH) as (j' & H1 & H2); [eauto|]. exists j'. split; [right|]; auto.
Qed.
Lemma ex_int n jac es x q : Forall2 (einv n) jac es -> part x q ->
  (existsb (fun j => vint base (j_var j) x) jac = true <-> exists e, In e es /\ meet e q).
Proof.
  intros F P. rewrite existsb_exists. induction F as [|j e jac es E F IH].
  - split; [intros (j & [] & _)|intros (e & [] & _)].
  - destruct E as (Pj & _). pose proof (vint_iff L spOf base G _ _ e q Pj P) as V. split.
    + intros (j' & [<-|Hi] & Hc); [exists e; split; [left; auto|apply V, Hc]|]. destruct (proj1 IH) as (e' & H1 & H2); [eauto|]. exists e'. split; [right|]; auto.
    + intros (e' & [<-|Hi] & Hc); [exists j; split; [left; auto|apply V, Hc]|]. destruct (proj2 IH) as (j' & H1 & H2); [eauto|]. exists j'. split; [right|]; auto.
Qed.
Lemma in_meet q p : 0 < dim (snd q) -> inP q p -> meet p q.
Proof. intros D (A & B & C). split; [exact A|]. exists (start (snd q)). unfold In_range, rend in *. lia. Qed.

(* a term that fits a function with n rows *)
Definition tinv (n : nat) (l : lin) (p : nat * Range) : Prop :=
  part (l_var l) p /\ flatp p /\ (base (fst p) = true -> type_ (c_space (l_var l)) = Euclidean) /\
  mr (l_mat l) = n /\ Z.of_nat (mc (l_mat l)) = vsize base (l_var l) /\ shape_true (l_mat l) (l_shape l).

Section Sum.
Variables (org : cvar -> Z) (env : nat -> Z -> Q).
Notation contrib := (contrib org env). Notation jsum := (jsum org env). Notation follows := (follows L org).

Definition Follows := forall p, flatp p -> follows p.

Lemma addTerm_cases n jac es l p : Forall2 (einv n) jac es -> Forall flatp es -> tinv n l p ->
  ((exists e, In e es /\ inP p e) -> exists jac', addTerm base n jac l = Ok jac' /\ Forall2 (einv n) jac' es /\
     (Follows -> forall i, (jsum jac' i == jsum jac i + contrib (l_mat l) (l_var l) i)%Q)) /\
  ((forall e, In e es -> ~ meet e p) -> exists jac', addTerm base n jac l = Ok jac' /\ Forall2 (einv n) jac' (es ++ [p]) /\
     (forall i, (jsum jac' i == jsum jac i + contrib (l_mat l) (l_var l) i)%Q)) /\
  ((forall e, In e es -> ~ inP p e) -> (exists e, In e es /\ meet e p) -> addTerm base n jac l = Throw).
Proof.
  intros F Fl (P & Fp & Eu & R & C & Sh).
  pose proof (flat_size L base _ _ P Fp) as Vs. pose proof (ex_cont n jac es _ p F P) as XC. pose proof (ex_int n jac es _ p F P) as XI.
  assert (D : 0 < dim (snd p)) by apply P. assert (Sx : c_sup (l_var l) = fst p) by apply P.
  unfold addTerm.
  replace (negb (isEuclideanS (c_space (l_var l))) && base (c_sup (l_var l))) with false.
  2:{ symmetry. rewrite Sx. destruct (base (fst p)); [|apply andb_false_r]. unfold isEuclideanS. rewrite (Eu eq_refl). reflexivity. }
  rewrite R, Nat.eqb_refl. replace (Z.of_nat (mc (l_mat l)) =? vsize base (l_var l)) with true by (symmetry; apply Z.eqb_eq; exact C).
  cbn [negb]. split; [|split].
  - intros H. rewrite (proj2 XC H).
    destruct (plusAt_sum L spOf base G org env n (l_var l) p (l_mat l) P R (eq_trans C Vs) jac es F (proj2 XC H)) as (jac' & E1 & E2 & E3).
    exists jac'. split; [exact E1|]. split; [exact E2|]. intros Fo. apply E3. intros e He. apply Fo. rewrite Forall_forall in Fl. auto.
  - intros H. destruct (existsb (fun j => vcont base (j_var j) (l_var l)) jac) eqn:E1.
    { exfalso. destruct (proj1 XC eq_refl) as (e & He & Hi). apply (H e He), in_meet; auto. }
    unfold addVariable. rewrite E1. destruct (existsb (fun j => vint base (j_var j) (l_var l)) jac) eqn:E2.
    { exfalso. destruct (proj1 XI eq_refl) as (e & He & Hi). apply (H e He Hi). }
    cbn [bind]. eexists. split; [reflexivity|]. split.
    + apply Forall2_app; [exact F|]. constructor; [|constructor]. split; [exact P|]. split; [split; [exact R|simpl; congruence]|exact Sh].
    + intros i. rewrite (jsum_app org env). unfold jsum at 2. cbn [qsum j_mat j_var]. ring.
  - intros H1 H2. destruct (existsb (fun j => vcont base (j_var j) (l_var l)) jac) eqn:E1.
    { exfalso. destruct (proj1 XC eq_refl) as (e & He & Hi). apply (H1 e He Hi). }
    unfold addVariable. rewrite E1, (proj2 XI H2). reflexivity.
Qed.

(* ---- the list of matrices ---- *)
Definition compat (ps : list (nat * Range)) : Prop :=
  forall a p b, ps = a ++ p :: b -> (exists e, In e a /\ inP p e) \/ (forall e, In e a -> ~ meet e p).
Lemma inP_trans a b c : inP a b -> inP b c -> inP a c.
Proof. unfold inP. intuition (congruence || lia). Qed.
Lemma meet_in e e' p : inP e e' -> meet e p -> meet e' p.
Proof. intros (A & B & C) (D & a & X & Y). split; [congruence|]. exists a. unfold In_range, rend in *. intuition lia. Qed.

Definition tsum (l : list lin) (i : nat) : Q := qsum (fun t => contrib (l_mat t) (l_var t) i) l.

Lemma addTerms_run n : forall l ps jac es done, Forall2 (tinv n) l ps -> Forall2 (einv n) jac es -> Forall flatp es ->
  incl es done -> (forall d, In d done -> exists e, In e es /\ inP d e) ->
  (forall a p b, ps = a ++ p :: b -> (exists e, In e (done ++ a) /\ inP p e) \/ (forall e, In e (done ++ a) -> ~ meet e p)) ->
  exists jac' es', addTerms base n jac l = Ok jac' /\ Forall2 (einv n) jac' es' /\ Forall flatp es' /\
    (Follows -> forall i, (jsum jac' i == jsum jac i + tsum l i)%Q).
Proof.
  induction l as [|t l IH]; intros ps jac es dn T F Fl I1 I2 H.
  - inversion T; subst. exists jac, es. simpl. repeat (split; [auto|]). intros _ i. unfold tsum. simpl. ring.
  - inversion T as [|? p ? ps' Tp T']; subst. pose proof (addTerm_cases n jac es t p F Fl Tp) as (K1 & K2 & _). cbn [addTerms].
    assert (Dp : 0 < dim (snd p)) by apply Tp.
    assert (FP : flatp p) by apply Tp.
    assert (Next : forall a q b, ps' = a ++ q :: b -> (exists e, In e ((dn ++ [p]) ++ a) /\ inP q e) \/ (forall e, In e ((dn ++ [p]) ++ a) -> ~ meet e q)).
    { intros a q b Hs. specialize (H (p :: a) q b). rewrite <- app_assoc. apply H. simpl. congruence. }
    destruct (H [] p ps' eq_refl) as [(e & He & Hi)|Hn]; rewrite app_nil_r in *.
    + destruct (I2 e He) as (e' & He' & Hi'). destruct K1 as (jac' & E1 & E2 & E3); [exists e'; split; [auto|eapply inP_trans; eauto]|].
      rewrite E1. simpl bind. destruct (IH ps' jac' es (dn ++ [p]) T' E2 Fl) as (jac'' & es'' & X1 & X2 & X3 & X4).
      * intros x Hx. apply in_or_app. left. auto.
      * intros d Hd. apply in_app_or in Hd. destruct Hd as [Hd|[<-|[]]]; [auto|]. exists e'. split; [auto|eapply inP_trans; eauto].
      * exact Next.
      * exists jac'', es''. repeat (split; [auto|]). intros Fo i. rewrite X4, E3 by auto. unfold tsum. cbn [qsum]. ring.
    + destruct K2 as (jac' & E1 & E2 & E3); [intros e He; apply Hn, I1, He|]. rewrite E1. simpl bind.
      destruct (IH ps' jac' (es ++ [p]) (dn ++ [p]) T' E2) as (jac'' & es'' & X1 & X2 & X3 & X4).
      * apply Forall_app. split; [exact Fl|]. constructor; auto.
      * intros x Hx. apply in_app_or in Hx. apply in_or_app. destruct Hx as [Hx|Hx]; auto.
      * intros d Hd. apply in_app_or in Hd. destruct Hd as [Hd|[<-|[]]].
        -- destruct (I2 d Hd) as (e & He & Hi). exists e. split; [apply in_or_app; auto|auto].
        -- exists p. split; [apply in_or_app; right; left; auto|]. unfold inP. split; [auto|lia].
      * exact Next.
      * exists jac'', es''. repeat (split; [auto|]). intros Fo i. rewrite X4, E3 by auto. unfold tsum. cbn [qsum]. ring.
Qed.

(* the first term that is not compatible is rejected *)
Lemma addTerms_throw n : forall l ps jac es done, Forall2 (tinv n) l ps -> Forall2 (einv n) jac es -> Forall flatp es ->
  incl es done -> (forall d, In d done -> exists e, In e es /\ inP d e) ->
  (exists a p b, ps = a ++ p :: b /\ (forall e, In e (done ++ a) -> ~ inP p e) /\ exists e, In e (done ++ a) /\ meet e p) ->
  addTerms base n jac l = Throw.
Proof.
  induction l as [|t l IH]; intros ps jac es dn T F Fl I1 I2 (a & p & b & Hs & H1 & H2).
  - inversion T; subst ps. destruct a; discriminate.
  - rename Hs into Hs0. inversion T as [|t0 q l0 ps' Tp T' Et Ep]. assert (Hs : q :: ps' = a ++ p :: b) by congruence. clear T Hs0 Ep; subst t0 l0. pose proof (addTerm_cases n jac es t q F Fl Tp) as (K1 & K2 & K3). cbn [addTerms].
    assert (FP : flatp q) by apply Tp.
    destruct a as [|q' a]; simpl in *.
    + inversion Hs; subst. rewrite app_nil_r in *. rewrite K3; [reflexivity|intros e He; apply H1, I1, He|].
      destruct H2 as (e & He & Hm). destruct (I2 e He) as (e' & He' & Hi). exists e'. split; [auto|eapply meet_in; eauto].
    + inversion Hs; subst q' ps'. clear Hs.
      assert (Ex : forall P : nat * Range -> Prop, (exists e, In e ((dn ++ [q]) ++ a) /\ P e) <-> (exists e, In e (dn ++ q :: a) /\ P e)).
      { intros P. rewrite <- app_assoc. reflexivity. }
      destruct (existsb (fun j => vcont base (j_var j) (l_var t)) jac) eqn:E1.
      * apply (proj1 (ex_cont n jac es _ q F (proj1 Tp))) in E1. destruct (K1 E1) as (jac' & E2 & E3 & _). rewrite E2. simpl bind.
        eapply (IH _ jac' es (dn ++ [q]) T' E3 Fl).
        -- intros x Hx. apply in_or_app. left. auto.
        -- intros d Hd. apply in_app_or in Hd. destruct Hd as [Hd|[<-|[]]]; auto.
        -- exists a, p, b. split; [reflexivity|]. rewrite <- app_assoc. auto.
      * destruct (existsb (fun j => vint base (j_var j) (l_var t)) jac) eqn:E2.
        -- rewrite K3; [reflexivity| |apply (proj1 (ex_int n jac es _ q F (proj1 Tp))); exact E2].
           intros e He Hi. assert (existsb (fun j => vcont base (j_var j) (l_var t)) jac = true) by (apply (ex_cont n jac es _ q F (proj1 Tp)); eauto). congruence.
        -- destruct K2 as (jac' & X1 & X2 & _).
           { intros e He Hi. assert (existsb (fun j => vint base (j_var j) (l_var t)) jac = true) by (apply (ex_int n jac es _ q F (proj1 Tp)); eauto). congruence. }
           rewrite X1. simpl bind. eapply (IH _ jac' (es ++ [q]) (dn ++ [q]) T' X2).
           ++ apply Forall_app. split; [exact Fl|]. constructor; auto.
           ++ intros x Hx. apply in_app_or in Hx. apply in_or_app. destruct Hx as [Hx|Hx]; auto.
           ++ intros d Hd. apply in_app_or in Hd. destruct Hd as [Hd|[<-|[]]].
              ** destruct (I2 d Hd) as (e & He & Hi). exists e. split; [apply in_or_app; auto|auto].
              ** exists q. split; [apply in_or_app; right; left; auto|]. unfold inP. split; [auto|lia].
           ++ exists a, p, b. split; [reflexivity|]. rewrite <- app_assoc. auto.
Qed.

(* ---- the affine expression ---- *)
Lemma interval_in l P q : canonical l P -> 0 < dim q -> (forall x, In_range q x -> P x) -> exists r, In r l /\ start r <= start q /\ rend q <= rend r.
Proof.
  intros (D & S & C) Dq H. assert (W : forall n, Z.of_nat n < dim q -> exists r, In r l /\ start r <= start q /\ start q + Z.of_nat n < rend r).
  { induction n as [|n IH]; intros Hn.
    - destruct (proj1 (C (start q))) as (r & Hr & Hi); [apply H; unfold In_range; lia|]. exists r. unfold In_range, rend in *. split; [auto|lia].
    - destruct IH as (r & Hr & H1 & H2); [lia|]. destruct (proj1 (C (start q + Z.of_nat (Datatypes.S n)))) as (r' & Hr' & Hi); [apply H; unfold In_range; lia|].
      exists r. split; [auto|]. split; [auto|]. destruct (Z_lt_le_dec (start q + Z.of_nat (Datatypes.S n)) (rend r)) as [|Hc]; [auto|]. exfalso.
      assert (X : r = r' \/ rend r < start r' \/ rend r' < start r).
      { clear - S Hr Hr'. induction S as [|x l S IH Fo]; [destruct Hr|]. rewrite Forall_forall in Fo.
        destruct Hr as [<-|Hr], Hr' as [<-|Hr']; auto. }
      unfold In_range, rend in *. destruct X as [<-|[X|X]]; lia. }
  destruct (W (Z.to_nat (dim q - 1))) as (r & Hr & H1 & H2); [lia|]. exists r. unfold rend in *. split; [auto|lia].
Qed.
(* two parts that meet are the same *)
Definition separate (ps : list (nat * Range)) : Prop := forall p q, In p ps -> In q ps -> meet p q -> p = q.
Lemma canonical_separate ps P : (forall k, canonical (of_sup k ps) (P k)) -> separate ps.
Proof.
  intros C [k q] [k' q'] Hp Hq [E (a & X & Y)]. simpl in *. subst k'. f_equal. apply of_sup_In in Hp, Hq. destruct (C k) as (_ & S & _). clear - S Hp Hq X Y.
  induction S as [|x l S IH Fo]; [destruct Hp|]. rewrite Forall_forall in Fo.
  destruct Hp as [<-|Hp], Hq as [<-|Hq]; auto; [specialize (Fo _ Hq)|specialize (Fo _ Hp)]; unfold In_range, rend in *; lia.
Qed.
Lemma canonical_nodup ps P : (forall k, canonical (of_sup k ps) (P k)) -> NoDup ps.
Proof.
  intros C. assert (N : forall k, NoDup (of_sup k ps)). { intros k. destruct (C k) as (D & S & _). apply sorted_nodup; auto. }
  clear C. induction ps as [|[k q] ps IH]; constructor.
  - intros H. specialize (N k). unfold of_sup in N. simpl in N. rewrite Nat.eqb_refl in N. simpl in N. inversion N; subst.
    apply H2. apply of_sup_In. exact H.
  - apply IH. intros j. specialize (N j). unfold of_sup in *. simpl in N. destruct (Nat.eqb k j); [inversion N; auto|auto].
Qed.

Lemma preAdd_run n : forall vs ps fl jac es, Forall2 (fun v p => c_sup v = fst p /\ made_of L v (snd p)) vs ps -> length fl = length vs ->
  Forall (fun p => 0 < dim (snd p)) ps -> NoDup ps -> (forall p e, In p ps -> In e es -> ~ meet e p) -> separate ps ->
  Forall2 (einv n) jac es ->
  exists jac' es', preAdd base n jac vs fl = Ok jac' /\ Forall2 (einv n) jac' es' /\
    (forall e, In e es' -> In e es \/ In e ps) /\ incl es es' /\ (forall i p, nth_error ps i = Some p -> nth_error fl i = Some false -> In p es') /\
    (forall i, (jsum jac' i == jsum jac i)%Q).
Proof.
  induction vs as [|v vs IH]; intros ps fl jac es F Len D N M S E.
  - inversion F; subst. exists jac, es. simpl. split; [reflexivity|]. split; [auto|]. split; [auto|]. split; [apply incl_refl|]. split; [intros i p H; destruct i; discriminate|reflexivity].
  - inversion F as [|? p ? ps' Fp F']; subst. destruct fl as [|b fl]; simpl in Len; [discriminate|]. cbn [preAdd].
    inversion D as [|? ? Dp D']; subst. inversion N as [|? ? Np N']; subst.
    assert (P : part v p) by (destruct Fp; repeat split; auto; apply H0).
    assert (S' : separate ps') by (intros x y Hx Hy; apply S; right; auto).
    destruct b; cbn [negb].
    + destruct (IH ps' fl jac es F') as (jac' & es' & X1 & X2 & X3 & X4 & X5 & X6); auto.
      { intros q e Hq He. apply M; [right|]; auto. }
      exists jac', es'. split; [auto|]. split; [auto|]. split; [intros e He; destruct (X3 e He); [auto|right; right; auto]|]. split; [auto|]. split; [|auto].
      intros i q Hi Hf. destruct i; simpl in *; [discriminate|eauto].
    + unfold addVariable.
      destruct (existsb (fun j => vcont base (j_var j) v) jac) eqn:E1.
      { exfalso. apply (ex_cont n jac es v p E P) in E1. destruct E1 as (e & He & Hi). apply (M p e); [left|..]; auto. apply in_meet; auto. }
      destruct (existsb (fun j => vint base (j_var j) v) jac) eqn:E2.
      { exfalso. apply (ex_int n jac es v p E P) in E2. destruct E2 as (e & He & Hi). apply (M p e); [left|..]; auto. }
      cbn [bind]. set (Z0 := mkMat n _ _).
      destruct (IH ps' fl (jac ++ [mkJ v Z0 General]) (es ++ [p]) F') as (jac' & es' & X1 & X2 & X3 & X4 & X5 & X6); auto.
      { intros q e Hq He. apply in_app_or in He. destruct He as [He|[<-|[]]]; [apply M; [right|]; auto|]. intros Hm.
        assert (p = q) by (apply S; [left|right|]; auto). subst q. contradiction. }
      { apply Forall2_app; [exact E|]. constructor; [|constructor]. split; [exact P|]. split; [split; [reflexivity|]|exact Logic.I].
        unfold Z0. simpl. destruct P as (Es & Hm & _). destruct Hm as (_ & _ & _ & _ & _ & _ & _ & T1 & T2).
        pose proof (ot_mono L spOf G (c_sup v) (start (snd p)) (rend (snd p))). unfold rend in *. lia. }
      exists jac', es'. split; [auto|]. split; [auto|]. split.
      { intros e He. destruct (X3 e He) as [H|H]; [apply in_app_or in H; destruct H as [H|[<-|[]]]; [auto|right; left; auto]|right; right; auto]. }
      split; [intros e He; apply X4; apply in_or_app; auto|]. split.
      { intros i q Hi Hf. destruct i; simpl in *; [inversion Hi; subst; apply X4; apply in_or_app; right; left; auto|eauto]. }
      intros i. rewrite X6. rewrite (jsum_app org env). unfold jsum at 2. cbn [qsum j_mat j_var].
      assert (Zr : (contrib Z0 v i == 0)%Q). { unfold contrib, Z0. simpl me. apply qsumn_zero. intros. ring. }
      rewrite Zr. ring.
Qed.

Section Affine.
Variables (ps : list (nat * Range)) (fl : list bool) (qs : list (nat * Range)).
Hypothesis Hlen : length fl = length ps.
Hypothesis Hcan : forall k, canonical (of_sup k ps) (fun x => exists q, In (k, q) qs /\ In_range q x).
Hypothesis Hfirst : forall i p, nth_error ps i = Some p -> nth_error fl i = Some true ->
      forall a q b, qs = a ++ (fst p, q) :: b -> (exists x, In_range q x /\ In_range (snd p) x) -> q = snd p \/ In p a.

Lemma affine_run n : forall l todo done jac es, Forall2 (tinv n) l todo -> qs = done ++ todo -> Forall2 (einv n) jac es ->
  Forall flatp ps -> incl es ps -> (forall i p, nth_error ps i = Some p -> nth_error fl i = Some false -> In p es) ->
  (forall d, In d done -> exists e, In e es /\ inP d e) ->
  exists jac' es', addTerms base n jac l = Ok jac' /\ Forall2 (einv n) jac' es' /\ Forall flatp es' /\
    (Follows -> forall i, (jsum jac' i == jsum jac i + tsum l i)%Q).
Proof.
  pose proof (canonical_separate ps _ Hcan) as Sep.
  induction l as [|t l IH]; intros todo dn jac es T HQ F Fl I1 I2 I3.
  - exists jac, es. simpl. split; [auto|]. split; [auto|]. split.
    { rewrite Forall_forall in *. auto. } intros _ i. unfold tsum. simpl. ring.
  - inversion T as [|t0 q l0 todo' Tq T' Et Ep]. subst t0 l0. assert (HQs : qs = dn ++ q :: todo') by congruence. clear T HQ Ep.
    assert (Fle : Forall flatp es) by (rewrite Forall_forall in *; auto).
    pose proof (addTerm_cases n jac es t q F Fle Tq) as (K1 & K2 & _). cbn [addTerms].
    assert (Dq : 0 < dim (snd q)) by apply Tq.
    (* the part that contains the term *)
    destruct (interval_in _ _ (snd q) (Hcan (fst q)) Dq) as (r & Hr & R1 & R2).
    { intros x Hx. exists (snd q). split; [|exact Hx]. rewrite HQs. apply in_or_app. right. left. destruct q; reflexivity. }
    apply of_sup_In in Hr.
    assert (Inq : inP q (fst q, r)) by (unfold inP; simpl; auto).
    destruct (in_dec (fun a b : nat * Range => ltac:(decide equality; [decide equality; apply Z.eq_dec|apply Nat.eq_dec])) (fst q, r) es) as [He|He].
    + destruct K1 as (jac' & E1 & E2 & E3); [exists (fst q, r); auto|]. rewrite E1. simpl bind.
      destruct (IH todo' (dn ++ [q]) jac' es T') as (jac'' & es'' & X1 & X2 & X3 & X4); auto.
      { rewrite <- app_assoc. exact HQs. }
      { intros d Hd. apply in_app_or in Hd. destruct Hd as [Hd|[<-|[]]]; eauto. }
      exists jac'', es''. split; [auto|]. split; [auto|]. split; [auto|]. intros Fo i. rewrite X4, E3 by auto. unfold tsum. cbn [qsum]. ring.
    + assert (Hq : q = (fst q, r)).
      { destruct (In_nth_error _ _ Hr) as (i & Hi).
        destruct (nth_error fl i) as [b|] eqn:Hf.
        2:{ apply nth_error_None in Hf. assert (i < length ps)%nat by (apply nth_error_Some; congruence). lia. }
        destruct b; [|exfalso; apply He; eapply I2; eauto].
        destruct (Hfirst i _ Hi Hf dn (snd q) todo') as [X|X].
        - rewrite HQs. simpl fst. destruct q; reflexivity.
        - exists (start (snd q)). simpl. unfold In_range, rend in *. lia.
        - simpl in X. destruct q; simpl in *; congruence.
        - exfalso. destruct (I3 _ X) as (e & He' & Hi'). apply He.
          assert (e = (fst q, r)) as <-; [|exact He']. apply Sep; [apply I1, He'|exact Hr|]. apply in_meet; [|exact Hi'].
          simpl. unfold rend in *. lia. }
      destruct K2 as (jac' & E1 & E2 & E3).
      { intros e He' Hm. apply He. rewrite <- Hq. assert (e = q) as <-; [|exact He']. apply Sep; [apply I1, He'|rewrite Hq; exact Hr|exact Hm]. }
      rewrite E1. simpl bind.
      destruct (IH todo' (dn ++ [q]) jac' (es ++ [q]) T') as (jac'' & es'' & X1 & X2 & X3 & X4); auto.
      { rewrite <- app_assoc. exact HQs. }
      { intros x Hx. apply in_app_or in Hx. destruct Hx as [Hx|[<-|[]]]; [auto|rewrite Hq; exact Hr]. }
      { intros i p H1 H2. apply in_or_app. left. eauto. }
      { intros d Hd. apply in_app_or in Hd. destruct Hd as [Hd|[<-|[]]].
        - destruct (I3 d Hd) as (e & H1 & H2). exists e. split; [apply in_or_app; auto|auto].
        - exists q. split; [apply in_or_app; right; left; auto|]. unfold inP. split; [auto|lia]. }
      exists jac'', es''. split; [auto|]. split; [auto|]. split; [auto|]. intros Fo i. rewrite X4, E3 by auto. unfold tsum. cbn [qsum]. ring.
Qed.
End Affine.
End Sum.
End Layout.
