Require Import ZArith List Bool Sorting Lia Arith.
Require Import Verif.Base Verif.RangeModel Verif.RangeCountingModel Verif.RangeCountingSpec.
Require Import Verif.SpaceModel Verif.VarCountingModel Verif.VarCountingSpec Verif.VarCountingProofs.
Require Import Verif.VarCountingProofs2 Verif.VarCountingProofs3 Verif.VarCountingProofs4.
Require Import Verif.PartitionModel Verif.PartitionSpec.
Import ListNotations.
Local Open Scope Z_scope.

Section Base.
Variable base : nat -> bool.

Definition cuts (p : list cvar) (v : cvar) (B : list cvar) : Prop :=
  exists A C w, p = A ++ B ++ C /\ B <> [] /\
    (forall x, In x B -> cv_contains base v x = true) /\
    (forall x, In x A -> cv_contains base v x = false) /\
    (forall x, In x C -> cv_contains base v x = false) /\
    last B w = w /\ rend (subRange base w) = rend (subRange base v).

Lemma findIn_ok v : forall A i b B, (forall x, In x A -> cv_contains base v x = false) ->
  cv_contains base v b = true -> findIn base v i (A ++ b :: B) = Some (i + length A)%nat.
Proof.
  induction A as [|a A IH]; intros i b B HA Hb; simpl.
  - rewrite Hb. f_equal. lia.
  - rewrite (HA a (or_introl eq_refl)), IH; [f_equal; lia|intros; apply HA; right; auto|auto].
Qed.

Lemma cuts_find p v B : cuts p v B -> exists A C, p = A ++ B ++ C /\ findIn base v 0 p = Some (length A).
Proof.
  intros (A & C & w & -> & Hne & HB & HA & _ & _ & _). exists A, C. split; [auto|].
  destruct B as [|b B]; [congruence|]. simpl. rewrite (findIn_ok v A 0 b (B ++ C)); auto. apply HB. left; auto.
Qed.

Lemma nth_mid {A} (a : list A) x b : nth_error (a ++ x :: b) (length a) = Some x.
Proof. rewrite nth_error_app2 by lia. rewrite Nat.sub_diag. auto. Qed.

(* the part of one variable, from the place [A ++ B1] on *)
Lemma loop_part var p v iv0 : nth_error var iv0 = Some v ->
  forall B2 B1 A C w, p = A ++ (B1 ++ B2) ++ C -> B2 <> [] ->
  (forall x, In x (B1 ++ B2) -> cv_contains base v x = true) ->
  (forall x, In x C -> cv_contains base v x = false) ->
  last (B1 ++ B2) w = w -> rend (subRange base w) = rend (subRange base v) ->
  forall rest fuel, (S iv0 = length var /\ rest = [] \/
     exists v' j, nth_error var (S iv0) = Some v' /\ findIn base v' 0 p = Some j /\
       it_loop base fuel var p (mkIter j (S iv0)) = Ok rest) ->
  it_loop base (length B2 + fuel) var p (mkIter (length A + length B1) iv0) = Ok (B2 ++ rest).
Proof.
  intros Hv B2. induction B2 as [|b B2 IH]; intros B1 A C w Ep Hne HB HC Hl He rest fuel Hr; [congruence|].
  assert (Hip : nth_error p (length A + length B1) = Some b).
  { rewrite Ep. rewrite nth_error_app2 by lia. rewrite <- app_assoc. replace (length A + length B1 - length A)%nat with (length B1) by lia.
    apply nth_mid. }
  assert (Hlt : (length A + length B1 < length p)%nat) by (apply nth_error_Some; congruence).
  cbn [length plus it_loop ip]. destruct (Nat.eqb_spec (length A + length B1) (length p)) as [X|_]; [lia|].
  rewrite Hip. unfold it_next. cbn [ip iv]. rewrite Hv.
  destruct B2 as [|b2 B2].
  - assert (Hst : match nth_error p (S (length A + length B1)) with Some w0 => cv_contains base v w0 | None => false end = false).
    { destruct (nth_error p (S (length A + length B1))) as [z|] eqn:Ez; [|auto]. apply HC.
      rewrite Ep in Ez. replace (A ++ (B1 ++ [b]) ++ C) with ((A ++ B1 ++ [b]) ++ C) in Ez by (rewrite <- !app_assoc; auto).
      rewrite nth_error_app2 in Ez by (rewrite !app_length; simpl; lia). apply nth_error_In in Ez. auto. }
    rewrite Hst, Hip. rewrite last_last in Hl. subst w. rewrite He, Z.eqb_refl. cbn [negb].
    destruct Hr as [[Hend ->]|(v' & j & Hv' & Hf & Hloop)].
    + rewrite Hend, Nat.eqb_refl. cbn [bind length plus]. destruct fuel; cbn [it_loop ip]; rewrite Nat.eqb_refl; auto.
    + assert (S iv0 < length var)%nat by (apply nth_error_Some; congruence).
      destruct (Nat.eqb_spec (S iv0) (length var)); [lia|]. rewrite Hv', Hf. cbn [bind length plus]. rewrite Hloop. auto.
  - assert (Hn : nth_error p (S (length A + length B1)) = Some b2).
    { rewrite Ep. replace (A ++ (B1 ++ b :: b2 :: B2) ++ C) with ((A ++ B1 ++ [b]) ++ b2 :: (B2 ++ C)).
      2:{ rewrite <- !app_assoc. simpl. auto. }
      replace (S (length A + length B1)) with (length (A ++ B1 ++ [b])) by (rewrite !app_length; simpl; lia). apply nth_mid. }
    rewrite Hn. rewrite (HB b2) by (apply in_or_app; simpl; auto). cbn [bind].
    assert (I := IH (B1 ++ [b]) A C w). rewrite <- !app_assoc in I. cbn [app] in I.
    rewrite app_length in I. cbn [length] in I. replace (length A + (length B1 + 1))%nat with (S (length A + length B1)) in I by lia.
    change (Datatypes.S (length B2 + fuel)) with (length (b2 :: B2) + fuel)%nat. cbn [length].
    assert (Ep2 : p = A ++ B1 ++ b :: b2 :: B2 ++ C) by (rewrite Ep, <- app_assoc; auto).
    rewrite (I Ep2 ltac:(discriminate) HB HC Hl He rest fuel Hr). auto.
Qed.

Lemma cuts_length p v B : cuts p v B -> (length B <= length p)%nat.
Proof. intros (A & C & w & -> & _). rewrite !app_length. lia. Qed.

Lemma loop_all p : forall Bs vs var pre, var = pre ++ vs -> vs <> [] -> Forall2 (cuts p) vs Bs ->
  exists v j, hd_error vs = Some v /\ findIn base v 0 p = Some j /\
    forall fuel, (length (concat Bs) <= fuel)%nat -> it_loop base fuel var p (mkIter j (length pre)) = Ok (concat Bs).
Proof.
  induction Bs as [|B Bs IH]; intros vs var pre Ev Hne F; inversion F as [|v ? vs' ? Hc F']; subst; [congruence|].
  destruct (cuts_find _ _ _ Hc) as (A & C & Ep & Hf). destruct Hc as (A' & C' & w & Ep' & Hb & HB & HA & HC & Hl & He).
  assert (A = A' /\ C = C') as [-> ->].
  { assert (length A = length A').
    { rewrite Ep' in Hf. destruct B as [|b B]; [congruence|]. simpl in Hf.
      rewrite (findIn_ok v A' 0 b (B ++ C')) in Hf; [inversion Hf; lia|auto|apply HB; left; auto]. }
    rewrite Ep in Ep'. clear - Ep' H. revert A' H Ep'. induction A as [|a A IH]; intros [|a' A'] H E; simpl in *; try discriminate.
    - apply app_inv_head in E. auto.
    - inversion E; subst. destruct (IH A') as [-> ->]; auto. }
  exists v, (length A'). split; [auto|]. split; [auto|]. intros fuel Hfu. simpl concat in *. rewrite app_length in Hfu.
  replace fuel with (length B + (fuel - length B))%nat by lia.
  replace (length A') with (length A' + @length cvar [])%nat by (simpl; lia).
  eapply loop_part; eauto.
  - apply nth_mid.
  - destruct vs' as [|v' vs'].
    + left. inversion F'; subst. split; [rewrite app_length; simpl; lia|auto].
    + right. destruct (IH (v' :: vs') (pre ++ v :: v' :: vs') (pre ++ [v])) as (v2 & j & Hh & Hf2 & Hlo); auto.
      { rewrite <- app_assoc. auto. } { discriminate. }
      inversion Hh; subst v2. exists v', j. split; [|split; [auto|]].
      * replace (pre ++ v :: v' :: vs') with ((pre ++ [v]) ++ v' :: vs') by (rewrite <- app_assoc; auto).
        replace (S (length pre)) with (length (pre ++ [v])) by (rewrite app_length; simpl; lia). apply nth_mid.
      * replace (S (length pre)) with (length (pre ++ [v])) by (rewrite app_length; simpl; lia). apply Hlo. lia.
Qed.

Lemma iterate_ok var p Bs : var <> [] -> Forall2 (cuts p) var Bs -> iterate base var p = Ok (concat Bs).
Proof.
  intros Hne F. destruct (loop_all p Bs var var [] eq_refl Hne F) as (v & j & Hh & Hf & Hl).
  unfold iterate, it_make.
  assert (Hp : length p <> 0%nat). { destruct p; [discriminate|simpl; lia]. }
  destruct (Nat.eqb_spec 0 (length p)); [congruence|]. destruct var as [|v0 var]; [congruence|]. simpl nth_error.
  inversion Hh; subst v0. rewrite Hf. cbn [bind]. apply Hl.
  clear - F. induction F as [|v' B var' Bs Hc F IH]; simpl; [lia|]. rewrite app_length. apply cuts_length in Hc. lia.
Qed.
End Base.

(* ---------- variables made of atoms ---------- *)
Section Atoms.
Variables (L : layout) (spOf : nat -> space) (base : nat -> bool).
Hypothesis G : good L spOf.

Definition ph (k : nat) : Z -> Z := if base k then or_ L k else ot L k.
Lemma ph_mono k a b : a < b -> ph k a < ph k b.
Proof. unfold ph. destruct (base k); intros; [eapply or_mono|eapply ot_mono]; eauto. Qed.

Lemma subRange_fr v q : made_of L v q -> subRange base v = fr (ph (c_sup v)) q.
Proof.
  intros M. destruct (made_ranges L v q M) as (_ & E2 & E3). unfold subRange, ph. destruct (base (c_sup v)); auto.
Qed.

Lemma contains_atoms v q w r : made_of L v q -> made_of L w r -> 0 < dim r ->
  cv_contains base v w = true <-> c_sup w = c_sup v /\ start q <= start r /\ rend r <= rend q.
Proof.
  intros M1 M2 D. unfold cv_contains. rewrite (subRange_fr v q M1), (subRange_fr w r M2).
  destruct (Nat.eqb_spec (c_sup v) (c_sup w)) as [E|E]; cbn [andb].
  2:{ split; [discriminate|]. intros [X _]. congruence. }
  rewrite <- E. unfold containsR, containsI. rewrite !rend_fr. cbn [fr start].
  rewrite !(phi_leb _ (ph_mono _)), (phi_ltb _ (ph_mono _)). unfold rend in *. split.
  - intros H. lia.
  - intros (_ & H1 & H2). lia.
Qed.

Lemma Forall2_split {A B} (P : A -> B -> Prop) : forall l a b, Forall2 P l (a ++ b) ->
  exists x y, l = x ++ y /\ Forall2 P x a /\ Forall2 P y b.
Proof.
  intros l a. revert l. induction a as [|z a IH]; intros l b F; simpl in *.
  - exists [], l. split; [auto|]. split; [constructor|auto].
  - inversion F as [|x ? l' ? Hx F']; subst. destruct (IH _ _ F') as (x1 & y1 & -> & F1 & F2).
    exists (x :: x1), y1. split; [auto|]. split; [constructor; auto|auto].
Qed.

(* the parts of a sorted list that lie inside [q] are consecutive *)
Definition inq (k : nat) (q : Range) (p : nat * Range) : bool :=
  Nat.eqb (fst p) k && (start q <=? start (snd p)) && (rend (snd p) <=? rend q).
Definition before (a b : nat * Range) : Prop :=
  (fst a < fst b)%nat \/ (fst a = fst b /\ rend (snd a) <= start (snd b)).

Lemma consecutive k q : forall ps, StronglySorted before ps -> (forall p, In p ps -> 0 < dim (snd p)) ->
  exists A C, ps = A ++ filter (inq k q) ps ++ C /\
    (forall p, In p A -> inq k q p = false) /\ (forall p, In p C -> inq k q p = false).
Proof.
  induction ps as [|p ps IH]; intros S D; [exists [], []; simpl; split; [auto|split; intros p []]|].
  inversion S as [|? ? S1 S2]; subst. destruct (IH S1) as (A & C & E & HA & HC).
  { intros; apply D; right; auto. }
  simpl. destruct (inq k q p) eqn:Ep.
  - exists []. destruct (filter (inq k q) ps) as [|f F] eqn:Ef.
    + exists ps. split; [auto|]. split; [intros x []|]. intros x Hx. destruct (inq k q x) eqn:Ex; [|auto].
      assert (In x (filter (inq k q) ps)) by (apply filter_In; auto). rewrite Ef in H. destruct H.
    + assert (A = []) as ->.
      { destruct A as [|a A]; [auto|exfalso]. assert (Ha := HA a (or_introl eq_refl)).
        rewrite Forall_forall in S2. assert (Hba : before p a) by (apply S2; rewrite E; left; auto).
        assert (Hin : In f ps) by (rewrite E; right; apply in_or_app; right; left; auto).
        assert (Hf : inq k q f = true).
        { assert (In f (filter (inq k q) ps)) by (rewrite Ef; left; auto). apply filter_In in H. tauto. }
        assert (Hbf : before a f).
        { rewrite E in S1. simpl in S1. inversion S1 as [|? ? _ S3]; subst. rewrite Forall_forall in S3. apply S3.
          apply in_or_app. right. left. auto. }
        assert (Dp := D p (or_introl eq_refl)). assert (Da : 0 < dim (snd a)) by (apply D; right; rewrite E; left; auto).
        assert (Df : 0 < dim (snd f)) by (apply D; right; auto).
        clear - Ha Hba Hf Hbf Dp Da Df Ep. unfold inq in *. unfold before, rend in *.
        rewrite !andb_true_iff in *. rewrite !andb_false_iff in Ha. rewrite ?Nat.eqb_eq, ?Nat.eqb_neq, ?Z.leb_le, ?Z.leb_gt in *. lia. }
      exists C. split; [simpl in *; congruence|]. split; [intros x []|auto].
  - exists (p :: A), C. split; [simpl; f_equal; auto|]. split; [|auto]. intros x [<-|Hx]; auto.
Qed.

Lemma sorted_last {A} (R : A -> A -> Prop) x : forall l y, StronglySorted R (l ++ [x]) -> In y l -> R y x.
Proof.
  induction l as [|z l IH]; intros y S Hy; [destruct Hy|]. simpl in S. inversion S as [|? ? S1 S2]; subst.
  destruct Hy as [<-|Hy]; [|auto]. rewrite Forall_forall in S2. apply S2. apply in_or_app. right. left. auto.
Qed.

Lemma listed_before vs ps : listed L vs ps -> (forall k, exists P, pieces (of_sup k ps) P) ->
  StronglySorted before ps /\ forall p, In p ps -> 0 < dim (snd p).
Proof.
  intros [_ S] H. split.
  - assert (K : forall k, StronglySorted (fun a b => rend a <= start b) (of_sup k ps)).
    { intros k. destruct (H k) as [P (_ & X & _)]. auto. }
    clear H. induction S as [|p ps S IH F]; [constructor|]. constructor.
    + apply IH. intros k. specialize (K k). unfold of_sup in *. simpl in K. destruct (Nat.eqb (fst p) k); [inversion K; auto|auto].
    + rewrite Forall_forall in *. intros b Hb. assert (F1 := F b Hb). destruct (Nat.eq_dec (fst p) (fst b)) as [E|N]; [|left; lia].
      right. split; [auto|]. specialize (K (fst p)). unfold of_sup in K. simpl in K. rewrite Nat.eqb_refl in K. simpl in K.
      inversion K as [|? ? _ K2]; subst. rewrite Forall_forall in K2. apply K2. change (In (snd b) (of_sup (fst p) ps)).
      apply of_sup_In. rewrite E. destruct b; auto.
  - intros [k q] Hp. destruct (H k) as [P (X & _ & _)]. rewrite Forall_forall in X. apply X. apply of_sup_In. auto.
Qed.

Lemma inq_spec k q p : 0 < dim (snd p) -> inq k q p = true <-> fst p = k /\ forall x, In_range (snd p) x -> In_range q x.
Proof.
  intros D. unfold inq. split.
  - intros H. apply andb_prop in H as [H H1]. apply andb_prop in H as [H H2]. apply Nat.eqb_eq in H. split; [auto|].
    intros x. unfold In_range, rend in *. lia.
  - intros [-> H]. rewrite Nat.eqb_refl. assert (H1 := H (start (snd p))). assert (H2 := H (rend (snd p) - 1)).
    unfold In_range, rend in *. lia.
Qed.

Lemma cuts_atoms vs ps v q : listed L vs ps -> (forall k, exists P, pieces (of_sup k ps) P) ->
  made_of L v q -> compatible ps (c_sup v) q ->
  exists B rs, cuts base vs v B /\ (forall w, In w B -> In w vs) /\
    Forall2 (fun w r => c_sup w = c_sup v /\ made_of L w r) B rs /\ pieces rs (In_range q).
Proof.
  intros HL HP M (D & Cov & Ref). destruct (listed_before _ _ HL HP) as [Hb Hd]. destruct HL as [F _].
  destruct (consecutive (c_sup v) q ps Hb Hd) as (A & C & E & HA & HC).
  set (Q := filter (inq (c_sup v) q) ps) in *.
  assert (HQ : forall p, In p Q -> In p ps /\ fst p = c_sup v /\ forall x, In_range (snd p) x -> In_range q x).
  { intros p Hp. apply filter_In in Hp as [Hp Hi]. apply inq_spec in Hi; [tauto|auto]. }
  assert (Cov2 : forall x, In_range q x -> exists p, In (c_sup v, p) Q /\ In_range p x).
  { intros x Hx. destruct (Cov x Hx) as (p & Hp & Hi). exists p. split; [|auto]. apply filter_In. split; [auto|].
    apply inq_spec; [exact (Hd _ Hp)|]. split; [auto|]. simpl. destruct (Ref p Hp) as [|K]; [auto|]. exfalso. eapply K; eauto. }
  rewrite E in F. apply Forall2_split in F as (va & y & -> & Fa & F). apply Forall2_split in F as (vb & vcc & -> & Fb & Fc).
  exists vb, (map snd Q).
  assert (DQ : forall p, In p Q -> 0 < dim (snd p)) by (intros p Hp; apply HQ in Hp; apply Hd; tauto).
  assert (SQ : StronglySorted before Q).
  { rewrite E in Hb. clear - Hb. induction A as [|a A IH]; simpl in Hb; [|inversion Hb; auto].
    induction Q as [|z Q IH]; [constructor|]. simpl in Hb. inversion Hb as [|? ? H1 H2]; subst. constructor; [auto|].
    rewrite Forall_forall in *. intros; apply H2. apply in_or_app; auto. }
  assert (PQ : pieces (map snd Q) (In_range q)).
  { split; [|split].
    - rewrite Forall_forall. intros r Hr. apply in_map_iff in Hr as (p & <- & Hp). auto.
    - assert (KQ : forall p, In p Q -> fst p = c_sup v) by (intros p Hp; apply HQ in Hp; tauto).
      clear - SQ KQ. induction SQ as [|p Q S IH HF]; simpl; constructor; [apply IH; intros; apply KQ; right; auto|].
      rewrite Forall_forall in *. intros r Hr. apply in_map_iff in Hr as (z & <- & Hz). assert (Hz' := HF z Hz).
      assert (fst p = c_sup v) by (apply KQ; left; auto). assert (fst z = c_sup v) by (apply KQ; right; auto).
      unfold before in Hz'. lia.
    - intros x. split.
      + intros Hx. destruct (Cov2 x Hx) as (p & Hp & Hi). exists p. split; [apply in_map_iff; exists (c_sup v, p); auto|auto].
      + intros (r & Hr & Hi). apply in_map_iff in Hr as (p & <- & Hp). apply HQ in Hp. apply Hp. auto. }
  assert (FB : Forall2 (fun w r => c_sup w = c_sup v /\ made_of L w r) vb (map snd Q)).
  { assert (KQ : forall p, In p Q -> fst p = c_sup v) by (intros p Hp; apply HQ in Hp; tauto).
    clear - Fb KQ. induction Fb as [|w p vb Q [H1 H2] F IH]; simpl; constructor.
    - split; [rewrite H1; apply KQ; left; auto|auto].
    - apply IH. intros; apply KQ; right; auto. }
  split; [|split; [intros w Hw; apply in_or_app; right; apply in_or_app; auto|auto]].
  assert (Cont : forall w, forall l Q0, Forall2 (fun v p => c_sup v = fst p /\ made_of L v (snd p)) l Q0 -> In w l ->
     exists p, In p Q0 /\ c_sup w = fst p /\ made_of L w (snd p)).
  { clear. intros w l Q0 F. induction F as [|a b l Q0 H F IH]; intros Hw; [destruct Hw|].
    destruct Hw as [<-|Hw]; [exists b; simpl; tauto|]. destruct (IH Hw) as (p & Hp & X). exists p. simpl. tauto. }
  assert (NC : forall w l Q0, Forall2 (fun v p => c_sup v = fst p /\ made_of L v (snd p)) l Q0 -> In w l ->
     (forall p, In p Q0 -> In p ps) -> (forall p, In p Q0 -> inq (c_sup v) q p = false) -> cv_contains base v w = false).
  { intros w l Q0 F0 Hw Hin Hnot. destruct (Cont w l Q0 F0 Hw) as (p & Hp & Ec & Mw).
    destruct (cv_contains base v w) eqn:Ew; [exfalso|auto].
    apply (contains_atoms v q w (snd p) M Mw (Hd p (Hin p Hp))) in Ew. specialize (Hnot p Hp). unfold inq in Hnot.
    destruct Ew as (E1 & E2 & E3). rewrite <- Ec, E1, Nat.eqb_refl in Hnot. lia. }
  assert (Hne : Q <> []).
  { intros EQ. destruct (Cov2 (start q)) as (p & Hp & _); [unfold In_range; lia|]. rewrite EQ in Hp. destruct Hp. }
  destruct (exists_last Hne) as (Q' & [kl rl] & EQ).
  assert (Fb' := Fb). rewrite EQ in Fb' at 1. apply Forall2_split in Fb' as (vb' & y & -> & Fb1 & Fb2).
  inversion Fb2 as [|w ? y' ? [Hw1 Hw2] Fy]; subst y. inversion Fy; subst y'. clear Fb2 Fy.
  exists va, vcc, w. split; [auto|]. split; [destruct vb'; discriminate|].
  assert (InQ : In (kl, rl) Q) by (rewrite EQ; apply in_or_app; right; left; auto).
  split; [|split; [|split; [|split]]].
  - intros x Hx. destruct (Cont x _ _ Fb Hx) as (p & Hp & Ec & Mx). apply (contains_atoms v q x (snd p) M Mx (DQ p Hp)).
    assert (Hp' := Hp). apply filter_In in Hp' as [_ Hi]. unfold inq in Hi. apply andb_prop in Hi as [Hi Hi3].
    apply andb_prop in Hi as [Hi1 Hi2]. apply Nat.eqb_eq in Hi1. split; [congruence|]. lia.
  - intros x Hx. apply (NC x va A Fa Hx); [|auto]. intros p Hp. rewrite E. apply in_or_app; auto.
  - intros x Hx. apply (NC x vcc C Fc Hx); [|auto]. intros p Hp. rewrite E. apply in_or_app; right; apply in_or_app; auto.
  - apply last_last.
  - rewrite (subRange_fr w rl Hw2), (subRange_fr v q M), !rend_fr. simpl in Hw1.
    assert (Hkl : kl = c_sup v) by (apply HQ in InQ; simpl in InQ; tauto). rewrite Hw1, Hkl. f_equal.
    (* the last part ends where q does *)
    destruct (Cov2 (rend q - 1)) as (p & Hp & Hi); [unfold In_range, rend; lia|].
    assert (Hin : forall x, In_range rl x -> In_range q x) by (apply HQ in InQ; apply InQ).
    assert (Drl := DQ _ InQ). simpl in Drl. assert (X := Hin (rend rl - 1)). 
    assert (Y : rend p <= rend rl).
    { rewrite EQ in Hp. apply in_app_or in Hp as [Hp|[Hp|[]]].
      - rewrite EQ in SQ. assert (Hbe : before (c_sup v, p) (kl, rl)).
        { eapply sorted_last; eauto. }
        unfold before in Hbe. simpl in Hbe. clear - Hbe Hkl Drl. unfold rend in *. lia.
      - injection Hp as _ ->. apply Z.le_refl. }
    unfold In_range, rend in *. lia.
Qed.

Lemma c12_traversal vs ps cs qs : listed L vs ps -> (forall k, exists P, pieces (of_sup k ps) P) ->
  cs <> [] -> Forall2 (fun v q => made_of L v q /\ compatible ps (c_sup v) q) cs qs ->
  exists segs, iterate base cs vs = Ok (concat segs) /\
    (forall w, In w (concat segs) -> In w vs) /\
    length segs = length cs /\
    forall i v q seg, nth_error cs i = Some v -> nth_error qs i = Some q -> nth_error segs i = Some seg -> parted L v q seg.
Proof.
  intros HL HP Hne F.
  assert (K : exists segs, Forall2 (cuts base vs) cs segs /\ (forall w, In w (concat segs) -> In w vs) /\
    length segs = length cs /\
    forall i v q seg, nth_error cs i = Some v -> nth_error qs i = Some q -> nth_error segs i = Some seg -> parted L v q seg).
  { clear Hne. induction F as [|v q cs qs [M C] F IH].
    - exists []. split; [constructor|]. split; [intros w []|]. split; [auto|]. intros [|i] v q seg H; discriminate.
    - destruct IH as (segs & H1 & H2 & H3 & H4).
      destruct (cuts_atoms vs ps v q HL HP M C) as (B & rs & C1 & C2 & C3 & C4).
      exists (B :: segs). split; [constructor; auto|]. split.
      { intros w Hw. simpl in Hw. apply in_app_or in Hw as [Hw|Hw]; auto. }
      split; [simpl; auto|]. intros [|i] v' q' seg E1 E2 E3; simpl in *; [|eauto].
      inversion E1; inversion E2; inversion E3; subst. exists rs. auto. }
  destruct K as (segs & H1 & H2 & H3 & H4). exists segs. split; [apply iterate_ok; auto|]. auto.
Qed.

Lemma aspec_adds : forall ah c, (forall a, In a ah -> exists k q, a = AAdd k q) -> (forall k x, 0 <= c k x) ->
  (forall k x, c k x <= aspec_from c ah k x) /\
  forall k q x, In (AAdd k q) ah -> In_range q x -> 0 < aspec_from c ah k x.
Proof.
  induction ah as [|a ah IH]; intros c H P; cbn [aspec_from]; [split; [intros; lia|intros k q x []]|].
  destruct (H a (or_introl eq_refl)) as (k0 & q0 & ->). cbn [aspec_step].
  assert (X : forall k x, c k x <= upd c k0 (fun x => c k0 x + ind q0 x) k x).
  { intros k x. unfold upd. destruct (Nat.eqb_spec k k0); [subst|lia]. assert (I := RangeCountingProofs2.ind_nonneg q0 x). lia. }
  destruct (IH (upd c k0 (fun x => c k0 x + ind q0 x))) as [I1 I2].
  { intros; apply H; right; auto. } { intros k x. specialize (X k x). specialize (P k x). lia. }
  split; [intros k x; specialize (X k x); specialize (I1 k x); lia|].
  intros k q x [E|E] Hx; [|eapply I2; eauto]. inversion E; subst. specialize (I1 k x). rewrite upd_same in I1.
  rewrite RangeCountingProofs2.ind_1 in I1 by auto. specialize (P k x). lia.
Qed.

Lemma c12_adds h ah cs qs : Forall2 (denotes L) h ah -> (forall o, In o h -> exists v, o = CAdd v) ->
  cs <> [] -> Forall2 (fun v q => made_of L v q /\ 0 < dim q /\ In (AAdd (c_sup v) q) ah) cs qs ->
  exists s outs s' vs segs, vcrun spOf base (vc_init true) h = Ok (s, outs) /\
    variables spOf base s = Ok (s', vs) /\ iterate base cs vs = Ok (concat segs) /\
    (forall w, In w (concat segs) -> In w vs) /\ length segs = length cs /\
    forall i v q seg, nth_error cs i = Some v -> nth_error qs i = Some q -> nth_error segs i = Some seg -> parted L v q seg.
Proof.
  intros F N Hne Fc.
  destruct (c11_split_refines L spOf base G h ah F N) as (s & outs & s' & vs & ps & E & Ev & HL & HP & Ref).
  assert (Na : forall a, In a ah -> exists k q, a = AAdd k q).
  { clear - F N. induction F as [|o a h ah D F IH]; intros x Hx; [destruct Hx|].
    destruct Hx as [<-|Hx]; [|apply IH; [intros; apply N; right; auto|auto]].
    destruct (N o (or_introl eq_refl)) as [v ->]. destruct a; try contradiction. eauto. }
  destruct (c12_traversal vs ps cs qs HL) as (segs & H1 & H2 & H3 & H4); auto.
  - intros k. eexists. apply HP.
  - clear - Fc HP Ref Na. induction Fc as [|v q cs qs (M & D & I) F IH]; constructor; [|auto]. split; [auto|].
    split; [auto|]. split.
    + intros x Hx. assert (K : 0 < aspec ah (c_sup v) x) by (eapply (proj2 (aspec_adds ah (fun _ _ => 0) Na (fun _ _ => Z.le_refl 0))); eauto).
      apply (HP (c_sup v)) in K as (p & Hp & Hi). exists p. split; [apply of_sup_In; auto|auto].
    + intros p Hp. eapply Ref; eauto.
  - exists s, outs, s', vs, segs. split; [exact E|]. split; [exact Ev|]. split; [exact H1|]. split; [exact H2|]. split; [exact H3|exact H4].
Qed.
End Atoms.
