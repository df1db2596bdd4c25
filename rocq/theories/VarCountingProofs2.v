(* The counters of VariableCountingVector follow the multiplicities of the atoms. *)
Require Import ZArith List Bool Sorting Lia Arith.
Require Import Verif.Base Verif.RangeModel Verif.RangeCountingModel Verif.RangeCountingSpec.
Require Import Verif.RangeCountingProofs Verif.RangeCountingProofs2 Verif.RangeCountingProofs3.
Require Import Verif.RangeCountingProofs4 Verif.RangeCountingProofs5.
Require Import Verif.SpaceModel Verif.VarCountingModel Verif.VarCountingSpec Verif.VarCountingProofs.
Import ListNotations.
Local Open Scope Z_scope.
Local Arguments Z.add : simpl never.
Local Arguments Z.sub : simpl never.
Local Arguments Z.opp : simpl never.
Local Arguments Z.leb : simpl never.
Local Arguments Z.ltb : simpl never.
Local Arguments Z.eqb : simpl never.
Local Arguments Z.of_nat : simpl never.

Lemma step_le (f : Z -> Z) : (forall a, f a <= f (a + 1)) -> forall a b, a <= b -> f a <= f b.
Proof.
  intros H a b Hab. replace b with (a + Z.of_nat (Z.to_nat (b - a))) by lia.
  induction (Z.to_nat (b - a)) as [|n IH]; [replace (a + Z.of_nat 0) with a by lia; lia|].
  replace (a + Z.of_nat (S n)) with (a + Z.of_nat n + 1) by lia. specialize (H (a + Z.of_nat n)). lia.
Qed.
Lemma step_lt (f : Z -> Z) : (forall a, f a < f (a + 1)) -> forall a b, a < b -> f a < f b.
Proof.
  intros H a b Hab. specialize (H a) as H1. assert (f (a + 1) <= f b); [|lia].
  apply step_le; [|lia]. intros x. specialize (H x). lia.
Qed.

(* ---------- maps ---------- *)
Definition keyed (l : list entry) : Prop := StronglySorted (fun a b : entry => (fst a < fst b)%nat) l.

Lemma lookup_store_same k v : forall l, lookup k (store k v l) = Some v.
Proof.
  induction l as [|[j w] l IH]; simpl; [rewrite Nat.eqb_refl; auto|].
  destruct (Nat.eqb_spec j k); simpl; [rewrite Nat.eqb_refl; auto|].
  destruct (Nat.ltb_spec k j); simpl; [rewrite Nat.eqb_refl; auto|].
  destruct (Nat.eqb_spec j k); [contradiction|auto].
Qed.
Lemma lookup_store_other k j v : j <> k -> forall l, lookup j (store k v l) = lookup j l.
Proof.
  intros Hn. induction l as [|[i w] l IH]; simpl.
  - destruct (Nat.eqb_spec k j); [congruence|auto].
  - destruct (Nat.eqb_spec i k); simpl.
    + subst. destruct (Nat.eqb_spec k j); [congruence|auto].
    + destruct (Nat.ltb_spec k i); simpl.
      * destruct (Nat.eqb_spec k j); [congruence|auto].
      * rewrite IH. auto.
Qed.
Lemma store_in k v : forall l e, In e (store k v l) -> fst e = k \/ In e l.
Proof.
  induction l as [|[i w] l IH]; simpl; intros e; [intros [<-|[]]; auto|].
  destruct (Nat.eqb_spec i k); simpl; [intros [<-|He]; auto|].
  destruct (Nat.ltb_spec k i); simpl; [intros [<-|He]; auto|].
  intros [<-|He]; [auto|]. apply IH in He as [?|?]; auto.
Qed.
Lemma store_keyed k v : forall l, keyed l -> keyed (store k v l).
Proof.
  induction l as [|[i w] l IH]; intros K; simpl; [constructor; [constructor|constructor]|].
  inversion K as [|? ? K1 K2]; subst. destruct (Nat.eqb_spec i k); [subst; constructor; auto|].
  destruct (Nat.ltb_spec k i).
  - constructor; [auto|]. rewrite Forall_forall in *. intros e [<-|He]; simpl; [auto|].
    apply K2 in He. simpl in He. lia.
  - constructor; [apply IH; auto|]. rewrite Forall_forall in *. intros e He. apply store_in in He as [He|He].
    + simpl. lia.
    + apply K2; auto.
Qed.
Lemma lookup_none_head k v l : keyed ((k, v) :: l) -> lookup k l = None.
Proof.
  intros K. inversion K as [|? ? K1 K2]; subst. clear K K1. induction l as [|[i w] l IH]; simpl; [auto|].
  inversion K2; subst. simpl in *. destruct (Nat.eqb_spec i k); [lia|auto].
Qed.

Section Atoms.
Variables (L : layout) (spOf : nat -> space) (base : nat -> bool).
Hypothesis G : good L spOf.

Lemma om_mono k a b : a < b -> om L k a < om L k b.
Proof. destruct (G k) as (_ & _ & _ & _ & _ & _ & _ & H & _). apply step_lt; auto. Qed.
Lemma om_or k a b : a <= b -> om L k b - om L k a <= or_ L k b - or_ L k a.
Proof.
  intros H. destruct (G k) as (_ & _ & _ & _ & _ & _ & _ & _ & H1 & _).
  assert (or_ L k a - om L k a <= or_ L k b - om L k b); [|lia].
  apply (step_le (fun a => or_ L k a - om L k a)); [|auto]. intros x. specialize (H1 x). lia.
Qed.
Lemma om_ot k a b : a <= b -> om L k b - om L k a <= ot L k b - ot L k a.
Proof.
  intros H. destruct (G k) as (_ & _ & _ & _ & _ & _ & _ & _ & _ & H1).
  assert (ot L k a - om L k a <= ot L k b - om L k b); [|lia].
  apply (step_le (fun a => ot L k a - om L k a)); [|auto]. intros x. specialize (H1 x). lia.
Qed.
Lemma or_mono k a b : a < b -> or_ L k a < or_ L k b.
Proof. intros H. assert (a <= b) by lia. apply (om_or k) in H0. apply (om_mono k) in H. lia. Qed.
Lemma ot_mono k a b : a < b -> ot L k a < ot L k b.
Proof. intros H. assert (a <= b) by lia. apply (om_ot k) in H0. apply (om_mono k) in H. lia. Qed.

Definition img (k : nat) (a : rc) : src := mkSrc (frc (om L k) a) (frc (or_ L k) a) (frc (ot L k) a).

Lemma made_ranges v q : made_of L v q ->
  mRng (c_shift v) (c_space v) = fr (om L (c_sup v)) q /\
  rRng (c_shift v) (c_space v) = fr (or_ L (c_sup v)) q /\
  tRng (c_shift v) (c_space v) = fr (ot L (c_sup v)) q.
Proof.
  intros (_ & _ & _ & H1 & H2 & H3 & H4 & H5 & H6). unfold mRng, rRng, tRng, fr.
  rewrite H1, H2, H3, H4, H5, H6. auto.
Qed.

Definition same_lim (x y : res (rc * bool)) : Prop :=
  match x, y with
  | Ok (a, p), Ok (b, q) => limits a = limits b /\ p = q
  | Throw, Throw | UB, UB => True
  | _, _ => False
  end.
Lemma add_lim a b q : limits a = limits b -> same_lim (add a q) (add b q).
Proof.
  intros E. unfold add. destruct (dim q =? 0); [simpl; auto|]. rewrite <- E. destruct (limits a) as [|x l]; [simpl; auto|].
  destruct (move _ _ _ _) as [[[[h pre] post] d]| |]; cbn [bind]; [|simpl; auto|simpl; auto].
  destruct post as [|y post]; [simpl; auto|].
  destruct (insertLower _ _ _ _) as [[[pre1 post1] d1]| |]; cbn [bind]; [|simpl; auto|simpl; auto].
  destruct (move _ _ _ _) as [[[[h2 m2] p2] d2]| |]; cbn [bind]; [|simpl; auto|simpl; auto].
  destruct (insertUpper _ _ _) as [[p3 d3]| |]; simpl; auto.
Qed.
Lemma remove_lim a b q : limits a = limits b -> same_lim (remove a q) (remove b q).
Proof.
  intros E. unfold remove. destruct (dim q =? 0); [simpl; auto|]. rewrite <- E. destruct (limits a) as [|x l]; [simpl; auto|].
  destruct (_ || _); [simpl; auto|].
  destruct (move _ _ _ _) as [[[[h pre] post] d]| |]; cbn [bind]; [|simpl; auto|simpl; auto].
  destruct (d =? 0); [simpl; auto|].
  destruct (move _ _ _ _) as [[[[h2 m2] p2] d2]| |]; cbn [bind]; [|simpl; auto|simpl; auto].
  destruct (insertUpper _ _ _) as [[p3 d3]| |]; cbn [bind]; [|simpl; auto|simpl; auto].
  destruct (insertLower _ _ _ _) as [[[pre1 post1] d1]| |]; simpl; auto.
Qed.

(* The counters of an entry: images of atom counters with the same limits (a rejected
   remove may have invalidated the cache of one of the three). *)
Definition ent (k : nat) (s : src) (c : Z -> Z) : Prop :=
  exists a b d, s = mkSrc (frc (om L k) a) (frc (or_ L k) b) (frc (ot L k) d) /\
    inv a /\ inv b /\ inv d /\ limits b = limits a /\ limits d = limits a /\
    (forall x, cnt (limits a) x = c x).

Lemma ent_init k : ent k src_init (fun _ => 0).
Proof.
  exists rc_init, rc_init, rc_init. split; [reflexivity|].
  split; [apply inv_init|]. split; [apply inv_init|]. split; [apply inv_init|]. auto.
Qed.

Lemma src_add_ent v q s c : ent (c_sup v) s c -> made_of L v q ->
  exists s' ch, src_add s (c_shift v) (c_space v) = Ok (s', ch) /\
    ent (c_sup v) s' (fun x => c x + ind q x) /\
    (ch = true <-> exists x, In_range q x /\ c x = 0).
Proof.
  intros (a & b & d & -> & Ia & Ib & Id & Eb & Ed & Hc) M.
  destruct (made_ranges v q M) as (E1 & E2 & E3). unfold src_add; cbn [mC rC tC].
  rewrite E1, E2, E3, !add_fl by auto using om_mono, or_mono, ot_mono.
  assert (Hq : 0 <= dim q) by apply M.
  destruct (add_inv a q Ia Hq) as (a' & ch & Ea & Ia' & Ca & Hch).
  destruct (add_inv b q Ib Hq) as (b' & chb & Eab & Ib' & _).
  destruct (add_inv d q Id Hq) as (d' & chd & Ead & Id' & _).
  generalize (add_lim b a q Eb) (add_lim d a q Ed). rewrite Ea, Eab, Ead. cbn [rmap bind same_lim].
  intros [Lb _] [Ld _]. eexists _, ch. split; [reflexivity|]. split.
  - exists a', b', d'. repeat (split; [auto; reflexivity|]). intros x. rewrite Ca, Hc. auto.
  - rewrite Hch. split; intros (x & Hx & H); exists x; rewrite Hc in *; auto.
Qed.

Lemma src_remove_ent v q s c : ent (c_sup v) s c -> made_of L v q ->
  exists s' o, src_remove s (c_shift v) (c_space v) = Ok (s', o) /\
    if effective c q
    then exists ch, o = Some ch /\ ent (c_sup v) s' (fun x => c x - ind q x) /\
         (ch = true <-> exists x, In_range q x /\ c x = 1)
    else o = None /\ ent (c_sup v) s' c.
Proof.
  intros (a & b & d & -> & Ia & Ib & Id & Eb & Ed & Hc) M.
  destruct (made_ranges v q M) as (E1 & E2 & E3). unfold src_remove; cbn [mC rC tC].
  rewrite E1, E2, E3, !remove_fl by auto using om_mono, or_mono, ot_mono.
  assert (Hq : 0 <= dim q) by apply M.
  rewrite <- (effective_ext _ _ q Hc). destruct (effective (cnt (limits a)) q) eqn:Ef.
  - destruct (remove_inv a q Ia Hq Ef) as (a' & ch & Ea & Ia' & Ca & Hch).
    assert (Efb : effective (cnt (limits b)) q = true) by (rewrite Eb; auto).
    assert (Efd : effective (cnt (limits d)) q = true) by (rewrite Ed; auto).
    destruct (remove_inv b q Ib Hq Efb) as (b' & chb & Eab & Ib' & _).
    destruct (remove_inv d q Id Hq Efd) as (d' & chd & Ead & Id' & _).
    generalize (remove_lim b a q Eb) (remove_lim d a q Ed). rewrite Ea, Eab, Ead. cbn [rmap same_lim].
    intros [Lb _] [Ld _]. eexists _, (Some ch). split; [reflexivity|]. exists ch. split; [auto|]. split.
    + exists a', b', d'. repeat (split; [auto; reflexivity|]). intros x. rewrite Ca, Hc. auto.
    + rewrite Hch. split; intros (x & Hx & H); exists x; rewrite Hc in *; auto.
  - assert (Efb : effective (cnt (limits b)) q = false) by (rewrite Eb; auto).
    rewrite (proj1 (remove_ok b q (proj1 Ib) Hq) Efb). cbn [rmap].
    eexists _, None. split; [reflexivity|]. split; [auto|]. destruct (removeFail_inv b q Ib) as [Ib' Lb'].
    exists a, (removeFail b q), d. rewrite removeFail_fl by auto using or_mono.
    repeat (split; [auto; congruence|]). auto.
Qed.

Lemma ent_empty k s c : ent k s c -> src_empty s = true -> forall x, c x = 0.
Proof.
  intros (a & b & d & -> & _ & _ & _ & _ & _ & Hc) H x. unfold src_empty in H. cbn [mC frc limits] in H.
  rewrite <- Hc. destruct (limits a); [auto|discriminate].
Qed.

Lemma ent_max k s c : ent k s c -> (src_max s <= 1 <-> forall x, c x <= 1).
Proof.
  intros (a & b & d & -> & Ia & _ & _ & _ & _ & Hc). unfold src_max. cbn [mC]. rewrite maxCount_fl.
  destruct (maxCount_ok a (proj1 Ia)) as [H1 H2]. split.
  - intros H x. specialize (H1 x). rewrite Hc in H1. lia.
  - intros H. destruct H2 as (x & H2). rewrite <- H2, Hc. auto.
Qed.
End Atoms.
