(* What update() computes, and the invariant over histories. *)
Require Import ZArith List Bool Sorting Lia Arith.
Require Import Verif.Base Verif.RangeModel Verif.RangeCountingModel Verif.RangeCountingSpec.
Require Import Verif.RangeCountingProofs Verif.RangeCountingProofs2 Verif.RangeCountingProofs3.
Require Import Verif.RangeCountingProofs4 Verif.RangeCountingProofs5 Verif.RangeCountingProofs6.
Require Import Verif.SpaceModel Verif.VarCountingModel Verif.VarCountingSpec Verif.VarCountingProofs.
Require Import Verif.VarCountingProofs2.
Import ListNotations.
Local Open Scope Z_scope.
Local Arguments Z.add : simpl never.
Local Arguments Z.sub : simpl never.
Local Arguments Z.opp : simpl never.
Local Arguments Z.leb : simpl never.
Local Arguments Z.ltb : simpl never.
Local Arguments Z.eqb : simpl never.
Local Arguments Z.of_nat : simpl never.

Definition constant (c : Z -> Z) (l : list Range) : Prop :=
  forall r, In r l -> forall x y, In_range r x -> In_range r y -> c x = c y.
(* What [ranges] of an atom counter gives. *)
Definition outcome (split : bool) (l : list Range) (c : Z -> Z) : Prop :=
  pieces l (fun x => 0 < c x) /\ (split = false -> canonical l (fun x => 0 < c x)) /\
  (split = true -> constant c l).

Lemma canonical_pieces l P : canonical l P -> pieces l P.
Proof.
  intros (A & B & C). split; [auto|]. split; [|auto]. clear - B. induction B as [|r l B IH H]; constructor; auto.
  rewrite Forall_forall in *. intros q Hq. apply H in Hq. lia.
Qed.
Lemma pieces_ext l P Q : (forall x, P x <-> Q x) -> pieces l P -> pieces l Q.
Proof.
  intros H (A & B & C). split; [auto|]. split; [auto|]. intros x. rewrite <- H. auto.
Qed.

Lemma ranges_outcome a split c : inv a -> (forall x, cnt (limits a) x = c x) ->
  exists a' l, ranges a split = Ok (a', l) /\ inv a' /\ limits a' = limits a /\ outcome split l c.
Proof.
  intros I Hc. destruct split.
  - destruct (ranges_true_ok a (proj1 I) (proj2 I)) as (a' & l & E & El & F & P & K).
    exists a', l. split; [auto|]. split; [split; [rewrite El; apply I|auto]|]. split; [auto|].
    split; [|split; [discriminate|]].
    + eapply pieces_ext; [|exact P]. intros x. simpl. rewrite Hc. tauto.
    + intros _ r Hr x y Hx Hy. rewrite <- !Hc. eapply K; eauto.
  - destruct (ranges_false_ok a (proj1 I) (proj2 I)) as (a' & l & E & El & F & P).
    exists a', l. split; [auto|]. split; [split; [rewrite El; apply I|auto]|]. split; [auto|].
    assert (C : canonical l (fun x => 0 < c x)).
    { eapply canonical_ext; [|exact P]. intros x. simpl. rewrite Hc. tauto. }
    split; [apply canonical_pieces; auto|]. split; [auto|discriminate].
Qed.

Section Atoms.
Variables (L : layout) (spOf : nat -> space) (base : nat -> bool).
Hypothesis G : good L spOf.

Let om_mono := om_mono L spOf G.
Let or_mono := or_mono L spOf G.
Let ot_mono := ot_mono L spOf G.

Definition within (k : nat) (l : list Range) : Prop :=
  Forall (fun q => 0 <= start q /\ 0 < dim q /\ rend q <= natoms L k) l.

Lemma mono_le (f : Z -> Z) (H : forall a b, a < b -> f a < f b) a b : a <= b -> f a <= f b.
Proof. intros K. destruct (Z.eq_dec a b) as [->|]; [lia|]. assert (a < b) by lia. apply H in H0. lia. Qed.

Lemma subLoop_ok k : forall l, within k l ->
  exists vs, subLoop spOf k (map (fr (om L k)) l) (map (fr (or_ L k)) l) (map (fr (ot L k)) l) = Ok vs /\
    Forall2 (fun v q => c_sup v = k /\ made_of L v q) vs l.
Proof.
  induction l as [|q l IH]; intros W; cbn [map subLoop]; [exists []; split; [auto|constructor]|].
  inversion W as [|? ? (W1 & W2 & W3) W4]; subst. destruct (IH W4) as (vs & E & F).
  unfold rend in W3. cbn [fr start dim]. unfold rend.
  generalize (G k); intros (G1 & G2 & G3 & G4 & G5 & G6 & G7 & _).
  set (a := start q) in *. set (b := a + dim q) in *.
  assert (Hab : a < b) by lia.
  assert (M1 := om_mono k a b Hab). assert (M2 : om L k 0 <= om L k a) by (apply mono_le; auto).
  assert (M3 : om L k b <= om L k (natoms L k)) by (apply mono_le; auto).
  assert (M4 : or_ L k b <= or_ L k (natoms L k)) by (apply mono_le; auto).
  assert (M5 : ot L k b <= ot L k (natoms L k)) by (apply mono_le; auto).
  assert (M6 := om_or L spOf G k a b ltac:(lia)). assert (M7 := om_ot L spOf G k a b ltac:(lia)).
  assert (M8 := om_or L spOf G k 0 a ltac:(lia)). assert (M9 := om_ot L spOf G k 0 a ltac:(lia)).
  unfold space3 at 1.
  assert (T1 : (0 <=? om L k b - om L k a) && (om L k b - om L k a <=? or_ L k b - or_ L k a)
     && (om L k b - om L k a <=? ot L k b - ot L k a) = true) by lia. rewrite T1. cbn [bind].
  unfold space3 at 1.
  assert (T2 : (0 <=? om L k a) && (om L k a <=? or_ L k a) && (om L k a <=? ot L k a) = true) by lia.
  rewrite T2. cbn [bind]. unfold subv, space_mul, space3. cbn [mSize rSize tSize].
  assert (T3 : (0 <=? om L k b - om L k a + om L k a) && (om L k b - om L k a + om L k a <=? or_ L k b - or_ L k a + or_ L k a)
     && (om L k b - om L k a + om L k a <=? ot L k b - ot L k a + ot L k a) = true) by lia. rewrite T3. cbn [bind].
  unfold space_le. cbn [mSize rSize tSize].
  assert (T4 : (om L k b - om L k a + om L k a <=? mSize (spOf k)) && (or_ L k b - or_ L k a + or_ L k a <=? rSize (spOf k))
     && (ot L k b - ot L k a + ot L k a <=? tSize (spOf k)) = true) by lia. rewrite T4. cbn [bind].
  rewrite E. cbn [bind]. eexists. split; [reflexivity|]. constructor; [|auto].
  split; [reflexivity|]. unfold made_of. cbn [c_sup c_shift c_space mSize rSize tSize]. unfold rend.
  fold a b. lia.
Qed.

Lemma whole (f : Z -> Z) (H : forall a b, a < b -> f a < f b) n a b : f 0 = 0 -> 0 <= a -> a < b -> b <= n ->
  f b - f a = f n -> a = 0 /\ b = n.
Proof.
  intros F0 Ha Hab Hb E.
  destruct (Z.eq_dec a 0) as [->|Na]; [|assert (f 0 < f a) by (apply H; lia); assert (f b <= f n) by (apply mono_le; auto); lia].
  destruct (Z.eq_dec b n) as [->|Nb]; [auto|]. assert (f b < f n) by (apply H; lia). lia.
Qed.

Definition unmarked (k : nat) (s : src) (l : list Range) : Prop :=
  forall r, In r l -> forall i, posn (limits (mC s)) (om L k i) -> ~ (start r < i < rend r).

Lemma posn_fl k l i : posn (map (fl (om L k)) l) (om L k i) <-> posn l i.
Proof.
  unfold posn. rewrite map_map. rewrite !in_map_iff. split; intros (y & E & H); exists y; (split; [|auto]).
  - unfold fl in E. simpl in E. exact (proj1 (phi_inj (om L k) (om_mono k) _ _) E).
  - unfold fl. simpl. congruence.
Qed.

Lemma entryVars_ok k s c split : ent L k s c -> (forall x, 0 < c x -> 0 <= x < natoms L k) ->
  exists s' vs l, entryVars spOf base k s split = Ok (s', vs) /\ ent L k s' c /\
    Forall2 (fun v q => c_sup v = k /\ made_of L v q) vs l /\ outcome split l c /\
    (split = true -> unmarked k s l).
Proof.
  intros (a & b & d & -> & Ia & Ib & Id & Eb & Ed & Hc) B.
  destruct (ranges_outcome a split c Ia Hc) as (a' & l & E & Ia' & La & O).
  destruct (ranges_outcome b split c Ib ltac:(rewrite Eb; auto)) as (b' & lb & E2 & Ib' & Lb & _).
  destruct (ranges_outcome d split c Id ltac:(rewrite Ed; auto)) as (d' & ld & E3 & Id' & Ld & _).
  destruct (ranges_det a b split (proj2 Ia) (proj2 Ib) (eq_sym Eb) _ _ E) as (b2 & Eb2).
  destruct (ranges_det a d split (proj2 Ia) (proj2 Id) (eq_sym Ed) _ _ E) as (d2 & Ed2).
  rewrite E2 in Eb2. inversion Eb2; subst b2 lb. clear Eb2. rewrite E3 in Ed2. inversion Ed2; subst d2 ld. clear Ed2.
  assert (En : ent L k (mkSrc (frc (om L k) a') (frc (or_ L k) b') (frc (ot L k) d')) c).
  { exists a', b', d'. split; [auto|]. split; [auto|]. split; [auto|]. split; [auto|].
    split; [congruence|]. split; [congruence|]. rewrite La. auto. }
  assert (W : within k l).
  { destruct O as ((O1 & _ & O3) & _). unfold within. rewrite Forall_forall in *. intros q Hq.
    specialize (O1 q Hq). assert (H1 : 0 < c (start q)) by (apply O3; exists q; split; [auto|unfold In_range; lia]).
    assert (H2 : 0 < c (rend q - 1)) by (apply O3; exists q; split; [auto|unfold In_range, rend; lia]).
    apply B in H1. apply B in H2. unfold rend in *. lia. }
  assert (UM : split = true -> unmarked k (mkSrc (frc (om L k) a) (frc (or_ L k) b) (frc (ot L k) d)) l).
  { intros -> r Hr i Hi. cbn [mC frc limits] in Hi. apply posn_fl in Hi.
    eapply ranges_true_uncut; [apply Ia|apply Ia|exact E|auto|auto]. }
  unfold entryVars. cbn [mC rC tC]. rewrite !ranges_fl by auto. rewrite E, E2, E3. cbn [rmap bind].
  rewrite !map_length, !Nat.eqb_refl. cbn [andb negb].
  destruct (subLoop_ok k l W) as (vs & Ev & Fv).
  destruct l as [|q [|q2 l]]; cbn [map] in *.
  - eexists _, _, []. split; [reflexivity|]. split; [auto|]. split; [constructor|auto].
  - destruct (base k && (dim (fr (or_ L k) q) =? sizeOf spOf base k) || negb (base k) && (dim (fr (ot L k) q) =? sizeOf spOf base k)) eqn:T.
    + generalize (G k); intros (G1 & G2 & G3 & G4 & G5 & G6 & G7 & _).
      inversion W as [|? ? (W1 & W2 & W3) _]; subst.
      assert (K : start q = 0 /\ rend q = natoms L k).
      { unfold sizeOf in T. cbn [fr dim] in T. rewrite G6, G7 in T. destruct (base k); cbn [andb orb negb] in T.
        - rewrite orb_false_r in T. apply Z.eqb_eq in T.
          eapply (whole (or_ L k)); eauto. unfold rend. lia.
        - apply Z.eqb_eq in T. eapply (whole (ot L k)); eauto. unfold rend. lia. }
      destruct K as [K1 K2]. cbn [fr start]. rewrite K1, G2. cbn. eexists _, _, [q]. split; [reflexivity|].
      split; [auto|]. split; [|auto]. constructor; [|constructor]. split; [reflexivity|].
      unfold made_of. cbn [c_sup c_shift c_space mSize rSize tSize]. rewrite K1, K2. lia.
    + rewrite Ev. cbn [bind]. eexists _, _, [q]. split; [reflexivity|]. auto.
  - rewrite Ev. cbn [bind]. eexists _, _, (q :: q2 :: l). split; [reflexivity|]. auto.
Qed.

(* ---------- update ---------- *)
Definition number (k : nat) (l : list entry) : option Z := option_map snd (lookup k l).
Definition flag (l : list entry) (ps : list (nat * Range)) (p : nat * Range) : bool :=
  match number (fst p) l with Some n => n =? Z.of_nat (length (of_sup (fst p) ps)) | None => false end.

Lemma of_sup_app k a b : of_sup k (a ++ b) = of_sup k a ++ of_sup k b.
Proof. unfold of_sup. rewrite filter_app, map_app. auto. Qed.
Lemma of_sup_same k l : of_sup k (map (pair k) l) = l.
Proof. unfold of_sup. induction l as [|q l IH]; simpl; [auto|]. rewrite Nat.eqb_refl. simpl. rewrite IH. auto. Qed.
Lemma of_sup_other j k l : j <> k -> of_sup k (map (pair j) l) = [].
Proof. intros N. unfold of_sup. induction l as [|q l IH]; simpl; [auto|]. destruct (Nat.eqb_spec j k); [congruence|auto]. Qed.
Lemma of_sup_none k ps : (forall p, In p ps -> fst p <> k) -> of_sup k ps = [].
Proof.
  intros H. unfold of_sup. induction ps as [|p ps IH]; simpl; [auto|].
  destruct (Nat.eqb_spec (fst p) k); [exfalso; eapply H; [left; eauto|auto]|]. apply IH. intros q Hq. apply H. right. auto.
Qed.

Lemma updLoop_ok split c : forall l, keyed l ->
  (forall k s n, lookup k l = Some (s, n) -> ent L k s (c k) /\ forall x, 0 < c k x -> 0 <= x < natoms L k) ->
  exists es vs ss ps, updLoop spOf base split l = Ok (es, vs, ss) /\
    keyed es /\ (forall k, number k es = number k l) /\
    (forall k s n, lookup k es = Some (s, n) -> ent L k s (c k)) /\
    listed L vs ps /\
    (forall k, lookup k l <> None -> outcome split (of_sup k ps) (c k)) /\
    (forall p, In p ps -> lookup (fst p) l <> None) /\
    (forall e, In e es -> exists v, In (fst e, v) l) /\
    (forall k, (forall e, In e l -> (k < fst e)%nat) -> forall p, In p ps -> (k < fst p)%nat) /\
    ss = map (flag l ps) ps /\
    (forall k t n, lookup k l = Some (t, n) -> split = true -> unmarked k t (of_sup k ps)).
Proof.
  induction l as [|[k [s n]] l IH]; intros K H; cbn [updLoop].
  - exists [], [], [], []. split; [auto|]. split; [constructor|]. split; [auto|]. split; [simpl; discriminate|].
    split; [split; constructor|]. split; [simpl; congruence|]. split; [intros p []|]. split; [intros e []|].
    split; [intros j _ p []|split; [auto|simpl; discriminate]].
  - destruct (H k s n) as [He Hb]; [simpl; rewrite Nat.eqb_refl; auto|].
    destruct (entryVars_ok k s (c k) split He Hb) as (s' & vs & q & E & He' & Fv & O & UM).
    assert (Kl := K). inversion Kl as [|? ? K1 K2]; subst. rewrite E. cbn [bind].
    assert (N := lookup_none_head _ _ _ K).
    destruct (IH K1) as (es & ws & ss & ps & -> & K' & Hn & He2 & (Hl1 & Hl2) & Ho & Hk & Hin & Hlt & -> & Hum).
    { intros j t m Hj. apply (H j t m). simpl. destruct (Nat.eqb_spec k j); [subst; congruence|auto]. }
    cbn [bind]. assert (Hps : forall p, In p ps -> (k < fst p)%nat).
    { apply Hlt. intros e Hel. rewrite Forall_forall in K2. apply K2 in Hel. auto. }
    eexists ((k, (s', n)) :: es), (vs ++ ws), _, (map (pair k) q ++ ps). split; [reflexivity|].
    split; [constructor; [auto|]|].
    { rewrite Forall_forall in *. intros e Hes. apply Hin in Hes as (v & Hv). apply K2 in Hv. auto. }
    split; [|split; [|split; [|split; [|split; [|split; [|split; [|split]]]]]]].
    + intros j. unfold number in *. simpl. destruct (Nat.eqb_spec k j); [auto|apply Hn].
    + intros j t m. simpl. destruct (Nat.eqb_spec k j); [subst; intros X; inversion X; subst; auto|apply He2].
    + split.
      * apply Forall2_app; [|auto]. clear - Fv. induction Fv; constructor; auto.
      * clear - Hl2 Hps. induction q as [|r q IHq]; simpl; [auto|]. constructor; [auto|]. rewrite Forall_forall.
        intros p Hp. apply in_app_or in Hp as [Hp|Hp].
        -- apply in_map_iff in Hp as (z & <- & _). simpl. lia.
        -- apply Hps in Hp. simpl. lia.
    + intros j. simpl. rewrite of_sup_app. destruct (Nat.eqb_spec k j).
      * subst. intros _. rewrite of_sup_same, of_sup_none, app_nil_r; [auto|].
        intros p Hp. apply Hps in Hp. lia.
      * rewrite of_sup_other by auto. simpl. apply Ho.
    + intros p Hp. simpl. apply in_app_or in Hp as [Hp|Hp].
      * apply in_map_iff in Hp as (z & <- & _). simpl. rewrite Nat.eqb_refl. discriminate.
      * destruct (Nat.eqb_spec k (fst p)); [discriminate|auto].
    + intros e [<-|Hes]; simpl; [eauto|]. apply Hin in Hes as (v & Hv). eauto.
    + intros j Hj p Hp. apply in_app_or in Hp as [Hp|Hp].
      * apply in_map_iff in Hp as (z & <- & _). apply (Hj (k, (s, n))). left; auto.
      * apply Hlt; [|auto]. intros e Hel. apply Hj. right; auto.
    + rewrite map_app, map_map. f_equal.
      * assert (El : length vs = length q) by (clear - Fv; induction Fv; simpl; auto).
        rewrite El. clear - El Hps. 
        assert (X : forall z, flag ((k, (s, n)) :: l) (map (pair k) q ++ ps) (k, z) = (n =? Z.of_nat (length q))).
        { intros z. unfold flag, number. cbn [fst lookup]. rewrite Nat.eqb_refl. cbn [option_map snd].
          rewrite of_sup_app, of_sup_same, of_sup_none, app_nil_r; [auto|]. intros p Hp. apply Hps in Hp. lia. }
        rewrite (map_ext _ _ X). clear X. revert El. generalize (n =? Z.of_nat (length q)). intros b.
        revert q. induction vs as [|v vs IHv]; intros [|z q] El; simpl in *; try discriminate; auto.
        f_equal. apply IHv. congruence.
      * apply map_ext_in. intros p Hp. apply Hps in Hp. unfold flag, number. cbn [lookup].
        destruct (Nat.eqb_spec k (fst p)); [lia|]. rewrite of_sup_app, of_sup_other by auto. auto.
    + intros j t m Hj Hs. simpl in Hj. rewrite of_sup_app. destruct (Nat.eqb_spec k j).
      * subst j. inversion Hj; subst. rewrite of_sup_same, of_sup_none, app_nil_r; [auto|].
        intros p Hp. apply Hps in Hp. lia.
      * rewrite of_sup_other by auto. simpl. eapply Hum; eauto.
Qed.
End Atoms.
