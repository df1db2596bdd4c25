Require Import ZArith List Bool Lia.
Require Import Verif.Base Verif.RangeModel Verif.SpaceModel Verif.SpaceProps Verif.VariableModel.
Require Import Verif.RangeCountingModel Verif.RangeCountingSpec Verif.RangeProps.
Import ListNotations.
Local Open Scope Z_scope.

(* The size of a point (order 0) or of a derivative (order > 0). *)
Definition sz (n : nat) (s : space) : Z := match n with O => rSize s | S _ => tSize s end.

Record obj_ok (h : heap) (i : nat) (o : vobj) : Prop := {
  ok_space : api (v_space o);
  ok_shift : api (v_shift o);
  ok_size : v_size o = sz (v_dn o) (v_space o);
  ok_off : v_off o = sz (v_dn o) (v_shift o);
  ok_blk : (v_block o < length (mem h))%nat;
  ok_super : match v_super o with
    | None => v_mem o = Some (v_block o) /\ v_shift o = zeroSpace /\ length (blockOf h (v_block o)) = Z.to_nat (v_size o)
    | Some sp => exists so, nth_error (objs h) sp = Some so /\ v_super so = None /\ v_block so = v_block o /\
        v_dn so = v_dn o /\ mSize (v_shift o) + mSize (v_space o) <= mSize (v_space so) /\
        rSize (v_shift o) + rSize (v_space o) <= rSize (v_space so) /\
        tSize (v_shift o) + tSize (v_space o) <= tSize (v_space so)
    end;
  ok_prim : match v_dn o with
    | O => v_prim o = None
    | S n => exists p po, v_prim o = Some p /\ nth_error (objs h) p = Some po /\ v_deriv po = Some i /\ v_dn po = n /\
                          v_super o <> Some p /\ (v_super po = None <-> v_super o = None)
    end;
  ok_deriv : forall d, v_deriv o = Some d -> exists od, nth_error (objs h) d = Some od /\
      v_prim od = Some i /\ v_dn od = S (v_dn o) /\ v_space od = v_space o /\ v_shift od = v_shift o /\
      match v_super o with
      | None => v_super od = None
      | Some sp => exists so dsp, nth_error (objs h) sp = Some so /\ v_deriv so = Some dsp /\ v_super od = Some dsp
      end }.

Record hinv (h : heap) : Prop := {
  hi_obj : forall i o, nth_error (objs h) i = Some o -> obj_ok h i o;
  hi_blk : forall i j oi oj, nth_error (objs h) i = Some oi -> nth_error (objs h) j = Some oj ->
    v_super oi = None -> v_super oj = None -> v_block oi = v_block oj -> i = j }.

Definition extends (h h' : heap) : Prop :=
  forall i o, nth_error (objs h) i = Some o ->
    exists o', nth_error (objs h') i = Some o' /\ o' = withDeriv o (v_deriv o') /\
               (forall d, v_deriv o = Some d -> v_deriv o' = Some d).

Lemma withDeriv_id o : o = withDeriv o (v_deriv o).
Proof. destruct o; reflexivity. Qed.
Lemma extends_refl h : extends h h.
Proof. intros i o H. exists o. split; auto. split; auto. apply withDeriv_id. Qed.
Lemma extends_trans a b c : extends a b -> extends b c -> extends a c.
Proof.
  intros H K i o E. destruct (H i o E) as (o1 & E1 & W1 & D1). destruct (K i o1 E1) as (o2 & E2 & W2 & D2).
  exists o2. split; auto. split; [|auto]. rewrite W2, W1. reflexivity.
Qed.

(* ---------- lists ---------- *)
Lemma upd_length {A} : forall (l : list A) i x, length (upd l i x) = length l.
Proof. induction l as [|y l IH]; intros [|i] x; simpl; auto. Qed.
Lemma nth_upd {A} : forall (l : list A) i j x, nth_error (upd l i x) j =
  if (Nat.eqb i j && Nat.ltb i (length l))%bool then Some x else nth_error l j.
Proof.
  induction l as [|y l IH]; intros i j x.
  - simpl. rewrite andb_false_r. destruct i; auto.
  - destruct i, j; simpl; auto. rewrite IH. reflexivity.
Qed.
Lemma nth_upd_d {A} (l : list A) i j x d : nth j (upd l i x) d =
  if (Nat.eqb i j && Nat.ltb i (length l))%bool then x else nth j l d.
Proof.
  revert i j. induction l as [|y l IH]; intros i j.
  - simpl. rewrite andb_false_r. destruct i; auto.
  - destruct i, j; simpl; auto. rewrite IH. reflexivity.
Qed.
Lemma nth_snoc {A} (l : list A) x i : nth_error (l ++ [x]) i =
  if Nat.eqb i (length l) then Some x else nth_error l i.
Proof.
  destruct (Nat.eqb_spec i (length l)) as [->|E].
  - rewrite nth_error_app2 by lia. now rewrite Nat.sub_diag.
  - destruct (Nat.lt_ge_cases i (length l)).
    + now rewrite nth_error_app1.
    + rewrite nth_error_app2 by lia. rewrite (proj2 (nth_error_None l i)) by lia.
      destruct (i - length l)%nat as [|k] eqn:K; [lia|]. destruct k; auto.
Qed.
Lemma splice_length l off x : 0 <= off -> (Z.to_nat off + length x <= length l)%nat ->
  length (splice l off x) = length l.
Proof. intros H K. unfold splice. rewrite !app_length, firstn_length, skipn_length. lia. Qed.
Lemma zeros_length n : length (zeros n) = Z.to_nat n.
Proof. apply repeat_length. Qed.

(* value of one cell after a splice *)
Lemma splice_nth l off x k : 0 <= off -> (Z.to_nat off + length x <= length l)%nat ->
  nth_error (splice l off x) k =
  if (Nat.leb (Z.to_nat off) k && Nat.ltb k (Z.to_nat off + length x))%bool
  then nth_error x (k - Z.to_nat off) else nth_error l k.
Proof.
  intros H K. unfold splice. set (a := Z.to_nat off) in *.
  destruct (Nat.leb_spec a k); simpl.
  - rewrite nth_error_app2 by (rewrite firstn_length; lia).
    rewrite firstn_length, Nat.min_l by lia.
    destruct (Nat.ltb_spec k (a + length x)).
    + now rewrite nth_error_app1 by lia.
    + rewrite nth_error_app2 by lia. rewrite <- (firstn_skipn (a + length x) l) at 2.
      rewrite nth_error_app2 by (rewrite firstn_length; lia). f_equal. rewrite firstn_length. lia.
  - rewrite nth_error_app1 by (rewrite firstn_length; lia).
    rewrite <- (firstn_skipn a l) at 2. now rewrite nth_error_app1 by (rewrite firstn_length; lia).
Qed.

(* ---------- allocation of derivatives ---------- *)
Lemma set_look h v o d od m' : nth_error (objs h) v = Some o -> 
  forall i, nth_error (objs (setDeriv (mkH (objs h ++ [od]) m') v d)) i =
    if Nat.eqb i v then Some (withDeriv o (Some d))
    else if Nat.eqb i (length (objs h)) then Some od else nth_error (objs h) i.
Proof.
  intros E i. assert (Hv : (v < length (objs h))%nat) by (apply nth_error_Some; congruence).
  unfold setDeriv. simpl. rewrite (nth_error_app1 _ _ Hv), E. simpl.
  rewrite nth_upd, app_length. simpl.
  destruct (Nat.eqb_spec i v) as [->|Hi].
  - rewrite Nat.eqb_refl. destruct (Nat.ltb_spec v (length (objs h) + 1)); [auto|lia].
  - destruct (Nat.eqb_spec v i); [congruence|]. simpl. apply nth_snoc.
Qed.
Lemma set_mem h v d od m' : mem (setDeriv (mkH (objs h ++ [od]) m') v d) = m'.
Proof. unfold setDeriv. destruct (nth_error _ _); auto. Qed.

Lemma set_extends h v o od m' : nth_error (objs h) v = Some o -> v_deriv o = None ->
  extends h (setDeriv (mkH (objs h ++ [od]) m') v (length (objs h))).
Proof.
  intros E D i oi Hi. rewrite (set_look h v o (length (objs h)) od m' E i).
  assert ((i < length (objs h))%nat) by (apply nth_error_Some; congruence).
  destruct (Nat.eqb_spec i v) as [->|].
  - rewrite E in Hi; inversion Hi; subst. eexists. split; [reflexivity|]. simpl. split; [reflexivity|]. congruence.
  - destruct (Nat.eqb_spec i (length (objs h))); [lia|]. exists oi. split; auto. split; auto. apply withDeriv_id.
Qed.

(* the properties that do not depend on v_deriv survive *)
Lemma add_deriv h v o od m' : hinv h -> nth_error (objs h) v = Some o -> v_deriv o = None ->
  v_space od = v_space o -> v_shift od = v_shift o -> v_dn od = S (v_dn o) -> v_prim od = Some v -> v_deriv od = None ->
  v_size od = tSize (v_space o) -> v_off od = tSize (v_shift o) ->
  (exists tl, m' = mem h ++ tl) ->
  ((v_super o = None /\ v_super od = None /\ v_mem od = Some (length (mem h)) /\ v_block od = length (mem h) /\
    m' = mem h ++ [zeros (tSize (v_space o))]) \/
   (exists sp so dsp ods, v_super o = Some sp /\ nth_error (objs h) sp = Some so /\ v_deriv so = Some dsp /\
     nth_error (objs h) dsp = Some ods /\ v_super od = Some dsp /\ v_block od = v_block ods)) ->
  hinv (setDeriv (mkH (objs h ++ [od]) m') v (length (objs h))).
Proof.
  intros I E D Hsp Hsh Hdn Hpr Hde Hsz Hof [tl Hm] Hcase.
  set (h' := setDeriv (mkH (objs h ++ [od]) m') v (length (objs h))).
  assert (Hv : (v < length (objs h))%nat) by (apply nth_error_Some; congruence).
  pose proof (set_look h v o (length (objs h)) od m' E) as L. fold h' in L.
  assert (M : mem h' = m') by apply set_mem.
  pose proof (set_extends h v o od m' E D) as X. fold h' in X.
  assert (Hlen : (length (mem h) <= length m')%nat) by (rewrite Hm, app_length; lia).
  assert (Hblk : forall b, (b < length (mem h))%nat -> blockOf h' b = blockOf h b).
  { intros b Hb. unfold blockOf. rewrite M, Hm. now rewrite app_nth1. }
  assert (Lnew : nth_error (objs h') (length (objs h)) = Some od).
  { rewrite L. destruct (Nat.eqb_spec (length (objs h)) v); [lia|]. now rewrite Nat.eqb_refl. }
  assert (Lv : nth_error (objs h') v = Some (withDeriv o (Some (length (objs h))))).
  { rewrite L, Nat.eqb_refl. auto. }
  pose proof (hi_obj _ I v o E) as Oo.
  (* old objects stay ok *)
  assert (Old : forall i oi oi', nth_error (objs h) i = Some oi -> nth_error (objs h') i = Some oi' ->
     oi' = withDeriv oi (v_deriv oi') -> (v_deriv oi' = v_deriv oi \/ (i = v /\ v_deriv oi' = Some (length (objs h)))) ->
     obj_ok h' i oi').
  { intros i oi oi' Hi Hi' W Dd. pose proof (hi_obj _ I i oi Hi) as Oi.
    assert (F : v_space oi' = v_space oi /\ v_shift oi' = v_shift oi /\ v_size oi' = v_size oi /\ v_off oi' = v_off oi /\
      v_dn oi' = v_dn oi /\ v_block oi' = v_block oi /\ v_super oi' = v_super oi /\ v_mem oi' = v_mem oi /\ v_prim oi' = v_prim oi).
    { rewrite W. simpl. repeat split. }
    destruct F as (F1 & F2 & F3 & F4 & F5 & F6 & F7 & F8 & F9).
    constructor.
    - rewrite F1; apply Oi.
    - rewrite F2; apply Oi.
    - rewrite F1, F3, F5; apply Oi.
    - rewrite F2, F4, F5; apply Oi.
    - rewrite F6, M. pose proof (ok_blk _ _ _ Oi). lia.
    - rewrite F1, F2, F3, F5, F6, F7, F8. pose proof (ok_super _ _ _ Oi) as K. destruct (v_super oi) as [sp|].
      + destruct K as (so & K1 & K2). destruct (X sp so K1) as (so' & K1' & Wso & _). exists so'. split; [exact K1'|]. rewrite Wso. simpl. auto.
      + rewrite Hblk by apply Oi. auto.
    - rewrite F5, F9, F7. pose proof (ok_prim _ _ _ Oi) as K. destruct (v_dn oi); [auto|].
      destruct K as (p & po & K1 & K2 & K3 & K4 & K5). destruct (X p po K2) as (po' & K2' & Wpo & Dpo).
      exists p, po'. split; [auto|]. split; [auto|]. split; [auto|]. rewrite Wpo; simpl. auto.
    - intros d Hd. rewrite F1, F2, F5, F7. destruct Dd as [Dd|[-> Dd]].
      + rewrite Dd in Hd. destruct (ok_deriv _ _ _ Oi d Hd) as (od2 & K1 & K2 & K3 & K4 & K5 & K6).
        destruct (X d od2 K1) as (od2' & K1' & Wd & _). exists od2'. split; [exact K1'|]. rewrite Wd. simpl.
        repeat split; auto. destruct (v_super oi) as [sp|]; auto.
        destruct K6 as (so & dsp & K61 & K62 & K63). destruct (X sp so K61) as (so' & K1'' & Ws & Ds).
        exists so', dsp. split; auto.
      + rewrite Dd in Hd. inversion Hd; subst d. rewrite E in Hi; inversion Hi; subst oi. exists od.
        split; [auto|]. split; [auto|]. split; [auto|]. split; [auto|]. split; [auto|].
        destruct Hcase as [(C1 & C2 & _)|(sp & so & dsp & ods & C1 & C2 & C3 & C4 & C5 & C6)].
        * rewrite C1. auto.
        * rewrite C1. destruct (X sp so C2) as (so' & K1'' & Ws & Ds). exists so', dsp. auto. }
  assert (New : obj_ok h' (length (objs h)) od).
  { constructor.
    - rewrite Hsp; apply Oo.
    - rewrite Hsh; apply Oo.
    - rewrite Hsz, Hdn, Hsp. reflexivity.
    - rewrite Hof, Hdn, Hsh. reflexivity.
    - destruct Hcase as [(C1 & C2 & C3 & C4 & C5)|(sp & so & dsp & ods & C1 & C2 & C3 & C4 & C5 & C6)].
      + rewrite C4, M, C5, app_length. simpl. lia.
      + rewrite C6, M. pose proof (ok_blk _ _ _ (hi_obj _ I dsp ods C4)). lia.
    - destruct Hcase as [(C1 & C2 & C3 & C4 & C5)|(sp & so & dsp & ods & C1 & C2 & C3 & C4 & C5 & C6)].
      + rewrite C2. rewrite C4. split; [auto|].
        pose proof (ok_super _ _ _ Oo) as K. rewrite C1 in K. split; [rewrite Hsh; tauto|].
        unfold blockOf. rewrite M, C5, app_nth2, Nat.sub_diag by lia. simpl. rewrite zeros_length. congruence.
      + rewrite C5. pose proof (ok_super _ _ _ Oo) as K. rewrite C1 in K. destruct K as (so2 & K1 & K2 & K3 & K4 & K5).
        rewrite C2 in K1; inversion K1; subst so2.
        destruct (ok_deriv _ _ _ (hi_obj _ I sp so C2) dsp C3) as (ods2 & Q1 & Q2 & Q3 & Q4 & Q5 & Q6).
        rewrite C4 in Q1; inversion Q1; subst ods2. rewrite K2 in Q6.
        destruct (X dsp ods C4) as (ods' & Q1' & W & _). exists ods'. split; [exact Q1'|]. rewrite W; simpl.
        split; [auto|]. split; [auto|]. split; [lia|]. rewrite Hsh, Hsp, Q4. auto.
    - rewrite Hdn. exists v, (withDeriv o (Some (length (objs h)))). split; [auto|]. split; [auto|]. simpl. split; [auto|]. split; [auto|].
      destruct Hcase as [(C1 & C2 & C3 & C4 & C5)|(sp & so & dsp & ods & C1 & C2 & C3 & C4 & C5 & C6)].
      + rewrite C1, C2. split; [congruence|tauto].
      + rewrite C1, C5. split; [|split; discriminate].
        intros K. inversion K; subst dsp.
        rewrite E in C4; inversion C4; subst ods.
        destruct (ok_deriv _ _ _ (hi_obj _ I sp so C2) v C3) as (ods2 & Q1 & Q2 & Q3 & Q4 & Q5 & Q6).
        rewrite E in Q1; inversion Q1; subst ods2. pose proof (ok_super _ _ _ Oo) as K2. rewrite C1 in K2.
        destruct K2 as (so2 & R1 & R2 & R3 & R4 & R5). rewrite C2 in R1; inversion R1; subst. lia.
    - rewrite Hde. discriminate. }
  constructor.
  - intros i oi Hi. pose proof Hi as Hi'. rewrite L in Hi'.
    destruct (Nat.eqb_spec i v) as [->|Hiv].
    + inversion Hi'; subst oi. apply (Old v o); auto.
    + destruct (Nat.eqb_spec i (length (objs h))) as [->|Hil]; [inversion Hi'; subst; auto|].
      apply (Old i oi); auto. apply withDeriv_id.
  - intros i j oi oj Hi Hj Si Sj Hb.
    assert (P : forall k ok, nth_error (objs h') k = Some ok -> v_super ok = None ->
      (k = length (objs h) /\ ok = od) \/ exists ok0, nth_error (objs h) k = Some ok0 /\ v_super ok0 = None /\ v_block ok0 = v_block ok /\ (v_block ok0 < length (mem h))%nat).
    { intros k ok Hk Sk. rewrite L in Hk. destruct (Nat.eqb_spec k v) as [->|].
      - inversion Hk; subst ok. simpl in *. right. exists o. repeat split; auto. apply Oo.
      - destruct (Nat.eqb_spec k (length (objs h))) as [->|]; [inversion Hk; auto|].
        right. exists ok. repeat split; auto. apply (hi_obj _ I k ok Hk). }
    destruct (P i oi Hi Si) as [[-> ->]|(oi0 & A1 & A2 & A3 & A4)]; destruct (P j oj Hj Sj) as [[-> ->]|(oj0 & B1 & B2 & B3 & B4)]; auto.
    + destruct Hcase as [(C1 & C2 & C3 & C4 & C5)|(sp & so & dsp & ods & C1 & C2 & C3 & C4 & C5 & C6)]; [lia|congruence].
    + destruct Hcase as [(C1 & C2 & C3 & C4 & C5)|(sp & so & dsp & ods & C1 & C2 & C3 & C4 & C5 & C6)]; [lia|congruence].
    + eapply (hi_blk _ I); eauto. congruence.
Qed.

(* writing inside a block keeps the invariant *)
Lemma write_inv h b off x : hinv h -> 0 <= off ->
  (Z.to_nat off + length x <= length (blockOf h b))%nat -> hinv (write h b off x).
Proof.
  intros I Ho Hl.
  assert (Hb : forall c, length (blockOf (write h b off x) c) = length (blockOf h c)).
  { intros c. unfold blockOf, write; simpl. rewrite nth_upd_d.
    destruct (Nat.eqb_spec b c) as [->|]; simpl; auto. destruct (Nat.ltb_spec c (length (mem h))); auto.
    rewrite splice_length; auto. }
  constructor.
  - intros i o Hi. pose proof (hi_obj _ I i o Hi) as O. constructor; try apply O.
    + unfold write; simpl. rewrite upd_length. apply O.
    + pose proof (ok_super _ _ _ O). destruct (v_super o); auto. rewrite Hb. auto.
  - apply (hi_blk _ I).
Qed.

Lemma write_extends h b off x : extends h (write h b off x).
Proof. intros i o H. exists o. split; auto. split; auto. apply withDeriv_id. Qed.

Definition derivRel (h : heap) (v d : nat) : Prop :=
  exists o, nth_error (objs h) v = Some o /\ v_deriv o = Some d.

Lemma get_ok h i o : get h i = Ok o <-> nth_error (objs h) i = Some o.
Proof. unfold get. destruct (nth_error (objs h) i); split; intros H; inversion H; auto. Qed.

(* the slice of a subvariable lies inside the block *)
Lemma slice_in h i o : hinv h -> nth_error (objs h) i = Some o ->
  0 <= v_off o /\ 0 <= v_size o /\ (Z.to_nat (v_off o) + Z.to_nat (v_size o) <= length (blockOf h (v_block o)))%nat.
Proof.
  intros I Hi. pose proof (hi_obj _ I i o Hi) as O.
  pose proof (ok_size _ _ _ O) as Es. pose proof (ok_off _ _ _ O) as Eo.
  destruct (api_inv _ (ok_space _ _ _ O)) as (S1 & S2 & S3 & _). destruct (api_inv _ (ok_shift _ _ _ O)) as (T1 & T2 & T3 & _).
  assert (0 <= v_size o) by (rewrite Es; destruct (v_dn o); simpl; lia).
  assert (0 <= v_off o) by (rewrite Eo; destruct (v_dn o); simpl; lia).
  split; [auto|]. split; [auto|].
  pose proof (ok_super _ _ _ O) as K. destruct (v_super o) as [sp|].
  - destruct K as (so & K1 & K2 & K3 & K4 & K5 & K6 & K7). pose proof (hi_obj _ I sp so K1) as Os.
    pose proof (ok_super _ _ _ Os) as Ks. rewrite K2 in Ks. destruct Ks as (_ & _ & Kl). rewrite <- K3, Kl.
    rewrite (ok_size _ _ _ Os), Es, Eo, K4. destruct (v_dn o); simpl in *; lia.
  - destruct K as (_ & Kz & Kl). rewrite Kl. rewrite Eo, Kz. destruct (v_dn o); simpl; lia.
Qed.

Lemma dot1_whole f h v o a : hinv h -> nth_error (objs h) v = Some o -> v_super o = None ->
  exists h' d, dot1 (S f) h v a = Ok (h', d) /\ hinv h' /\ extends h h' /\ derivRel h' v d /\
    (v_deriv o = Some d -> h' = h) /\
    (forall i oi, i <> v -> nth_error (objs h) i = Some oi -> nth_error (objs h') i = Some oi).
Proof.
  intros I E S. simpl. rewrite (proj2 (get_ok h v o) E). simpl.
  destruct (v_deriv o) as [d|] eqn:D.
  { exists h, d. split; [auto|]. split; [auto|]. split; [apply extends_refl|]. split; [exists o; auto|auto]. }
  rewrite S. eexists _, _. split; [reflexivity|].
  split; [|split; [|split; [|split]]].
  - apply (add_deriv h v o); auto.
    + simpl. pose proof (ok_super _ _ _ (hi_obj _ I v o E)) as K. rewrite S in K. destruct K as (_ & -> & _). reflexivity.
    + eexists; reflexivity.
    + left. repeat split; auto.
  - apply (set_extends h v o); auto.
  - eexists. rewrite (set_look h v o _ _ _ E), Nat.eqb_refl. split; [reflexivity|reflexivity].
  - discriminate.
  - intros i oi Hi Ei. rewrite (set_look h v o _ _ _ E). destruct (Nat.eqb_spec i v); [congruence|].
    assert ((i < length (objs h))%nat) by (apply nth_error_Some; congruence).
    destruct (Nat.eqb_spec i (length (objs h))); [lia|auto].
Qed.

Lemma derivRel_ext h h' v d : extends h h' -> derivRel h v d -> derivRel h' v d.
Proof. intros X (o & H1 & H2). destruct (X v o H1) as (o' & H1' & _ & D). exists o'. auto. Qed.

Lemma dot1_ok h v o a : hinv h -> nth_error (objs h) v = Some o ->
  exists h' d, dot1 2 h v a = Ok (h', d) /\ hinv h' /\ extends h h' /\ derivRel h' v d /\
    (v_deriv o = Some d -> h' = h).
Proof.
  intros I E. destruct (v_super o) as [sp|] eqn:S.
  2:{ destruct (dot1_whole 1 h v o a I E S) as (h' & d & P1 & P2 & P3 & P4 & P5 & _). exists h', d; auto. }
  pose proof (hi_obj _ I v o E) as O. pose proof (ok_super _ _ _ O) as K. rewrite S in K.
  destruct K as (so & K1 & K2 & K3 & K4 & K5 & K6 & K7).
  remember 1%nat as f eqn:Hf. simpl. rewrite (proj2 (get_ok h v o) E). simpl.
  destruct (v_deriv o) as [d|] eqn:D.
  { exists h, d. split; [auto|]. split; [auto|]. split; [apply extends_refl|]. split; [exists o; auto|auto]. }
  rewrite S. subst f. destruct (dot1_whole 0 h sp so false I K1 K2) as (h1 & dsp & -> & I1 & X1 & (so1 & G1 & G2) & _ & Same).
  simpl bind. cbv beta iota.
  destruct (ok_deriv _ _ _ (hi_obj _ I1 sp so1 G1) dsp G2) as (ods & Q1 & Q2 & Q3 & Q4 & Q5 & Q6).
  destruct (X1 sp so K1) as (so1' & G1' & Wso & _). rewrite G1 in G1'; inversion G1'; subst so1'.
  assert (Sso : v_super so1 = None) by (rewrite Wso; auto). rewrite Sso in Q6.
  rewrite (proj2 (get_ok h1 dsp ods) Q1). simpl.
  pose proof (hi_obj _ I1 dsp ods Q1) as Od. pose proof (ok_super _ _ _ Od) as Ks. rewrite Q6 in Ks.
  destruct Ks as (Km & Kz & Kl). rewrite Km.
  assert (E1 : nth_error (objs h1) v = Some o).
  { apply Same; auto. intros ->. rewrite E in K1; inversion K1; subst. congruence. }
  eexists _, _. split; [reflexivity|].
  set (od := mkV _ _ _ _ _ _ _ _ _ _ _).
  assert (I2 : hinv (setDeriv (mkH (objs h1 ++ [od]) (mem h1)) v (length (objs h1)))).
  { apply (add_deriv h1 v o); auto. { exists []. now rewrite app_nil_r. }
    right. exists sp, so1, dsp, ods. repeat split; auto. }
  assert (X2 : extends h1 (setDeriv (mkH (objs h1 ++ [od]) (mem h1)) v (length (objs h1)))) by (apply (set_extends h1 v o); auto).
  split; [|split; [|split]].
  - assert (Ld : nth_error (objs (setDeriv (mkH (objs h1 ++ [od]) (mem h1)) v (length (objs h1)))) (length (objs h1)) = Some od).
    { rewrite (set_look h1 v o _ od _ E1). assert ((v < length (objs h1))%nat) by (apply nth_error_Some; congruence).
      destruct (Nat.eqb_spec (length (objs h1)) v); [lia|]. now rewrite Nat.eqb_refl. }
    destruct (slice_in _ _ _ I2 Ld) as (T1 & T2 & T3). simpl in T1, T2, T3.
    apply write_inv; auto. rewrite zeros_length. auto.
  - eapply extends_trans; [exact X1|]. eapply extends_trans; [exact X2|]. apply write_extends.
  - eapply derivRel_ext; [apply write_extends|]. eexists. rewrite (set_look h1 v o _ od _ E1), Nat.eqb_refl.
    split; [reflexivity|reflexivity].
  - discriminate.
Qed.
