(* Proofs for C37 and C38. *)
From Coq Require Import List Bool Arith QArith Qminmax Lqa Lia.
Import ListNotations.
From Verif Require Import Base DynModel DynSpec DynProofs.
Local Open Scope Q_scope.

(* ---- construction ---- *)
Lemma some_le l m : length l = length m -> someBool Qle_bool l m = false -> forall i, (i < length l)%nat -> at_ i m < at_ i l.
Proof.
  revert m. induction l as [|x l IH]; intros [|y m] L H i Hi; simpl in *; try lia. unfold someBool in H. simpl in H. apply orb_false_iff in H. destruct H as [H1 H2].
  destruct i as [|i]; unfold at_ in *; simpl; [now apply leb_f|]. apply (IH m); [lia|exact H2|lia].
Qed.
Lemma aniso_ok vdi vds vxsi voff c : anisotropic vdi vds vxsi voff = Ok c ->
  let off := match voff with Some l => l | None => repeat 0 (length vdi) end in
  c = mkConf vdi vds vxsi off /\ length vds = length vdi /\ length vxsi = length vdi /\ length off = length vdi /\
  (forall i, (i < length vdi)%nat -> at_ i vds < at_ i vdi) /\ (forall i, 0 <= at_ i vds) /\ (forall i, 0 <= at_ i vxsi) /\ (forall i, 0 <= at_ i off) /\
  ((forall i, (i < length vdi)%nat -> at_ i vxsi == 0) \/ (forall i, (i < length vdi)%nat -> 0 < at_ i vxsi)).
Proof.
  unfold anisotropic. set (off := match voff with Some l => l | None => _ end). intros H. cbv zeta.
  destruct (Nat.eqb_spec (length vdi) (length vds)) as [L1|]; [|discriminate]. destruct (Nat.eqb_spec (length vdi) (length vxsi)) as [L2|]; [|discriminate].
  destruct (Nat.eqb_spec (length vdi) (length off)) as [L3|]; [|discriminate]. cbn [negb orb] in H.
  destruct (someBool Qle_bool vdi vds) eqn:E1; [discriminate|]. destruct (existsb _ vds) eqn:E2; [discriminate|]. destruct (existsb (fun x => ltb x 0) vxsi) eqn:E3; [discriminate|].
  destruct (existsb (Qeq_bool 0) vxsi && negb (forallb (Qeq_bool 0) vxsi)) eqn:E4; [discriminate|]. destruct (existsb _ off) eqn:E5; [discriminate|].
  injection H as <-. split; [reflexivity|]. split; [congruence|]. split; [congruence|]. split; [congruence|].
  split; [now apply some_le|]. split; [now apply exists_neg|]. split; [now apply exists_neg|]. split; [now apply exists_neg|].
  apply andb_false_iff in E4. destruct E4 as [E4|E4].
  - right. intros i Hi. pose proof (proj1 (exists_neg _) E3 i) as K. apply Qle_lteq in K. destruct K as [K|K]; [exact K|exfalso].
    assert (X : existsb (Qeq_bool 0) vxsi = true) by (apply existsb_exists; exists (at_ i vxsi); split; [apply nth_In; lia|now apply Qeq_bool_iff]). congruence.
  - left. intros i Hi. apply negb_false_iff in E4. rewrite forallb_forall in E4. symmetry. apply Qeq_bool_iff, E4, nth_In. lia.
Qed.
Lemma iso_ok vdi vds vxsi voff c : isotropic vdi vds vxsi voff = Ok c -> anisotropic [vdi] [vds] [vxsi] (Some [voff]) = Ok c.
Proof. unfold isotropic. repeat (destruct (ltb _ _) || destruct (Qle_bool _ _)); try discriminate; auto. Qed.
Lemma resize_ok n l l' : resizeParameter n l = Ok l' -> length l' = n /\ forall i, (i < n)%nat -> at_ i l' = param l i.
Proof.
  destruct l as [|x [|y l]]; unfold resizeParameter.
  - destruct (Nat.eqb_spec (length (@nil Q)) n); [|discriminate]. intros H. injection H as <-. auto.
  - intros H. injection H as <-. split; [apply repeat_length|]. intros i Hi. now apply at_repeat.
  - destruct (Nat.eqb_spec (length (x :: y :: l)) n); [|discriminate]. intros H. injection H as <-. auto.
Qed.
Lemma components_at auto s i x n k : length s = n -> length i = n -> length x = n -> (k < n)%nat ->
  nth_error (components auto s i x) k = Some (if auto then mkComp (at_ k s) (at_ k i) (at_ k x) (- / (at_ k i - at_ k s)) (Some 1) false
    else mkComp (at_ k s) (at_ k i) 0 (- / (at_ k i - at_ k s)) (Some (- / (at_ k i - at_ k s) * at_ k x)) false) /\ length (components auto s i x) = n.
Proof.
  revert s i x k. induction n as [|n IH]; intros [|a s] [|b i] [|c x] k L1 L2 L3 H; simpl in *; try lia. destruct k as [|k].
  - split; [reflexivity|]. f_equal. destruct n as [|n]; [destruct s; [reflexivity|discriminate]|]. apply (IH s i x 0%nat); lia.
  - simpl. destruct (IH s i x k) as [-> ->]; try lia. split; [|reflexivity]. reflexivity.
Qed.
Lemma param_lt l m k n : length l = length m -> (length l = 1 \/ length l = n)%nat -> (k < n)%nat -> (forall i, (i < length m)%nat -> at_ i l < at_ i m) -> param l k < param m k.
Proof.
  intros L D Hk H. destruct l as [|x [|y l]], m as [|x' [|y' m]]; simpl in L; try discriminate; unfold param.
  - simpl in D. lia.
  - apply (H 0%nat). simpl. lia.
  - apply H. simpl in *. lia.
Qed.
Lemma param_ge l k : (forall i, 0 <= at_ i l) -> 0 <= param l k.
Proof. intros H. destruct l as [|x [|y l]]; [apply H|apply (H 0%nat)|apply H]. Qed.
Lemma resize_len n l l' : resizeParameter n l = Ok l' -> (length l = 1 \/ length l = n)%nat.
Proof. destruct l as [|x [|y l]]; unfold resizeParameter; [|auto|]; match goal with |- context [(?u =? ?v)%nat] => destruct (Nat.eqb_spec u v) end; try discriminate; auto. Qed.

Definition isAuto (l : list Q) : bool := match l with [] => false | x :: _ => Qeq_bool x 0 end.
Lemma built vdi vds vxsi voff c dt big p n cs i : anisotropic vdi vds vxsi voff = Ok c -> newDamper dt c big = Ok p -> damperImpl n p = Ok cs -> (i < n)%nat ->
  let off := match voff with Some l => l | None => repeat 0 (length vdi) end in
  p_dt p = dt /\ (match dt with Some t => 0 < t | None => True end) /\ p_big p = big /\ 0 < big /\ p_auto p = isAuto vxsi /\ length cs = n /\
  param vds i < param vdi i /\ 0 <= param vds i /\ 0 <= param vxsi i /\ 0 <= param off i /\
  (isAuto vxsi = false -> 0 < param vxsi i) /\
  nth_error cs i = Some (if isAuto vxsi then mkComp (param vds i) (param vdi i) (param off i) (- / (param vdi i - param vds i)) (Some 1) false
    else mkComp (param vds i) (param vdi i) 0 (- / (param vdi i - param vds i)) (Some (- / (param vdi i - param vds i) * param vxsi i)) false).
Proof.
  intros H1 H2 H3 Hi. cbv zeta. destruct (aniso_ok _ _ _ _ _ H1) as (-> & L1 & L2 & L3 & A1 & A2 & A3 & A4 & A5). set (off := match voff with Some l => l | None => _ end) in *.
  unfold newDamper in H2. cbn [k_xsi k_di k_ds k_off] in H2. destruct vxsi as [|x0 vx] eqn:Ex; [discriminate|]. rewrite <- Ex in *.
  assert (Ea : isAuto vxsi = Qeq_bool x0 0) by now rewrite Ex. rewrite <- Ea in H2.
  destruct (match dt with Some t => Qle_bool t 0 | None => false end) eqn:E1; [discriminate|]. destruct (Qle_bool big 0) eqn:E2; [discriminate|]. injection H2 as <-. cbn [p_dt p_big p_auto].
  unfold damperImpl in H3. cbn [p_dt p_big p_auto p_ds p_di p_xsi] in H3.
  destruct (resizeParameter n vds) as [s| |] eqn:R1; try discriminate. destruct (resizeParameter n vdi) as [d| |] eqn:R2; try discriminate. cbn [bind] in H3.
  destruct (resizeParameter n (if isAuto vxsi then off else vxsi)) as [x| |] eqn:R3; try discriminate. cbn [bind] in H3. injection H3 as <-.
  destruct (resize_ok _ _ _ R1) as [M1 P1], (resize_ok _ _ _ R2) as [M2 P2], (resize_ok _ _ _ R3) as [M3 P3].
  destruct (components_at (isAuto vxsi) s d x n i M1 M2 M3 Hi) as [N1 N2].
  split; [reflexivity|]. split; [destruct dt; [now apply leb_f|exact I]|]. split; [reflexivity|]. split; [now apply leb_f|]. split; [reflexivity|]. split; [exact N2|].
  split; [apply (param_lt vds vdi i n); auto; now apply (resize_len n vds s)|]. split; [now apply param_ge|]. split; [now apply param_ge|]. split; [now apply param_ge|].
  split.
  - intros F. destruct A5 as [A5|A5].
    + assert (Z : x0 == 0) by (specialize (A5 0%nat); rewrite Ex in A5; unfold at_ in A5; simpl in A5; apply A5; rewrite <- L2, Ex; simpl; lia). apply Qeq_bool_iff in Z. congruence.
    + destruct vxsi as [|y [|z vx']] eqn:Ez; [discriminate| |].
      * apply (A5 0%nat). simpl in *. lia.
      * unfold param. apply A5. pose proof (resize_len _ _ _ R2). simpl in L2. lia.
  - rewrite N1. rewrite (P1 i Hi), (P2 i Hi), (P3 i Hi). destruct (isAuto vxsi); reflexivity.
Qed.

(* ---- from vectors to components ---- *)
Lemma updateAll_at p t cs : forall r f v i c, length r = length cs -> length f = length cs -> length v = length cs -> nth_error cs i = Some c ->
  length (fst (updateAll p t cs r f v)) = length cs /\ nth_error (fst (updateAll p t cs r f v)) i = Some (fst (updateOne p t c (at_ i r) (at_ i f) (at_ i v))) /\
  nth_error (snd (updateAll p t cs r f v)) i = Some (snd (updateOne p t c (at_ i r) (at_ i f) (at_ i v))).
Proof.
  induction cs as [|c0 cs IH]; intros [|r0 r] [|f0 f] [|v0 v] i c L1 L2 L3 H; simpl in L1, L2, L3; try discriminate; [destruct i; discriminate|].
  cbn [updateAll]. destruct (updateOne p t c0 r0 f0 v0) as [c1 o] eqn:E. destruct (updateAll p t cs r f v) as [cs1 os] eqn:E'. cbn [fst snd].
  destruct i as [|i].
  - simpl in H. injection H as ->. unfold at_. simpl. rewrite E. split; [|auto]. f_equal. destruct cs as [|c2 cs2].
    + destruct r; [|discriminate]. simpl in E'. injection E' as <- <-. reflexivity.
    + destruct (IH r f v 0%nat c2) as [K _]; try lia; [reflexivity|]. rewrite E' in K. exact K.
  - simpl in H. destruct (IH r f v i c) as (K1 & K2 & K3); try lia; [exact H|]. rewrite E' in K1, K2, K3. cbn [fst snd] in *. simpl. unfold at_ in *. simpl. rewrite K1. auto.
Qed.
Lemma compsAt_at p t cs r (f v : nat -> list Q) i c : length r = length cs -> (forall k, length (f k) = length cs /\ length (v k) = length cs) -> nth_error cs i = Some c ->
  forall k, length (compsAt p t cs r f v k) = length cs /\ nth_error (compsAt p t cs r f v k) i = Some (compAt p t c (at_ i r) (fun m => at_ i (f m)) (fun m => at_ i (v m)) k).
Proof.
  intros L H Hc. induction k as [|k [IH1 IH2]]; cbn [compsAt compAt]; [auto|]. destruct (H k) as [Lf Lv].
  destruct (updateAll_at p t (compsAt p t cs r f v k) r (f k) (v k) i _ ltac:(congruence) ltac:(congruence) ltac:(congruence) IH2) as (K1 & K2 & _). split; [congruence|exact K2].
Qed.
Lemma valuesAt_at p t cs r (f v : nat -> list Q) i c k : length r = length cs -> (forall k, length (f k) = length cs /\ length (v k) = length cs) -> nth_error cs i = Some c ->
  nth_error (valuesAt p t cs r f v k) i = Some (valueAt p t c (at_ i r) (fun m => at_ i (f m)) (fun m => at_ i (v m)) k).
Proof.
  intros L H Hc. destruct (compsAt_at p t cs r f v i c L H Hc k) as [K1 K2]. destruct (H k) as [Lf Lv]. unfold valuesAt, valueAt.
  now destruct (updateAll_at p t (compsAt p t cs r f v k) r (f k) (v k) i _ ltac:(congruence) ltac:(congruence) ltac:(congruence) K2) as (_ & _ & K3).
Qed.

(* ---- one component ---- *)
Lemma activation_static auto s d dv c : let c' := activation auto s d dv c in ds c' = ds c /\ di c' = di c /\ off c' = off c /\ a c' = a c.
Proof. unfold activation. destruct auto; [|auto]. destruct (Qle_bool d (di c) && negb (active c)); [simpl; auto|]. destruct (ltb (di c) d && active c); simpl; auto. Qed.
Lemma update_static p t c r f v : let c' := fst (updateOne p t c r f v) in ds c' = ds c /\ di c' = di c /\ off c' = off c /\ a c' = a c.
Proof. destruct t; apply activation_static. Qed.
Lemma compAt_static p t c r f v k : let c' := compAt p t c r f v k in ds c' = ds c /\ di c' = di c /\ off c' = off c /\ a c' = a c.
Proof. induction k as [|k IH]; cbn [compAt]; [auto|]. cbv zeta in *. pose proof (update_static p t (compAt p t c r f v k) r (f k) (v k)) as K. cbv zeta in K. destruct IH as (? & ? & ? & ?), K as (? & ? & ? & ?). repeat split; congruence. Qed.
Definition sgn (t : ctype) : Q := match t with LOWER_THAN => -1 | _ => 1 end.
(* the meaning of a value, given the factor axsi kept after the update *)
Lemma value_means p t c r f v x : t = GREATER_THAN \/ t = LOWER_THAN -> (match p_dt p with Some dt => 0 < dt | None => True end) ->
  let d := distance t r f in
  (di c < d -> snd (updateOne p t c r f v) = Some (match t with LOWER_THAN => p_big p | _ => - p_big p end)) /\
  (d <= di c -> match axsi (fst (updateOne p t c r f v)) with
    | None => snd (updateOne p t c r f v) = None
    | Some ax => exists b, snd (updateOne p t c r f v) = Some b /\
        (satisfies t x b <-> (d - ds c) * ax <= match p_dt p with Some dt => rate t v + dt * rate t x | None => rate t x end) end).
Proof.
  intros T Dt. cbv zeta. destruct T as [-> | ->]; cbn [distance rate satisfies].
  - unfold updateOne. pose proof (activation_static (p_auto p) 1 (f - r) v c) as K. cbv zeta in K. set (c' := activation (p_auto p) 1 (f - r) v c) in *. destruct K as (K & _). cbn [fst snd].
    unfold value_. rewrite K. split.
    + intros H. cmp; [reflexivity|lra].
    + intros H. cmp; [lra|]. destruct (axsi c') as [ax|]; [|now destruct (p_dt p)]. destruct (p_dt p) as [dt|].
      * eexists. split; [reflexivity|]. split; intros Z.
        -- apply (Qmult_le_compat_r _ _ dt) in Z; [|lra]. assert (Q1 : ((f - r - ds c) * ax - v) / dt * dt == (f - r - ds c) * ax - v) by (field; lra). lra.
        -- apply Qle_shift_div_r; [exact Dt|]. lra.
      * eexists. split; [reflexivity|]. split; lra.
  - unfold updateOne. pose proof (activation_static (p_auto p) (-1) (r - f) v c) as K. cbv zeta in K. set (c' := activation (p_auto p) (-1) (r - f) v c) in *. destruct K as (K & _). cbn [fst snd].
    unfold value_. rewrite K. split.
    + intros H. cmp; [reflexivity|lra].
    + intros H. cmp; [lra|]. destruct (axsi c') as [ax|]; [|now destruct (p_dt p)]. destruct (p_dt p) as [dt|].
      * eexists. split; [reflexivity|]. split; intros Z.
        -- apply (Qmult_le_compat_r _ _ dt) in Z; [|lra]. assert (Q1 : - (((r - f - ds c) * ax + v) / dt) * dt == - ((r - f - ds c) * ax + v)) by (field; lra). lra.
        -- assert (Q1 : - (((r - f - ds c) * ax + v) / dt) == (- ((r - f - ds c) * ax + v)) / dt) by (field; lra). rewrite Q1. apply Qle_shift_div_l; [exact Dt|]. lra.
      * eexists. split; [reflexivity|]. split; lra.
Qed.
Lemma manual_axsi p t c r f v : p_auto p = false -> fst (updateOne p t c r f v) = c.
Proof. intros H. destruct t; unfold updateOne; cbn [fst]; rewrite H; reflexivity. Qed.
Lemma manual_comp p t c r f v k : p_auto p = false -> compAt p t c r f v k = c.
Proof. intros H. induction k as [|k IH]; cbn [compAt]; [reflexivity|]. rewrite IH. now apply manual_axsi. Qed.

(* ---- C37: fixed damping ---- *)
Section Fixed.
Variables (vdi vds vxsi : list Q) (voff : option (list Q)) (cf : config) (dt : option Q) (big : Q) (p : damper) (n : nat) (cs : list comp) (t : ctype) (i : nat).
Variables (r : list Q) (f v : nat -> list Q).
Hypothesis H1 : anisotropic vdi vds vxsi voff = Ok cf.
Hypothesis H2 : newDamper dt cf big = Ok p.
Hypothesis H3 : damperImpl n p = Ok cs.
Hypothesis Hi : (i < n)%nat.
Hypothesis T : t = GREATER_THAN \/ t = LOWER_THAN.
Hypothesis Lr : length r = n.
Hypothesis Lf : forall k, length (f k) = n /\ length (v k) = n.
Let d k := distance t (at_ i r) (at_ i (f k)).
Let D := param vdi i.
Let S := param vds i.
Let X := param vxsi i.

Lemma fixed_value : isAuto vxsi = false -> forall k x, exists b, nth_error (valuesAt p t cs r f v k) i = Some (Some b) /\
  (D < d k -> b == match t with LOWER_THAN => big | _ => - big end) /\
  (d k <= D -> (satisfies t x b <-> - (X * (d k - S) / (D - S)) <= match dt with Some dt => rate t (at_ i (v k)) + dt * rate t x | None => rate t x end)).
Proof.
  intros NA k x. destruct (built _ _ _ _ _ _ _ _ _ _ _ H1 H2 H3 Hi) as (P1 & P2 & P3 & P4 & P5 & P6 & P7 & P8 & P9 & _ & _ & C). rewrite NA in P5, C. fold D S X in P7, P8, P9, C.
  set (c := mkComp S D 0 (- / (D - S)) (Some (- / (D - S) * X)) false) in *.
  rewrite (valuesAt_at p t cs r f v i c k ltac:(congruence) ltac:(intros k'; rewrite P6; apply Lf) C). unfold valueAt. rewrite manual_comp by exact P5.
  pose proof (value_means p t c (at_ i r) (at_ i (f k)) (at_ i (v k)) x T) as V. rewrite P1 in V. specialize (V P2). cbv zeta in V. destruct V as [V1 V2]. fold (d k) in V1, V2. cbn [di ds c] in V1, V2.
  rewrite manual_axsi in V2 by exact P5. cbn [axsi c] in V2. rewrite P3 in V1. destruct (Qlt_le_dec D (d k)) as [K|K].
  - rewrite (V1 K). eexists. split; [reflexivity|]. split; [reflexivity|]. intros K'. lra.
  - destruct (V2 K) as (b & E & B). rewrite E. exists b. split; [reflexivity|]. split; [intros; lra|]. intros _. rewrite B.
    assert (Q1 : (d k - S) * (- / (D - S) * X) == - (X * (d k - S) / (D - S))) by (field; lra). rewrite Q1. reflexivity.
Qed.
Lemma safe_step e x c : 0 <= e -> 0 <= c -> c <= 1 -> - (c * e) <= x -> 0 <= e + x.
Proof. intros. nra. Qed.
Lemma fixed_first h (x : nat -> Q) : isAuto vxsi = false -> dt = None -> 0 < h -> h * X <= D - S ->
  (forall k b, nth_error (valuesAt p t cs r f v k) i = Some (Some b) -> satisfies t (x k) b) ->
  (forall k, at_ i (f (Datatypes.S k)) == at_ i (f k) + h * x k) ->
  (forall k, D < d k -> - (D - S) <= h * rate t (x k)) ->
  S <= d 0%nat -> forall k, S <= d k.
Proof.
  intros NA Edt Hh HX C F O I0. induction k as [|k IH]; [exact I0|].
  destruct (built _ _ _ _ _ _ _ _ _ _ _ H1 H2 H3 Hi) as (P1 & P2 & P3 & P4 & P5 & P6 & P7 & P8 & P9 & _). fold D S X in P7, P8, P9.
  assert (Ed : d (Datatypes.S k) == d k + h * rate t (x k)). { unfold d, distance, rate. destruct T as [-> | ->]; rewrite F; ring. }
  rewrite Ed. destruct (Qlt_le_dec D (d k)) as [K|K].
  - specialize (O k K). lra.
  - destruct (fixed_value NA k (x k)) as (b & E & _ & B). apply (C k b) in E. apply (B K) in E. rewrite Edt in E.
    assert (0 <= (d k - S) + h * rate t (x k)); [|lra]. apply (safe_step _ _ (h * X / (D - S))); [lra| | |].
    + apply Qle_shift_div_l; [lra|]. assert (0 <= h * X) by (apply Qmult_le_0_compat; lra). lra.
    + apply Qle_shift_div_r; lra.
    + apply (Qmult_le_compat_r _ _ h) in E; [|lra]. assert (Q1 : - (h * X / (D - S) * (d k - S)) == - (X * (d k - S) / (D - S)) * h) by (field; lra). rewrite Q1. lra.
Qed.
Lemma fixed_second h (x : nat -> Q) : isAuto vxsi = false -> dt = Some h -> h * X <= D - S ->
  (forall k b, nth_error (valuesAt p t cs r f v k) i = Some (Some b) -> satisfies t (x k) b) ->
  (forall k, at_ i (v (Datatypes.S k)) == at_ i (v k) + h * x k) ->
  (forall k, at_ i (f (Datatypes.S k)) == at_ i (f k) + h * at_ i (v (Datatypes.S k))) ->
  (forall k, D < d k -> - (D - S) <= h * rate t (at_ i (v (Datatypes.S k)))) ->
  S <= d 0%nat -> forall k, S <= d k.
Proof.
  intros NA Edt HX C V F O I0. induction k as [|k IH]; [exact I0|].
  destruct (built _ _ _ _ _ _ _ _ _ _ _ H1 H2 H3 Hi) as (P1 & P2 & P3 & P4 & P5 & P6 & P7 & P8 & P9 & _). fold D S X in P7, P8, P9. rewrite Edt in P2.
  assert (Ed : d (Datatypes.S k) == d k + h * rate t (at_ i (v (Datatypes.S k)))). { unfold d, distance, rate. destruct T as [-> | ->]; rewrite F; ring. }
  rewrite Ed. destruct (Qlt_le_dec D (d k)) as [K|K].
  - specialize (O k K). lra.
  - destruct (fixed_value NA k (x k)) as (b & E & _ & B). apply (C k b) in E. apply (B K) in E. rewrite Edt in E.
    assert (Ev : rate t (at_ i (v (Datatypes.S k))) == rate t (at_ i (v k)) + h * rate t (x k)). { unfold rate. destruct T as [-> | ->]; rewrite V; ring. }
    rewrite <- Ev in E.
    assert (0 <= (d k - S) + h * rate t (at_ i (v (Datatypes.S k)))); [|lra]. apply (safe_step _ _ (h * X / (D - S))); [lra| | |].
    + apply Qle_shift_div_l; [lra|]. assert (0 <= h * X) by (apply Qmult_le_0_compat; lra). lra.
    + apply Qle_shift_div_r; lra.
    + apply (Qmult_le_compat_r _ _ h) in E; [|lra]. assert (Q1 : - (h * X / (D - S) * (d k - S)) == - (X * (d k - S) / (D - S)) * h) by (field; lra). rewrite Q1. lra.
Qed.
(* with the position integrated exactly for a constant acceleration *)
Lemma exact_step e v0 v1 c : 0 <= e -> 0 <= c -> 3 * c <= 1 -> - (2 * c * e) <= v0 -> - (c * e) <= v1 ->
  0 <= e + (v0 + v1) / 2 /\ - (2 * c * (e + (v0 + v1) / 2)) <= v1.
Proof.
  intros He Hc Hc3 H0 H4. assert (Hd : (v0 + v1) / 2 == (1#2) * (v0 + v1)) by field. rewrite Hd.
  assert (E1 : 0 <= c * e) by nra. assert (E2 : 3 * (c * e) <= e) by nra. assert (E3 : c * e * (3 * c) <= c * e) by nra.
  split; [nra|].
  (* v1 >= -c e and 2c (e + (v0+v1)/2) >= 2c (e - 3/2 c e) >= c e *)
  assert (G : e - (3#2) * (c * e) <= e + (1 # 2) * (v0 + v1)) by lra.
  assert (G2 : 2 * c * (e - (3#2) * (c * e)) <= 2 * c * (e + (1#2) * (v0 + v1))) by nra. nra.
Qed.
Lemma fixed_exact h (x : nat -> Q) : isAuto vxsi = false -> dt = Some h -> 3 * (h * X) <= D - S ->
  (forall k b, nth_error (valuesAt p t cs r f v k) i = Some (Some b) -> satisfies t (x k) b) ->
  (forall k, at_ i (v (Datatypes.S k)) == at_ i (v k) + h * x k) ->
  (forall k, at_ i (f (Datatypes.S k)) == at_ i (f k) + h * at_ i (v k) + h * h / 2 * x k) ->
  (forall k, D < d k -> S <= d (Datatypes.S k) /\ - (2 * X * (d (Datatypes.S k) - S) / (D - S)) <= rate t (at_ i (v (Datatypes.S k)))) ->
  S <= d 0%nat -> - (2 * X * (d 0%nat - S) / (D - S)) <= rate t (at_ i (v 0%nat)) -> forall k, S <= d k.
Proof.
  intros NA Edt HX C V F O I0 I1.
  destruct (built _ _ _ _ _ _ _ _ _ _ _ H1 H2 H3 Hi) as (P1 & P2 & P3 & P4 & P5 & P6 & P7 & P8 & P9 & _). fold D S X in P7, P8, P9. rewrite Edt in P2.
  cut (forall k, S <= d k /\ - (2 * X * (d k - S) / (D - S)) <= rate t (at_ i (v k))). { intros H k. apply H. }
  induction k as [|k [IH IH']]; [auto|]. destruct (Qlt_le_dec D (d k)) as [K|K]; [now apply O|].
  destruct (fixed_value NA k (x k)) as (b & E & _ & B). apply (C k b) in E. apply (B K) in E. rewrite Edt in E.
  assert (Ev : rate t (at_ i (v (Datatypes.S k))) == rate t (at_ i (v k)) + h * rate t (x k)). { unfold rate. destruct T as [-> | ->]; rewrite V; ring. }
  rewrite <- Ev in E.
  assert (Ed : d (Datatypes.S k) - S == (d k - S) + (h * rate t (at_ i (v k)) + h * rate t (at_ i (v (Datatypes.S k)))) / 2).
  { unfold d, distance, rate in *. destruct T as [-> | ->]; rewrite F, V; field. }
  destruct (exact_step (d k - S) (h * rate t (at_ i (v k))) (h * rate t (at_ i (v (Datatypes.S k)))) (h * X / (D - S))) as [G1 G2].
  - lra.
  - apply Qle_shift_div_l; [lra|]. assert (0 <= h * X) by (apply Qmult_le_0_compat; lra). lra.
  - assert (Q1 : 3 * (h * X / (D - S)) == 3 * (h * X) / (D - S)) by (field; lra). rewrite Q1. apply Qle_shift_div_r; lra.
  - assert (Q1 : - (2 * (h * X / (D - S)) * (d k - S)) == h * - (2 * X * (d k - S) / (D - S))) by (field; lra). rewrite Q1. nra.
  - assert (Q1 : - (h * X / (D - S) * (d k - S)) == h * - (X * (d k - S) / (D - S))) by (field; lra). rewrite Q1. nra.
  - rewrite <- Ed in G1, G2. split; [lra|].
    assert (Q1 : - (2 * (h * X / (D - S)) * (d (Datatypes.S k) - S)) == h * - (2 * X * (d (Datatypes.S k) - S) / (D - S))) by (field; lra). rewrite Q1 in G2.
    apply (Qmult_le_l _ _ h P2). exact G2.
Qed.
End Fixed.

(* ---- C38: automatic damping ---- *)
Lemma distance_step t r f f' h x : f' == f + h * x -> distance t r f' == distance t r f + h * rate t x.
Proof. intros H. destruct t; unfold distance, rate; rewrite H; ring. Qed.
Lemma rate_0 t : rate t 0 == 0.
Proof. destruct t; reflexivity. Qed.
Section Auto.
Variables (vdi vds vxsi : list Q) (voff : option (list Q)) (cf : config) (dt : option Q) (big : Q) (p : damper) (n : nat) (cs : list comp) (t : ctype) (i : nat).
Variables (r : list Q) (f v : nat -> list Q).
Hypothesis H1 : anisotropic vdi vds vxsi voff = Ok cf.
Hypothesis H2 : newDamper dt cf big = Ok p.
Hypothesis H3 : damperImpl n p = Ok cs.
Hypothesis Hi : (i < n)%nat.
Hypothesis T : t = GREATER_THAN \/ t = LOWER_THAN.
Hypothesis Lr : length r = n.
Hypothesis Lf : forall k, length (f k) = n /\ length (v k) = n.
Hypothesis A : isAuto vxsi = true.
Let d k := distance t (at_ i r) (at_ i (f k)).
Let D := param vdi i.
Let S := param vds i.
Let Off := param (match voff with Some l => l | None => repeat 0 (length vdi) end) i.
Let c0 := mkComp S D Off (- / (D - S)) (Some 1) false.
Let ci k := compAt p t c0 (at_ i r) (fun m => at_ i (f m)) (fun m => at_ i (v m)) k.
(* the damping chosen at step j *)
Definition chosen (j : nat) : Q := Off - rate t (at_ i (v j)) * (D - S) / (d j - S).

Lemma after_update : p_auto p = true -> S < D -> forall k, let c' := ci (Datatypes.S k) in active c' = Qle_bool (d k) D /\
  (d k <= D -> if Qeq_bool (d (start D d k) - S) 0 then axsi c' = None else exists ax, axsi c' = Some ax /\ ax == - (chosen (start D d k) / (D - S))).
Proof.
  intros Au SD.
  assert (ST : forall k, fst (updateOne p t (ci k) (at_ i r) (at_ i (f k)) (at_ i (v k))) = activation true (sgn t) (d k) (at_ i (v k)) (ci k)).
  { intros k. unfold updateOne, d, distance, sgn. destruct T as [-> | ->]; cbn [fst]; now rewrite Au. }
  assert (STc : forall k, ds (ci k) = S /\ di (ci k) = D /\ off (ci k) = Off /\ a (ci k) = - / (D - S)).
  { intros k. pose proof (compAt_static p t c0 (at_ i r) (fun m => at_ i (f m)) (fun m => at_ i (v m)) k) as K. exact K. }
  assert (NEW : forall k, active (ci k) = false -> d k <= D -> let c' := ci (Datatypes.S k) in active c' = true /\
     if Qeq_bool (d k - S) 0 then axsi c' = None else exists ax, axsi c' = Some ax /\ ax == - (chosen k / (D - S))).
  { intros k Ac K. cbv zeta. unfold ci at 1 2 3. cbn [compAt]. fold (ci k). cbv beta. rewrite ST. unfold activation. destruct (STc k) as (E1 & E2 & E3 & E4). rewrite E1, E2, E3, E4, Ac.
    rewrite (proj2 (Qle_bool_iff _ _) K). cbn [negb andb active axsi]. split; [reflexivity|].
    destruct (Qeq_bool (d k - S) 0) eqn:E; [reflexivity|]. eexists. split; [reflexivity|].
    assert (N : ~ d k - S == 0) by (intros Z; apply Qeq_bool_iff in Z; congruence). unfold chosen, rate, sgn. destruct T as [-> | ->]; field; split; lra. }
  induction k as [|k IH].
  - destruct (Qlt_le_dec D (d 0%nat)) as [K|K].
    + cbv zeta. split; [|intros; lra]. unfold ci. cbn [compAt]. change (compAt p t c0 (at_ i r) (fun m => at_ i (f m)) (fun m => at_ i (v m)) 0) with (ci 0%nat) in *.
      pose proof (ST 0%nat) as E. unfold ci in E. cbn [compAt] in E. rewrite E. unfold activation. cbn [di c0 active]. rewrite (proj2 (leb_f _ _) K). cbn [andb]. rewrite andb_false_r. reflexivity.
    + destruct (NEW 0%nat eq_refl K) as [N1 N2]. cbv zeta. rewrite (proj2 (Qle_bool_iff _ _) K). split; [exact N1|]. intros _. exact N2.
  - cbv zeta in IH |- *. destruct IH as [IHa IHx].
    destruct (Qlt_le_dec D (d (Datatypes.S k))) as [K|K].
    + split; [|intros; lra]. unfold ci. cbn [compAt]. pose proof (ST (Datatypes.S k)) as E. unfold ci in E. cbn [compAt] in E. rewrite E. clear E.
      change (fst (updateOne p t (compAt p t c0 (at_ i r) (fun m => at_ i (f m)) (fun m => at_ i (v m)) k) (at_ i r) (at_ i (f k)) (at_ i (v k)))) with (ci (Datatypes.S k)).
      unfold activation. destruct (STc (Datatypes.S k)) as (E1 & E2 & E3 & E4). rewrite E2. rewrite (proj2 (leb_f _ _) K). cbn [andb].
      destruct (ltb D (d (Datatypes.S k))) eqn:El; [|apply ltb_f in El; lra]. destruct (active (ci (Datatypes.S k))) eqn:Ea; [reflexivity|exact Ea].
    + rewrite (proj2 (Qle_bool_iff _ _) K). cbn [start]. destruct (Qle_bool (d k) D) eqn:Ek.
      * (* still inside *) apply Qle_bool_iff in Ek. specialize (IHx Ek).
        assert (Eq : ci (Datatypes.S (Datatypes.S k)) = ci (Datatypes.S k)).
        { unfold ci at 1. cbn [compAt]. pose proof (ST (Datatypes.S k)) as E. unfold ci in E. cbn [compAt] in E. rewrite E. clear E.
          change (fst (updateOne p t (compAt p t c0 (at_ i r) (fun m => at_ i (f m)) (fun m => at_ i (v m)) k) (at_ i r) (at_ i (f k)) (at_ i (v k)))) with (ci (Datatypes.S k)).
          unfold activation. rewrite IHa. rewrite andb_false_r. destruct (STc (Datatypes.S k)) as (_ & E2 & _). rewrite E2. rewrite (proj2 (ltb_f _ _) K). reflexivity. }
        rewrite Eq. auto.
      * destruct (NEW (Datatypes.S k) IHa K) as [N1 N2]. split; [exact N1|]. intros _. exact N2.
Qed.
Lemma auto_value k x : d k <= D -> ~ d (start D d k) == S -> exists b, nth_error (valuesAt p t cs r f v k) i = Some (Some b) /\
  (satisfies t x b <-> - (chosen (start D d k) * (d k - S) / (D - S)) <= match dt with Some dt => rate t (at_ i (v k)) + dt * rate t x | None => rate t x end).
Proof.
  intros K N. destruct (built _ _ _ _ _ _ _ _ _ _ _ H1 H2 H3 Hi) as (P1 & P2 & P3 & P4 & P5 & P6 & P7 & P8 & P9 & _ & _ & C). rewrite A in P5, C. fold D S Off in P7, P8, P9, C. fold c0 in C.
  rewrite (valuesAt_at p t cs r f v i c0 k ltac:(congruence) ltac:(intros k'; rewrite P6; apply Lf) C). unfold valueAt. fold (ci k).
  pose proof (value_means p t (ci k) (at_ i r) (at_ i (f k)) (at_ i (v k)) x T) as V. rewrite P1 in V. specialize (V P2). cbv zeta in V. destruct V as [_ V2]. fold (d k) in V2.
  pose proof (compAt_static p t c0 (at_ i r) (fun m => at_ i (f m)) (fun m => at_ i (v m)) k) as Q. cbv zeta in Q. fold (ci k) in Q. destruct Q as (Q1 & Q2 & _). rewrite Q1, Q2 in V2. cbn [ds di c0] in V2. specialize (V2 K).
  destruct (after_update P5 P7 k) as [_ U]. specialize (U K). destruct (Qeq_bool (d (start D d k) - S) 0) eqn:E; [apply Qeq_bool_iff in E; lra|]. destruct U as (ax & U1 & U2).
  unfold ci at 1 in U1. cbn [compAt] in U1. fold (ci k) in U1. cbv beta in U1. rewrite U1 in V2. destruct V2 as (b & V2 & V3). exists b. rewrite V2. split; [reflexivity|]. rewrite V3.
  assert (Q4 : (d k - S) * ax == - (chosen (start D d k) * (d k - S) / (D - S))) by (rewrite U2; field; lra). rewrite Q4. reflexivity.
Qed.
Lemma auto_nan k : d k <= D -> d (start D d k) == S -> nth_error (valuesAt p t cs r f v k) i = Some None.
Proof.
  intros K N. destruct (built _ _ _ _ _ _ _ _ _ _ _ H1 H2 H3 Hi) as (P1 & P2 & P3 & P4 & P5 & P6 & P7 & P8 & P9 & _ & _ & C). rewrite A in P5, C. fold D S Off in P7, P8, P9, C. fold c0 in C.
  rewrite (valuesAt_at p t cs r f v i c0 k ltac:(congruence) ltac:(intros k'; rewrite P6; apply Lf) C). unfold valueAt. fold (ci k).
  pose proof (value_means p t (ci k) (at_ i r) (at_ i (f k)) (at_ i (v k)) 0 T) as V. rewrite P1 in V. specialize (V P2). cbv zeta in V. destruct V as [_ V2]. fold (d k) in V2.
  pose proof (compAt_static p t c0 (at_ i r) (fun m => at_ i (f m)) (fun m => at_ i (v m)) k) as Q. cbv zeta in Q. fold (ci k) in Q. destruct Q as (Q1 & Q2 & _). rewrite Q1, Q2 in V2. cbn [ds di c0] in V2. specialize (V2 K).
  destruct (after_update P5 P7 k) as [_ U]. specialize (U K). destruct (Qeq_bool (d (start D d k) - S) 0) eqn:E; [|assert (X : d (start D d k) - S == 0) by lra; apply Qeq_bool_iff in X; congruence].
  unfold ci in U. cbn [compAt] in U. fold (ci k) in U. cbv beta in U. rewrite U in V2. now rewrite V2.
Qed.
(* at the step where the damper activates, the current velocity (no acceleration at order two) is accepted *)
Lemma auto_activation k : d k <= D -> start D d k = k -> ~ d k == S -> exists b, nth_error (valuesAt p t cs r f v k) i = Some (Some b) /\
  (satisfies t (match dt with Some _ => 0 | None => at_ i (v k) end) b <-> 0 <= Off * (d k - S)).
Proof.
  intros K E N. destruct (built _ _ _ _ _ _ _ _ _ _ _ H1 H2 H3 Hi) as (P1 & P2 & P3 & P4 & P5 & P6 & P7 & _). fold D S in P7.
  destruct (auto_value k (match dt with Some _ => 0 | None => at_ i (v k) end) K) as (b & V & B); [now rewrite E|]. exists b. split; [exact V|]. rewrite B, E.
  assert (Q1 : - (chosen k * (d k - S) / (D - S)) == rate t (at_ i (v k)) - Off * (d k - S) / (D - S)) by (unfold chosen; field; split; lra). rewrite Q1.
  assert (Q2 : 0 <= Off * (d k - S) / (D - S) <-> 0 <= Off * (d k - S)).
  { split; intros Z; [|apply Qle_shift_div_l; lra]. apply (Qmult_le_compat_r _ _ (D - S)) in Z; [|lra]. assert (Q3 : Off * (d k - S) / (D - S) * (D - S) == Off * (d k - S)) by (field; lra). lra. }
  rewrite <- Q2. clear B. case dt; intros; [pose proof (rate_0 t) as R0; set (r0 := rate t 0) in *; assert (R1 : q * r0 == 0) by (rewrite R0; ring)|]; split; lra.
Qed.
Lemma chosen_sign j : S < D -> S < d j -> (0 <= chosen j <-> rate t (at_ i (v j)) * (D - S) <= Off * (d j - S)).
Proof.
  intros SD K. unfold chosen. split; intros Z.
  - assert (Y : 0 <= (Off - rate t (at_ i (v j)) * (D - S) / (d j - S)) * (d j - S)) by (apply Qmult_le_0_compat; lra).
    assert (Q3 : (Off - rate t (at_ i (v j)) * (D - S) / (d j - S)) * (d j - S) == Off * (d j - S) - rate t (at_ i (v j)) * (D - S)) by (field; lra). lra.
  - assert (Q3 : Off - rate t (at_ i (v j)) * (D - S) / (d j - S) == (Off * (d j - S) - rate t (at_ i (v j)) * (D - S)) / (d j - S)) by (field; lra). rewrite Q3. apply Qle_shift_div_l; lra.
Qed.
(* safety when each damping chosen is compatible with the step *)
Lemma auto_safe h (x : nat -> Q) : dt = None -> 0 < h ->
  (forall k b, nth_error (valuesAt p t cs r f v k) i = Some (Some b) -> satisfies t (x k) b) ->
  (forall k, at_ i (f (Datatypes.S k)) == at_ i (f k) + h * x k) ->
  (forall k, D < d k -> - (D - S) <= h * rate t (x k)) ->
  (forall k, d k <= D -> start D d k = k -> S < d k /\ 0 <= chosen k /\ h * chosen k <= D - S) ->
  S <= d 0%nat -> forall k, S <= d k.
Proof.
  intros Edt Hh C F O Ac I0. destruct (built _ _ _ _ _ _ _ _ _ _ _ H1 H2 H3 Hi) as (P1 & P2 & P3 & P4 & P5 & P6 & P7 & _). fold D S in P7.
  assert (St : forall k, start D d (start D d k) = start D d k /\ (d k <= D -> d (start D d k) <= D)).
  { intros k. induction k as [|k [IH IH']]; cbn [start]; [auto|]. destruct (Qle_bool (d k) D) eqn:E; [|cbn [start]; rewrite E; auto].
    split; [exact IH|]. intros _. apply IH'. now apply Qle_bool_iff. }
  induction k as [|k IH]; [exact I0|].
  assert (Ed : d (Datatypes.S k) == d k + h * rate t (x k)). { apply distance_step, F. }
  rewrite Ed. destruct (Qlt_le_dec D (d k)) as [K|K].
  - specialize (O k K). lra.
  - destruct (St k) as [S1 S2]. destruct (Ac (start D d k) (S2 K) S1) as (A1 & A2 & A3).
    destruct (auto_value k (x k) K ltac:(lra)) as (b & E & B). apply (C k b) in E. apply B in E. rewrite Edt in E.
    set (X := chosen (start D d k)) in *.
    assert (0 <= (d k - S) + h * rate t (x k)); [|lra]. apply (safe_step _ _ (h * X / (D - S))); [lra| | |].
    + apply Qle_shift_div_l; [lra|]. assert (0 <= h * X) by (apply Qmult_le_0_compat; lra). lra.
    + apply Qle_shift_div_r; lra.
    + apply (Qmult_le_compat_r _ _ h) in E; [|lra]. assert (Q1 : - (h * X / (D - S) * (d k - S)) == - (X * (d k - S) / (D - S)) * h) by (field; lra). rewrite Q1. lra.
Qed.
End Auto.
Lemma isAuto_f c dt big p l : newDamper dt c big = Ok p -> k_xsi c = l -> (isAuto l = false <-> ~ at_ 0 l == 0).
Proof.
  unfold newDamper. intros H E. rewrite E in H. destruct l as [|x l]; [discriminate|]. unfold isAuto, at_. simpl. split; intros K.
  - intros Z. apply Qeq_bool_iff in Z. congruence.
  - destruct (Qeq_bool x 0) eqn:E'; [|reflexivity]. apply Qeq_bool_iff in E'. contradiction.
Qed.
Lemma isAuto_t c dt big p l : newDamper dt c big = Ok p -> k_xsi c = l -> (isAuto l = true <-> at_ 0 l == 0).
Proof.
  unfold newDamper. intros H E. rewrite E in H. destruct l as [|x l]; [discriminate|]. unfold isAuto, at_. simpl. apply Qeq_bool_iff.
Qed.
Lemma aniso_xsi vdi vds vxsi voff c : anisotropic vdi vds vxsi voff = Ok c -> k_xsi c = vxsi.
Proof. intros H. destruct (aniso_ok _ _ _ _ _ H) as (-> & _). reflexivity. Qed.
