(* The matrices of the selector. *)
From Coq Require Import List Bool Arith ZArith Lia Permutation Sorted.
Import ListNotations.
From Verif Require Import Base JointsModel JointsSpec JointsProofs.
Local Open Scope Z_scope.

Section M.
Context {C : Type}.
Variable zero : C.

Definition hitb (p : Z * Z) (c : nat) : bool := (fst p <=? Z.of_nat c) && (Z.of_nat c <? fst p + snd p).
Lemma hitb_spec : forall p c, hitb p c = true <-> hit p (Z.of_nat c).
Proof. intros p c. unfold hitb, hit. rewrite andb_true_iff, Z.leb_le, Z.ltb_lt. tauto. Qed.

Lemma nth_error_map_seq : forall (f : nat -> option C) n c, (c < n)%nat -> nth_error (map f (seq 0 n)) c = Some (f c).
Proof. intros f n c H. rewrite (map_nth_error f c (seq 0 n) (d := c)); [reflexivity|]. rewrite (nth_error_nth' _ 0%nat) by (rewrite seq_length; exact H). rewrite seq_nth by exact H. reflexivity. Qed.
Lemma nth_error_None_d : forall (m : matrix C) c, (c < length m)%nat -> nth_error m c = Some (nth c m None).
Proof. intros m c H. now apply nth_error_nth'. Qed.

Lemma copyCols_spec : forall (dst src : matrix C) p, inRange dst p = true -> inRange src p = true ->
  exists d, copyCols dst src p = Ok d /\ length d = length dst /\ forall c, (c < length dst)%nat -> nth_error d c = if hitb p c then nth_error src c else nth_error dst c.
Proof.
  intros dst src p H1 H2. unfold copyCols. rewrite H1, H2. cbn [andb]. eexists. split; [reflexivity|]. rewrite map_length, seq_length. split; [reflexivity|]. intros c L.
  rewrite nth_error_map_seq by exact L. fold (hitb p c). destruct (hitb p c) eqn:E; symmetry; apply nth_error_None_d; [|exact L].
  apply hitb_spec in E. unfold hit in E. unfold inRange in H2. apply andb_true_iff in H2 as [_ H2]. apply Z.leb_le in H2. lia.
Qed.
Lemma inRange_len : forall (m m' : matrix C) p, length m = length m' -> inRange m p = inRange m' p.
Proof. intros m m' p H. unfold inRange. now rewrite H. Qed.
Lemma copyAll_spec : forall ps (dst src : matrix C), length dst = length src -> (forall p, In p ps -> inRange dst p = true) ->
  exists d, copyAll dst src ps = Ok d /\ length d = length dst /\
  forall c, (c < length dst)%nat -> nth_error d c = if existsb (fun p => hitb p c) ps then nth_error src c else nth_error dst c.
Proof.
  induction ps as [|p ps IH]; intros dst src L R.
  - exists dst. split; [reflexivity|]. split; reflexivity.
  - cbn [copyAll]. destruct (copyCols_spec dst src p) as (d & E & Ld & V); [apply R; now left|rewrite (inRange_len src dst) by auto; apply R; now left|].
    rewrite E. cbn [bind]. destruct (IH d src) as (d' & E' & L' & V'); [congruence| |].
    + intros q I. rewrite (inRange_len d dst) by auto. apply R. now right.
    + exists d'. split; [exact E'|]. split; [congruence|]. intros c Hc. rewrite V' by congruence. rewrite V by exact Hc. cbn [existsb]. destruct (hitb p c); cbn [orb]; [|reflexivity]. now destruct (existsb _ ps).
Qed.

Definition okQ (idx : list (Z * Z)) (q : nat) (m : option (matrix C)) : Prop :=
  match m with None => idx = [] | Some m => length m = q /\ idx <> [] end.
Definition okFF (ff : bool) (m : option (matrix C)) : Prop := match m with None => ff = false | Some m => length m = 6%nat /\ ff = true end.

Lemma updateFF_spec : forall (m : option (matrix C)) f, (forall d, m = Some d -> length d = 6%nat) -> length f = 6%nat -> exists m', updateFF m f = Ok m' /\ m' = option_map (fun _ => map (@Some C) f) m.
Proof. intros [d|] f H K; cbn [updateFF]; [|eauto]. rewrite (H d eq_refl), K. cbn. eauto. Qed.
Lemma updateQ_spec : forall (m : option (matrix C)) f idx q, (forall d, m = Some d -> length d = q) -> length f = q -> (forall p, In p idx -> 0 <= fst p /\ 0 < snd p /\ fst p + snd p <= Z.of_nat q) ->
  exists m', updateQ m f idx = Ok m' /\ match m, m' with
    | None, None => True
    | Some d, Some d' => length d' = q /\ forall c, (c < q)%nat -> nth_error d' c = if existsb (fun p => hitb p c) idx then option_map Some (nth_error f c) else nth_error d c
    | _, _ => False end.
Proof.
  intros [d|] f idx q H K W; cbn [updateQ]; [|exists None; split; [reflexivity|exact Logic.I]]. specialize (H d eq_refl). destruct (copyAll_spec idx d (map Some f)) as (d' & E & L & V).
  - rewrite map_length. congruence.
  - intros p I. destruct (W p I) as (W1 & W2 & W3). unfold inRange. rewrite !andb_true_iff, !Z.leb_le. lia.
  - rewrite E. cbn [bind]. exists (Some d'). split; [reflexivity|]. split; [congruence|]. intros c Hc. rewrite V by lia. rewrite nth_error_map. reflexivity.
Qed.

(* relation between a matrix before and after updates *)
Definition afterQ (idx : list (Z * Z)) (q : nat) (m m' : option (matrix C)) (f : option (fmat C)) : Prop :=
  match m, m' with
  | None, None => True
  | Some d, Some d' => length d' = q /\ forall c, (c < q)%nat -> nth_error d' c = if existsb (fun p => hitb p c) idx then match f with Some f => option_map Some (nth_error (fQ f) c) | None => nth_error d c end else nth_error d c
  | _, _ => False end.
Definition afterFF (m m' : option (matrix C)) (f : option (fmat C)) : Prop := m' = match f with Some f => option_map (fun _ => map (@Some C) (fFF f)) m | None => m end.

Lemma updates_spec : forall mb (us : list (update C)) s, (forall u, In u us -> fits mb (ofUpdate u)) ->
  (forall d, jacFF s = Some d \/ jdotFF s = Some d -> length d = 6%nat) -> (forall d, jacQ s = Some d \/ jdotQ s = Some d -> length d = Z.to_nat (qsize mb)) ->
  (forall p, In p (activeIndex s) -> within mb p) ->
  exists s', updates s us = Ok s' /\ ffActive s' = ffActive s /\ activeIndex s' = activeIndex s /\
  afterFF (jacFF s) (jacFF s') (lastJac us) /\ afterQ (activeIndex s) (Z.to_nat (qsize mb)) (jacQ s) (jacQ s') (lastJac us) /\
  afterFF (jdotFF s) (jdotFF s') (lastJDot us) /\ afterQ (activeIndex s) (Z.to_nat (qsize mb)) (jdotQ s) (jdotQ s') (lastJDot us).
Proof.
  intros mb. induction us as [|u us IH]; intros s F L6 LQ W.
  - exists s. cbn [updates lastJac lastJDot]. repeat match goal with |- _ /\ _ => split end; try reflexivity; unfold afterQ.
    + destruct (jacQ s) as [d|] eqn:E; [|trivial]. split; [now apply LQ; left|]. intros c _. now destruct (existsb _ _).
    + destruct (jdotQ s) as [d|] eqn:E; [|trivial]. split; [now apply LQ; right|]. intros c _. now destruct (existsb _ _).
  - assert (FU : fits mb (ofUpdate u)) by (apply F; now left). assert (FT : forall v, In v us -> fits mb (ofUpdate v)) by (intros v I; apply F; now right).
    assert (W' : forall p, In p (activeIndex s) -> 0 <= fst p /\ 0 < snd p /\ fst p + snd p <= Z.of_nat (Z.to_nat (qsize mb))).
    { intros p I. destruct (W p I) as (A & B & D). lia. }
    destruct u as [f|f]; cbn [ofUpdate updates lastJac lastJDot] in *; destruct FU as [F6 FQ].
    + destruct (updateFF_spec (jacFF s) (fFF f)) as (a & A1 & A2); [intros d E; apply L6; auto|exact F6|].
      destruct (updateQ_spec (jacQ s) (fQ f) (activeIndex s) (Z.to_nat (qsize mb))) as (b & B1 & B2); [intros d E; apply LQ; auto|exact FQ|exact W'|].
      unfold updateJacobian. rewrite A1. cbn [bind]. rewrite B1. cbn [bind].
      destruct (IH (mkSel (ffActive s) (activeIndex s) a b (jdotFF s) (jdotQ s)) FT) as (s' & S1 & S2 & S3 & S4 & S5 & S6 & S7); cbn [jacFF jacQ jdotFF jdotQ activeIndex ffActive] in *.
      * intros d [E|E]; [|apply L6; auto]. subst a. destruct (jacFF s); [|discriminate]. cbn in E. injection E as <-. now rewrite map_length.
      * intros d [E|E]; [|apply LQ; auto]. subst b. destruct (jacQ s); [apply B2|contradiction].
      * exact W.
      * exists s'. repeat match goal with |- _ /\ _ => split end; auto.
        -- unfold afterFF in *. rewrite S4. destruct (lastJac us) as [g|]; [|exact A2]. subst a. destruct (jacFF s); reflexivity.
        -- unfold afterQ in *. destruct (jacQ s) as [d|], b as [d1|], (jacQ s') as [d2|]; try contradiction; auto. destruct B2 as [B2 B3]. destruct S5 as [S5 S8].
           split; [exact S5|]. intros c Hc. rewrite S8 by exact Hc. rewrite B3 by exact Hc. destruct (lastJac us); destruct (existsb _ _); reflexivity.
        -- destruct (lastJDot us); exact S6.
        -- destruct (lastJDot us); exact S7.
    + destruct (updateFF_spec (jdotFF s) (fFF f)) as (a & A1 & A2); [intros d E; apply L6; auto|exact F6|].
      destruct (updateQ_spec (jdotQ s) (fQ f) (activeIndex s) (Z.to_nat (qsize mb))) as (b & B1 & B2); [intros d E; apply LQ; auto|exact FQ|exact W'|].
      unfold updateJDot. rewrite A1. cbn [bind]. rewrite B1. cbn [bind].
      destruct (IH (mkSel (ffActive s) (activeIndex s) (jacFF s) (jacQ s) a b) FT) as (s' & S1 & S2 & S3 & S4 & S5 & S6 & S7); cbn [jacFF jacQ jdotFF jdotQ activeIndex ffActive] in *.
      * intros d [E|E]; [apply L6; auto|]. subst a. destruct (jdotFF s); [|discriminate]. cbn in E. injection E as <-. now rewrite map_length.
      * intros d [E|E]; [apply LQ; auto|]. subst b. destruct (jdotQ s); [apply B2|contradiction].
      * exact W.
      * exists s'. repeat match goal with |- _ /\ _ => split end; auto.
        -- destruct (lastJac us); exact S4.
        -- destruct (lastJac us); exact S5.
        -- unfold afterFF in *. rewrite S6. destruct (lastJDot us) as [g|]; [|exact A2]. subst a. destruct (jdotFF s); reflexivity.
        -- unfold afterQ in *. destruct (jdotQ s) as [d|], b as [d1|], (jdotQ s') as [d2|]; try contradiction; auto. destruct B2 as [B2 B3]. destruct S7 as [S7 S8].
           split; [exact S7|]. intros c Hc. rewrite S8 by exact Hc. rewrite B3 by exact Hc. destruct (lastJDot us); destruct (existsb _ _); reflexivity.
Qed.

Lemma nth_error_rep : forall (A : Type) (v : A) n c, (c < n)%nat -> nth_error (repeat v n) c = Some v.
Proof. intros A v. induction n as [|n IH]; intros [|c] H; cbn; try lia; auto. apply IH. lia. Qed.

Lemma after_selected : forall mb l idx (w : option C) m' f, (forall c, (exists p, In p idx /\ hit p (Z.of_nat c)) <-> activeCol mb l c) ->
  (forall g, f = Some g -> fits mb g) -> afterQ idx (Z.to_nat (qsize mb)) (Some (repeat w (Z.to_nat (qsize mb)))) m' f ->
  exists d, m' = Some d /\ selected mb l d f w.
Proof.
  intros mb l idx w m' f H F A. destruct m' as [d|]; [|destruct A]. exists d. split; [reflexivity|]. destruct A as [L V]. split; [exact L|]. intros c Hc. rewrite L in Hc. specialize (V c Hc).
  rewrite nth_error_rep in V by exact Hc.
  assert (E : existsb (fun p => hitb p c) idx = true <-> activeCol mb l c).
  { rewrite <- H, existsb_exists. split; intros (p & I & B); exists p; (split; [exact I|]); now apply hitb_spec. }
  split; intros K.
  - apply E in K. rewrite K in V. destruct f as [g|]; [|exact V]. rewrite V. destruct (F g eq_refl) as [_ Fq]. destruct (nth_error (fQ g) c) eqn:N; [reflexivity|].
    apply nth_error_None in N. unfold qsize in Hc. lia.
  - destruct (existsb _ _); [exfalso; apply K, E; reflexivity|exact V].
Qed.

Lemma last_fits : forall mb (us : list (update C)), (forall u, In u us -> fits mb (ofUpdate u)) ->
  (forall g, lastJac us = Some g -> fits mb g) /\ (forall g, lastJDot us = Some g -> fits mb g).
Proof.
  intros mb. induction us as [|u us IH]; intros F; [split; discriminate|]. destruct IH as [I1 I2]; [intros v I; apply F; now right|]. specialize (F u (or_introl eq_refl)).
  cbn [lastJac lastJDot]. split; intros g E.
  - destruct (lastJac us); [apply I1; congruence|]. destruct u; [|discriminate]. injection E as <-. exact F.
  - destruct (lastJDot us); [apply I2; congruence|]. destruct u; [discriminate|]. injection E as <-. exact F.
Qed.

Theorem selector_spec : forall mb l sorted usesFF usesQ (us : list (update C)),
  NoDup (map jname mb) -> mb <> [] -> known mb l -> ffOnce mb l -> sortOf mb l sorted -> checkVariables mb usesFF usesQ = true ->
  (forall u, In u us -> fits mb (ofUpdate u)) ->
  exists s s', ActiveJoints zero mb usesFF usesQ sorted = Ok s /\ updates s us = Ok s' /\
  (activeFF mb l -> jacFF s' = Some (match lastJac us with Some f => map (@Some C) (fFF f) | None => repeat (Some zero) 6 end) /\ (forall f, lastJDot us = Some f -> jdotFF s' = Some (map (@Some C) (fFF f)))) /\
  (~ activeFF mb l -> jacFF s' = None /\ jdotFF s' = None) /\
  (activeQ mb l -> exists d d', jacQ s' = Some d /\ selected mb l d (lastJac us) (Some zero) /\ jdotQ s' = Some d' /\ selected mb l d' (lastJDot us) None) /\
  (~ activeQ mb l -> jacQ s' = None /\ jdotQ s' = None).
Proof.
  intros mb l sorted uf uq us ND NE K O S CV F. destruct (select_spec mb l sorted ND NE K O S) as (ff & idx & E & B & W & Hc & Q).
  unfold ActiveJoints. rewrite CV, E. cbn [negb bind]. set (s := construct zero mb (ff, idx)). exists s.
  assert (Lq : forall v, length (cols (C := C) (Z.of_nat (nrDof mb) - ffSize mb) v) = Z.to_nat (qsize mb)) by (intros v; apply repeat_length).
  destruct (updates_spec mb us s F) as (s' & U & _ & _ & A1 & A2 & A3 & A4).
  - intros d [D|D]; unfold s, construct in D; cbn [jacFF jdotFF] in D; destruct ff; try discriminate; injection D as <-; reflexivity.
  - intros d [D|D]; unfold s, construct in D; cbn [jacQ jdotQ] in D; destruct idx; try discriminate; injection D as <-; apply Lq.
  - exact W.
  - exists s'. split; [reflexivity|]. split; [exact U|]. destruct (last_fits mb us F) as [F1 F2].
    unfold s, construct in A1, A2, A3, A4. cbn [jacFF jacQ jdotFF jdotQ activeIndex] in *. split; [|split; [|split]].
    + intros H. apply B in H. subst ff. unfold afterFF in A1, A3. split.
      * rewrite A1. destruct (lastJac us); reflexivity.
      * intros f Hf. rewrite A3, Hf. reflexivity.
    + intros H. destruct ff; [exfalso; apply H, B; reflexivity|]. unfold afterFF in A1, A3. rewrite A1, A3. split; [destruct (lastJac us)|destruct (lastJDot us)]; reflexivity.
    + intros H. apply Q in H. destruct idx as [|p idx]; [congruence|].
      destruct (after_selected mb l (p :: idx) (Some zero) (jacQ s') (lastJac us) Hc F1 A2) as (d & D1 & D2).
      destruct (after_selected mb l (p :: idx) None (jdotQ s') (lastJDot us) Hc F2 A4) as (d' & D3 & D4). exists d, d'. auto.
    + intros H. destruct idx as [|p idx]; [|exfalso; apply H, Q; discriminate]. unfold afterQ in A2, A4. destruct (jacQ s'), (jdotQ s'); try contradiction. auto.
Qed.
End M.

Lemma activeOf_spec : forall mb inactive n, NoDup (map jname mb) -> (In n (activeOf mb inactive) <-> In n (map jname mb) /\ ~ In n inactive).
Proof.
  intros mb inactive n ND. unfold activeOf. rewrite !in_map_iff. split.
  - intros (j & <- & I). apply filter_In in I as [I B]. split; [exists j; auto|]. intros K. apply negb_true_iff in B. assert (existsb (Nat.eqb (jname j)) inactive = true) by (apply existsb_exists; exists (jname j); split; [exact K|apply Nat.eqb_refl]). congruence.
  - intros ((j & <- & I) & K). exists j. split; [reflexivity|]. apply filter_In. split; [exact I|]. apply negb_true_iff. destruct (existsb _ _) eqn:E; [|reflexivity]. exfalso. apply existsb_exists in E as (x & X & Y). apply Nat.eqb_eq in Y. subst x. contradiction.
Qed.
Lemma activeOf_once : forall mb inactive, NoDup (map jname mb) -> known mb (activeOf mb inactive) /\ ffOnce mb (activeOf mb inactive).
Proof.
  intros mb inactive ND. split; [intros n H; now apply activeOf_spec in H|]. intros r _ _. apply (proj1 (NoDup_count_occ Nat.eq_dec _)). unfold activeOf.
  clear r. induction mb as [|j mb IH]; [constructor|]. cbn [map filter] in *. inversion ND as [|x xs N1 N2]; subst. destruct (negb _); [|now apply IH]. cbn [map]. constructor; [|now apply IH].
  intros I. apply N1. apply in_map_iff in I as (j' & E & I). apply filter_In in I as [I _]. apply in_map_iff. eauto.
Qed.

(* sorting is possible *)
Fixpoint ins (mb : mbody) (n : nat) (l : list nat) : list nat :=
  match l with
  | [] => [n]
  | x :: l' => match key mb n, key mb x with Some a, Some b => if Nat.leb a b then n :: l else x :: ins mb n l' | _, _ => n :: l end
  end.
Definition isort (mb : mbody) (l : list nat) : list nat := fold_right (ins mb) [] l.
Lemma ins_perm : forall mb n l, Permutation (n :: l) (ins mb n l).
Proof.
  intros mb n. induction l as [|x l IH]; cbn [ins]; [reflexivity|]. destruct (key mb n); [|reflexivity]. destruct (key mb x); [|reflexivity]. destruct (Nat.leb _ _); [reflexivity|].
  rewrite perm_swap. now constructor.
Qed.
Lemma isort_ok : forall mb l, known mb l -> sortOf mb l (isort mb l).
Proof.
  intros mb. assert (KK : forall n, In n (map jname mb) -> exists a, key mb n = Some a).
  { intros n I. destruct (index_known mb n I) as (k & j & E & _). unfold key. rewrite E. cbn. eauto. }
  induction l as [|n l IH]; intros K.
  - split; [constructor|constructor].
  - destruct IH as [P S]; [intros x I; apply K; now right|]. split.
    + cbn [isort fold_right]. rewrite <- ins_perm. now constructor.
    + cbn [isort fold_right]. fold (isort mb l). assert (KS : forall x, In x (isort mb l) -> exists a, key mb x = Some a).
      { intros x I. apply KK, K. right. apply (Permutation_in (l := isort mb l)); [now apply Permutation_sym|exact I]. }
      destruct (KK n) as (a & A); [apply K; now left|]. clear P K. induction (isort mb l) as [|x s IHs]; cbn [ins].
      * constructor; constructor.
      * rewrite A. destruct (KS x (or_introl eq_refl)) as (b & Hb). rewrite Hb. apply StronglySorted_inv in S as [S1 S2]. destruct (Nat.leb_spec a b) as [L|L].
        -- constructor; [constructor; assumption|]. constructor; [exists a, b; auto|]. rewrite Forall_forall in *. intros y Iy. destruct (S2 y Iy) as (u & v & U & V & Le). assert (u = b) by congruence. subst u. exists a, v. repeat split; auto. lia.
        -- constructor; [apply IHs; auto; intros y Iy; apply KS; now right|]. rewrite Forall_forall in *. intros y Iy. apply (Permutation_in (l' := n :: s)) in Iy; [|apply Permutation_sym, ins_perm]. destruct Iy as [<-|Iy]; [exists b, a; repeat split; auto; lia|]. now apply S2.
Qed.

Lemma ff_le : forall mb, ffSize mb <= Z.of_nat (nrDof mb).
Proof. intros [|j mb]; unfold ffSize; cbn [hasFF]; [cbn; lia|]. destruct (Nat.eqb_spec (jdof j) 6); [|lia]. rewrite nrDof_cons. lia. Qed.
Lemma uses_check : forall mb uf uq, usesRobot mb uf uq <-> checkVariables mb uf uq = true.
Proof.
  intros mb uf uq. unfold usesRobot, checkVariables. pose proof (ff_le mb) as L. assert (0 <= ffSize mb) by (unfold ffSize; destruct (hasFF mb); lia).
  rewrite andb_true_iff, !orb_true_iff, negb_true_iff, Z.eqb_eq. split.
  - intros [A B]. split; [destruct (hasFF mb); [right; auto|now left]|]. destruct (Z.eq_dec (Z.of_nat (nrDof mb) - ffSize mb) 0) as [E|E]; [now left|right]. apply B. lia.
  - intros [A B]. split; [intros E; destruct A as [A|A]; [congruence|exact A]|]. intros E. destruct B as [B|B]; [lia|exact B].
Qed.
Theorem selector_all : forall (C : Type) (zero : C) mb l sorted usesFF usesQ (us : list (update C)),
  NoDup (map jname mb) -> mb <> [] -> known mb l -> ffOnce mb l -> sortOf mb l sorted -> usesRobot mb usesFF usesQ ->
  (forall u, In u us -> fits mb (ofUpdate u)) ->
  exists s s', ActiveJoints zero mb usesFF usesQ sorted = Ok s /\ updates s us = Ok s' /\
  (activeFF mb l -> jacFF s' = Some (match lastJac us with Some f => map (@Some C) (fFF f) | None => repeat (Some zero) 6 end) /\ (forall f, lastJDot us = Some f -> jdotFF s' = Some (map (@Some C) (fFF f)))) /\
  (~ activeFF mb l -> jacFF s' = None /\ jdotFF s' = None) /\
  (activeQ mb l -> exists d d', jacQ s' = Some d /\ selected mb l d (lastJac us) (Some zero) /\ jdotQ s' = Some d' /\ selected mb l d' (lastJDot us) None) /\
  (~ activeQ mb l -> jacQ s' = None /\ jdotQ s' = None).
Proof. intros C zero mb l sorted uf uq us ND NE K O S U F. apply selector_spec; auto. now apply uses_check. Qed.
Theorem selector_throws : forall (C : Type) (zero : C) mb l sorted usesFF usesQ,
  NoDup (map jname mb) -> mb <> [] -> known mb l -> ffOnce mb l -> sortOf mb l sorted ->
  (ActiveJoints zero mb usesFF usesQ sorted = Throw <-> ~ usesRobot mb usesFF usesQ).
Proof.
  intros C zero mb l sorted uf uq ND NE K O S. rewrite uses_check. split.
  - intros H E. destruct (selector_spec zero mb l sorted uf uq [] ND NE K O S E) as (s & s' & A & _); [intros u []|]. congruence.
  - intros H. unfold ActiveJoints. apply not_true_is_false in H. now rewrite H.
Qed.
Lemma activeFF_of : forall mb l l', (forall n, In n l <-> In n l') -> (activeFF mb l <-> activeFF mb l').
Proof. intros mb l l' H. unfold activeFF. split; intros (A & r & B & I); (split; [exact A|]); exists r; (split; [exact B|]); now apply H. Qed.
(* An unknown name is never accepted. *)
Lemma scan_unknown : forall mb n, ~ In n (map jname mb) -> forall joints acc start size r, scan mb joints acc start size = Ok r -> ~ In n joints.
Proof.
  intros mb n K. induction joints as [|j joints IH]; intros acc start size r H I; [destruct I|]. cbn [scan] in H. destruct (jointIndexByName mb j) as [k|] eqn:E; [|discriminate].
  destruct I as [->|I].
  - destruct (index_spec _ _ _ E) as (x & X1 & X2). apply K. rewrite <- X2. apply in_map. eapply nth_error_In; eauto.
  - destruct (negb _); eapply IH; eauto.
Qed.
