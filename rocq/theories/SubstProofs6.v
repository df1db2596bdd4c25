(* Proofs for C33: when the updates are defined. *)
From Coq Require Import List Bool Arith QArith Lia.
Import ListNotations.
From Verif Require Import Base QSum SubstModel SubstSpec SubstProofs SubstProofs2 SubstProofs3 SubstProofs4 SubstProofs5.
Local Open Scope nat_scope.

Section G.
Variable sz : nat -> nat.

Lemma andFlags_false uz : forall ls, andFlags ls false uz = Ok false.
Proof. induction ls as [|x ls IH]; simpl; auto. Qed.
Lemma setFlag_only l : forall i b l', setFlag l i b = Ok l' -> i < length l /\ length l' = length l.
Proof.
  induction l as [|x l IH]; intros i b l' E; [destruct i; discriminate|]. destruct i as [|i]; simpl in E.
  - injection E as <-. simpl. lia.
  - destruct (setFlag l i b) as [l1| |] eqn:E1; try discriminate. simpl in E. injection E as <-. destruct (IH _ _ _ E1). simpl. lia.
Qed.

Section Data.
Variable jac : nat -> nat -> nat -> mat.
Variable e : nat -> nat -> vec.
Variable cal : nat -> calc.

Definition accOk (nc nx : nat) (r : urec) : Prop :=
  forall cr, In cr (u_cs r) -> k_idx cr < nc /\ (k_rhs cr = ZERO -> forall x, In x (k_X cr) -> x_idx x < nx).
Lemma updCsts_acc k : forall l s z, (forall cr, In cr l -> k_idx cr < length (cIsZero s) /\ (k_rhs cr = ZERO -> forall x, In x (k_X cr) -> x_idx x < length (uIsZero s))) ->
  exists s' z', updCsts sz jac e cal k l s z = Ok (s', z') /\ length (cIsZero s') = length (cIsZero s) /\ uIsZero s' = uIsZero s.
Proof.
  induction l as [|cr l IH]; intros s z H; [do 2 eexists; split; [reflexivity|split; reflexivity]|]. cbn [updCsts].
  destruct (H cr (or_introl eq_refl)) as [H1 H2]. unfold updCst.
  assert (exists b, andFlags (k_X cr) (isZeroRhs (k_rhs cr)) (uIsZero s) = Ok b) as (b & Eb).
  { destruct (k_rhs cr) eqn:R; cbn [isZeroRhs]; [apply andFlags_Ok; auto| |]; exists false; apply andFlags_false. }
  rewrite Eb. cbn [bind].
  destruct (setFlag_Ok (cIsZero s) (k_idx cr) b H1) as (cz & Ec & Lc). rewrite Ec. cbn [bind fst snd].
  match goal with |- context [updCsts _ _ _ _ _ _ ?s1 ?z1] => destruct (IH s1 z1) as (s' & z' & E' & L' & U') end.
  - cbn [cIsZero uIsZero]. rewrite Lc. intros cr' I. apply H. now right.
  - cbn [cIsZero uIsZero] in L', U'. exists s', z'. rewrite L', U', Lc. auto.
Qed.
Lemma update_acc : forall l s, (forall r, In r l -> accOk (length (cIsZero s)) (length (uIsZero s)) r /\ u_k r < length (uIsZero s)) ->
  exists s', update sz jac e cal l s = Ok s' /\ length (cIsZero s') = length (cIsZero s) /\ length (uIsZero s') = length (uIsZero s).
Proof.
  induction l as [|r l IH]; intros s H; [eexists; split; [reflexivity|split; reflexivity]|]. cbn [update]. unfold updSub.
  destruct (H r (or_introl eq_refl)) as [H1 H2].
  destruct (updCsts_acc (u_k r) (u_cs r) s true H1) as (s1 & z1 & E1 & L1 & U1). rewrite E1. cbn [bind].
  rewrite U1. destruct (setFlag_Ok (uIsZero s) (u_k r) z1 H2) as (uz & Eu & Lu). rewrite Eu. cbn [bind].
  match goal with |- context [update _ _ _ _ l ?s2] => destruct (IH s2) as (s' & E' & A & B) end.
  - cbn [cIsZero uIsZero]. rewrite L1, Lu. intros r' I. apply H. now right.
  - exists s'. cbn [cIsZero uIsZero] in A, B. rewrite A, B, L1, Lu. auto.
Qed.
Lemma updCsts_only k : forall l s z s' z', updCsts sz jac e cal k l s z = Ok (s', z') ->
  length (cIsZero s') = length (cIsZero s) /\ forall cr, In cr l -> k_idx cr < length (cIsZero s).
Proof.
  induction l as [|cr l IH]; intros s z s' z' E; cbn [updCsts] in E; [injection E as <- _; split; [reflexivity|intros ? []]|].
  unfold updCst in E. destruct (andFlags _ _ _) as [b| |]; try discriminate. cbn [bind] in E.
  destruct (setFlag (cIsZero s) (k_idx cr) b) as [cz| |] eqn:Ec; try discriminate. cbn [bind fst snd] in E.
  destruct (setFlag_only _ _ _ _ Ec) as [L1 L2]. destruct (IH _ _ _ _ E) as [A C]. cbn [cIsZero] in A, C.
  split; [congruence|]. intros cr' [<-|I]; [exact L1|]. rewrite <- L2. exact (C cr' I).
Qed.
Lemma update_only : forall l s s', update sz jac e cal l s = Ok s' ->
  length (cIsZero s') = length (cIsZero s) /\ forall r cr, In r l -> In cr (u_cs r) -> k_idx cr < length (cIsZero s).
Proof.
  induction l as [|r l IH]; intros s s' E; cbn [update] in E; [injection E as <-; split; [reflexivity|intros ? ? []]|].
  unfold updSub in E. destruct (updCsts _ _ _ _ _ _ s true) as [[s1 z1]| |] eqn:E1; try discriminate. cbn [bind] in E.
  destruct (setFlag (uIsZero s1) (u_k r) z1) as [uz| |]; try discriminate. cbn [bind] in E.
  destruct (updCsts_only _ _ _ _ _ _ E1) as [A C]. destruct (IH _ _ E) as [A' C']. cbn [cIsZero] in A', C'.
  split; [congruence|]. intros r' cr [<-|I] J; [exact (C cr J)|]. rewrite <- A. exact (C' r' cr I J).
Qed.
End Data.

(* the indices of the constraints go up to the last one *)
Lemma scanCs_last prev own : forall cs idx loc row, cs <> [] -> exists cr, In cr (scanCs prev own cs idx loc row) /\ k_idx cr + 1 = idx + length cs.
Proof.
  induction cs as [|cc cs IH]; intros idx loc row H; [congruence|]. destruct cs as [|c2 cs].
  - eexists. split; [left; reflexivity|]. cbn. lia.
  - destruct (IH (S idx) (S loc) (row + c_size cc)) as (cr & I & E); [discriminate|]. exists cr. split; [right; exact I|]. cbn in *. lia.
Qed.
Lemma scan_last : forall l t, flat_map s_cs l <> [] -> exists r cr, In r (scan sz t l) /\ In cr (u_cs r) /\ k_idx cr + 1 = t_c t + length (flat_map s_cs l).
Proof.
  induction l as [|s l IH]; intros t H; [cbn in H; congruence|]. cbn [flat_map] in H |- *. rewrite app_length. cbn [scan].
  destruct (flat_map s_cs l) as [|c0 cs0] eqn:F.
  - rewrite app_nil_r in H. destruct (scanCs_last (t_x t) (s_xs s) (s_cs s) (t_c t) 0 (t_m t) H) as (cr & I & E).
    exists (scanOne sz t s), cr. split; [left; reflexivity|]. split; [exact I|]. cbn [length]. lia.
  - destruct (IH (next t s (scanOne sz t s))) as (r & cr & I & J & E); [discriminate|]. exists r, cr. split; [right; exact I|]. split; [exact J|].
    cbn [next t_c] in E. lia.
Qed.

(* the variable with index i is the i-th substituted one *)
Definition placed (xs : list nat) (x : xrec) : Prop := nth_error xs (x_idx x) = Some (x_v x).
Lemma placed_app xs ys x : placed xs x -> placed (xs ++ ys) x.
Proof. unfold placed. intros H. rewrite nth_error_app1; [exact H|]. apply nth_error_Some. congruence. Qed.
Lemma scanXs_placed k Y Zl : forall xs pre row off x, In x (scanXs sz k xs (length pre) row off Y Zl) -> placed (pre ++ xs) x.
Proof.
  induction xs as [|v xs IH]; intros pre row off x I; [destruct I|]. cbn [scanXs] in I. destruct I as [<-|I].
  - unfold placed. cbn. rewrite nth_error_app2 by lia. rewrite Nat.sub_diag. reflexivity.
  - replace (S (length pre)) with (length (pre ++ [v])) in I by (rewrite app_length; cbn; lia). pose proof (IH (pre ++ [v]) _ _ x I) as Q. rewrite <- app_assoc in Q. exact Q.
Qed.
Lemma collect_v vs : forall l x, In x (collect vs l) -> In (x_v x) vs.
Proof.
  induction vs as [|v vs IH]; intros l x I; [destruct I|]. cbn [collect] in I. destruct (lookup v l) as [y|] eqn:E; [|right; eauto].
  destruct I as [<-|I]; [|right; eauto]. left. clear IH. induction l as [|z l IHl]; [discriminate|]. cbn in E. destruct (Nat.eqb_spec (x_v z) v); [congruence|auto].
Qed.
Lemma scanCs_zero prev own : forall cs idx loc row cr, In cr (scanCs prev own cs idx loc row) ->
  exists cc, In cc cs /\ c_rhs cc = k_rhs cr /\ forall x, In x (k_X cr) -> In x prev /\ In (x_v x) (c_vars cc) /\ ~ In (x_v x) own.
Proof.
  induction cs as [|cc cs IH]; intros idx loc row cr I; [destruct I|]. cbn [scanCs] in I. destruct I as [<-|I].
  - exists cc. split; [left; reflexivity|]. split; [reflexivity|]. cbn [k_X]. intros x Ix. destruct (collect_In _ _ _ Ix) as [A _]. split; [exact A|].
    pose proof (collect_v _ _ _ Ix) as V. apply filter_In in V. destruct V as [V1 V2]. split; [exact V1|]. apply negb_true_iff in V2. now apply mem_not in V2.
  - destruct (IH _ _ _ _ I) as (c2 & A & B). exists c2. split; [right; exact A|exact B].
Qed.
Lemma scan_placed : forall l t pre, length (t_x t) = length pre -> (forall x, In x (t_x t) -> placed pre x) ->
  forall r cr, In r (scan sz t l) -> In cr (u_cs r) -> exists s cc, In s l /\ In cc (s_cs s) /\ c_rhs cc = k_rhs cr /\
    forall x, In x (k_X cr) -> placed (pre ++ flat_map s_xs l) x /\ In (x_v x) (c_vars cc) /\ ~ In (x_v x) (s_xs s).
Proof.
  induction l as [|s l IH]; intros t pre L P r cr I J; [destruct I|]. cbn [scan] in I. destruct I as [<-|I].
  - cbn [u_cs scanOne] in J. destruct (scanCs_zero _ _ _ _ _ _ _ J) as (cc & A & B & C). exists s, cc. split; [left; reflexivity|].
    split; [exact A|]. split; [exact B|]. intros x Ix. destruct (C x Ix) as (D & E). split; [|exact E]. apply placed_app. exact (P x D).
  - destruct (IH (next t s (scanOne sz t s)) (pre ++ s_xs s)) with (r := r) (cr := cr) as (s' & cc & A & B & C & D); auto.
    + cbn [next t_x]. rewrite !app_length. cbn [u_xs scanOne]. now rewrite scanXs_length, L.
    + intros x Ix. cbn [next t_x] in Ix. apply in_app_iff in Ix. destruct Ix as [Ix|Ix]; [apply placed_app; auto|].
      cbn [u_xs scanOne] in Ix. rewrite L in Ix. exact (scanXs_placed _ _ _ _ _ _ _ _ Ix).
    + exists s', cc. split; [right; exact A|]. split; [exact B|]. split; [exact C|]. intros x Ix. destruct (D x Ix) as (E & F). split; [|exact F].
      rewrite <- app_assoc in E. exact E.
Qed.
End G.

Lemma cut {A} (l : list A) n i v : nth_error l i = Some v -> ~ In v (skipn n l) -> i < n.
Proof.
  intros E H. destruct (Nat.lt_ge_cases i n) as [L|L]; [exact L|]. exfalso. apply H.
  rewrite <- (firstn_skipn n l) in E. assert (length (firstn n l) <= n) by apply firstn_le_length.
  destruct (Nat.lt_ge_cases i (length (firstn n l))); [lia|]. rewrite nth_error_app2 in E by lia. exact (nth_error_In _ _ E).
Qed.
Lemma start_lengths sz l s0 : length (cIsZero (initialize (scan sz start l) s0)) = length (flat_map s_xs l) /\ length (uIsZero (initialize (scan sz start l) s0)) = length l.
Proof. unfold initialize; cbn [cIsZero uIsZero]; rewrite !map_length. split; [rewrite <- (scan_vars sz l start), map_length; reflexivity|apply scan_length]. Qed.
Lemma defined_if sz l s0 ds : length (flat_map s_cs l) <= length (flat_map s_xs l) ->
  (forall s c v, In s l -> In c (s_cs s) -> c_rhs c = ZERO -> In v (c_vars c) -> ~ In v (s_xs s) -> ~ In v (skipn (length l) (flat_map s_xs l))) ->
  exists s, unitAfter sz l s0 ds = Ok s.
Proof.
  intros H1 H2. unfold unitAfter.
  assert (G : forall s, length (cIsZero s) = length (flat_map s_xs l) -> length (uIsZero s) = length l ->
    exists s', updates sz (scan sz start l) ds s = Ok s').
  { induction ds as [|d ds IH]; intros s L1 L2; [eexists; reflexivity|]. simpl.
    destruct (update_acc sz (d_jac d) (d_e d) (d_cal d) (scan sz start l) s) as (s1 & E & A & C).
    - intros r I. split.
      + intros cr J. split.
        * pose proof (scan_idx sz l start (fun x (F : In x []) => match F with end) r I) as Hi. destruct (Hi cr J) as [Hi1 _]. cbn [start t_c] in Hi1. lia.
        * intros Z0 x Ix. destruct (scan_placed sz l start [] eq_refl (fun x (F : In x []) => match F with end) r cr I J) as (s' & cc & K1 & K2 & K3 & K4).
          destruct (K4 x Ix) as (P & V1 & V2). cbn [app] in P. rewrite L2. apply (cut _ _ _ _ P). apply (H2 s' cc (x_v x) K1 K2); congruence.
      + apply In_nth_error in I. destruct I as (i & E). rewrite (scan_k sz _ _ _ _ E). cbn [start t_k].
        assert (nth_error (scan sz start l) i <> None) by congruence. apply nth_error_Some in H. rewrite scan_length in H. lia.
    - rewrite E. simpl. apply IH; congruence. }
  destruct (start_lengths sz l s0). apply G; assumption.
Qed.
Lemma defined_only_if sz l s0 d ds s : unitAfter sz l s0 (d :: ds) = Ok s -> length (flat_map s_cs l) <= length (flat_map s_xs l).
Proof.
  unfold unitAfter. cbn [updates]. intros E. destruct (update _ _ _ _ _ _) as [s1| |] eqn:E1; try discriminate.
  destruct (update_only sz _ _ _ _ _ _ E1) as [_ H]. rewrite (proj1 (start_lengths sz l s0)) in H.
  destruct (flat_map s_cs l) as [|c0 cs] eqn:F; [cbn; lia|].
  destruct (scan_last sz l start) as (r & cr & I & J & K); [rewrite F; discriminate|]. specialize (H r cr I J). rewrite F in K. cbn [start t_c] in K. lia.
Qed.
(* nothing throws *)
Lemma setFlag_nt l : forall i b, setFlag l i b <> Throw.
Proof. induction l as [|x l IH]; intros i b; [destruct i; discriminate|]. destruct i; cbn; [discriminate|]. specialize (IH i b). destruct (setFlag l i b); cbn; congruence. Qed.
Lemma andFlags_nt uz : forall ls b, andFlags ls b uz <> Throw.
Proof. induction ls as [|x ls IH]; intros b; cbn; [discriminate|]. destruct b; [|apply IH]. unfold getFlag. destruct (nth_error uz (x_idx x)); cbn; [apply IH|discriminate]. Qed.
Lemma updCsts_nt sz jac e cal k : forall l s z, updCsts sz jac e cal k l s z <> Throw.
Proof.
  induction l as [|cr l IH]; intros s z; cbn [updCsts]; [discriminate|]. unfold updCst.
  pose proof (andFlags_nt (uIsZero s) (k_X cr) (isZeroRhs (k_rhs cr))). destruct (andFlags _ _ _) as [b| |]; cbn [bind]; [|congruence|discriminate].
  pose proof (setFlag_nt (cIsZero s) (k_idx cr) b). destruct (setFlag (cIsZero s) _ _) as [cz| |]; cbn [bind]; [apply IH|congruence|discriminate].
Qed.
Lemma update_nt sz jac e cal : forall l s, update sz jac e cal l s <> Throw.
Proof.
  induction l as [|r l IH]; intros s; cbn [update]; [discriminate|]. unfold updSub. pose proof (updCsts_nt sz jac e cal (u_k r) (u_cs r) s true).
  destruct (updCsts _ _ _ _ _ _ s true) as [[s1 z1]| |]; cbn [bind]; [|congruence|discriminate].
  pose proof (setFlag_nt (uIsZero s1) (u_k r) z1). destruct (setFlag (uIsZero s1) _ _) as [uz| |]; cbn [bind]; [apply IH|congruence|discriminate].
Qed.
Lemma unit_nt sz l s0 ds : unitAfter sz l s0 ds <> Throw.
Proof.
  unfold unitAfter. generalize (initialize (scan sz start l) s0). induction ds as [|d ds IH]; intros s; cbn [updates]; [discriminate|].
  pose proof (update_nt sz (d_jac d) (d_e d) (d_cal d) (scan sz start l) s). destruct (update _ _ _ _ _ s); cbn [bind]; [apply IH|congruence|discriminate].
Qed.
Lemma undefined_if sz l s0 d ds : length (flat_map s_xs l) < length (flat_map s_cs l) -> unitAfter sz l s0 (d :: ds) = UB.
Proof.
  intros H. pose proof (unit_nt sz l s0 (d :: ds)) as N. destruct (unitAfter sz l s0 (d :: ds)) as [s| |] eqn:E; [|congruence|reflexivity].
  pose proof (defined_only_if _ _ _ _ _ _ E). lia.
Qed.
