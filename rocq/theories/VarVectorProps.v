(* C09, C10: VariableVector and cached mappings. [V] gives the slice denoted by each
   variable object; all sizes are positive. [reach V w]: [w] is obtained from nothing by
   any interleaving of calls on any number of vectors (VarVectorSpec.v). *)
Require Import ZArith List Bool Lia.
Require Import Verif.RangeModel Verif.VarVectorModel Verif.VarVectorSpec Verif.VarVectorProofs.
Import ListNotations.
Local Open Scope Z_scope.

Definition positive (V : nat -> vslice) : Prop := forall v, 0 < vsize (V v).

(* No valid call runs into undefined behaviour. *)
Theorem C09_calls_defined : forall V w o, positive V -> reach V w -> valid_vvop w o -> snd (vvstep V w o) <> RUB.
Proof. intros V w o P R H. exact (proj2 (step_inv V P w o (reach_winv V P w R) H)). Qed.

Theorem C09_disjoint_total : forall V w k c, positive V -> reach V w -> getV w k = Some c -> vid c <> -1 ->
  disjoint V (elems c) /\ size_ c = total V (elems c).
Proof. intros V w k c P R G H. destruct (usable_inv V w k c (reach_winv V P w R) G H) as [_ I]. split; apply I. Qed.

Theorem C09_add : forall V w k v c, positive V -> reach V w -> getV w k = Some c ->
  ((exists x, In x (elems c) /\ inside V v x) -> add V w k v = (w, RBool false)) /\
  ((forall x, In x (elems c) -> ~ inside V v x) -> (exists x, In x (elems c) /\ overlap V x v) -> add V w k v = (w, RThrow)) /\
  ((forall x, In x (elems c) -> ~ overlap V x v) -> exists w' c', add V w k v = (w', RBool true) /\
     getV w' k = Some c' /\ elems c' = elems c ++ [v] /\ forall j, j <> k -> getV w' j = getV w j).
Proof.
  intros V w k v c P R G.
  destruct (add_spec V P w k v c G) as [((x & A & B) & E)|[(N & (x & A & B) & E)|(N & E)]]; rewrite E; split; auto; try split; auto.
  - intros N. exfalso. apply (N x A B).
  - intros N. exfalso. apply (N x A). now apply inside_overlap.
  - intros (y & A' & B'). exfalso. apply (N y A' B').
  - intros N'. exfalso. apply (N' x A B).
  - intros (y & A' & B'). exfalso. apply (N y A'). now apply inside_overlap.
  - intros N' (y & A' & B'). exfalso. apply (N y A' B').
  - intros _. eexists _, _. split; [reflexivity|]. rewrite (getV_add_ V w k c v k G), Nat.eqb_refl. split; [reflexivity|]. split; [reflexivity|].
    intros j Hj. rewrite (getV_add_ V w k c v j G). destruct (Nat.eqb_spec k j); congruence.
Qed.

(* Adding a list, or another vector, adds its variables in order, skips those already there, and stops at the first
   which overlaps another: those before it stay. *)
Theorem C09_add_list : forall V w k l c, positive V -> reach V w -> getV w k = Some c ->
  exists w' c' (b : bool), addL V w k l = (w', if b then RThrow else RUnit) /\ getV w' k = Some c' /\
    adds V (elems c) l (elems c') b /\ forall j, j <> k -> getV w' j = getV w j.
Proof.
  intros V w k l c P R G. destruct (addL_adds V P l w k c G) as (c' & b & H1 & H2 & H3 & H4).
  exists (fst (addL V w k l)), c', b. rewrite <- H3. split; [apply surjective_pairing|auto].
Qed.
Theorem C09_add_vector : forall V w k k' c d, positive V -> reach V w -> getV w k = Some c -> getV w k' = Some d -> k <> k' ->
  exists w' c' (b : bool), addVec V w k k' = (w', if b then RThrow else RUnit) /\ getV w' k = Some c' /\
    adds V (elems c) (elems d) (elems c') b /\ forall j, j <> k -> getV w' j = getV w j.
Proof.
  intros V w k k' c d P R G D N. unfold addVec. rewrite D.
  destruct (C09_add_list V w k (elems d) c P R G) as (w' & c' & b & E & H). exists w', c', b. rewrite E.
  destruct (Nat.eqb_spec k k'); [congruence|]. auto.
Qed.

Theorem C09_addAndGetIndex : forall V w k v b c, positive V -> reach V w -> getV w k = Some c -> vid c <> -1 ->
  (forall l1 x l2, elems c = l1 ++ x :: l2 -> same V x v -> addAndGetIndex V w k v b = (w, RInt (Z.of_nat (length l1)))) /\
  (forall l1 x l2, elems c = l1 ++ x :: l2 -> inside V v x -> ~ same V x v ->
     addAndGetIndex V w k v b = (w, RInt (if b then Z.of_nat (length l1) else -1))) /\
  ((forall x, In x (elems c) -> ~ inside V v x) -> (exists x, In x (elems c) /\ overlap V x v) ->
     addAndGetIndex V w k v b = (w, RThrow)) /\
  ((forall x, In x (elems c) -> ~ overlap V x v) -> exists w' c', addAndGetIndex V w k v b = (w', RInt (Z.of_nat (length (elems c)))) /\
     getV w' k = Some c' /\ elems c' = elems c ++ [v] /\ forall j, j <> k -> getV w' j = getV w j).
Proof.
  intros V w k v b c P R G H. destruct (C09_disjoint_total V w k c P R G H) as [D _].
  assert (U : forall l1 x l2 m1 y m2, elems c = l1 ++ x :: l2 -> elems c = m1 ++ y :: m2 -> inside V v x -> inside V v y -> l1 = m1 /\ x = y).
  { intros l1 x l2 m1 y m2 E1 E2 I1 I2. assert (x = y).
    { apply (overlap_In V (elems c)); auto; [rewrite E1|rewrite E2|]; try (apply in_or_app; right; left; auto).
      exists (sup (V v), start (rng (V v))). split; [apply I1|apply I2]; now apply first_scalar. }
    subst y. rewrite E1 in E2. destruct (NoDup_split_eq l1 l2 m1 m2 x) as [-> _]; auto. rewrite <- E1. eapply disjoint_NoDup; eauto. }
  destruct (addIdx_spec V P w k v b c G D) as [(m1 & y & m2 & E2 & I2 & E)|[(N & (y & A & B) & E)|(N & E)]]; rewrite E.
  - split; [|split; [|split]].
    + intros l1 x l2 E1 S. destruct (U l1 x l2 m1 y m2) as [-> ->]; auto. { intros s; apply S. }
      rewrite (proj2 (eq_iff V P y v) S). auto.
    + intros l1 x l2 E1 I1 NS. destruct (U l1 x l2 m1 y m2) as [-> ->]; auto.
      destruct (s_eq (V y) (V v)) eqn:Q; auto. apply (eq_iff V P) in Q. contradiction.
    + intros N _. exfalso. apply (N y); auto. rewrite E2. apply in_or_app; right; left; auto.
    + intros N. exfalso. apply (N y); [rewrite E2; apply in_or_app; right; left; auto|now apply inside_overlap].
  - split; [|split; [|split]]; auto.
    + intros l1 x l2 E1 S. exfalso. apply (N x); [rewrite E1; apply in_or_app; right; left; auto|intros s; apply S].
    + intros l1 x l2 E1 I1. exfalso. apply (N x); auto. rewrite E1. apply in_or_app; right; left; auto.
    + intros N'. exfalso. apply (N' y A B).
  - split; [|split; [|split]].
    + intros l1 x l2 E1 S. exfalso. apply (N x); [rewrite E1; apply in_or_app; right; left; auto|]. apply inside_overlap; auto. intros s; apply S.
    + intros l1 x l2 E1 I1. exfalso. apply (N x); [rewrite E1; apply in_or_app; right; left; auto|]. now apply inside_overlap.
    + intros _ (y & A & B). exfalso. apply (N y A B).
    + intros _. eexists _, _. split; [reflexivity|]. rewrite (getV_add_ V w k c v k G), Nat.eqb_refl. split; [reflexivity|]. split; [reflexivity|].
      intros j Hj. rewrite (getV_add_ V w k c v j G). destruct (Nat.eqb_spec k j); congruence.
Qed.

Theorem C09_remove : forall V w k v c, positive V -> reach V w -> getV w k = Some c -> vid c <> -1 ->
  ((forall x, In x (elems c) -> ~ same V x v) -> remove V w k v = (w, RBool false)) /\
  (forall l1 x l2, elems c = l1 ++ x :: l2 -> same V x v -> exists w' c', remove V w k v = (w', RBool true) /\
     getV w' k = Some c' /\ elems c' = l1 ++ l2 /\ forall j, j <> k -> getV w' j = getV w j).
Proof.
  intros V w k v c P R G H. pose proof (reach_winv V P w R) as I. destruct (C09_disjoint_total V w k c P R G H) as [D _].
  destruct (remove_spec V P w k v c G) as [(a & y & b & E & S & Er)|(N & Er)]; rewrite Er; split; auto.
  - intros N. exfalso. apply (N y); auto. rewrite E. apply in_or_app; right; left; auto.
  - intros l1 x l2 E1 S1. assert (y = x).
    { apply (overlap_In V (elems c)); auto; [rewrite E|rewrite E1|]; try (apply in_or_app; right; left; auto).
      exists (sup (V v), start (rng (V v))). split; [apply S|apply S1]; now apply first_scalar. }
    subst y. rewrite E1 in E. destruct (NoDup_split_eq l1 l2 a b x) as [-> ->]; auto. { rewrite <- E1. eapply disjoint_NoDup; eauto. }
    destruct (remove__inv V P w k c a x b I G H E1) as [_ F]. eexists _, _. split; [reflexivity|]. rewrite (F k), Nat.eqb_refl.
    split; [reflexivity|]. split; [reflexivity|]. intros j Hj. rewrite F. destruct (Nat.eqb_spec k j); congruence.
  - intros l1 x l2 E1 S1. exfalso. apply (N x); auto. rewrite E1. apply in_or_app; right; left; auto.
Qed.

Theorem C09_remove_index : forall V w k i c, positive V -> reach V w -> getV w k = Some c -> vid c <> -1 ->
  (~ (0 <= i < Z.of_nat (length (elems c))) -> removeI V w k i = (w, RThrow)) /\
  (forall l1 x l2, elems c = l1 ++ x :: l2 -> i = Z.of_nat (length l1) -> exists w' c', removeI V w k i = (w', RUnit) /\
     getV w' k = Some c' /\ elems c' = l1 ++ l2 /\ forall j, j <> k -> getV w' j = getV w j).
Proof.
  intros V w k i c P R G H. pose proof (reach_winv V P w R) as I.
  destruct (removeI_spec V w k i c G) as [(a & y & b & E & Hi & Er)|(N & Er)]; rewrite Er; split; auto.
  - intros N. exfalso. apply N. rewrite E, app_length. simpl. lia.
  - intros l1 x l2 E1 Hi1. assert (length a = length l1) by lia.
    assert (a = l1 /\ y :: b = x :: l2) as [-> Eb].
    { rewrite E in E1. clear - E1 H0. revert l1 E1 H0. induction a as [|z a IH]; intros [|z' l1] E L; simpl in *; try discriminate; auto.
      inversion E; subst. destruct (IH l1) as [-> ?]; auto. }
    inversion Eb; subst y b.
    destruct (remove__inv V P w k c l1 x l2 I G H E) as [_ F]. eexists _, _. split; [reflexivity|]. rewrite (F k), Nat.eqb_refl.
    split; [reflexivity|]. split; [reflexivity|]. intros j Hj. rewrite F. destruct (Nat.eqb_spec k j); congruence.
  - intros l1 x l2 E1 Hi. exfalso. apply N. rewrite E1, app_length. simpl. lia.
Qed.

Theorem C09_clear : forall V w k c, positive V -> reach V w -> getV w k = Some c -> vid c <> -1 ->
  exists w' c', clear w k = (w', RUnit) /\ getV w' k = Some c' /\ elems c' = [] /\ size_ c' = 0 /\ forall j, j <> k -> getV w' j = getV w j.
Proof.
  intros V w k c P R G H. destruct (clear__inv V w k c (reach_winv V P w R) G H) as [_ F].
  unfold clear. rewrite G. eexists _, _. split; [reflexivity|]. rewrite (F k), Nat.eqb_refl. repeat split; auto.
  intros j Hj. rewrite F. destruct (Nat.eqb_spec k j); congruence.
Qed.

(* Queries. *)
Theorem C09_contains : forall V c v, positive V -> (vv_contains V c v = true <-> exists x, In x (elems c) /\ inside V v x).
Proof. intros V c v P. exact (vv_contains_iff V P c v). Qed.
Theorem C09_intersects : forall V c v, positive V -> (vv_intersects V c v = true <-> exists x, In x (elems c) /\ overlap V x v).
Proof.
  intros V c v P. unfold vv_intersects. rewrite existsb_exists. split; intros (x & A & B); exists x; split; auto; now apply (intersects_iff V P).
Qed.
Theorem C09_indexOf : forall V w k c v, positive V -> reach V w -> getV w k = Some c -> vid c <> -1 ->
  (forall l1 x l2, elems c = l1 ++ x :: l2 -> same V x v -> vv_indexOf V c v = Z.of_nat (length l1)) /\
  ((forall x, In x (elems c) -> ~ same V x v) -> vv_indexOf V c v = -1).
Proof. intros V w k c v P R G H. apply indexOf_spec; auto. exact (proj1 (C09_disjoint_total V w k c P R G H)). Qed.

(* Copies hold the same variables and leave the others alone. *)
Theorem C09_copy : forall V w k c, positive V -> reach V w -> getV w k = Some c ->
  exists w' k' c', copyNew V w k = (w', RSlot k') /\ getV w' k' = Some c' /\ elems c' = elems c /\
   getV w k' = None /\ forall j, j <> k' -> getV w' j = getV w j.
Proof.
  intros V w k c P R G. pose proof (reach_winv V P w R) as I. unfold copyNew. rewrite G.
  destruct (newList_disjoint V P w (elems c) I) as (w' & k' & c' & E & G' & El & F & N).
  - destruct (wi_vec _ _ I k c G) as [[_ ->]|[_ Iv]]; [simpl; auto|apply Iv].
  - exists w', k', c'. auto.
Qed.
Theorem C09_assign : forall V w k k' c c', positive V -> reach V w -> getV w k = Some c -> vid c <> -1 -> getV w k' = Some c' -> k <> k' ->
  exists w' c1, assign V w k k' = (w', RUnit) /\ getV w' k = Some c1 /\ elems c1 = elems c' /\ forall j, j <> k -> getV w' j = getV w j.
Proof.
  intros V w k k' c c' P R G H G' N. destruct (assign_inv V P w k k' c c' (reach_winv V P w R) G H G' N) as (_ & E & (c1 & G1 & El) & F).
  exists (fst (assign V w k k')), c1. rewrite <- E. repeat split; auto. destruct (assign V w k k'); auto.
Qed.

Theorem C09_move : forall V w k c, positive V -> reach V w -> getV w k = Some c ->
  exists w' k', moveNew w k = (w', RSlot k') /\ getV w' k' = Some c /\ getV w k' = None /\
   (exists c0, getV w' k = Some c0 /\ elems c0 = []) /\ forall j, j <> k -> j <> k' -> getV w' j = getV w j.
Proof.
  intros V w k c P R G. pose proof (getV_lt w k c G) as Hk. unfold moveNew. rewrite G. eexists _, _. split; [reflexivity|].
  set (w1 := mkW (startIn w) (setNth (vecs w) k (Some (mkVec (-1) (stamp c) (size_ c) []))) (nextId w) (counter w)).
  assert (L : forall j, getV (mkW (startIn w) (vecs w1 ++ [Some c]) (nextId w) (counter w)) j = if Nat.eqb j (length (vecs w1)) then Some c else getV w1 j)
    by (intros; apply (getV_app w1)).
  assert (Len : length (vecs w1) = length (vecs w)) by apply setNth_length.
  change (setNth (vecs w) k _) with (vecs w1). rewrite <- Len.
  assert (L1 : forall j, getV w1 j = if Nat.eqb k j then Some (mkVec (-1) (stamp c) (size_ c) []) else getV w j).
  { intros j. unfold w1. rewrite getV_set by auto. reflexivity. }
  split; [rewrite L, Nat.eqb_refl; reflexivity|]. split.
  - rewrite Len. unfold getV. rewrite (proj2 (nth_error_None _ _)); auto.
  - split.
    + eexists. rewrite L, L1, Nat.eqb_refl. destruct (Nat.eqb_spec k (length (vecs w1))); [lia|]. split; reflexivity.
    + intros j H1 H2. rewrite L, L1. destruct (Nat.eqb_spec j (length (vecs w1))); [congruence|]. destruct (Nat.eqb_spec k j); congruence.
Qed.

(* The concatenated value: what set writes is read back, and nothing else is written. *)
Theorem C09_set_value : forall V w k c m x, positive V -> reach V w -> getV w k = Some c -> vid c <> -1 ->
  Z.of_nat (length x) = size_ c ->
  vv_value V (vv_set V m (elems c) x) (elems c) = x /\
  forall s, (forall v, In v (elems c) -> ~ scalar V v s) -> vv_set V m (elems c) x (fst s) (snd s) = m (fst s) (snd s).
Proof.
  intros V w k c m x P R G H L. destruct (C09_disjoint_total V w k c P R G H) as [D S]. split.
  - apply set_value; auto. congruence.
  - intros s Hs. apply set_frame; auto.
Qed.

(* ---- C10 ---- *)
(* getMappingIn returns the position in the current concatenation (and throws for a
   variable that is not there), after every history. *)
Theorem C10_mapping : forall V w k v c, positive V -> reach V w -> getV w k = Some c -> vid c <> -1 ->
  (forall r, position V (elems c) v r -> snd (getMappingIn V w v k) = RRange r) /\
  ((forall x, In x (elems c) -> ~ inside V v x) -> snd (getMappingIn V w v k) = RThrow).
Proof.
  intros V w k v c P R G H. pose proof (reach_winv V P w R) as I.
  destruct (mapIn_spec V P w k v c I G H) as (_ & _ & [(r & E & Hp)|(E & N)]); rewrite E; split.
  - intros r' Hp'. f_equal. eapply position_unique; eauto. exact (proj1 (C09_disjoint_total V w k c P R G H)).
  - intros N. destruct Hp as (l1 & x & l2 & El & Hi & _). exfalso. apply (N x); auto. rewrite El. apply in_or_app; right; left; auto.
  - intros r (l1 & x & l2 & El & Hi & _). exfalso. apply (N x); auto. rewrite El. apply in_or_app; right; left; auto.
  - auto.
Qed.
Theorem C10_mapping_of : forall V w k v c, positive V -> reach V w -> getV w k = Some c -> vid c <> -1 ->
  (forall r, position V (elems c) v r -> snd (getMappingOf V w k v) = RRange r) /\
  ((forall x, In x (elems c) -> ~ inside V v x) -> snd (getMappingOf V w k v) = RThrow).
Proof.
  intros V w k v c P R G H. pose proof (reach_winv V P w R) as I.
  destruct (mapOf_spec V P w k v c I G H) as (_ & _ & [(r & E & Hp)|(E & N)]); rewrite E; split.
  - intros r' Hp'. f_equal. eapply position_unique; eauto. exact (proj1 (C09_disjoint_total V w k c P R G H)).
  - intros N. destruct Hp as (l1 & x & l2 & El & Hi & _). exfalso. apply (N x); auto. rewrite El. apply in_or_app; right; left; auto.
  - intros r (l1 & x & l2 & El & Hi & _). exfalso. apply (N x); auto. rewrite El. apply in_or_app; right; left; auto.
  - auto.
Qed.
(* Asking does not change any vector. *)
Theorem C10_query_pure : forall V w k v c, positive V -> reach V w -> getV w k = Some c -> vid c <> -1 ->
  forall j, getV (fst (getMappingIn V w v k)) j = getV w j.
Proof. intros V w k v c P R G H. exact (proj1 (proj2 (mapIn_spec V P w k v c (reach_winv V P w R) G H))). Qed.

(* ---- refuted variants ---- *)
(* Two whole variables of sizes 2 and 3, a sub-variable [1:1] of the second. *)
Definition Vx (v : nat) : vslice :=
  match v with 0%nat => mkVS 0 (mkRange 0 2) | 1%nat => mkVS 1 (mkRange 0 3) | 2%nat => mkVS 1 (mkRange 1 1) | _ => mkVS v (mkRange 0 1) end.
Lemma Vx_pos : positive Vx.
Proof. intros [|[|[|v]]]; reflexivity. Qed.

Fixpoint valids (w : world) (l : list vvop) : Prop :=
  match l with [] => True | o :: r => valid_vvop w o /\ valids (fst (vvstep Vx w o)) r end.
Lemma reach_run l : forall w, reach Vx w -> valids w l -> reach Vx (vvrun Vx w l).
Proof. induction l as [|o l IH]; intros w R H; simpl; auto. destruct H. apply IH; auto. now apply reachS. Qed.
Ltac valid_tac := repeat (first [exact Logic.I | (eexists; split; [reflexivity|discriminate]) | (eexists; reflexivity) | discriminate | split]).

(* Copy self-assignment empties the vector. *)
Theorem C09_self_assign_keeps_refuted : exists w c w' c', reach Vx w /\ getV w 0 = Some c /\ vid c <> -1 /\
  vvstep Vx w (OAssign 0 0) = (w', RUnit) /\ getV w' 0 = Some c' /\ elems c = [0%nat; 1%nat] /\ elems c' = [].
Proof.
  exists (fst (vvstep Vx empty_world (ONew [0%nat; 1%nat]))). do 3 eexists. split; [apply reachS; [apply reach0|exact Logic.I]|].
  split; [reflexivity|]. split; [discriminate|]. split; [reflexivity|]. split; [reflexivity|]. split; reflexivity.
Qed.

(* A variable of size zero is added as often as it is given. *)
Theorem C09_zero_size_duplicates_refuted : exists V w c, w = vvrun V empty_world [ONew []; OAdd 0 0; OAdd 0 0] /\
  (forall v, 0 <= vsize (V v)) /\ getV w 0 = Some c /\ elems c = [0%nat; 0%nat].
Proof.
  exists (fun v => mkVS v (mkRange 0 0)). do 2 eexists. split; [reflexivity|]. split; [intros; unfold vsize; simpl; lia|].
  split; reflexivity.
Qed.

(* A moved-from vector keeps its size: variables added to it are mapped past the end. *)
Theorem C10_moved_from_reuse_refuted : exists w w' c, reach Vx w /\ vvstep Vx w (OAdd 0 0) = (w', RBool true) /\
  getV w' 0 = Some c /\ elems c = [0%nat] /\ position Vx (elems c) 0 (mkRange 0 2) /\
  snd (getMappingIn Vx w' 0 0) = RRange (mkRange 3 2).
Proof.
  exists (vvrun Vx empty_world [ONew [1%nat]; OMove 0]). do 2 eexists. split.
  { apply reach_run; [apply reach0|]. valid_tac. }
  split; [reflexivity|]. split; [reflexivity|]. split; [reflexivity|]. split; [|reflexivity].
  exists [], 0%nat, []. split; [reflexivity|]. split; [intros s Hs; exact Hs|reflexivity].
Qed.

(* Two moved-from vectors share the id -1, also after clear(): filling the second breaks the
   mappings of the first. *)
Theorem C10_moved_from_shared_id_refuted : exists w c, 
  w = vvrun Vx empty_world [ONew []; ONew []; OMove 0; OMove 1; OClear 0; OClear 1; OAdd 0 0; OAdd 1 1; OAdd 1 0] /\
  getV w 0 = Some c /\ elems c = [0%nat] /\ position Vx (elems c) 0 (mkRange 0 2) /\
  snd (getMappingIn Vx w 0 0) = RRange (mkRange 3 2).
Proof.
  do 2 eexists. split; [reflexivity|]. split; [reflexivity|]. split; [reflexivity|]. split; [|reflexivity].
  exists [], 0%nat, []. split; [reflexivity|]. split; [intros s Hs; exact Hs|reflexivity].
Qed.

(* Adding 0, 1, 3 to a vector with the sub-variable 2 of 1: 0 is added, 1 overlaps and stops the call. *)
Example C09_add_list_example : let w := vvrun Vx empty_world [ONew [2%nat]] in
  reach Vx w /\ snd (addL Vx w 0 [0%nat; 1%nat; 3%nat]) = RThrow /\
  option_map elems (getV (fst (addL Vx w 0 [0%nat; 1%nat; 3%nat])) 0) = Some [2%nat; 0%nat] /\
  snd (addL Vx w 0 [0%nat; 2%nat; 3%nat]) = RUnit /\
  option_map elems (getV (fst (addL Vx w 0 [0%nat; 2%nat; 3%nat])) 0) = Some [2%nat; 0%nat; 3%nat].
Proof. cbv zeta. split; [|repeat split]. apply reach_run; [apply reach0|valid_tac]. Qed.

(* Non-vacuity: after an add, a query on a sub-variable, a removal of the first variable and a
   move, the cached mapping of the sub-variable has moved from [3,4) to [1,2). *)
Example C10_example : let w1 := vvrun Vx empty_world [ONew [0%nat; 1%nat]; OMapIn 2 0] in
  let w2 := vvrun Vx w1 [ORemove 0 0; OMove 0] in
  reach Vx w2 /\ snd (getMappingIn Vx w1 2 0) = RRange (mkRange 3 1) /\ snd (getMappingIn Vx w2 2 1) = RRange (mkRange 1 1).
Proof.
  cbv zeta. split; [|split; reflexivity]. apply reach_run; [apply reach_run; [apply reach0|valid_tac]|valid_tac].
Qed.

Print Assumptions C09_calls_defined.
Print Assumptions C09_disjoint_total.
Print Assumptions C09_add.
Print Assumptions C09_add_list.
Print Assumptions C09_add_vector.
Print Assumptions C09_addAndGetIndex.
Print Assumptions C09_remove.
Print Assumptions C09_remove_index.
Print Assumptions C09_clear.
Print Assumptions C09_contains.
Print Assumptions C09_intersects.
Print Assumptions C09_indexOf.
Print Assumptions C09_copy.
Print Assumptions C09_assign.
Print Assumptions C09_move.
Print Assumptions C09_set_value.
Print Assumptions C09_self_assign_keeps_refuted.
Print Assumptions C09_zero_size_duplicates_refuted.
Print Assumptions C10_mapping.
Print Assumptions C10_mapping_of.
Print Assumptions C10_query_pure.
Print Assumptions C10_moved_from_reuse_refuted.
Print Assumptions C10_moved_from_shared_id_refuted.
