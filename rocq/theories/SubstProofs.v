(* Proofs for C33: linear algebra and the loops. *)
From Coq Require Import List Bool Arith QArith Lia Lqa.
Import ListNotations.
From Verif Require Import Base QSum SubstModel SubstSpec.
From Verif Require DiagSpec.
Local Open Scope nat_scope.

Lemma mem_In x l : mem x l = true <-> In x l.
Proof.
  unfold mem. rewrite existsb_exists. split.
  - intros (y & H & E). apply Nat.eqb_eq in E. now subst.
  - intros H. exists x. split; [exact H|apply Nat.eqb_refl].
Qed.
Lemma mem_not x l : mem x l = false <-> ~ In x l.
Proof. rewrite <- mem_In. destruct (mem x l); split; intros; congruence. Qed.

(* matrix-vector products *)
Lemma mulv_ext n (A A' : mat) (v v' : vec) i : (forall k, k < n -> (A i k == A' i k)%Q) -> (forall k, k < n -> (v k == v' k)%Q) ->
  (mulv n A v i == mulv n A' v' i)%Q.
Proof. intros H1 H2. apply qsumn_ext. intros k K. rewrite H1, H2 by exact K. reflexivity. Qed.
Lemma mulv_mmul p n (A1 A2 : mat) (v : vec) i : (mulv n (mmul p A1 A2) v i == mulv p A1 (mulv n A2 v) i)%Q.
Proof.
  unfold mulv, mmul, qsumn.
  rewrite (qsum_ext _ (fun k => qsum (fun l => A1 i l * A2 l k * v k)%Q (seq 0 p))) by (intros k _; now rewrite qsum_scale_r).
  rewrite qsum_swap. apply qsum_ext. intros l _. rewrite <- qsum_scale. apply qsum_ext. intros k _. ring.
Qed.
Lemma mulv_add n (A : mat) (v w : vec) i : (mulv n A (fun k => v k + w k) i == mulv n A v i + mulv n A w i)%Q.
Proof. unfold mulv. rewrite <- qsumn_add. apply qsumn_ext. intros; ring. Qed.
Lemma mulv_opp n (A : mat) (v : vec) i : (mulv n A (fun k => - v k) i == - mulv n A v i)%Q.
Proof.
  unfold mulv. setoid_replace (- qsumn (fun k => A i k * v k) n)%Q with ((-1) * qsumn (fun k => A i k * v k) n)%Q by ring.
  rewrite <- qsumn_scale. apply qsumn_ext. intros; ring.
Qed.
Lemma mulv_mopp n (A : mat) (v : vec) i : (mulv n (opp A) v i == - mulv n A v i)%Q.
Proof.
  unfold mulv, opp. setoid_replace (- qsumn (fun k => A i k * v k) n)%Q with ((-1) * qsumn (fun k => A i k * v k) n)%Q by ring.
  rewrite <- qsumn_scale. apply qsumn_ext. intros; ring.
Qed.
Lemma mulv_qsum {T} n (A : mat) (f : T -> vec) l i : (mulv n A (fun k => qsum (fun j => f j k) l) i == qsum (fun j => mulv n A (f j) i) l)%Q.
Proof.
  unfold mulv, qsumn. rewrite (qsum_ext _ (fun k => qsum (fun j => A i k * f j k)%Q l)) by (intros k _; now rewrite qsum_scale).
  apply qsum_swap.
Qed.

(* x solves A x = b iff it is A^# b plus an element of the null space and S^T b = 0 *)
Lemma solve_linear m n r (A : mat) K (b x : vec) : contract m n r A K ->
  (forall i, i < m -> (mulv n A x i == b i)%Q) <->
  (exists z, forall i, i < n -> (x i == mulv m (k_Ash K) b i + mulv (n - r) (k_N K) z i)%Q) /\
  (forall i, i < m - r -> (mulv m (tr (k_S K)) b i == 0)%Q).
Proof.
  intros (G & (N1 & N2) & (S1 & S2)). split.
  - intros H. split.
    + assert (X : DiagSpec.eqv m (DiagSpec.mulv n A (fun k => x k + - mulv m (k_Ash K) b k)%Q) (fun _ => 0%Q)).
      { intros i Li. change (DiagSpec.mulv n A ?v i) with (mulv n A v i). rewrite mulv_add, mulv_opp, H by exact Li.
        rewrite <- mulv_mmul.
        rewrite (mulv_ext m (mmul n A (k_Ash K)) (mmul n A (k_Ash K)) b (mulv n A x) i) by (intros; first [reflexivity|now rewrite H]).
        rewrite <- mulv_mmul. rewrite (mulv_ext n _ A x x i); [rewrite H by exact Li; ring|intros k Lk; apply (G i k Li Lk)|reflexivity]. }
      destruct (N2 _ X) as (z & E & _). exists z. intros i Li. specialize (E i Li). change (DiagSpec.mulv ?c ?B z i) with (mulv c B z i) in E.
      rewrite <- E. ring.
    + intros q Lq. rewrite (mulv_ext m (tr (k_S K)) (tr (k_S K)) b (mulv n A x) q) by (intros; first [reflexivity|now rewrite H]).
      rewrite <- mulv_mmul. apply qsumn_zero. intros j Lj.
      specialize (S1 j q Lj Lq). unfold DiagSpec.mul, DiagSpec.tr, DiagSpec.zero in S1. unfold mmul, tr.
      rewrite (qsumn_ext _ (fun k => A k j * k_S K k q)%Q) by (intros; ring). rewrite S1. ring.
  - intros ((z & Hx) & Hs) i Li.
    rewrite (mulv_ext n A A x (fun k => mulv m (k_Ash K) b k + mulv (n - r) (k_N K) z k)%Q i) by (intros; first [reflexivity|auto]).
    rewrite mulv_add. rewrite <- !mulv_mmul.
    assert (E0 : (mulv (n - r) (mmul n A (k_N K)) z i == 0)%Q).
    { apply qsumn_zero. intros k Lk. pose proof (N1 i k Li Lk) as E. unfold DiagSpec.mul, DiagSpec.zero in E. unfold mmul. rewrite E. ring. }
    rewrite E0.
    set (w := fun a => ((if Nat.eqb a i then 1 else 0) + - mmul n A (k_Ash K) i a)%Q).
    assert (X : DiagSpec.eqv n (DiagSpec.mulv m (DiagSpec.tr A) w) (fun _ => 0%Q)).
    { intros j Lj. unfold DiagSpec.mulv, DiagSpec.tr, w.
      rewrite (qsumn_ext _ (fun a => (if Nat.eqb a i then A a j else 0) + (-1) * (mmul n A (k_Ash K) i a * A a j))%Q)
        by (intros a _; destruct (Nat.eqb a i); ring).
      rewrite qsumn_add, qsumn_scale, (qsumn_delta (fun a => A a j) m i Li).
      pose proof (G i j Li Lj) as E. unfold DiagSpec.mul in E. unfold mmul. rewrite E. ring. }
    destruct (S2 w X) as (v & E & _).
    assert (Y : (qsumn (fun a => w a * b a) m == 0)%Q).
    { rewrite (qsumn_ext _ (fun a => qsumn (fun q => k_S K a q * v q * b a) (m - r))%Q).
      - rewrite qsumn_swap. apply qsumn_zero. intros q Lq.
        rewrite (qsumn_ext _ (fun a => v q * (tr (k_S K) q a * b a))%Q) by (intros; unfold tr; ring).
        rewrite qsumn_scale. specialize (Hs q Lq). unfold mulv in Hs. rewrite Hs. ring.
      - intros a La. rewrite (E a La). unfold DiagSpec.mulv, qsumn. rewrite qsum_scale_r. reflexivity. }
    unfold w in Y.
    rewrite (qsumn_ext _ (fun a => (if Nat.eqb a i then b a else 0) + (-1) * (mmul n A (k_Ash K) i a * b a))%Q) in Y
      by (intros a _; destruct (Nat.eqb a i); ring).
    rewrite qsumn_add, qsumn_scale, (qsumn_delta b m i Li) in Y. unfold mulv. lra.
Qed.

(* accumulation loops *)
Definition pick (j : nat) (ps : list (nat * mat)) (a b : nat) : Q := qsum (fun p => if fst p =? j then snd p a b else 0%Q) ps.
Lemma fold_acc r0 nr ps : forall F seen j a b,
  (fst (fold_left (acc r0 nr) ps (F, seen)) j a b ==
   if inRows r0 nr a then (if mem j seen then F j a b else if mem j (map fst ps) then 0 else F j a b) + pick j ps (a - r0) b
   else F j a b)%Q.
Proof.
  induction ps as [|[j0 V] ps IH]; intros F seen j a b.
  - simpl. unfold pick. simpl. destruct (inRows r0 nr a); [|reflexivity]. destruct (mem j seen); ring.
  - cbn [fold_left acc]. rewrite IH. clear IH. unfold pick. cbn [map fst snd qsum].
    destruct (inRows r0 nr a) eqn:R.
    + unfold fupd. cbn [mem existsb]. fold (mem j seen). fold (mem j (map fst ps)). rewrite (Nat.eqb_sym j0 j). destruct (Nat.eqb_spec j j0) as [->|D]; cbn [orb].
      * destruct (mem j0 seen); unfold addBlock, setBlock; rewrite R; ring.
      * destruct (mem j seen); [ring|]. destruct (mem j (map fst ps)); ring.
    + unfold fupd. destruct (Nat.eqb_spec j j0) as [->|D]; [|reflexivity].
      destruct (mem j0 seen); unfold addBlock, setBlock; rewrite R; reflexivity.
Qed.
Lemma fold_left_map {A B C} (f : A -> C -> A) (g : B -> C) l : forall a, fold_left (fun a b => f a (g b)) l a = fold_left f (map g l) a.
Proof. induction l as [|b l IH]; intros a; simpl; auto. Qed.
Lemma fold_left_flat {A B C} (f : A -> C -> A) (g : B -> list C) l : forall a,
  fold_left (fun a b => fold_left f (g b) a) l a = fold_left f (flat_map g l) a.
Proof. induction l as [|b l IH]; intros a; simpl; auto. now rewrite fold_left_app, IH. Qed.

Section Loops.
Variable sz : nat -> nat.
Variable jac : nat -> nat -> nat -> mat.
Variable e : nat -> nat -> vec.
Variable cal : nat -> calc.

Definition contribY (k : nat) (r : crec) : list (nat * mat) := map (fun j => (j, jac k (k_loc r) j)) (k_Y r).
Definition contribB (k : nat) (r : crec) (Ms : nat -> mat) : list (nat * mat) :=
  contribY k r ++ flat_map (fun l => map (fun j => (j, mmul (sz (x_v l)) (jac k (k_loc r) (x_v l)) (block (Ms j) (x_row l)))) (x_Y l)) (k_X r).
Definition contribZ (k : nat) (r : crec) (As : nat -> mat) : list (nat * mat) :=
  flat_map (fun l => map (fun j => (j, mmul (sz (x_v l)) (jac k (k_loc r) (x_v l)) (zBlock cal As l j))) (x_Z l)) (k_X r).
Definition usesY (r : crec) : list nat := k_Y r ++ flat_map x_Y (k_X r).
Definition usesZ (r : crec) : list nat := flat_map x_Z (k_X r).
Lemma map_fst_flat (f : xrec -> list nat) (g : xrec -> nat -> mat) l :
  map fst (flat_map (fun x => map (fun j => (j, g x j)) (f x)) l) = flat_map f l.
Proof.
  induction l as [|x l IH]; simpl; [reflexivity|]. rewrite map_app, IH, map_map. f_equal. simpl. apply map_id.
Qed.
Lemma contribB_fst k r Ms : map fst (contribB k r Ms) = usesY r.
Proof. unfold contribB, usesY, contribY. rewrite map_app, map_map. f_equal; [apply map_id|]. exact (map_fst_flat x_Y (fun l j => mmul (sz (x_v l)) (jac k (k_loc r) (x_v l)) (block (Ms j) (x_row l))) (k_X r)). Qed.
Lemma contribZ_fst k r As : map fst (contribZ k r As) = usesZ r.
Proof. exact (map_fst_flat x_Z (fun l j => mmul (sz (x_v l)) (jac k (k_loc r) (x_v l)) (zBlock cal As l j)) (k_X r)). Qed.

Lemma fillY_acc k r F : NoDup (k_Y r) -> fillY jac k r F = fold_left (acc (k_row r) (k_size r)) (contribY k r) (F, []).
Proof.
  intros N. unfold fillY, contribY.
  assert (G : forall l F seen, NoDup l -> (forall j, In j l -> ~ In j seen) ->
    fold_left (fun x j => (fupd (fst x) j (setBlock (fst x j) (k_row r) (k_size r) (jac k (k_loc r) j)), j :: snd x)) l (F, seen) =
    fold_left (acc (k_row r) (k_size r)) (map (fun j => (j, jac k (k_loc r) j)) l) (F, seen)).
  { clear. induction l as [|j l IH]; intros F seen N D; [reflexivity|]. cbn [fold_left map fst snd acc].
    rewrite (proj2 (mem_not j seen)) by (apply D; simpl; auto). inversion N as [|? ? NI N']. subst. apply IH; [exact N'|].
    intros j' I [<-|S]; [contradiction|]. apply (D j'); simpl; auto. }
  apply G; auto.
Qed.
Lemma B_loop k r s : NoDup (k_Y r) ->
  fst (fold_left (addYof sz jac k r (M s)) (k_X r) (fillY jac k r (B s))) =
  fst (fold_left (acc (k_row r) (k_size r)) (contribB k r (M s)) (B s, [])).
Proof.
  intros N. rewrite (fillY_acc k r (B s) N). unfold contribB. rewrite fold_left_app. f_equal.
  rewrite <- fold_left_flat. unfold addYof.
  generalize (fold_left (acc (k_row r) (k_size r)) (contribY k r) (B s, [])). induction (k_X r) as [|l ls IH]; intros x; [reflexivity|].
  cbn [fold_left]. rewrite IH. f_equal. apply fold_left_map.
Qed.
Lemma Z_loop k r s :
  fst (fold_left (addZof sz jac cal k r (AsZ s)) (k_X r) (Z s, [])) =
  fst (fold_left (acc (k_row r) (k_size r)) (contribZ k r (AsZ s)) (Z s, [])).
Proof.
  f_equal. unfold contribZ. rewrite <- fold_left_flat. unfold addZof.
  generalize (Z s, @nil nat). induction (k_X r) as [|l ls IH]; intros x; [reflexivity|].
  cbn [fold_left]. rewrite IH. f_equal. apply fold_left_map.
Qed.
Lemma c_loop k r us ls : forall cv a,
  (fold_left (subU sz jac k r us) ls cv a ==
   if inRows (k_row r) (k_size r) a
   then cv a - qsum (fun l => mulv (sz (x_v l)) (jac k (k_loc r) (x_v l)) (fun t => us (x_row l + t)%nat) (a - k_row r)%nat) ls
   else cv a)%Q.
Proof.
  induction ls as [|l ls IH]; intros cv a; cbn [fold_left qsum].
  - destruct (inRows _ _ _); [ring|reflexivity].
  - rewrite IH. unfold subU, setSeg. destruct (inRows (k_row r) (k_size r) a) eqn:R; [|reflexivity].
    unfold inRows in R. apply andb_true_iff in R. destruct R as [R _]. apply Nat.leb_le in R.
    replace (k_row r + (a - k_row r)) with a by lia. ring.
Qed.

(* a sum over the dependencies of a sum of contributions *)
Lemma sum_pick (w : nat -> nat) (val : nat -> vec) SY ps (a : nat) : NoDup SY -> (forall j, In j (map fst ps) -> In j SY) ->
  (qsum (fun j => qsumn (fun b => pick j ps a b * val j b) (w j)) SY ==
   qsum (fun p => mulv (w (fst p)) (snd p) (val (fst p)) a) ps)%Q.
Proof.
  intros N I. unfold pick, qsumn.
  rewrite (qsum_ext _ (fun j => qsum (fun p => if Nat.eq_dec j (fst p) then mulv (w (fst p)) (snd p) (val (fst p)) a else 0%Q) ps)).
  - rewrite qsum_swap. apply qsum_ext. intros p Ip. apply (qsum_pick Nat.eq_dec (fun _ => mulv (w (fst p)) (snd p) (val (fst p)) a) SY (fst p) N).
    apply I, in_map, Ip.
  - intros j _. rewrite (qsum_ext _ (fun b => qsum (fun p => (if fst p =? j then snd p a b else 0) * val j b)%Q ps)) by (intros b _; now rewrite qsum_scale_r).
    rewrite qsum_swap. apply qsum_ext. intros p _. destruct (Nat.eqb_spec (fst p) j) as [<-|D].
    + match goal with |- context [Nat.eq_dec ?x ?y] => destruct (Nat.eq_dec x y) as [_|D] end; [reflexivity|now destruct D].
    + match goal with |- context [Nat.eq_dec ?x ?y] => destruct (Nat.eq_dec x y) as [E|_] end; [now destruct D|]. apply qsum_zero. intros; ring.
Qed.
Lemma qsum_flat_map {S T} (g : S -> list T) (f : T -> Q) l : (qsum f (flat_map g l) == qsum (fun x => qsum f (g x)) l)%Q.
Proof. induction l as [|x l IH]; simpl; [reflexivity|]. rewrite qsum_app, IH. reflexivity. Qed.
Lemma qsum_map {S T} (g : S -> T) (f : T -> Q) l : (qsum f (map g l) == qsum (fun x => f (g x)) l)%Q.
Proof. induction l as [|x l IH]; simpl; [reflexivity|]. rewrite IH. reflexivity. Qed.

Section Row.
Variable zz : nat -> nat.
Variables val zv : nat -> vec.
Definition lhsY (s : ust) (SY : list nat) (a : nat) : Q := qsum (fun j => mulv (sz j) (B s j) (val j) a) SY.
Definition lhsZ (s : ust) (SZ : list nat) (a : nat) : Q := qsum (fun j => mulv (zz j) (Z s j) (zv j) a) SZ.
(* the rows computed for a constraint are its own with the previous variables replaced *)
Definition rowFact (k : nat) (SY SZ : list nat) (s : ust) (r : crec) : Prop := forall a, a < k_size r ->
  (lhsY s SY (k_row r + a)%nat + lhsZ s SZ (k_row r + a)%nat - c s (k_row r + a)%nat ==
   qsum (fun j => mulv (sz j) (jac k (k_loc r) j) (val j) a) (k_Y r)
   + qsum (fun l => mulv (sz (x_v l)) (jac k (k_loc r) (x_v l)) (valueOf sz cal zz s l val zv) a) (k_X r)
   - rhsOf e k r a)%Q.
Definition zeroFact (SY SZ : list nat) (s : ust) (r : crec) : Prop := forall j a b, a < k_size r ->
  (In j SY -> ~ In j (usesY r) -> (B s j (k_row r + a)%nat b == 0)%Q) /\
  (In j SZ -> ~ In j (usesZ r) -> (Z s j (k_row r + a)%nat b == 0)%Q).

Lemma inRows_in r a : a < k_size r -> inRows (k_row r) (k_size r) (k_row r + a) = true.
Proof. intros H. unfold inRows. apply andb_true_iff. split; [apply Nat.leb_le|apply Nat.ltb_lt]; lia. Qed.

Lemma updCst_spec k SY SZ s r s' z : NoDup SY -> NoDup SZ -> NoDup (k_Y r) ->
  (forall j, In j (usesY r) -> In j SY) -> (forall j, In j (usesZ r) -> In j SZ) ->
  zeroFact SY SZ s r -> updCst sz jac e cal k s r = Ok (s', z) ->
  rowFact k SY SZ s' r /\ zeroFact SY SZ s' r /\
  M s' = M s /\ AsZ s' = AsZ s /\ u s' = u s /\ StB s' = StB s /\ StZ s' = StZ s /\ Stc s' = Stc s /\ uIsZero s' = uIsZero s /\
  (forall a, inRows (k_row r) (k_size r) a = false ->
     (forall j b, (B s' j a b == B s j a b)%Q /\ (Z s' j a b == Z s j a b)%Q) /\ (c s' a == c s a)%Q).
Proof.
  intros NY NZ Nk UY UZ Z0 E. unfold updCst in E. rewrite (B_loop k r s Nk), Z_loop in E.
  destruct (andFlags _ _ _) as [z'| |]; try discriminate. cbn [bind] in E.
  destruct (setFlag _ _ _) as [cz| |]; try discriminate. cbn [bind] in E. injection E as <- <-.
  assert (HB : forall j a b, a < k_size r -> In j SY ->
    (fst (fold_left (acc (k_row r) (k_size r)) (contribB k r (M s)) (B s, [])) j (k_row r + a)%nat b == pick j (contribB k r (M s)) a b)%Q).
  { intros j a b La Ij. rewrite fold_acc, (inRows_in r a La). cbn [mem existsb].
    replace (k_row r + a - k_row r) with a by lia. rewrite contribB_fst. destruct (mem j (usesY r)) eqn:U; [ring|].
    rewrite (proj1 (Z0 j a b La)); [ring|exact Ij|now apply mem_not]. }
  assert (HZ : forall j a b, a < k_size r -> In j SZ ->
    (fst (fold_left (acc (k_row r) (k_size r)) (contribZ k r (AsZ s)) (Z s, [])) j (k_row r + a)%nat b == pick j (contribZ k r (AsZ s)) a b)%Q).
  { intros j a b La Ij. rewrite fold_acc, (inRows_in r a La). cbn [mem existsb].
    replace (k_row r + a - k_row r) with a by lia. rewrite contribZ_fst. destruct (mem j (usesZ r)) eqn:U; [ring|].
    rewrite (proj2 (Z0 j a b La)); [ring|exact Ij|now apply mem_not]. }
  split; [|split; [|repeat (split; [reflexivity|])]].
  - intros a La. unfold lhsY, lhsZ. cbn [B Z c].
    assert (E1 : (qsum (fun j => mulv (sz j) (fst (fold_left (acc (k_row r) (k_size r)) (contribB k r (M s)) (B s, [])) j) (val j) (k_row r + a)%nat) SY
       == qsum (fun p => mulv (sz (fst p)) (snd p) (val (fst p)) a) (contribB k r (M s)))%Q).
    { rewrite <- (sum_pick sz val SY _ a NY) by (rewrite contribB_fst; exact UY).
      apply qsum_ext. intros j Ij. apply qsumn_ext. intros b Lb. rewrite (HB j a b La Ij). reflexivity. }
    assert (E2 : (qsum (fun j => mulv (zz j) (fst (fold_left (acc (k_row r) (k_size r)) (contribZ k r (AsZ s)) (Z s, [])) j) (zv j) (k_row r + a)%nat) SZ
       == qsum (fun p => mulv (zz (fst p)) (snd p) (zv (fst p)) a) (contribZ k r (AsZ s)))%Q).
    { rewrite <- (sum_pick zz zv SZ _ a NZ) by (rewrite contribZ_fst; exact UZ).
      apply qsum_ext. intros j Ij. apply qsumn_ext. intros b Lb. rewrite (HZ j a b La Ij). reflexivity. }
    rewrite E1, E2. clear E1 E2.
    assert (E3 : (qsum (fun p => mulv (sz (fst p)) (snd p) (val (fst p)) a) (contribB k r (M s)) ==
      qsum (fun j => mulv (sz j) (jac k (k_loc r) j) (val j) a) (k_Y r) +
      qsum (fun l => mulv (sz (x_v l)) (jac k (k_loc r) (x_v l)) (fun t => qsum (fun j => mulv (sz j) (block (M s j) (x_row l)) (val j) t) (x_Y l)) a) (k_X r))%Q).
    { unfold contribB, contribY. rewrite qsum_app, qsum_map, qsum_flat_map. cbn [fst snd].
      apply Qplus_comp; [reflexivity|]. apply qsum_ext. intros l _. rewrite qsum_map. cbn [fst snd].
      rewrite (mulv_qsum _ _ (fun j t => mulv (sz j) (block (M s j) (x_row l)) (val j) t)).
      apply qsum_ext. intros j _. apply mulv_mmul. }
    assert (E4 : (qsum (fun p => mulv (zz (fst p)) (snd p) (zv (fst p)) a) (contribZ k r (AsZ s)) ==
      qsum (fun l => mulv (sz (x_v l)) (jac k (k_loc r) (x_v l)) (fun t => qsum (fun j => mulv (zz j) (zBlock cal (AsZ s) l j) (zv j) t) (x_Z l)) a) (k_X r))%Q).
    { unfold contribZ. rewrite qsum_flat_map. apply qsum_ext. intros l _. rewrite qsum_map. cbn [fst snd].
      rewrite (mulv_qsum _ _ (fun j t => mulv (zz j) (zBlock cal (AsZ s) l j) (zv j) t)).
      apply qsum_ext. intros j _. apply mulv_mmul. }
    rewrite E3, E4, c_loop, (inRows_in r a La). replace (k_row r + a - k_row r) with a by lia.
    unfold setSeg. rewrite (inRows_in r a La). replace (k_row r + a - k_row r) with a by lia.
    assert (E5 : (qsum (fun l => mulv (sz (x_v l)) (jac k (k_loc r) (x_v l))
        (valueOf sz cal zz (mkS (fst (fold_left (acc (k_row r) (k_size r)) (contribB k r (M s)) (B s, [])))
          (fst (fold_left (acc (k_row r) (k_size r)) (contribZ k r (AsZ s)) (Z s, [])))
          (fold_left (subU sz jac k r (u s)) (k_X r) (setSeg (c s) (k_row r) (k_size r) (rhsOf e k r)))
          (M s) (AsZ s) (u s) (StB s) (StZ s) (Stc s) cz (uIsZero s)) l val zv) a) (k_X r) ==
       qsum (fun l => mulv (sz (x_v l)) (jac k (k_loc r) (x_v l)) (fun t => qsum (fun j => mulv (sz j) (block (M s j) (x_row l)) (val j) t) (x_Y l)) a) (k_X r)
       + qsum (fun l => mulv (sz (x_v l)) (jac k (k_loc r) (x_v l)) (fun t => qsum (fun j => mulv (zz j) (zBlock cal (AsZ s) l j) (zv j) t) (x_Z l)) a) (k_X r)
       + qsum (fun l => mulv (sz (x_v l)) (jac k (k_loc r) (x_v l)) (fun t => u s (x_row l + t)%nat) a) (k_X r))%Q).
    { rewrite <- !qsum_add. apply qsum_ext. intros l _. unfold valueOf. cbn [M AsZ u]. rewrite !mulv_add. reflexivity. }
    rewrite E5. ring.
  - intros j a b La. cbn [B Z]. split.
    + intros Ij NU. rewrite (HB j a b La Ij). apply qsum_zero. intros p Ip. destruct (Nat.eqb_spec (fst p) j) as [<-|]; [|reflexivity].
      exfalso. apply NU. rewrite <- (contribB_fst k r (M s)). now apply in_map.
    + intros Ij NU. rewrite (HZ j a b La Ij). apply qsum_zero. intros p Ip. destruct (Nat.eqb_spec (fst p) j) as [<-|]; [|reflexivity].
      exfalso. apply NU. rewrite <- (contribZ_fst k r (AsZ s)). now apply in_map.
  - intros a Ra. cbn [B Z c]. split.
    + intros j b. rewrite !fold_acc, Ra. split; reflexivity.
    + rewrite c_loop, Ra. unfold setSeg. rewrite Ra. reflexivity.
Qed.

(* consecutive constraints *)
Fixpoint laid (row : nat) (l : list crec) : Prop :=
  match l with [] => True | r :: l' => k_row r = row /\ laid (row + k_size r) l' end.
Definition crows (l : list crec) : nat := fold_right (fun r n => k_size r + n) 0 l.

Lemma rowFact_frame k SY SZ s s' r : M s' = M s -> AsZ s' = AsZ s -> u s' = u s ->
  (forall a, a < k_size r -> (forall j b, (B s' j (k_row r + a)%nat b == B s j (k_row r + a)%nat b)%Q /\ (Z s' j (k_row r + a)%nat b == Z s j (k_row r + a)%nat b)%Q) /\ (c s' (k_row r + a)%nat == c s (k_row r + a)%nat)%Q) ->
  rowFact k SY SZ s r -> rowFact k SY SZ s' r.
Proof.
  intros E1 E2 E3 F H a La. destruct (F a La) as [F1 F2]. specialize (H a La). unfold lhsY, lhsZ in *.
  rewrite (qsum_ext (fun j => mulv (sz j) (B s' j) (val j) (k_row r + a)%nat) (fun j => mulv (sz j) (B s j) (val j) (k_row r + a)%nat)).
  2:{ intros j _. apply qsumn_ext. intros b _. rewrite (proj1 (F1 j b)). reflexivity. }
  rewrite (qsum_ext (fun j => mulv (zz j) (Z s' j) (zv j) (k_row r + a)%nat) (fun j => mulv (zz j) (Z s j) (zv j) (k_row r + a)%nat)).
  2:{ intros j _. apply qsumn_ext. intros b _. rewrite (proj2 (F1 j b)). reflexivity. }
  rewrite F2, H. unfold valueOf. rewrite E1, E2, E3. reflexivity.
Qed.
Lemma zeroFact_frame SY SZ s s' r :
  (forall a, a < k_size r -> forall j b, (B s' j (k_row r + a)%nat b == B s j (k_row r + a)%nat b)%Q /\ (Z s' j (k_row r + a)%nat b == Z s j (k_row r + a)%nat b)%Q) ->
  zeroFact SY SZ s r -> zeroFact SY SZ s' r.
Proof.
  intros F H j a b La. destruct (H j a b La) as [H1 H2]. destruct (F a La j b) as [F1 F2].
  split; intros; [rewrite F1|rewrite F2]; auto.
Qed.
Lemma laid_In row l r : laid row l -> In r l -> row <= k_row r /\ k_row r + k_size r <= row + crows l.
Proof.
  revert row. induction l as [|r0 l IH]; intros row L I; [destruct I|]. destruct L as [L1 L2]. simpl.
  destruct I as [->|I]; [lia|]. specialize (IH _ L2 I). lia.
Qed.

Lemma updCsts_spec k SY SZ l : forall row s z s' z', NoDup SY -> NoDup SZ -> laid row l ->
  (forall r, In r l -> NoDup (k_Y r) /\ (forall j, In j (usesY r) -> In j SY) /\ (forall j, In j (usesZ r) -> In j SZ)) ->
  (forall r, In r l -> zeroFact SY SZ s r) -> updCsts sz jac e cal k l s z = Ok (s', z') ->
  (forall r, In r l -> rowFact k SY SZ s' r /\ zeroFact SY SZ s' r) /\
  M s' = M s /\ AsZ s' = AsZ s /\ u s' = u s /\ StB s' = StB s /\ StZ s' = StZ s /\ Stc s' = Stc s /\ uIsZero s' = uIsZero s /\
  (forall a, a < row \/ row + crows l <= a ->
     (forall j b, (B s' j a b == B s j a b)%Q /\ (Z s' j a b == Z s j a b)%Q) /\ (c s' a == c s a)%Q).
Proof.
  induction l as [|r l IH]; intros row s z s' z' NY NZ L U Z0 E.
  - simpl in E. injection E as <- <-. split; [intros r []|]. repeat (split; [reflexivity|]). intros; split; [split; reflexivity|reflexivity].
  - cbn [updCsts] in E. destruct (updCst sz jac e cal k s r) as [[s1 z1]| |] eqn:E1; try discriminate. cbn [bind fst snd] in E.
    destruct L as [L1 L2]. destruct (U r (or_introl eq_refl)) as (U1 & U2 & U3).
    destruct (updCst_spec k SY SZ s r s1 z1 NY NZ U1 U2 U3 (Z0 r (or_introl eq_refl)) E1) as (R1 & R2 & R3 & R4 & R5 & R6 & R7 & R8 & R9 & R10).
    assert (Z1 : forall r', In r' l -> zeroFact SY SZ s1 r').
    { intros r' I. apply zeroFact_frame with (s := s); [|apply Z0; simpl; auto]. intros a La j b.
      apply (R10 (k_row r' + a)). destruct (laid_In _ _ _ L2 I). unfold inRows. apply andb_false_iff. right. apply Nat.ltb_ge. lia. }
    destruct (IH (row + k_size r) s1 (z && z1) s' z' NY NZ L2 (fun r' I => U r' (or_intror I)) Z1 E) as (Q1 & Q3 & Q4 & Q5 & Q6 & Q7 & Q8 & Q9 & Q10).
    split; [|].
    { intros r' [<-|I]; [|auto]. split.
      - apply (rowFact_frame k SY SZ s1 s' r Q3 Q4 Q5); [|exact R1]. intros a La. apply Q10. left. lia.
      - apply (zeroFact_frame SY SZ s1 s' r); [|exact R2]. intros a La j b. apply Q10. left. lia. }
    split; [congruence|]. split; [congruence|]. split; [congruence|]. split; [congruence|]. split; [congruence|]. split; [congruence|]. split; [congruence|].
    intros a Ha. simpl in Ha. destruct (Q10 a ltac:(lia)) as [H1 H2].
    assert (Ra : inRows (k_row r) (k_size r) a = false).
    { unfold inRows. apply andb_false_iff. destruct Ha; [left; apply Nat.leb_gt; lia|right; apply Nat.ltb_ge; lia]. }
    destruct (R10 a Ra) as [H3 H4]. split.
    + intros j b. destruct (H1 j b) as [A1 A2]. destruct (H3 j b) as [A3 A4]. split; [now rewrite A1|now rewrite A2].
    + now rewrite H2.
Qed.
End Row.
End Loops.
