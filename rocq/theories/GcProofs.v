From Coq Require Import List Bool Arith QArith Lia Permutation Setoid Morphisms.
Import ListNotations.
From Verif Require Import Base QSum DiagSpec GcModel GcSpec.
Local Open Scope nat_scope.

(* Sums *)
Lemma qsum_map {A B} (f : B -> Q) (g : A -> B) l : (qsum f (map g l) == qsum (fun a => f (g a)) l)%Q.
Proof. induction l as [|a l IH]; cbn; [reflexivity|]. rewrite IH. reflexivity. Qed.
Lemma qsum_perm {A} (f : A -> Q) l l' : Permutation l l' -> (qsum f l == qsum f l')%Q.
Proof. induction 1; cbn; try reflexivity; [rewrite IHPermutation; reflexivity|ring|rewrite IHPermutation1; assumption]. Qed.
Lemma seq_shift_map r n s : seq (s + r) n = map (fun t => s + t) (seq r n).
Proof. revert r. induction n as [|n IH]; intros r; cbn; [reflexivity|]. rewrite <- IH. rewrite <- plus_n_Sm. reflexivity. Qed.
Lemma qsumn_split f r n : r <= n -> (qsumn f n == qsumn f r + qsumn (fun t => f (r + t)%nat) (n - r))%Q.
Proof.
  intros H. unfold qsumn. replace n with (r + (n - r)) at 1 by lia. rewrite seq_app, qsum_app. cbn [plus].
  replace r with (r + 0) at 2 by lia. rewrite seq_shift_map, qsum_map. reflexivity.
Qed.
Lemma qsumn_S f n : (qsumn f (S n) == qsumn f n + f n)%Q.
Proof. unfold qsumn. rewrite seq_S, qsum_app. cbn. ring. Qed.
Lemma qsumn_opp f n : (qsumn (fun k => - f k) n == - qsumn f n)%Q.
Proof. rewrite <- (Qmult_1_l (qsumn f n)) at 1. setoid_replace (- (1 * qsumn f n))%Q with ((-1) * qsumn f n)%Q by ring. rewrite <- qsumn_scale. apply qsumn_ext. intros. ring. Qed.
Lemma qsumn_scale_r c f n : (qsumn (fun k => f k * c) n == qsumn f n * c)%Q.
Proof. rewrite (Qmult_comm (qsumn f n) c), <- qsumn_scale. apply qsumn_ext. intros. ring. Qed.
Lemma qsumn_id_l m i (f : nat -> Q) : i < m -> (qsumn (fun k => identity i k * f k) m == f i)%Q.
Proof.
  intros H. rewrite <- (qsumn_delta f m i H). apply qsumn_ext. intros k _. unfold identity. rewrite (Nat.eqb_sym k i).
  destruct (Nat.eqb_spec i k) as [->|]; ring.
Qed.
Lemma qsumn_id_r m i (f : nat -> Q) : i < m -> (qsumn (fun k => f k * identity k i) m == f i)%Q.
Proof.
  intros H. rewrite <- (qsumn_delta f m i H). apply qsumn_ext. intros k _. unfold identity.
  destruct (Nat.eqb_spec k i) as [->|]; ring.
Qed.

(* Triangular systems *)
Section Tri.
  Variables (R : mat) (r : nat).
  Hypothesis Hd : forall k, k < r -> ~ (R k k == 0)%Q.
  Definition row (i : nat) (x : vec) : Q := (R i i * x i + qsumn (fun t => R i (S i + t)%nat * x (S i + t)%nat) (r - S i))%Q.
  Lemma row_ext i x y : (forall j, (i <= j < r)%nat -> x j == y j)%Q -> i < r -> (row i x == row i y)%Q.
  Proof.
    intros H Hi. unfold row. rewrite (H i) by lia. apply Qplus_inj_l. apply qsumn_ext. intros t Ht. rewrite (H (S i + t)) by lia. reflexivity.
  Qed.
  Lemma row_upd k v x : (row k (fun i => if i =? k then v else x i) == R k k * v + qsumn (fun t => R k (S k + t)%nat * x (S k + t)%nat) (r - S k))%Q.
  Proof.
    unfold row. rewrite Nat.eqb_refl. apply Qplus_inj_l. apply qsumn_ext. intros t _. destruct (Nat.eqb_spec (S k + t) k); [lia|reflexivity].
  Qed.
  Lemma backsub_high b : forall k x i, k <= i -> backsub R r b k x i = x i.
  Proof.
    induction k as [|k IH]; intros x i Hi; cbn [backsub]; [reflexivity|]. rewrite IH by lia.
    destruct (Nat.eqb_spec i k); [lia|reflexivity].
  Qed.
  Lemma backsub_row b : forall k x i, k <= r -> (forall i, (k <= i < r)%nat -> row i x == b i)%Q -> i < r -> (row i (backsub R r b k x) == b i)%Q.
  Proof.
    induction k as [|k IH]; intros x i Hk Hx Hi; cbn [backsub]; [apply Hx; lia|]. apply IH; [lia| |exact Hi].
    intros j Hj. destruct (Nat.eq_dec j k) as [->|Hne].
    - rewrite row_upd. field. apply Hd. lia.
    - transitivity (row j x); [|apply Hx; lia]. apply row_ext; [|lia]. intros t Ht. destruct (Nat.eqb_spec t k); [lia|reflexivity].
  Qed.
  Lemma row_unique x y : (forall i, (i < r)%nat -> row i x == row i y)%Q -> forall i, i < r -> (x i == y i)%Q.
  Proof.
    intros H. assert (G : forall k, k <= r -> forall i, r - k <= i < r -> (x i == y i)%Q).
    { induction k as [|k IH]; intros Hk i Hi; [lia|]. destruct (Nat.eq_dec i (r - S k)) as [->|Hne]; [|apply IH; lia].
      assert (E0 : exists i0, i0 = r - S k) by eauto. destruct E0 as [i0 E0]. rewrite <- E0 in *.
      specialize (H i0 ltac:(lia)). unfold row in H.
      assert (E : (qsumn (fun t => R i0 (S i0 + t)%nat * x (S i0 + t)%nat) (r - S i0) == qsumn (fun t => R i0 (S i0 + t)%nat * y (S i0 + t)%nat) (r - S i0))%Q).
      { apply qsumn_ext. intros t Ht. rewrite (IH ltac:(lia) (S i0 + t)) by lia. reflexivity. }
      rewrite E in H. apply Qplus_inj_r in H. apply (Qmult_inj_l _ _ (R i0 i0)); [apply Hd; lia|exact H]. }
    intros i Hi. apply (G r); lia.
  Qed.
  (* a row as a sum over all the columns *)
  Lemma row_sum i x : i < r -> (qsumn (fun j => upper r R i j * x j) r == row i x)%Q.
  Proof.
    intros Hi. rewrite (qsumn_split _ i r) by lia. rewrite qsumn_zero.
    - replace (r - i) with (S (r - S i)) by lia. rewrite (qsumn_split _ 1) by lia. cbn [Nat.sub]. rewrite Nat.sub_0_r.
      unfold row. unfold qsumn at 1. cbn [seq qsum]. rewrite Nat.add_0_r. unfold upper at 1. destruct (Nat.ltb_spec i r); [|lia]. rewrite Nat.leb_refl. cbn [andb].
      rewrite (qsumn_ext _ (fun t => R i (S i + t)%nat * x (S i + t)%nat)%Q); [ring|].
      intros t Ht. unfold upper. replace (i + (1 + t)) with (S i + t) by lia. destruct (Nat.ltb_spec i r); [|lia]. destruct (Nat.leb_spec i (S i + t)); [|lia]. reflexivity.
    - intros j Hj. unfold upper. destruct (Nat.leb_spec i j); [lia|]. rewrite andb_false_r. ring.
  Qed.
  Lemma solve_rows B j i : i < r -> (qsumn (fun k => upper r R i k * solve R r B k j) r == B i j)%Q.
  Proof. intros Hi. rewrite (row_sum i (fun k => solve R r B k j) Hi). unfold solve. apply (backsub_row (fun a => B a j)); [lia|lia|exact Hi]. Qed.
  Lemma solve_unique B j x : (forall i, (i < r)%nat -> qsumn (fun k => upper r R i k * x k) r == B i j)%Q -> forall i, i < r -> (x i == solve R r B i j)%Q.
  Proof.
    intros H. apply row_unique. intros i Hi. rewrite <- (row_sum i x Hi), (H i Hi), <- (row_sum i (fun k => solve R r B k j) Hi). symmetry. apply solve_rows. exact Hi.
  Qed.
  (* the transposed system *)
  Lemma left_unique w : (forall j, (j < r)%nat -> qsumn (fun k => w k * upper r R k j) r == 0)%Q -> forall k, k < r -> (w k == 0)%Q.
  Proof.
    intros H k. induction k as [k IH] using lt_wf_ind. intros Hk. specialize (H k Hk).
    rewrite (qsumn_split _ (S k) r) in H by lia. rewrite qsumn_S in H. rewrite (qsumn_zero (fun k0 => w k0 * upper r R k0 k)%Q) in H.
    - rewrite qsumn_zero in H.
      + unfold upper in H. destruct (Nat.ltb_spec k r); [|lia]. rewrite Nat.leb_refl in H. cbn [andb] in H.
        assert (E : (w k * R k k == 0)%Q) by (rewrite <- H; ring). apply Qmult_integral in E as [E|E]; [exact E|]. exfalso. exact (Hd k Hk E).
      + intros t Ht. unfold upper. destruct (Nat.leb_spec (S k + t) k); [lia|]. rewrite andb_false_r. ring.
    - intros i Hi. rewrite (IH i Hi ltac:(lia)). ring.
  Qed.
End Tri.

Lemma regular_true R r : (forall k, k < r -> ~ (R k k == 0)%Q) -> regular R r = true.
Proof.
  intros H. apply forallb_forall. intros k Hk. apply in_seq in Hk. destruct (Qeq_bool (R k k) 0) eqn:E; [|reflexivity].
  exfalso. apply (H k); [lia|]. apply Qeq_bool_eq. exact E.
Qed.
Lemma rowsIn_true P n : (forall j, j < n -> P j < n) -> rowsIn P n = true.
Proof. intros H. apply forallb_forall. intros k Hk. apply in_seq in Hk. apply Nat.ltb_lt. apply H. lia. Qed.

(* Rows written one after the other *)
Lemma rows_notin (g : mat -> nat -> mat) (P : nat -> nat) : (forall M i a, a <> P i -> g M i a = M a) ->
  forall l M a, (forall i, In i l -> a <> P i) -> fold_left g l M a = M a.
Proof.
  intros Hg. induction l as [|i l IH]; intros M a H; cbn; [reflexivity|]. rewrite IH by (intros; apply H; right; assumption). apply Hg. apply H. left. reflexivity.
Qed.
Lemma rows_in (g : mat -> nat -> mat) (P : nat -> nat) (v : nat -> nat -> Q) :
  (forall M i a, a <> P i -> g M i a = M a) -> (forall M i b, g M i (P i) b = v i b) ->
  forall l M i b, NoDup l -> (forall j k, In j l -> In k l -> P j = P k -> j = k) -> In i l -> fold_left g l M (P i) b = v i b.
Proof.
  intros Hg Hv. induction l as [|j l IH]; intros M i b ND HP Hi; [destruct Hi|]. inversion ND as [|? ? Hn ND']; subst x l0. cbn [fold_left].
  destruct Hi as [<-|Hi].
  - rewrite (rows_notin g P Hg). + apply Hv. + intros k Hk E. apply Hn. replace j with k; [exact Hk|]. apply HP; [right; exact Hk|left; reflexivity|auto].
  - apply IH; auto. intros a c Ha Hc. apply HP; right; assumption.
Qed.

Section Dec.
  Variables (m n : nat) (A : mat) (f : qr).
  Hypothesis D : decomposes m n A f.
  Notation r := (f_rank f). Notation R := (f_R f). Notation P := (f_P f). Notation QT := (f_QT f).
  Notation U := (upper (f_rank f) (f_R f)).
  Let Dm : r <= m. Proof. apply D. Qed.
  Let Dn : r <= n. Proof. apply D. Qed.
  Let DP : forall j, j < n -> P j < n. Proof. apply D. Qed.
  Let DI : forall i j, i < n -> j < n -> P i = P j -> i = j. Proof. apply D. Qed.
  Let Dd : forall k, k < r -> ~ (R k k == 0)%Q. Proof. apply D. Qed.

  Lemma perm : Permutation (map P (seq 0 n)) (seq 0 n).
  Proof.
    apply NoDup_Permutation_bis.
    - assert (G : forall l, (forall x, In x l -> x < n) -> NoDup l -> NoDup (map P l)).
      { induction l as [|a l IH]; intros Hl ND; cbn; [constructor|]. inversion ND as [|? ? Hn ND']; subst x l0. constructor.
        - intros H. apply in_map_iff in H as (b & E & Hb). apply Hn. replace a with b; [exact Hb|]. apply DI; auto; apply Hl; [right; exact Hb|left; reflexivity].
        - apply IH; auto. intros; apply Hl; right; auto. }
      apply G; [intros x Hx; apply in_seq in Hx; lia|apply seq_NoDup].
    - rewrite map_length. reflexivity.
    - intros x Hx. apply in_map_iff in Hx as (j & <- & Hj). apply in_seq in Hj. apply in_seq. specialize (DP j). lia.
  Qed.
  Lemma onto a : a < n -> exists j, j < n /\ P j = a.
  Proof.
    intros Ha. assert (H : In a (map P (seq 0 n))) by (apply (Permutation_in _ (Permutation_sym perm)); apply in_seq; lia).
    apply in_map_iff in H as (j & E & Hj). apply in_seq in Hj. exists j. split; [lia|exact E].
  Qed.
  Lemma sumP (g : nat -> Q) : (qsumn g n == qsumn (fun j => g (P j)) n)%Q.
  Proof. unfold qsumn. rewrite <- (qsum_perm g _ _ perm). apply qsum_map. Qed.
  (* Q^T A P = U *)
  Lemma QTA k j : k < m -> j < n -> (qsumn (fun i => QT k i * A i (P j)) m == U k j)%Q.
  Proof.
    intros Hk Hj. destruct D as (_ & _ & _ & _ & _ & Qm & _ & H2 & H3).
    rewrite (qsumn_ext _ (fun i => qsumn (fun l => QT k i * Qm i l * U l j) m)%Q).
    - rewrite qsumn_swap. rewrite (qsumn_ext _ (fun l => identity k l * U l j)%Q); [apply (qsumn_id_l m k (fun l => U l j)); exact Hk|].
      intros l Hl. rewrite <- (H2 k l Hk Hl). unfold mul. rewrite <- qsumn_scale_r. reflexivity.
    - intros i Hi. rewrite (H3 i j Hi Hj). unfold mul. rewrite <- qsumn_scale. apply qsumn_ext. intros. ring.
  Qed.
  (* what Q^T maps to 0 is 0 *)
  Lemma QT_inj v : (forall k, (k < m)%nat -> qsumn (fun i => QT k i * v i) m == 0)%Q -> forall i, i < m -> (v i == 0)%Q.
  Proof.
    intros H i Hi. destruct D as (_ & _ & _ & _ & _ & Qm & H1 & _).
    rewrite <- (qsumn_id_l m i v Hi). rewrite (qsumn_ext _ (fun k => qsumn (fun l => Qm i l * (QT l k * v k)) m)%Q).
    - rewrite qsumn_swap. apply qsumn_zero. intros l Hl. rewrite qsumn_scale, (H l Hl). ring.
    - intros k Hk. rewrite <- (H1 i k Hi Hk). unfold mul. rewrite <- qsumn_scale_r. apply qsumn_ext. intros. ring.
  Qed.
  Lemma QTv k x : k < m -> (qsumn (fun i => QT k i * mulv n A x i) m == qsumn (fun j => U k j * x (P j)) n)%Q.
  Proof.
    intros Hk. unfold mulv.
    rewrite (qsumn_ext _ (fun i => qsumn (fun j => QT k i * A i (P j) * x (P j)) n)%Q).
    - rewrite qsumn_swap. apply qsumn_ext. intros j Hj. rewrite qsumn_scale_r. rewrite (QTA k j Hk Hj). reflexivity.
    - intros i _. rewrite sumP, <- qsumn_scale. apply qsumn_ext. intros. ring.
  Qed.
  Lemma A_zero_iff x : eqv m (mulv n A x) (fun _ => 0%Q) <-> (forall k, (k < r)%nat -> qsumn (fun j => U k j * x (P j)) n == 0)%Q.
  Proof.
    split.
    - intros H k Hk. rewrite <- (QTv k x) by lia. apply qsumn_zero. intros i Hi. rewrite (H i Hi). ring.
    - intros H. intros i Hi. apply (QT_inj (mulv n A x)); [|exact Hi]. intros k Hk. rewrite (QTv k x Hk).
      destruct (Nat.ltb_spec k r) as [L|L]; [apply H; exact L|]. apply qsumn_zero. intros j _. unfold upper. destruct (Nat.ltb_spec k r); [lia|]. cbn [andb]. ring.
  Qed.

  Definition X : mat := solve R r (fun i j => R i (r + j)).
  Lemma update_ok N0 : exists N, update_ n r f N0 = Ok N /\
    (forall i b, i < r -> N (P i) b = (- X i b)%Q) /\ (forall t b, t < n - r -> N (P (r + t)) b = if b =? t then 1%Q else 0%Q).
  Proof.
    unfold update_. rewrite Nat.eqb_refl, (regular_true R r Dd), (rowsIn_true P n DP). cbn [negb andb].
    eexists. split; [reflexivity|]. split.
    - intros i b Hi. rewrite (rows_notin _ P).
      + rewrite (rows_in _ P (fun i j => (- X i j)%Q)); [reflexivity| | |apply seq_NoDup| |apply in_seq; lia].
        * intros M j a Ha. unfold setRow. destruct (Nat.eqb_spec a (P j)); [congruence|reflexivity].
        * intros M j c. unfold setRow. rewrite Nat.eqb_refl. reflexivity.
        * intros j k Hj Hk. apply in_seq in Hj, Hk. apply DI; lia.
      + intros M j a Ha. unfold setElt, setRow. destruct (Nat.eqb_spec a (P j)); [congruence|reflexivity].
      + intros j Hj E. apply in_seq in Hj. apply DI in E; lia.
    - intros t b Ht. rewrite (rows_in _ P (fun i j => if j =? i - r then 1%Q else 0%Q)); [| | |apply seq_NoDup| |apply in_seq; lia].
      + replace (r + t - r) with t by lia. reflexivity.
      + intros M j a Ha. unfold setElt, setRow. destruct (Nat.eqb_spec a (P j)); [congruence|reflexivity].
      + intros M j c. unfold setElt, setRow. rewrite Nat.eqb_refl. reflexivity.
      + intros j k Hj Hk. apply in_seq in Hj, Hk. apply DI; lia.
  Qed.

  (* N *)
  Lemma null_ok N : (forall i b, i < r -> N (P i) b = (- X i b)%Q) -> (forall t b, t < n - r -> N (P (r + t)) b = if b =? t then 1%Q else 0%Q) ->
    nullBasis m n (n - r) A N.
  Proof.
    intros N1 N2. split.
    - intros i b Hi Hb. change (mulv n A (fun a => N a b) i == 0)%Q. revert i Hi. apply A_zero_iff. intros k Hk.
      rewrite (qsumn_split _ r n Dn).
      rewrite (qsumn_ext _ (fun j => - (U k j * X j b))%Q) by (intros j Hj; rewrite (N1 j b Hj); ring).
      rewrite qsumn_opp. rewrite (solve_rows R r Dd (fun i j => R i (r + j)) b k Hk).
      rewrite (qsumn_ext _ (fun t => if t =? b then U k (r + t)%nat else 0)%Q).
      + rewrite (qsumn_delta (fun t => U k (r + t)%nat)) by exact Hb. unfold upper. destruct (Nat.ltb_spec k r); [|lia].
        destruct (Nat.leb_spec k (r + b)); [|lia]. cbn [andb]. ring.
      + intros t Ht. rewrite (N2 t b Ht), (Nat.eqb_sym b t). destruct (t =? b); ring.
    - intros x Hx. rewrite A_zero_iff in Hx. exists (fun t => x (P (r + t))). split.
      + intros a Ha. destruct (onto a Ha) as (j & Hj & <-). unfold mulv. destruct (Nat.ltb_spec j r) as [L|L].
        * assert (E : forall i, i < r -> (x (P i) == qsumn (fun k => N (P i) k * x (P (r + k)%nat)) (n - r))%Q).
          { apply (row_unique R r Dd (fun i => x (P i)) (fun i => qsumn (fun k => N (P i) k * x (P (r + k)%nat)) (n - r))%Q).
            intros i Hi. rewrite <- !row_sum by exact Hi. specialize (Hx i Hi). rewrite (qsumn_split _ r n Dn) in Hx.
            assert (E1 : (qsumn (fun j => U i j * x (P j)) r == - qsumn (fun t => U i (r + t)%nat * x (P (r + t)%nat)) (n - r))%Q).
            { apply (Qplus_inj_r _ _ (qsumn (fun t => U i (r + t)%nat * x (P (r + t)%nat)) (n - r))%Q). rewrite Hx. ring. }
            rewrite E1. rewrite (qsumn_ext (fun j => U i j * qsumn _ _)%Q (fun j => qsumn (fun k => (U i j * N (P j) k) * x (P (r + k)%nat)) (n - r))%Q).
            - rewrite qsumn_swap, <- qsumn_opp. apply qsumn_ext. intros k Hk. rewrite qsumn_scale_r.
              rewrite (qsumn_ext _ (fun j => - (U i j * X j k))%Q) by (intros j' Hj'; rewrite (N1 j' k Hj'); ring).
              rewrite qsumn_opp, (solve_rows R r Dd (fun i j => R i (r + j)) k i Hi). unfold upper. destruct (Nat.ltb_spec i r); [|lia].
              destruct (Nat.leb_spec i (r + k)); [|lia]. cbn [andb]. ring.
            - intros j' Hj'. rewrite <- qsumn_scale. apply qsumn_ext. intros. ring. }
          apply E. exact L.
        * replace j with (r + (j - r)) at 1 by lia.
          rewrite <- (qsumn_delta (fun t => x (P (r + t))) (n - r) (j - r)) by lia.
          apply qsumn_ext. intros t Ht. replace (P j) with (P (r + (j - r))) by (f_equal; lia). rewrite (N2 (j - r) t) by lia. destruct (t =? j - r); ring.
      + intros z' Hz' t Ht. cbn beta. rewrite (Hz' (P (r + t))) by (apply DP; lia). unfold mulv.
        rewrite <- (qsumn_delta z' (n - r) t Ht). apply qsumn_ext. intros k Hk. rewrite (N2 t k Ht). destruct (k =? t); ring.
  Qed.

  (* S *)
  Definition S_ : mat := fun a b => QT (r + b) a.
  Lemma left_ok : nullBasis n m (m - r) (tr A) S_.
  Proof.
    split.
    - intros a b Ha Hb. destruct (onto a Ha) as (j & Hj & <-). unfold mul, tr, S_, zero.
      rewrite (qsumn_ext _ (fun k => QT (r + b)%nat k * A k (P j))%Q) by (intros; ring). rewrite (QTA (r + b) j) by lia.
      unfold upper. destruct (Nat.ltb_spec (r + b) r); [lia|]. reflexivity.
    - intros y Hy. destruct D as (_ & _ & _ & _ & _ & Qm & H1 & H2 & H3).
      set (w := fun k => qsumn (fun a => y a * Qm a k)%Q m).
      assert (Hw : forall a, a < m -> (y a == qsumn (fun k => w k * QT k a) m)%Q).
      { intros a Ha. unfold w. rewrite (qsumn_ext _ (fun k => qsumn (fun c => y c * (Qm c k * QT k a)) m)%Q).
        - rewrite qsumn_swap. rewrite (qsumn_ext _ (fun c => y c * identity c a)%Q); [symmetry; apply (qsumn_id_r m a y); exact Ha|].
          intros c Hc. rewrite qsumn_scale. rewrite <- (H1 c a Hc Ha). reflexivity.
        - intros k Hk. rewrite <- qsumn_scale_r. apply qsumn_ext. intros. ring. }
      assert (Hz : forall k, k < r -> (w k == 0)%Q).
      { apply (left_unique R r Dd). intros j Hj. specialize (Hy (P j) (DP j ltac:(lia))). unfold mulv, tr in Hy.
        rewrite (qsumn_ext _ (fun i => qsumn (fun k => (y i * Qm i k) * U k j) m)%Q) in Hy.
        - rewrite qsumn_swap in Hy. rewrite (qsumn_ext _ (fun k => w k * U k j)%Q) in Hy by (intros; apply qsumn_scale_r).
          rewrite (qsumn_split _ r m Dm) in Hy. rewrite (qsumn_zero (fun t => w (r + t)%nat * U (r + t)%nat j)%Q) in Hy; [rewrite <- Hy; ring|].
          intros t _. unfold upper. destruct (Nat.ltb_spec (r + t) r); [lia|]. cbn [andb]. ring.
        - intros i Hi. rewrite (H3 i j Hi ltac:(lia)). unfold mul. rewrite <- qsumn_scale_r. apply qsumn_ext. intros. ring. }
      exists (fun b => w (r + b)). split.
      + intros a Ha. rewrite (Hw a Ha), (qsumn_split _ r m Dm). rewrite qsumn_zero by (intros k Hk; rewrite (Hz k Hk); ring).
        rewrite Qplus_0_l. unfold mulv, S_. apply qsumn_ext. intros. ring.
      + intros z' Hz' b Hb. unfold w. rewrite (qsumn_ext _ (fun a => qsumn (fun k => z' k * (QT (r + k)%nat a * Qm a (r + b)%nat)) (m - r))%Q).
        * rewrite qsumn_swap. rewrite <- (qsumn_delta z' (m - r) b Hb). apply qsumn_ext. intros k Hk. rewrite qsumn_scale.
          pose proof (H2 (r + k) (r + b) ltac:(lia) ltac:(lia)) as E. unfold mul in E. rewrite E. unfold identity.
          destruct (Nat.eqb_spec (r + k) (r + b)), (Nat.eqb_spec k b); try lia; ring.
        * intros a Ha. rewrite (Hz' a Ha). unfold mulv, S_. rewrite <- qsumn_scale_r. apply qsumn_ext. intros. ring.
  Qed.

  (* A^# *)
  Definition W : mat := solve R r QT.
  Lemma premultiply_ok minus outA inM : exists oA oS, premultiply m n r f minus outA inM = Ok (oA, oS) /\
    (forall i b, i < r -> oA (P i) b = if minus then (- solve R r (mmul m QT inM) i b)%Q else solve R r (mmul m QT inM) i b) /\
    (forall j b, r <= j < n -> oA (P j) b = 0%Q) /\ (forall i b, oS i b = mmul m QT inM (r + i) b).
  Proof.
    unfold premultiply. rewrite (regular_true R r Dd), (rowsIn_true P n DP). cbn [negb andb].
    eexists. eexists. split; [reflexivity|]. split; [|split].
    - intros i b Hi. rewrite (rows_notin _ P).
      + rewrite (rows_in _ P (fun i j => if minus then (- solve R r (mmul m QT inM) i j)%Q else solve R r (mmul m QT inM) i j)); [reflexivity| | |apply seq_NoDup| |apply in_seq; lia].
        * intros M j a Ha. unfold setRow. destruct (Nat.eqb_spec a (P j)); [congruence|reflexivity].
        * intros M j c. unfold setRow. rewrite Nat.eqb_refl. reflexivity.
        * intros j k Hj Hk. apply in_seq in Hj, Hk. apply DI; lia.
      + intros M j a Ha. unfold setRow. destruct (Nat.eqb_spec a (P j)); [congruence|reflexivity].
      + intros j Hj E. apply in_seq in Hj. apply DI in E; lia.
    - intros j b Hj. rewrite (rows_in _ P (fun _ _ => 0%Q)); [reflexivity| | |apply seq_NoDup| |apply in_seq; lia].
      + intros M i a Ha. unfold setRow. destruct (Nat.eqb_spec a (P i)); [congruence|reflexivity].
      + intros M i c. unfold setRow. rewrite Nat.eqb_refl. reflexivity.
      + intros i k Hi Hk. apply in_seq in Hi, Hk. apply DI; lia.
    - reflexivity.
  Qed.
  Lemma solve_linear inM i b : i < r -> (solve R r (mmul m QT inM) i b == qsumn (fun k => W i k * inM k b) m)%Q.
  Proof.
    intros Hi. symmetry. revert i Hi. apply (solve_unique R r Dd (mmul m QT inM) b (fun i => qsumn (fun k => W i k * inM k b) m)%Q).
    intros i Hi. rewrite (qsumn_ext _ (fun j => qsumn (fun k => (U i j * W j k) * inM k b) m)%Q).
    - rewrite qsumn_swap. unfold mmul. apply qsumn_ext. intros k Hk. rewrite qsumn_scale_r. unfold W. rewrite (solve_rows R r Dd QT k i Hi). reflexivity.
    - intros j Hj. rewrite <- qsumn_scale. apply qsumn_ext. intros. ring.
  Qed.
  (* the matrix that premultiplies: its rows, by the permutation *)
  Definition isAsh (Ash : mat) : Prop := (forall i b, i < r -> Ash (P i) b = W i b) /\ (forall j b, r <= j < n -> Ash (P j) b = 0%Q).
  Definition AshOf : mat := fold_left (fun M i => setRow M (P i) (fun j => W i j)) (seq 0 r) (fun _ _ => 0%Q).
  Lemma Ash_is : isAsh AshOf.
  Proof.
    unfold AshOf. split.
    - intros i b Hi. rewrite (rows_in _ P W); [reflexivity| | |apply seq_NoDup| |apply in_seq; lia].
      + intros M j a Ha. unfold setRow. destruct (Nat.eqb_spec a (P j)); [congruence|reflexivity].
      + intros M j c. unfold setRow. rewrite Nat.eqb_refl. reflexivity.
      + intros j k Hj Hk. apply in_seq in Hj, Hk. apply DI; lia.
    - intros j b Hj. rewrite (rows_notin _ P); [reflexivity| |].
      + intros M i a Ha. unfold setRow. destruct (Nat.eqb_spec a (P i)); [congruence|reflexivity].
      + intros i Hi E. apply in_seq in Hi. apply DI in E; lia.
  Qed.
  Lemma inverse_ok Ash : isAsh Ash -> eqm m n (mul m (mul n A Ash) A) A.
  Proof.
    intros [H1 H2] i a Hi Ha. destruct (onto a Ha) as (j & Hj & <-).
    (* A (Ash A(:, Pj)) = A(:, Pj) *)
    set (x := fun c => qsumn (fun k => Ash c k * A k (P j))%Q m).
    assert (E0 : (mul m (mul n A Ash) A i (P j) == mulv n A x i)%Q).
    { unfold mul, mulv, x. rewrite (qsumn_ext _ (fun k => qsumn (fun c => A i c * (Ash c k * A k (P j))) n)%Q).
      - rewrite qsumn_swap. apply qsumn_ext. intros c Hc. rewrite qsumn_scale. reflexivity.
      - intros k Hk. rewrite <- qsumn_scale_r. apply qsumn_ext. intros. ring. }
    rewrite E0.
    assert (E1 : (mulv n A (fun c => x c - (if c =? P j then 1 else 0)) i == 0)%Q).
    { revert i Hi E0. intros i Hi _. revert i Hi. apply A_zero_iff. intros k Hk.
      rewrite (qsumn_ext _ (fun l => U k l * x (P l) + - (if l =? j then U k l else 0))%Q).
      - rewrite qsumn_add, qsumn_opp, (qsumn_delta (fun l => U k l) n j Hj). rewrite (qsumn_split _ r n Dn).
        rewrite (qsumn_zero (fun t => U k (r + t)%nat * x (P (r + t)%nat))%Q).
        + rewrite (qsumn_ext _ (fun l => U k l * solve R r (mmul m QT (fun a _ => A a (P j))) l 0%nat)%Q).
          * rewrite (solve_rows R r Dd _ 0 k Hk). unfold mmul. rewrite (QTA k j) by lia. ring.
          * intros l Hl. rewrite (solve_linear _ l 0 Hl). unfold x. apply Qmult_comp; [reflexivity|]. apply qsumn_ext. intros c Hc. rewrite (H1 l c Hl). reflexivity.
        + intros t Ht. unfold x. rewrite qsumn_zero; [ring|]. intros c Hc. rewrite (H2 (r + t) c) by lia. ring.
      - intros l Hl. destruct (Nat.eqb_spec l j) as [->|Hne]; [rewrite Nat.eqb_refl; ring|].
        destruct (Nat.eqb_spec (P l) (P j)) as [E|_]; [apply DI in E; lia|]. ring. }
    unfold mulv in E1. rewrite (qsumn_ext _ (fun c => A i c * x c + - (if c =? P j then A i c else 0))%Q) in E1.
    - rewrite qsumn_add, qsumn_opp, (qsumn_delta (fun c => A i c) n (P j) (DP j Hj)) in E1. unfold mulv.
      apply (Qplus_inj_r _ _ (- A i (P j))%Q). rewrite E1. ring.
    - intros c _. destruct (c =? P j); ring.
  Qed.
  Lemma Ash_mul Ash inM j b : isAsh Ash -> j < n -> 
    (mul m Ash inM (P j) b == if j <? r then solve R r (mmul m QT inM) j b else 0)%Q.
  Proof.
    intros [H1 H2] Hj. unfold mul. destruct (Nat.ltb_spec j r) as [L|L].
    - rewrite (solve_linear inM j b L). apply qsumn_ext. intros k _. rewrite (H1 j k L). reflexivity.
    - apply qsumn_zero. intros k _. rewrite (H2 j k) by lia. ring.
  Qed.
End Dec.

Definition NOf (n : nat) (f : qr) : mat := match update_ n (f_rank f) f (fun _ _ => 0%Q) with Ok N => N | _ => fun _ _ => 0%Q end.
Lemma NOf_ok m n A f N0 : decomposes m n A f -> exists N, update_ n (f_rank f) f N0 = Ok N /\ eqm n (n - f_rank f) N (NOf n f).
Proof.
  intros D. destruct (update_ok m n A f D N0) as (N & E & H1 & H2). exists N. split; [exact E|]. unfold NOf.
  destruct (update_ok m n A f D (fun _ _ => 0%Q)) as (N' & -> & H1' & H2').
  intros a b Ha Hb. destruct (onto m n A f D a Ha) as (j & Hj & <-). destruct (Nat.ltb_spec j (f_rank f)).
  - rewrite H1, H1' by assumption. reflexivity.
  - replace j with (f_rank f + (j - f_rank f)) by lia. rewrite H2, H2' by lia. reflexivity.
Qed.
Lemma calc_ok m n A f : decomposes m n A f -> calculates m n (f_rank f) A (AshOf f) (NOf n f) (S_ f).
Proof.
  intros D. split; [apply (inverse_ok m n A f D), (Ash_is m n A f D)|]. split; [|apply (left_ok m n A f D)].
  unfold NOf. destruct (update_ok m n A f D (fun _ _ => 0%Q)) as (N' & -> & H1' & H2'). apply (null_ok m n A f D N' H1' H2').
Qed.
Lemma products m n A f minus outA inM : decomposes m n A f ->
  exists oA oS, premultiply m n (f_rank f) f minus outA inM = Ok (oA, oS) /\
    forall p, eqm n p oA (if minus then opp (mul m (AshOf f) inM) else mul m (AshOf f) inM) /\
              eqm (m - f_rank f) p oS (mul m (tr (S_ f)) inM).
Proof.
  intros D. destruct (premultiply_ok m n A f D minus outA inM) as (oA & oS & E & H1 & H2 & H3). exists oA, oS. split; [exact E|].
  intros p. split.
  - intros a b Ha Hb. destruct (onto m n A f D a Ha) as (j & Hj & <-).
    pose proof (Ash_mul m n A f D (AshOf f) inM j b (Ash_is m n A f D) Hj) as Em. destruct (Nat.ltb_spec j (f_rank f)) as [L|L].
    + rewrite (H1 j b L). destruct minus; unfold opp; rewrite Em; reflexivity.
    + rewrite (H2 j b) by lia. destruct minus; unfold opp; rewrite Em; reflexivity.
  - intros i b Hi Hb. rewrite H3. reflexivity.
Qed.
Lemma update_rank n r f N0 N : update_ n r f N0 = Ok N -> f_rank f = r.
Proof. unfold update_. destruct (Nat.eqb_spec (f_rank f) r); [auto|discriminate]. Qed.
Lemma calculates_ext m n r A N N' Ash S : eqm n (n - r) N N' -> calculates m n r A Ash N' S -> calculates m n r A Ash N S.
Proof.
  intros E (H1 & [H2 H3] & H4). split; [exact H1|]. split; [|exact H4]. split.
  - intros i j Hi Hj. rewrite <- (H2 i j Hi Hj). unfold mul. apply qsumn_ext. intros k Hk. rewrite (E k j Hk Hj). reflexivity.
  - intros x Hx. destruct (H3 x Hx) as (z & Hz & Hu). exists z.
    assert (G : forall y i, i < n -> (mulv (n - r) N y i == mulv (n - r) N' y i)%Q).
    { intros y i Hi. unfold mulv. apply qsumn_ext. intros k Hk. rewrite (E i k Hi Hk). reflexivity. }
    split; [intros i Hi; rewrite (G z i Hi); apply Hz; exact Hi|]. intros z' Hz'. apply Hu. intros i Hi. rewrite <- (G z' i Hi). apply Hz'. exact Hi.
Qed.

(* Successive updates *)
Lemma updates_app constant n r fs f g : updates constant n r (fs ++ [f]) g =
  match updates constant n r fs g with
  | Some (bs, g') => match update constant n r f g' with Done g2 => Some (bs ++ [true], g2) | Threw g2 => Some (bs ++ [false], g2) | Undefined => None end
  | None => None
  end.
Proof.
  revert g. induction fs as [|f0 fs IH]; intros g; cbn [app updates].
  - destruct (update constant n r f g); reflexivity.
  - destruct (update constant n r f0 g); cbn; rewrite ?IH; try reflexivity;
      destruct (updates constant n r fs g0) as [[bs g']|]; cbn; try reflexivity; destruct (update constant n r f g'); reflexivity.
Qed.
(* what is in the calculator was computed by an update that returned *)
Definition from (n r : nat) (fs : list qr) (g : calculator) : Prop := In (g_qr g) fs /\ exists N0, update_ n r (g_qr g) N0 = Ok (g_N g).
Lemma updates_from constant n r fs : forall g bs g', g_init g = true -> updates constant n r fs g = Some (bs, g') ->
  length bs = length fs /\
  (constant = true -> g_init g' = false -> from n r fs g') /\ (forall bs', bs = bs' ++ [true] -> from n r fs g' /\ (constant = false -> forall fs' f, fs = fs' ++ [f] -> g_qr g' = f)).
Proof.
  induction fs as [|f fs IH] using rev_ind; intros g bs g' Hg.
  - cbn. intros E. injection E as <- <-. split; [reflexivity|]. split; [congruence|]. intros bs' E. destruct bs'; discriminate.
  - rewrite updates_app. destruct (updates constant n r fs g) as [[bs0 g0]|] eqn:E0; [|discriminate].
    destruct (IH g bs0 g0 Hg E0) as (I0 & I1 & I2). unfold update. destruct (negb constant || g_init g0) eqn:Ec.
    + destruct (update_ n r f (g_N g0)) as [N| |] eqn:Eu; [| |discriminate]; intros E; injection E as <- <-.
      * assert (F : from n r (fs ++ [f]) (mkGC f N false)) by (split; [cbn; apply in_or_app; right; left; reflexivity|exists (g_N g0); exact Eu]).
        split; [rewrite !app_length, I0; reflexivity|]. split; [auto|]. intros bs' _. split; [exact F|]. intros _ fs' f' E. apply app_inj_tail in E as [_ <-]. reflexivity.
      * split; [rewrite !app_length, I0; reflexivity|]. split.
        -- intros -> Hi. cbn in Hi, Ec. congruence.
        -- intros bs' E. apply app_inj_tail in E as [_ E]. discriminate.
    + apply orb_false_iff in Ec as [Ec1 Ec2]. apply negb_false_iff in Ec1. intros E. injection E as <- <-.
      destruct (I1 Ec1 Ec2) as [F1 F2]. assert (F : from n r (fs ++ [f]) g0) by (split; [apply in_or_app; left; exact F1|exact F2]).
      split; [rewrite !app_length, I0; reflexivity|]. split; [auto|]. intros bs' _. split; [exact F|]. congruence.
Qed.
Lemma decomposes_ext m n A A' f : eqm m n A A' -> decomposes m n A f -> decomposes m n A' f.
Proof.
  intros E (H1 & H2 & H3 & H4 & H5 & Qm & H6 & H7 & H8). split; [exact H1|]. split; [exact H2|]. split; [exact H3|]. split; [exact H4|]. split; [exact H5|].
  exists Qm. split; [exact H6|]. split; [exact H7|]. intros i j Hi Hj. rewrite <- (E i (f_P f j) Hi (H3 j Hj)). apply H8; assumption.
Qed.

(* The rank is that of A: two bases of the same space have as many elements. *)
Definition skip (p i : nat) : nat := if i <? p then i else S i.
Lemma sum_skip f a p : p < a -> (qsumn f a == f p + qsumn (fun i => f (skip p i)) (a - 1))%Q.
Proof.
  intros Hp. rewrite (qsumn_split f p a) by lia. rewrite (qsumn_split (fun i => f (skip p i)) p (a - 1)) by lia.
  rewrite (qsumn_split (fun t => f (p + t)) 1 (a - p)) by lia. unfold qsumn at 2. cbn [seq qsum]. rewrite Nat.add_0_r.
  assert (E1 : (qsumn (fun i => f (skip p i)) p == qsumn f p)%Q).
  { apply qsumn_ext. intros k Hk. unfold skip. destruct (Nat.ltb_spec k p); [reflexivity|lia]. }
  assert (E2 : (qsumn (fun t => f (p + (1 + t))%nat) (a - p - 1) == qsumn (fun t => f (skip p (p + t))) (a - 1 - p))%Q).
  { replace (a - p - 1) with (a - 1 - p) by lia. apply qsumn_ext. intros k _. unfold skip. destruct (Nat.ltb_spec (p + k) p); [lia|].
    replace (p + (1 + k)) with (S (p + k)) by lia. reflexivity. }
  rewrite E1, E2. ring.
Qed.
Lemma find_nonzero (f : nat -> Q) a : (forall i, i < a -> (f i == 0)%Q) \/ exists p, p < a /\ ~ (f p == 0)%Q.
Proof.
  induction a as [|a [IH|(p & Hp & Hn)]]; [left; intros; lia| |right; exists p; split; [lia|exact Hn]].
  destruct (Qeq_dec (f a) 0) as [E|E]; [left; intros i Hi|right; exists a; split; [lia|exact E]].
  destruct (Nat.eq_dec i a) as [->|]; [exact E|apply IH; lia].
Qed.
Lemma underdetermined b : forall a (M : mat), b < a ->
  exists z : vec, (exists i, i < a /\ ~ (z i == 0)%Q) /\ forall k, k < b -> (qsumn (fun i => M k i * z i) a == 0)%Q.
Proof.
  induction b as [|b IH]; intros a M Hab.
  - exists (fun _ => 1%Q). split; [exists 0; split; [lia|discriminate]|]. intros; lia.
  - destruct (find_nonzero (M b) a) as [Hz|(p & Hp & Hn)].
    + destruct (IH a M ltac:(lia)) as (z & Hz1 & Hz2). exists z. split; [exact Hz1|]. intros k Hk.
      destruct (Nat.eq_dec k b) as [->|]; [|apply Hz2; lia]. apply qsumn_zero. intros i Hi. rewrite (Hz i Hi). ring.
    + destruct (IH (a - 1) (fun k i => M k (skip p i) - M k p / M b p * M b (skip p i))%Q ltac:(lia)) as (z & (i & Hi & Hzi) & Hz2).
      set (zz := fun j => if j =? p then (- (qsumn (fun i => M b (skip p i) * z i) (a - 1)) / M b p)%Q else if j <? p then z j else z (j - 1)).
      assert (Hskip : forall i, zz (skip p i) = z i).
      { intros j. unfold zz, skip. destruct (Nat.ltb_spec j p).
        - destruct (Nat.eqb_spec j p); [lia|]. destruct (Nat.ltb_spec j p); [reflexivity|lia].
        - destruct (Nat.eqb_spec (S j) p); [lia|]. destruct (Nat.ltb_spec (S j) p); [lia|]. f_equal. lia. }
      assert (Hzp : zz p = (- (qsumn (fun i => M b (skip p i) * z i) (a - 1)) / M b p)%Q) by (unfold zz; rewrite Nat.eqb_refl; reflexivity).
      exists zz. split.
      * exists (skip p i). split; [unfold skip; destruct (i <? p); lia|]. rewrite Hskip. exact Hzi.
      * assert (G : forall k, (qsumn (fun i => M k i * zz i) a == M k p * zz p + qsumn (fun i => M k (skip p i) * z i) (a - 1))%Q).
        { intros k. rewrite (sum_skip (fun i => M k i * zz i)%Q a p Hp). apply Qplus_inj_l. apply qsumn_ext. intros j _. rewrite Hskip. reflexivity. }
        intros k Hk. rewrite (G k), Hzp. destruct (Nat.eq_dec k b) as [->|].
        -- field. exact Hn.
        -- specialize (Hz2 k ltac:(lia)).
           rewrite (qsumn_ext _ (fun i => M k (skip p i) * z i + (- (M k p / M b p)) * (M b (skip p i) * z i))%Q) in Hz2 by (intros; ring).
           rewrite qsumn_add, qsumn_scale in Hz2. rewrite <- Hz2. field. exact Hn.
Qed.
Lemma basis_le m n A c1 c2 B1 B2 : nullBasis m n c1 A B1 -> nullBasis m n c2 A B2 -> c1 <= c2.
Proof.
  intros [H1 U1] [H2 U2]. destruct (Nat.le_gt_cases c1 c2) as [L|L]; [exact L|exfalso].
  (* each column of B1 in terms of B2; a finite choice *)
  assert (HM : forall c, c <= c1 -> exists M : mat, forall j, j < c -> eqv n (fun i => B1 i j) (mulv c2 B2 (fun k => M k j))).
  { induction c as [|c IH]; intros Hc; [exists (fun _ _ => 0%Q); intros; lia|]. destruct IH as [M HM]; [lia|].
    destruct (U2 (fun i => B1 i c)) as (z & Hz & _); [intros i Hi; apply (H1 i c Hi); lia|].
    exists (fun k j => if j =? c then z k else M k j). intros j Hj i Hi. destruct (Nat.eq_dec j c) as [->|].
    - rewrite (Hz i Hi). unfold mulv. apply qsumn_ext. intros k _. rewrite Nat.eqb_refl. reflexivity.
    - rewrite (HM j ltac:(lia) i Hi). unfold mulv. apply qsumn_ext. intros k _. destruct (Nat.eqb_spec j c); [lia|reflexivity]. }
  destruct (HM c1 (Nat.le_refl _)) as [M EM]. destruct (underdetermined c2 c1 M L) as (z & (i & Hi & Hn) & Hz).
  destruct (U1 (fun _ => 0%Q)) as (z0 & Hz0 & Hu); [intros k Hk; apply qsumn_zero; intros; ring|].
  assert (E1 : eqv c1 z0 (fun _ => 0%Q)) by (apply Hu; intros k Hk; symmetry; apply qsumn_zero; intros; ring).
  assert (E2 : eqv c1 z0 z).
  { apply Hu. intros k Hk. symmetry. unfold mulv.
    rewrite (qsumn_ext _ (fun j => qsumn (fun l => B2 k l * (M l j * z j)) c2)%Q).
    - rewrite qsumn_swap. apply qsumn_zero. intros l Hl. rewrite qsumn_scale, (Hz l Hl). ring.
    - intros j Hj. rewrite (EM j Hj k Hk). unfold mulv. rewrite <- qsumn_scale_r. apply qsumn_ext. intros. ring. }
  apply Hn. rewrite <- (E2 i Hi). apply E1. exact Hi.
Qed.
Lemma rank_of m n A f r : decomposes m n A f -> r <= n -> ((exists B, nullBasis m n (n - r) A B) <-> f_rank f = r).
Proof.
  intros D Hr. destruct (calc_ok m n A f D) as (_ & HN & _). split.
  - intros [B HB]. pose proof (basis_le _ _ _ _ _ _ _ HB HN). pose proof (basis_le _ _ _ _ _ _ _ HN HB). destruct D as (_ & H2 & _). lia.
  - intros <-. eauto.
Qed.
