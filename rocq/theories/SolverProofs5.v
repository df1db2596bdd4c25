(* C27: what the assignments write, cell by cell. *)
From Coq Require Import List Bool Arith Permutation Lia.
Import ListNotations.
From Verif Require Import Base SolverModel SolverSpec SolverProofs SolverProofs2 SolverProofs3.

(* ---- writes as a pure list ---- *)
Definition put (w : view) (x : nat * nat * content) : cellkey * content :=
  ((w_slot w, w_r0 w + fst (fst x), w_c0 w + snd (fst x)), snd x).
Definition wl (a : asg) : list (cellkey * content) :=
  match d_mat (g_data a) with None => [] | Some w => map (put w) (cellsMat a) end ++
  flat_map (fun w => map (put w) (cellsVec a)) (d_vec (g_data a)).

Lemma traverse_map {A B} (f : A -> res B) g l :
  (forall x, In x l -> f x = Ok (g x)) -> traverse f l = Ok (map g l).
Proof. intros H. induction l; simpl; auto. rewrite H by (simpl; auto). rewrite IHl; simpl; auto. intros; apply H; simpl; auto. Qed.

Definition fits (s : store) (a : asg) (w : view) : Prop :=
  w_gen w = o_gen (get s (w_slot w)) /\ a_start a + a_dim a <= w_rows w.
Definition writable (s : store) (a : asg) : Prop :=
  match d_mat (a_data a) with
  | None => True
  | Some w => fits s a w /\ forall p, In p (combine (c_vars (a_c a)) (a_cols a)) -> snd p + v_size (fst p) <= w_cols w
  end /\
  forall w, In w (d_vec (a_data a)) -> fits s a w /\ 1 <= w_cols w.

Lemma in_cellsMat a x : In x (cellsMat a) -> exists i p j, i < a_dim a /\ In p (combine (c_vars (a_c a)) (g_cols a)) /\
  j < v_size (fst p) /\ x = (g_start a + i, snd p + j, Coef (c_id (a_c a)) i (v_id (fst p)) j).
Proof.
  unfold cellsMat. intros H. apply in_flat_map in H. destruct H as (i & Hi & H). apply in_seq in Hi.
  apply in_flat_map in H. destruct H as (p & Hp & H). apply in_map_iff in H. destruct H as (j & <- & Hj).
  apply in_seq in Hj. exists i, p, j. repeat split; auto; lia.
Qed.
Lemma in_cellsVec a x : In x (cellsVec a) -> exists i, i < a_dim a /\ x = (g_start a + i, 0, Rhs (c_id (a_c a)) i).
Proof.
  unfold cellsVec. intros H. apply in_map_iff in H. destruct H as (i & <- & Hi). apply in_seq in Hi.
  exists i. split; auto; lia.
Qed.

Lemma writes_wl s a : g_start a = a_start a -> g_data a = a_data a ->
  (d_mat (a_data a) <> None -> g_cols a = a_cols a) ->
  (0 < a_dim a -> writable s a) -> writes s a = Ok (wl a).
Proof.
  intros G1 G2 G3 H.
  assert (X : forall w, In w (d_vec (a_data a)) ->
     traverse (fun x => writeAt s w (fst (fst x)) (snd (fst x)) (snd x)) (cellsVec a) = Ok (map (put w) (cellsVec a))).
  { intros w I. apply traverse_map. intros x Ix. destruct (in_cellsVec _ _ Ix) as (i & Hi & ->). simpl.
    destruct H as [_ H]; [lia|]. destruct (H _ I) as [[F1 F2] F3]. unfold writeAt. 
    destruct (Nat.eqb_spec (w_gen w) (o_gen (get s (w_slot w)))); [|congruence].
    destruct (Nat.ltb_spec (g_start a + i) (w_rows w)); [|lia].
    destruct (Nat.ltb_spec 0 (w_cols w)); [|lia]. simpl. unfold put; simpl. reflexivity. }
  assert (Y : match d_mat (g_data a) with
          | None => Ok []
          | Some w => traverse (fun x => writeAt s w (fst (fst x)) (snd (fst x)) (snd x)) (cellsMat a)
          end = Ok (match d_mat (g_data a) with None => [] | Some w => map (put w) (cellsMat a) end)).
  { rewrite G2. destruct (d_mat (a_data a)) as [w|] eqn:D; auto. apply traverse_map. intros x Ix.
    destruct (in_cellsMat _ _ Ix) as (i & p & j & Hi & Hp & Hj & ->). simpl. rewrite G3 in Hp by congruence.
    destruct H as [H _]; [lia|]. rewrite D in H. destruct H as [[F1 F2] F3]. specialize (F3 _ Hp).
    unfold writeAt. 
    destruct (Nat.eqb_spec (w_gen w) (o_gen (get s (w_slot w)))); [|congruence].
    destruct (Nat.ltb_spec (g_start a + i) (w_rows w)); [|lia].
    destruct (Nat.ltb_spec (snd p + j) (w_cols w)); [|lia]. simpl. unfold put; simpl. reflexivity. }
  unfold writes. rewrite Y. simpl.
  rewrite (traverse_map _ (fun w => map (put w) (cellsVec a))); [|rewrite G2; exact X]. simpl.
  unfold wl. now rewrite <- flat_map_concat_map.
Qed.

(* ---- cells ---- *)
Lemma cell_app l l' key : cell (l ++ l') key = cell l key ++ cell l' key.
Proof. unfold cell. now rewrite filter_app, map_app. Qed.
Lemma cell_flat_map {A} (f : A -> _) L key : cell (flat_map f L) key = flat_map (fun a => cell (f a) key) L.
Proof. induction L; simpl; auto. now rewrite cell_app, IHL. Qed.

(* coefficients of row i, column c *)
Definition coefs (a : asg) (i c : nat) : list content :=
  flat_map (fun p => if inside c (snd p, v_size (fst p))
                     then [Coef (c_id (a_c a)) i (v_id (fst p)) (c - snd p)] else [])
           (combine (c_vars (a_c a)) (g_cols a)).

Lemma slot_eqb_spec a b : reflect (a = b) (slot_eqb a b).
Proof. destruct a, b; simpl; constructor; congruence. Qed.

Lemma filter_flat_map {A B} (p : B -> bool) (f : A -> list B) l :
  filter p (flat_map f l) = flat_map (fun a => filter p (f a)) l.
Proof. induction l; simpl; auto. now rewrite filter_app, IHl. Qed.
Lemma map_flat_map' {A B C} (g : B -> C) (f : A -> list B) l :
  map g (flat_map f l) = flat_map (fun a => map g (f a)) l.
Proof. induction l; simpl; auto. now rewrite map_app, IHl. Qed.

(* filtering one value in a shifted interval *)
Lemma pick {A} (f : nat -> A) d s r : forall k,
  flat_map (fun j => if s + j =? r then [f j] else []) (seq k d) =
  if inside r (s + k, d) then [f (r - s)] else [].
Proof.
  induction d; intros k; simpl.
  - unfold inside; simpl. destruct (Nat.leb_spec (s + k) r), (Nat.ltb_spec r (s + k + 0)); simpl; auto; lia.
  - rewrite IHd. unfold inside; simpl. destruct (Nat.eqb_spec (s + k) r).
    + subst r. replace (s + k - s) with k by lia.
      destruct (Nat.leb_spec (s + S k) (s + k)); [lia|]. simpl.
      destruct (Nat.leb_spec (s + k) (s + k)), (Nat.ltb_spec (s + k) (s + k + S d)); simpl; auto; lia.
    + destruct (Nat.leb_spec (s + S k) r), (Nat.leb_spec (s + k) r), (Nat.ltb_spec r (s + S k + d)),
        (Nat.ltb_spec r (s + k + S d)); simpl; auto; lia.
Qed.

Lemma flat_map_ext_in {A B} (f g : A -> list B) l : (forall x, In x l -> f x = g x) -> flat_map f l = flat_map g l.
Proof. intros H. induction l; simpl; auto. rewrite H, IHl; simpl; auto. intros; apply H; simpl; auto. Qed.
Lemma flat_map_nil {A B} (f : A -> list B) l : (forall x, In x l -> f x = []) -> flat_map f l = [].
Proof. intros H. induction l; simpl; auto. rewrite H, IHl; simpl; auto. intros; apply H; simpl; auto. Qed.

Lemma cell_put_other w l sl r c : sl <> w_slot w -> cell (map (put w) l) (sl, r, c) = [].
Proof.
  intros N. unfold cell. induction l as [|x l IH]; auto. simpl.
  destruct (slot_eqb_spec sl (w_slot w)); [congruence|]. simpl. exact IH.
Qed.
Lemma cell_put_shift w l r c :
  cell (map (put w) l) (w_slot w, r, c) =
  flat_map (fun x => if (w_r0 w + fst (fst x) =? r) && (w_c0 w + snd (fst x) =? c) then [snd x] else []) l.
Proof.
  unfold cell. induction l as [|x l IH]; auto. cbn [map filter flat_map]. rewrite <- IH. clear IH.
  unfold key_eqb at 1. unfold put at 1. cbn [fst snd].
  destruct (slot_eqb_spec (w_slot w) (w_slot w)); [|congruence]. rewrite andb_true_l.
  rewrite (Nat.eqb_sym r), (Nat.eqb_sym c).
  destruct ((w_r0 w + fst (fst x) =? r) && (w_c0 w + snd (fst x) =? c)); reflexivity.
Qed.

Lemma inside_shift r w s d : w <= r -> inside r (w + s, d) = inside (r - w) (s, d).
Proof.
  intros H. unfold inside; simpl.
  destruct (Nat.leb_spec (w + s) r), (Nat.ltb_spec r (w + s + d)), (Nat.leb_spec s (r - w)), (Nat.ltb_spec (r - w) (s + d));
    simpl; auto; lia.
Qed.

Lemma flat_map_flat_map {A B C} (g : B -> list C) (f : A -> list B) l :
  flat_map g (flat_map f l) = flat_map (fun x => flat_map g (f x)) l.
Proof. induction l; simpl; auto. now rewrite flat_map_app, IHl. Qed.
Lemma flat_map_map {A B C} (g : B -> list C) (f : A -> B) l :
  flat_map g (map f l) = flat_map (fun x => g (f x)) l.
Proof. induction l; simpl; auto. now rewrite IHl. Qed.
Lemma flat_map_if {A B} (b : bool) (f : A -> list B) l :
  flat_map (fun x => if b then f x else []) l = if b then flat_map f l else [].
Proof. destruct b; auto. apply flat_map_nil; auto. Qed.
Lemma flat_map_single {A B} (f : A -> list B) (p : A -> bool) l :
  flat_map (fun i => if p i then f i else []) l = flat_map f (filter p l).
Proof. induction l; simpl; auto. destruct (p a); simpl; now rewrite IHl. Qed.

Lemma pick_filter d s r k : filter (fun j => s + j =? r) (seq k d) = if inside r (s + k, d) then [r - s] else [].
Proof.
  rewrite <- (pick (fun j => j)). induction (seq k d); simpl; auto. destruct (s + a =? r); simpl; congruence.
Qed.

Lemma cell_mat w a r c : w_c0 w <= c ->
  cell (map (put w) (cellsMat a)) (w_slot w, r, c) =
  if inside r (w_r0 w + g_start a, a_dim a) then coefs a (r - (w_r0 w + g_start a)) (c - w_c0 w) else [].
Proof.
  intros Hc. rewrite cell_put_shift. unfold cellsMat. rewrite flat_map_flat_map.
  erewrite flat_map_ext_in with (g := fun i => if w_r0 w + g_start a + i =? r then coefs a i (c - w_c0 w) else []).
  - rewrite flat_map_single, pick_filter, Nat.add_0_r. destruct (inside r _); auto. simpl. now rewrite app_nil_r.
  - intros i _. rewrite flat_map_flat_map. unfold coefs.
    rewrite <- flat_map_if. apply flat_map_ext_in. intros p _. rewrite flat_map_map. simpl.
    rewrite Nat.add_assoc. destruct (w_r0 w + g_start a + i =? r); simpl; [|apply flat_map_nil; auto].
    erewrite flat_map_ext_in with (g := fun j => if w_c0 w + snd p + j =? c then [Coef (c_id (a_c a)) i (v_id (fst p)) j] else []).
    + rewrite (pick (fun j => Coef (c_id (a_c a)) i (v_id (fst p)) j)). rewrite Nat.add_0_r, inside_shift by auto.
      destruct (inside _ _); auto. do 2 f_equal. lia.
    + intros j _. now rewrite Nat.add_assoc.
Qed.
Lemma cell_mat_left w a sl r c : c < w_c0 w -> cell (map (put w) (cellsMat a)) (sl, r, c) = [].
Proof.
  intros H. destruct (slot_eqb_spec sl (w_slot w)) as [->|N]; [|now apply cell_put_other].
  rewrite cell_put_shift. apply flat_map_nil. intros x _.
  destruct (Nat.eqb_spec (w_c0 w + snd (fst x)) c); [lia|]. now rewrite andb_false_r.
Qed.

Lemma cell_vec w a r c :
  cell (map (put w) (cellsVec a)) (w_slot w, r, c) =
  if inside r (w_r0 w + g_start a, a_dim a) && (c =? w_c0 w) then [Rhs (c_id (a_c a)) (r - (w_r0 w + g_start a))] else [].
Proof.
  rewrite cell_put_shift. unfold cellsVec. rewrite flat_map_map. simpl. rewrite Nat.add_0_r, (Nat.eqb_sym c).
  destruct (w_c0 w =? c).
  - rewrite andb_true_r.
    erewrite flat_map_ext_in with (g := fun i => if w_r0 w + g_start a + i =? r then [Rhs (c_id (a_c a)) i] else []).
    + rewrite (pick (fun i => Rhs (c_id (a_c a)) i)), Nat.add_0_r. reflexivity.
    + intros i _. now rewrite Nat.add_assoc, andb_true_r.
  - rewrite andb_false_r. apply flat_map_nil. intros i _. now rewrite andb_false_r.
Qed.

(* ---- columns ---- *)
Lemma mappingIn_in vs : NoDup (map v_id vs) -> forall v, In v vs -> exists o, mappingIn v vs = Ok o /\ o + v_size v <= totalSize vs.
Proof.
  unfold totalSize. induction vs as [|w vs IH]; simpl; [tauto|]. intros N v I. inversion N; subst.
  destruct (Nat.eqb_spec (v_id v) (v_id w)) as [E|E].
  - exists 0. split; auto. destruct I as [->|I]; [simpl; lia|].
    exfalso. apply H1. rewrite <- E. now apply in_map.
  - destruct I as [->|I]; [congruence|]. destruct (IH H2 _ I) as (o & -> & L). exists (v_size w + o). split; auto. lia.
Qed.

Lemma columns_length vs : length (columns vs) = totalSize vs.
Proof.
  unfold columns, totalSize. induction vs as [|v vs IH]; simpl; auto.
  now rewrite app_length, map_length, seq_length, IH.
Qed.

(* position c belongs to v iff its column is one of v *)
Lemma columns_nth vs : NoDup (map v_id vs) -> forall v o c vj, In v vs -> mappingIn v vs = Ok o ->
  nth_error (columns vs) c = Some vj ->
  inside c (o, v_size v) = (v_id v =? fst vj) /\ (v_id v = fst vj -> c = o + snd vj).
Proof.
  unfold columns. induction vs as [|w vs IH]; simpl; [tauto|]. intros N v o c vj I M Hc. inversion N; subst.
  assert (LT : c < v_size w -> vj = (v_id w, c)).
  { intros L. rewrite nth_error_app1 in Hc by (now rewrite map_length, seq_length).
    rewrite nth_error_map in Hc. destruct (nth_error (seq 0 (v_size w)) c) eqn:Q; [|discriminate].
    simpl in Hc. inversion Hc; subst. f_equal.
    apply nth_error_nth with (d := 0) in Q. rewrite seq_nth in Q by auto. lia. }
  assert (GE : v_size w <= c -> nth_error (columns vs) (c - v_size w) = Some vj).
  { intros L. rewrite nth_error_app2 in Hc by (now rewrite map_length, seq_length).
    now rewrite map_length, seq_length in Hc. }
  assert (IN : v_size w <= c -> In (fst vj) (map v_id vs)).
  { intros L. specialize (GE L). apply nth_error_In in GE. unfold columns in GE.
    apply in_flat_map in GE. destruct GE as (x & X1 & X2). apply in_map_iff in X2. destruct X2 as (j & <- & _).
    simpl. now apply in_map. }
  destruct (Nat.eqb_spec (v_id v) (v_id w)) as [E|E].
  - assert (v = w). { destruct I as [->|I]; auto. exfalso. apply H1. rewrite <- E. now apply in_map. } subst w.
    inversion M; subst o. unfold inside; simpl. destruct (Nat.ltb_spec c (v_size v)).
    + rewrite (LT H). simpl. rewrite Nat.eqb_refl. auto.
    + specialize (IN H). destruct (Nat.eqb_spec (v_id v) (fst vj)); split; auto; try congruence.
  - destruct I as [->|I]; [congruence|]. inv_bind M. inversion M; subst o. clear M.
    destruct (Nat.lt_ge_cases c (v_size w)) as [L|L].
    + rewrite (LT L). simpl. unfold inside; simpl.
      destruct (Nat.leb_spec (v_size w + x) c); [lia|]. simpl.
      destruct (Nat.eqb_spec (v_id v) (v_id w)); split; auto; congruence.
    + destruct (IH H2 v x (c - v_size w) vj I E0 (GE L)) as [A B]. rewrite inside_shift by auto.
      split; auto. intros Q. specialize (B Q). lia.
Qed.

Lemma mappings_combine vs : forall l cols, mappings l vs = Ok cols ->
  forall p, In p (combine l cols) -> In (fst p) l /\ mappingIn (fst p) vs = Ok (snd p).
Proof.
  induction l as [|v l IH]; simpl; intros cols H p I.
  - inversion H; subst. destruct I.
  - inv_bind H. inv_bind H. inversion H; subst. destruct I as [<-|I]; simpl; auto.
    destruct (IH _ E0 _ I); auto.
Qed.
Lemma mappings_ids vs : forall l cols, mappings l vs = Ok cols -> map fst (combine l cols) = l.
Proof.
  induction l as [|v l IH]; simpl; intros cols H; auto.
  inv_bind H. inv_bind H. inversion H; subst. simpl. f_equal. auto.
Qed.

Lemma filter_false {A} (p : A -> bool) l : (forall x, In x l -> p x = false) -> filter p l = [].
Proof. intros H. induction l; simpl; auto. rewrite H by (simpl; auto). apply IHl. intros; apply H; simpl; auto. Qed.
Lemma filter_id_one (l : list (var * nat)) x : NoDup (map v_id (map fst l)) ->
  filter (fun p => v_id (fst p) =? x) l = [] \/ exists p, filter (fun p => v_id (fst p) =? x) l = [p] /\ In p l /\ v_id (fst p) = x.
Proof.
  induction l as [|p l IH]; simpl; auto. intros N. inversion N; subst.
  destruct (Nat.eqb_spec (v_id (fst p)) x) as [E|E].
  - right. exists p. split; auto. replace (filter _ l) with (@nil (var*nat)); auto.
    symmetry. apply filter_false. intros q Iq. apply Nat.eqb_neq. intros Q. apply H1. rewrite E, <- Q.
    now apply in_map, in_map.
  - destruct (IH H2) as [H|(q & A & B & C)]; auto. right. exists q. auto.
Qed.

Lemma coefs_ideal vs a i c vj : NoDup (map v_id vs) -> on_vars vs (a_c a) ->
  mappings (c_vars (a_c a)) vs = Ok (g_cols a) -> nth_error (columns vs) c = Some vj ->
  coefs a i c = if involves (a_c a) (fst vj) then [Coef (c_id (a_c a)) i (fst vj) (snd vj)] else [].
Proof.
  intros N [O1 O2] M Hc. unfold coefs.
  pose proof (mappings_combine _ _ _ M) as MC. pose proof (mappings_ids _ _ _ M) as MI.
  set (L := combine (c_vars (a_c a)) (g_cols a)) in *.
  rewrite (flat_map_ext_in _ (fun p => if v_id (fst p) =? fst vj then [Coef (c_id (a_c a)) i (fst vj) (snd vj)] else [])).
  - rewrite flat_map_single.
    assert (IV : involves (a_c a) (fst vj) = existsb (fun p => v_id (fst p) =? fst vj) L).
    { unfold involves. rewrite <- MI. clear. induction L; simpl; auto. now rewrite IHL. }
    rewrite IV. rewrite <- MI in O1.
    destruct (filter_id_one L (fst vj) O1) as [H|(p & H & H1 & H2)]; rewrite H; simpl.
    + destruct (existsb _ L) eqn:Q; auto. apply existsb_exists in Q. destruct Q as (p & P1 & P2).
      assert (In p (filter (fun p => v_id (fst p) =? fst vj) L)) by (apply filter_In; auto). rewrite H in H0. destruct H0.
    + destruct (existsb _ L) eqn:Q; auto.
      assert (existsb (fun p => v_id (fst p) =? fst vj) L = true); [|congruence].
      apply existsb_exists. exists p. split; auto. now apply Nat.eqb_eq.
  - intros p Ip. destruct (MC _ Ip) as [A B].
    destruct (columns_nth vs N (fst p) (snd p) c vj (O2 _ A) B Hc) as [C D].
    rewrite C. destruct (Nat.eqb_spec (v_id (fst p)) (fst vj)) as [E|E]; auto.
    rewrite E. do 2 f_equal. rewrite (D E). lia.
Qed.

(* ---- a tiled block of rows ---- *)
Section Rows.
Variables (L : list asg) (A : asg -> nat) (rd : nat -> row) (ideal : asg -> nat -> row).

Lemma chain_rows : forall L' s e, chain s (map (fun a => (A a, a_dim a)) L') e ->
  (forall a i, In a L' -> i < a_dim a -> rd (A a + i) = ideal a i) ->
  map rd (seq s (e - s)) = flat_map (fun a => map (ideal a) (seq 0 (a_dim a))) L'.
Proof.
  induction L' as [|a L' IH]; simpl; intros s e C H.
  - subst. now rewrite Nat.sub_diag.
  - destruct C as [C1 C2]. pose proof (chain_le _ _ _ C2).
    replace (e - s) with (a_dim a + (e - (s + a_dim a))) by lia.
    rewrite seq_app, map_app, (IH _ _ C2) by auto. f_equal.
    subst s. clear -H. assert (X : forall i, i < a_dim a -> rd (A a + i) = ideal a i) by auto.
    replace (seq (A a) (a_dim a)) with (map (fun i => A a + i) (seq 0 (a_dim a))).
    + rewrite map_map. apply map_ext_in. intros i I. apply in_seq in I. apply X. lia.
    + clear. replace (seq (A a) (a_dim a)) with (seq (A a + 0) (a_dim a)) by now rewrite Nat.add_0_r.
      generalize 0. induction (a_dim a) as [|d IHd]; simpl; auto. intros m.
      f_equal. rewrite IHd. now rewrite Nat.add_succ_r.
Qed.

Lemma tiling_rows N : tiling (map (fun a => (A a, a_dim a)) L) N ->
  (forall r a i, filter (fun a => inside r (A a, a_dim a)) L = [a] -> In a L -> r = A a + i -> i < a_dim a -> r < N -> rd r = ideal a i) ->
  Permutation (map rd (seq 0 N)) (flat_map (fun a => map (ideal a) (seq 0 (a_dim a))) L).
Proof.
  intros T H. pose proof (tiling_fill _ _ T) as F. destruct T as (l' & P & C).
  apply Permutation_sym, Permutation_map_inv in P. destruct P as (L' & -> & P).
  assert (Q : map rd (seq 0 (N - 0)) = flat_map (fun a => map (ideal a) (seq 0 (a_dim a))) L').
  { apply chain_rows; auto. intros a i Ia Hi.
    assert (Ia' : In a L) by (eapply Permutation_in; [apply Permutation_sym; exact P|auto]).
    specialize (F (A a + i)).
    assert (FL : length (filter (inside (A a + i)) (map (fun a => (A a, a_dim a)) L)) =
                 length (filter (fun b => inside (A a + i) (A b, a_dim b)) L)).
    { clear. induction L; simpl; auto. destruct (inside _ _); simpl; auto. }
    rewrite FL in F.
    assert (In a (filter (fun b => inside (A a + i) (A b, a_dim b)) L)).
    { apply filter_In. split; auto. unfold inside; simpl.
      apply andb_true_intro. split; [apply Nat.leb_le; lia|apply Nat.ltb_lt; lia]. }
    destruct (Nat.ltb_spec (A a + i) N).
    - destruct (filter _ L) as [|b [|c q]] eqn:E; simpl in F; try lia. destruct H0 as [->|[]].
      eapply H; eauto.
    - destruct (filter _ L); [destruct H0|discriminate]. }
  rewrite Nat.sub_0_r in Q. rewrite Q. apply Permutation_flat_map. now apply Permutation_sym.
Qed.
End Rows.

Lemma tiling_le l n p : tiling l n -> In p l -> fst p + snd p <= n.
Proof.
  intros (l' & P & C) I. apply (Permutation_in _ P) in I. clear P l. revert C. generalize 0.
  induction l' as [|q l IH]; simpl; [destruct I|]. intros s [C1 C2]. destruct I as [->|I]; [|eauto].
  apply chain_le in C2. lia.
Qed.

(* a list of which only the elements satisfying p matter *)
Lemma flat_map_filter {A B} (f : A -> list B) p l :
  (forall a, In a l -> p a = false -> f a = []) -> flat_map f l = flat_map f (filter p l).
Proof.
  intros H. induction l as [|a l IH]; simpl; auto. rewrite IH by (intros; apply H; simpl; auto).
  destruct (p a) eqn:E; simpl; auto. rewrite (H a); simpl; auto.
Qed.
