(* C65. Construction of substitutions and choice of their calculators. *)
From Coq Require Import List Bool Arith ZArith QArith Lia.
Import ListNotations.
From Verif Require Import Base QSum ScModel ScSpec ScProofs ScProofs2.
From Verif Require DiagModel DiagSpec GcModel GcSpec.
Local Open Scope nat_scope.

(* x is made of the elements 1 and 2 of a variable of size 3; y is a variable of size 2.
   c1: (1 2 3; 4 5 6) X + (1 0; 0 1) y, c2: (7 8; 9 1) y + (1 1; 1 2) x. *)
Definition rowsOf (l : list (list Q)) : mat := fun i j => nth j (nth i l []) 0%Q.
Definition X := mkV 0 0 3.
Definition x := mkV 0 1 2.
Definition y := mkV 1 0 2.
Definition anyP := mkP false false false.
Definition diagP := mkP true true false.
Definition constP := mkP false false true.
Definition c1 := mkC 2 true [mkJ X (rowsOf [[1; 2; 3]; [4; 5; 6]]%Q) constP; mkJ y (rowsOf [[1; 0]; [0; 1]]%Q) diagP].
Definition c2 := mkC 2 true [mkJ y (rowsOf [[7; 8]; [9; 1]]%Q) constP; mkJ x (rowsOf [[1; 1]; [1; 2]]%Q) constP].
Definition print (m n : nat) (r : res mat) := match r with Ok A => map (fun i => map (fun j => Qred (A i j)) (seq 0 n)) (seq 0 m) | _ => [] end.
Definition baseOf (r : res substitution) : base := match r with Ok s => s_base s | _ => mkB [] 0 0 0 false false [] end.
Lemma proper_12 : proper [c1; c2] [x; y].
Proof.
  split; [intros v [<-|[<-|[]]]; cbv; lia|]. intros c [<-|[<-|[]]]; (split; [intros j [<-|[<-|[]]]; cbv; lia|]);
    (split; [|split; [intros ? []|exact I]]); intros j [<-|[]] (b & t & [H1 _] & [H2 _]); cbn in *; congruence.
Qed.
Lemma aligned_12 : aligned [c1; c2] [x; y].
Proof.
  intros c j v Hc Hj Hv (b & t & [H1 _] & [H2 _]) b' t' [H3 H4].
  destruct Hc as [<-|[<-|[]]]; destruct Hj as [<-|[<-|[]]]; destruct Hv as [<-|[<-|[]]]; cbn in *; try congruence; (split; [cbn; congruence|cbn; lia]).
Qed.

(* The constructor throws exactly when the constraints cannot be used for the variables, and returns when moreover the rank and
   the number of equations are possible; otherwise an assertion is violated. *)
Theorem C65_constructed : forall cs xs rank, proper cs xs -> xs <> [] ->
  let r := if (rank =? -1)%Z then Z.of_nat (rows cs) else rank in
  (newSubstitution cs xs rank Generic = Throw <-> ~ accepted cs xs r) /\
  (is_ok (newSubstitution cs xs rank Generic) = true <-> accepted cs xs r /\ (0 <= r <= Z.of_nat (rows cs))%Z /\ rows cs <= size xs).
Proof. exact constructed_generic. Qed.
Print Assumptions C65_constructed.
Example C65_constructed_case : is_ok (newSubstitution [c1; c2] [x; y] (-1) Generic) = true /\ newSubstitution [c2] [X] 1 Generic = Throw.
Proof. split; reflexivity. Qed.
(* The matrix does not need to be full rank (Substitution.h:40-42), but redundant equations in larger number than the elements of
   the variables pass the checks and violate the assertion m_ <= n_. *)
Theorem C65_redundant_refuted : exists cs xs rank, proper cs xs /\ accepted cs xs rank /\ (0 <= rank <= Z.of_nat (rows cs))%Z /\
  newSubstitution cs xs rank Generic = UB.
Proof.
  set (v := mkV 0 0 1). set (c := mkC 2 true [mkJ v (rowsOf [[1]; [2]]%Q) constP]). exists [c], [v], 1%Z.
  assert (P : proper [c] [v]).
  { split; [intros w [<-|[]]; cbv; lia|]. intros c' [<-|[]]. split; [intros j [<-|[]]; cbv; lia|]. split; [intros ? []|exact I]. }
  split; [exact P|]. split; [apply (check_iff _ _ _ P); reflexivity|]. split; [cbn; lia|reflexivity].
Qed.
Print Assumptions C65_redundant_refuted.

(* Whatever the previous updates, each block of the matrix used by an update is the current jacobian of the constraint if it has a
   variable containing the substituted one, and zero otherwise. *)
Theorem C65_blocks : forall cs0 xs rank k s h cs, newSubstitution cs0 xs rank k = Ok s -> proper cs0 xs ->
  Forall (Forall2 later cs0) h -> Forall2 later cs0 cs ->
  exists A_ A, successiveA (s_base s) h A0 = Ok A_ /\ currentA (s_base s) cs A_ = Ok A /\
  forall l1 c l2 m1 v m2 a b, cs = l1 ++ c :: l2 -> xs = m1 ++ v :: m2 -> a < c_size c -> b < v_d v ->
    (forall j, In j (c_jacs c) -> within v (j_var j) -> A (rows l1 + a) (size m1 + b) = j_mat j a (v_s v - v_s (j_var j) + b)) /\
    ((forall j, In j (c_jacs c) -> ~ within v (j_var j)) -> A (rows l1 + a) (size m1 + b) = 0%Q).
Proof.
  intros cs0 xs rank k s h cs Hs P Fh F. destruct (matrix_now _ _ _ _ _ _ _ Hs Fh F) as (A_ & A & E1 & E2 & B). exists A_, A. split; [exact E1|]. split; [exact E2|].
  intros l1 c l2 m1 v m2 a b Ec Ev Ha Hb. rewrite (B l1 c l2 m1 v m2 a b Ec Ev Ha Hb). destruct (proper_later _ _ _ F P) as [Px Pc].
  assert (Hv : nonEmpty v) by (apply Px; rewrite Ev; apply in_elt). destruct (Pc c ltac:(rewrite Ec; apply in_elt)) as [_ Pj]. split.
  - intros j Hj Hw. apply (within_contains _ _ Hv) in Hw. replace (hasVar c v) with true by (symmetry; apply existsb_exists; eauto).
    apply blk_value. clear - Pj Hj Hw Hv. induction (c_jacs c) as [|i l IH]; [destruct Hj|]. destruct Pj as [P1 P2]. cbn [find]. destruct (contains (j_var i) v) eqn:E.
    + destruct Hj as [->|Hj]; [reflexivity|]. exfalso. apply (P1 j Hj). apply (within_contains _ _ Hv) in E. apply (within_contains _ _ Hv) in Hw.
      unfold nonEmpty in Hv. exists (v_b v), (v_s v). split; [apply E|apply Hw]; split; auto; lia.
    + destruct Hj as [->|Hj]; [congruence|]. apply IH; assumption.
  - intros N. destruct (hasVar c v) eqn:Eh; [|reflexivity]. exfalso. apply existsb_exists in Eh as (j & Hj & Hw). apply (N j Hj). apply (within_contains _ _ Hv). exact Hw.
Qed.
Print Assumptions C65_blocks.
(* Hence it is the matrix of the substituted variables in the stacked constraints, when no substituted variable is partly in a
   variable of a constraint. *)
Theorem C65_matrix_partial : forall cs0 xs rank k s h cs, newSubstitution cs0 xs rank k = Ok s ->
  Forall (Forall2 later cs0) h -> Forall2 later cs0 cs -> proper cs0 xs -> aligned cs0 xs ->
  exists A_ A, successiveA (s_base s) h A0 = Ok A_ /\ currentA (s_base s) cs A_ = Ok A /\ matrixOf cs xs A.
Proof. exact matrix_ok. Qed.
Print Assumptions C65_matrix_partial.
Example C65_matrix_case : proper [c1; c2] [x; y] /\ aligned [c1; c2] [x; y] /\
  print 4 4 (currentA (baseOf (newSubstitution [c1; c2] [x; y] (-1) Auto)) [c1; c2] A0)
    = [[2; 3; 1; 0]; [5; 6; 0; 1]; [1; 1; 7; 8]; [1; 2; 9; 1]]%Q.
Proof. split; [apply proper_12|]. split; [apply aligned_12|]. vm_compute. reflexivity. Qed.
(* Otherwise coefficients may be lost: c2 depends on the first element of x, the substitution of x and y is accepted and the
   matrix has no trace of it. *)
Definition x0 := mkV 0 0 1.
Definition xx := mkV 0 0 2.
Definition d1 := mkC 2 true [mkJ xx (rowsOf [[1; 0]; [0; 1]]%Q) anyP; mkJ y (rowsOf []) anyP].
Definition d2 := mkC 2 true [mkJ x0 (rowsOf [[5]; [0]]%Q) anyP; mkJ y (rowsOf [[1; 0]; [0; 1]]%Q) anyP].
Theorem C65_matrix_refuted : exists cs xs s A, proper cs xs /\ newSubstitution cs xs (-1) Auto = Ok s /\
  currentA (s_base s) cs A0 = Ok A /\ ~ matrixOf cs xs A.
Proof.
  exists [d1; d2], [xx; y], (mkS 4 4 (baseOf (newSubstitution [d1; d2] [xx; y] (-1) Auto)) IGeneric). eexists.
  split; [|split; [reflexivity|split; [reflexivity|]]].
  - split; [intros v [<-|[<-|[]]]; cbv; lia|]. intros c [<-|[<-|[]]]; (split; [intros j [<-|[<-|[]]]; cbv; lia|]);
      (split; [|split; [intros ? []|exact I]]); intros j [<-|[]] (b & t & [H1 _] & [H2 _]); cbn in *; congruence.
  - intros H. specialize (H [d1] d2 [] 0 (fun _ _ => 0%Q) (fun b t => if (b =? 0) && (t =? 0) then 1%Q else 0%Q) eq_refl ltac:(cbn; lia)).
    assert (Q1 : forall b t, ~ partOf [xx; y] b t -> (0 == (if (b =? 0) && (t =? 0) then 1 else 0))%Q).
    { intros b t N. destruct ((b =? 0) && (t =? 0)) eqn:E; [|reflexivity]. exfalso. apply andb_true_iff in E as [E1 E2]. apply Nat.eqb_eq in E1, E2. subst.
      apply N. exists xx. split; [left; reflexivity|split; [reflexivity|cbn; lia]]. }
    specialize (H Q1). vm_compute in H. discriminate.
Qed.
Print Assumptions C65_matrix_refuted.

(* The calculator takes the matrix as constant exactly when all the jacobians it is made of were declared so when the substitution
   was built; if these do not change, neither does the matrix. *)
Theorem C65_constant : forall cs0 xs rank k s, newSubstitution cs0 xs rank k = Ok s -> proper cs0 xs ->
  (b_const (s_base s) = true <-> forall c j v, In c cs0 -> In j (c_jacs c) -> In v xs -> within v (j_var j) -> p_const (j_prop j) = true) /\
  forall h cs A_ A h' cs' A_' A', Forall (Forall2 later cs0) h -> Forall2 later cs0 cs -> Forall (Forall2 later cs0) h' -> Forall2 later cs0 cs' ->
    b_const (s_base s) = true -> unchanged cs0 cs cs' ->
    successiveA (s_base s) h A0 = Ok A_ -> currentA (s_base s) cs A_ = Ok A ->
    successiveA (s_base s) h' A0 = Ok A_' -> currentA (s_base s) cs' A_' = Ok A' ->
    DiagSpec.eqm (s_m s) (size xs) A A'.
Proof.
  intros cs0 xs rank k s Hs P. pose proof (newSubstitution_ok _ _ _ _ _ Hs) as (_ & Hk & _ & Hm & Hb & _).
  pose proof (newBase_ok _ _ _ _ (check_apart _ _ _ Hk) Hb) as (_ & _ & _ & _ & _ & _ & Hc & _). rewrite Hc. split; [apply constness_iff; exact P|].
  intros h cs A_ A h' cs' A_' A' Fh F Fh' F' Hct U E1 E2 E3 E4. rewrite Hm.
  destruct (matrix_now _ _ _ _ _ _ _ Hs Fh F) as (B_ & B & G1 & G2 & HB). destruct (matrix_now _ _ _ _ _ _ _ Hs Fh' F') as (B_' & B' & G3 & G4 & HB').
  rewrite G1 in E1. injection E1 as <-. rewrite G2 in E2. injection E2 as <-. rewrite G3 in E3. injection E3 as <-. rewrite G4 in E4. injection E4 as <-.
  apply (constant_matrix cs0 xs cs cs'); assumption.
Qed.
Print Assumptions C65_constant.
Example C65_constant_case : b_const (baseOf (newSubstitution [c1] [x] (-1) Auto)) = true /\ b_const (baseOf (newSubstitution [c1; c2] [x; y] (-1) Auto)) = false.
Proof. split; reflexivity. Qed.
(* A matrix given to the constructor of BasicLinearConstraint is declared constant, and may be changed with A(): the update that
   follows returns and keeps the decomposition of the former matrix. *)
Definition e1 := mkC 1 true [mkJ x0 (rowsOf [[2%Q]]) constP].
Theorem C65_set_matrix_refuted : exists c s c' A' f f' g g', newSubstitution [c] [x0] (-1) Auto = Ok s /\
  c' = setA c 0 (rowsOf [[4%Q]]) anyP /\ currentA (s_base s) [c'] A0 = Ok A' /\
  GcSpec.decomposes 1 1 (rowsOf [[2%Q]]) f /\ GcSpec.decomposes 1 1 A' f' /\ GcModel.g_init g = true /\
  GcModel.updates (b_const (s_base s)) 1 1 [f; f'] g = Some ([true; true], g') /\
  forall Ash N S, GcSpec.multiplies 1 1 1 (GcModel.g_qr g') (GcModel.g_N g') Ash N S -> ~ GcSpec.calculates 1 1 1 A' Ash N S.
Proof.
  set (qr q := GcModel.mkQR 1 GcSpec.identity (rowsOf [[q]]) (fun j => j)).
  assert (D : forall q, ~ (q == 0)%Q -> GcSpec.decomposes 1 1 (rowsOf [[q]]) (qr q)).
  { intros q Hq. split; [cbn; lia|]. split; [cbn; lia|]. split; [auto|]. split; [auto|]. split; [intros [|k] Hk; [exact Hq|cbn in Hk; lia]|].
    exists GcSpec.identity. split; [|split]; intros [|i] [|j] Hi Hj; try lia; try reflexivity. unfold DiagSpec.mul, qsumn. cbn. ring. }
  exists e1, (mkS 1 1 (baseOf (newSubstitution [e1] [x0] (-1) Auto)) IGeneric), (setA e1 0 (rowsOf [[4%Q]]) anyP), (rowsOf [[4%Q]]), (qr 2%Q), (qr 4%Q),
    (GcModel.mkGC (qr 2%Q) A0 true). eexists.
  split; [reflexivity|]. split; [reflexivity|]. split; [reflexivity|]. split; [apply D; discriminate|]. split; [apply D; discriminate|]. split; [reflexivity|]. split; [reflexivity|].
  intros Ash N S [_ H] [G _]. specialize (H false A0 GcSpec.identity). destruct H as (oA & oS & E & H). destruct (H 1) as [H1 _]. cbv zeta in E.
  specialize (H1 0 0 ltac:(lia) ltac:(lia)). specialize (G 0 0 ltac:(lia) ltac:(lia)).
  assert (Eo : (oA 0%nat 0%nat == 1 # 2)%Q).
  { assert (E' : forall r : res (mat * mat), r = Ok (oA, oS) -> oA 0 0 = match r with Ok (a, _) => a 0 0 | _ => 0%Q end) by (intros r ->; reflexivity).
    rewrite (E' _ E). vm_compute. reflexivity. }
  rewrite Eo in H1. unfold DiagSpec.mul, qsumn in H1, G. cbn [seq qsum] in H1, G. change (GcSpec.identity 0 0) with 1%Q in H1.
  change (rowsOf [[4%Q]] 0 0) with 4%Q in G.
  assert (K : (Ash 0%nat 0%nat == 1 # 2)%Q) by (rewrite H1; ring). rewrite K in G. vm_compute in G. discriminate.
Qed.
Print Assumptions C65_set_matrix_refuted.

(* AutoCalculator takes the diagonal calculator exactly for one constraint and one whole variable whose jacobian is declared
   diagonal and invertible. If the matrix of an update is so, this calculator keeps the contract of calculators (the generic one
   does by C64). *)
Theorem C65_auto : forall cs xs rank s, newSubstitution cs xs rank Auto = Ok s -> proper cs xs ->
  match s_impl s with
  | IGeneric => ~ diagonalDeclared cs xs
  | IDiagonal d => diagonalDeclared cs xs /\
      forall A, diagonalRegular (s_m s) (size xs) A ->
      exists inv Ash S, DiagModel.update_ d A = Ok inv /\ GcSpec.calculates (s_m s) (size xs) (Z.to_nat (s_rank s)) A Ash (DiagModel.i_N d) S /\
        forall minus outA outS inM, exists oA oS, DiagModel.premultiply d inv minus outA outS inM = Ok (oA, oS) /\
          forall p, DiagSpec.eqm (size xs) p oA (if minus : bool then DiagSpec.opp (DiagSpec.mul (s_m s) Ash inM) else DiagSpec.mul (s_m s) Ash inM) /\
                    DiagSpec.eqm (s_m s - Z.to_nat (s_rank s)) p oS (DiagSpec.mul (s_m s) (DiagSpec.tr S) inM)
  end.
Proof.
  intros cs xs rank s Hs P. pose proof (auto_choice _ _ _ _ Hs) as H. pose proof (wholeDiagonal_iff cs xs P) as W.
  destruct (s_impl s) as [|d].
  - rewrite <- W, H. discriminate.
  - destruct H as (H1 & H2 & H3 & H4). split; [apply W; exact H1|]. apply newSubstitution_ok in Hs as (_ & _ & _ & Em & _). rewrite Em, H2, Nat2Z.id, H3. rewrite H3 in H4.
    intros A R. apply (diagonal_contract (size xs) d A H4 R).
Qed.
Print Assumptions C65_auto.
Definition g1 := mkC 2 true [mkJ y (rowsOf [[3; 0]; [0; 4]]%Q) diagP].
Example C65_auto_case : match newSubstitution [g1] [y] (-1) Auto with Ok s => match s_impl s with IDiagonal d => DiagModel.i_nnz d | _ => [] end | _ => [] end = [0; 1].
Proof. reflexivity. Qed.
(* The choice is made once: if the matrix stops being diagonal (and is no longer declared so), the updates still return and the
   products are wrong. *)
Theorem C65_auto_later_refuted : exists c s d c' A' inv oA oS, newSubstitution [c] [y] (-1) Auto = Ok s /\ s_impl s = IDiagonal d /\ b_const (s_base s) = false /\
  c' = setA c 0 (rowsOf [[3; 1]; [0; 4]]%Q) anyP /\ currentA (s_base s) [c'] A0 = Ok A' /\ DiagModel.update_ d A' = Ok inv /\
  DiagModel.premultiply d inv false A0 A0 A' = Ok (oA, oS) /\ ~ DiagSpec.eqm 2 2 (DiagSpec.mul 2 A' oA) A'.
Proof.
  exists g1. do 7 eexists. split; [vm_compute; reflexivity|]. split; [reflexivity|]. split; [reflexivity|]. split; [reflexivity|]. split; [reflexivity|]. split; [reflexivity|]. split; [reflexivity|].
  intros H. specialize (H 0 1 ltac:(lia) ltac:(lia)). vm_compute in H. discriminate.
Qed.
Print Assumptions C65_auto_later_refuted.
(* Setting the matrix of a variable of a constraint gives this matrix and these properties to that variable, and changes nothing else. *)
Theorem C65_set_matrix : forall c i M p,
  c_size (setA c i M p) = c_size c /\ c_equal (setA c i M p) = c_equal c /\
  (forall k, k <> i -> nth_error (c_jacs (setA c i M p)) k = nth_error (c_jacs c) k) /\
  forall j, nth_error (c_jacs c) i = Some j -> nth_error (c_jacs (setA c i M p)) i = Some (mkJ (j_var j) M p).
Proof.
  intros c i M p. split; [reflexivity|]. split; [reflexivity|].
  assert (G : forall l s k, nth_error (map (fun ij => if fst ij =? i then mkJ (j_var (snd ij)) M p else snd ij) (combine (seq s (length l)) l)) k =
    option_map (fun j => if s + k =? i then mkJ (j_var j) M p else j) (nth_error l k)).
  { induction l as [|j l IH]; intros s [|k]; cbn [length seq combine map nth_error option_map]; [reflexivity|reflexivity| |].
    - cbn [fst snd]. rewrite Nat.add_0_r. reflexivity.
    - rewrite IH. rewrite <- plus_n_Sm. reflexivity. }
  unfold setA. cbn [c_jacs]. split.
  - intros k Hk. rewrite G. cbn [plus]. destruct (Nat.eqb_spec k i); [contradiction|]. destruct (nth_error (c_jacs c) k); reflexivity.
  - intros j Hj. rewrite G, Hj. cbn [plus option_map]. rewrite Nat.eqb_refl. reflexivity.
Qed.
Print Assumptions C65_set_matrix.
Example C65_set_matrix_case : nth_error (c_jacs (setA g1 0 A0 anyP)) 0 = Some (mkJ y A0 anyP).
Proof. reflexivity. Qed.
