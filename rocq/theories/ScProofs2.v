From Coq Require Import List Bool Arith ZArith QArith Lia.
Import ListNotations.
From Verif Require Import Base QSum ScModel ScSpec ScProofs.
From Verif Require DiagModel DiagSpec DiagProofs DiagProofs2 GcModel GcSpec.
Local Open Scope nat_scope.

(* ---- constness ---- *)
Lemma locate_row cs : forall i, i < rows cs -> exists l1 c l2 a, cs = l1 ++ c :: l2 /\ a < c_size c /\ i = rows l1 + a.
Proof.
  induction cs as [|c cs IH]; intros i Hi; [cbn in Hi; lia|]. rewrite rows_cons in Hi. destruct (Nat.lt_ge_cases i (c_size c)) as [H|H].
  - exists [], c, cs, i. auto.
  - destruct (IH (i - c_size c) ltac:(lia)) as (l1 & c' & l2 & a & -> & Ha & E). exists (c :: l1), c', l2, a. split; [reflexivity|]. split; [exact Ha|]. rewrite rows_cons. lia.
Qed.
Lemma locate_col xs : forall i, i < size xs -> exists l1 x l2 a, xs = l1 ++ x :: l2 /\ a < v_d x /\ i = size l1 + a.
Proof.
  induction xs as [|c xs IH]; intros i Hi; [cbn in Hi; lia|]. rewrite size_cons in Hi. destruct (Nat.lt_ge_cases i (v_d c)) as [H|H].
  - exists [], c, xs, i. auto.
  - destruct (IH (i - v_d c) ltac:(lia)) as (l1 & c' & l2 & a & -> & Ha & E). exists (c :: l1), c', l2, a. split; [reflexivity|]. split; [exact Ha|]. rewrite size_cons. lia.
Qed.
Lemma find_nth (p : var -> bool) l : forall l', map j_var l = map j_var l' ->
  match find (fun j => p (j_var j)) l, find (fun j => p (j_var j)) l' with
  | Some j, Some j' => exists k, nth_error l k = Some j /\ nth_error l' k = Some j'
  | None, None => True
  | _, _ => False
  end.
Proof.
  induction l as [|j l IH]; intros [|j' l'] E; try discriminate; [exact I|]. cbn [map] in E. injection E as E1 E2. cbn [find]. rewrite <- E1.
  destruct (p (j_var j)).
  - exists 0. auto.
  - specialize (IH l' E2). destruct (find _ l), (find _ l'); auto. destruct IH as (k & H1 & H2). exists (S k). auto.
Qed.
Lemma Forall2_nth {A B} (R : A -> B -> Prop) l l' : Forall2 R l l' -> forall i a, nth_error l' i = Some a -> exists b, nth_error l i = Some b /\ R b a.
Proof. induction 1; intros [|i] a0 E; cbn in *; try discriminate; [injection E as <-; eauto|apply IHForall2; exact E]. Qed.
Lemma nth_elt {A} (l1 : list A) x l2 : nth_error (l1 ++ x :: l2) (length l1) = Some x.
Proof. induction l1; cbn; auto. Qed.
Lemma constness_blk cs0 xs c0 v : constness cs0 xs = true -> In c0 cs0 -> In v xs -> hasVar c0 v = true ->
  exists j0, find (fun j => contains (j_var j) v) (c_jacs c0) = Some j0 /\ p_const (j_prop j0) = true.
Proof.
  unfold constness. rewrite forallb_forall. intros H Hc Hv Hh. specialize (H c0 Hc). rewrite forallb_forall in H. specialize (H v Hv). rewrite Hh in H.
  unfold jacobian in H. destruct (find _ (c_jacs c0)) as [j0|] eqn:E; [|discriminate]. exists j0. split; [reflexivity|]. destruct (same _ _); exact H.
Qed.
Lemma constant_matrix cs0 xs cs cs' A A' : Forall2 later cs0 cs -> Forall2 later cs0 cs' -> constness cs0 xs = true -> unchanged cs0 cs cs' ->
  blocks cs xs A -> blocks cs' xs A' -> DiagSpec.eqm (rows cs0) (size xs) A A'.
Proof.
  intros F F' Hk U B B' i j Hi Hj. rewrite (later_rows _ _ F) in Hi. destruct (locate_row cs i Hi) as (l1 & c & l2 & a & Ec & Ha & ->).
  destruct (locate_col xs j Hj) as (m1 & v & m2 & b & Ev & Hb & ->).
  destruct (Forall2_split _ _ _ F _ _ _ Ec) as (l1' & c0 & l2' & E0 & F1 & L & F2).
  assert (G : exists n1 c' n2, cs' = n1 ++ c' :: n2 /\ Forall2 later l1' n1 /\ later c0 c').
  { clear - F' E0. subst cs0. apply Forall2_app_inv_l in F' as (n1 & n2 & F1 & F2 & ->). inversion F2 as [|? c' ? n2' L F2']; subst. exists n1, c', n2'. auto. }
  destruct G as (n1 & c' & n2 & Ec' & F1' & L').
  rewrite (B l1 c l2 m1 v m2 a b Ec Ev Ha Hb).
  replace (rows l1) with (rows n1) by (rewrite <- (later_rows _ _ F1), <- (later_rows _ _ F1'); reflexivity).
  rewrite (B' n1 c' n2 m1 v m2 a b Ec' Ev); [|rewrite <- (proj1 L'), (proj1 L); exact Ha|exact Hb].
  rewrite <- (later_hasVar c0 c v L), <- (later_hasVar c0 c' v L'). destruct (hasVar c0 v) eqn:Eh; [|reflexivity].
  destruct (constness_blk cs0 xs c0 v Hk ltac:(rewrite E0; apply in_elt) ltac:(rewrite Ev; apply in_elt) Eh) as (j0 & Ef & Hp).
  pose proof (find_nth (fun w => contains w v) (c_jacs c0) (c_jacs c) (proj2 L)) as G1.
  pose proof (find_nth (fun w => contains w v) (c_jacs c) (c_jacs c') ltac:(rewrite <- (proj2 L); apply (proj2 L'))) as G2.
  cbv beta in G1, G2. rewrite Ef in G1. destruct (find (fun j => contains (j_var j) v) (c_jacs c)) as [j1|] eqn:Ef1; [|contradiction].
  destruct (find (fun j => contains (j_var j) v) (c_jacs c')) as [j2|] eqn:Ef2; [|contradiction].
  pose proof (find_nth (fun w => contains w v) (c_jacs c0) (c_jacs c') (proj2 L')) as G3.
  rewrite (blk_value c v j1 a b Ef1), (blk_value c' v j2 a b Ef2).
  (* same index: the vars lists are the same, and the first that contains v *)
  assert (Hk1 : exists k, nth_error (c_jacs c0) k = Some j0 /\ nth_error (c_jacs c) k = Some j1 /\ nth_error (c_jacs c') k = Some j2).
  { clear - Ef Ef1 Ef2 L L'. destruct L as [_ L], L' as [_ L']. revert L L' Ef Ef1 Ef2. generalize (c_jacs c0), (c_jacs c), (c_jacs c').
    induction l as [|x l IH]; intros [|y l0] [|z l3] L L' Ef Ef1 Ef2; try discriminate. cbn [map] in L, L'. injection L as E1 L. injection L' as E2 L'.
    cbn [find] in Ef, Ef1, Ef2. rewrite <- E1 in Ef1. rewrite <- E2 in Ef2. destruct (contains (j_var x) v).
    - exists 0. cbn. auto.
    - destruct (IH l0 l3 L L' Ef Ef1 Ef2) as (k & H). exists (S k). exact H. }
  destruct Hk1 as (k & K0 & K1 & K2).
  assert (Ev12 : j_var j1 = j_var j2).
  { apply (map_nth_error j_var) in K0, K1, K2. pose proof (proj2 L) as L1. pose proof (proj2 L') as L2. rewrite <- L1 in K1. rewrite <- L2 in K2. congruence. }
  rewrite Ev12. apply (U (length l1) c0 c c' k j0 j1 j2); auto.
  - rewrite E0. rewrite <- (later_length _ _ F1). apply nth_elt.
  - rewrite Ec. apply nth_elt.
  - rewrite Ec', <- (later_length _ _ F1), (later_length _ _ F1'). apply nth_elt.
Qed.
Lemma constness_iff cs xs : proper cs xs ->
  (constness cs xs = true <-> forall c j x, In c cs -> In j (c_jacs c) -> In x xs -> within x (j_var j) -> p_const (j_prop j) = true).
Proof.
  intros [Px Pc]. unfold constness. rewrite forallb_forall. split.
  - intros H c j x Hc Hj Hx Hw. specialize (H c Hc). rewrite forallb_forall in H. specialize (H x Hx). apply (within_contains _ _ (Px x Hx)) in Hw.
    assert (Hh : hasVar c x = true) by (apply existsb_exists; eauto). rewrite Hh in H.
    assert (Ef : find (fun j => contains (j_var j) x) (c_jacs c) = Some j).
    { destruct (Pc c Hc) as [_ P]. clear - P Hj Hw Px Hx. induction (c_jacs c) as [|i l IH]; [destruct Hj|]. destruct P as [P1 P2]. cbn [find]. destruct (contains (j_var i) x) eqn:E.
      - destruct Hj as [->|Hj]; [reflexivity|]. exfalso. apply (P1 j Hj). pose proof (Px x Hx) as Hn. apply (within_contains _ _ Hn) in E. apply (within_contains _ _ Hn) in Hw.
        unfold nonEmpty in Hn. exists (v_b x), (v_s x). split; [apply E|apply Hw]; split; auto; lia.
      - destruct Hj as [->|Hj]; [congruence|]. apply IH; assumption. }
    unfold jacobian in H. rewrite Ef in H. destruct (same _ _); exact H.
  - intros H c Hc. rewrite forallb_forall. intros x Hx. destruct (hasVar c x) eqn:Eh; [|reflexivity].
    unfold jacobian. destruct (find _ _) as [j|] eqn:Ef.
    + apply find_some in Ef as [Hj Hw]. apply (within_contains _ _ (Px x Hx)) in Hw. pose proof (H c j x Hc Hj Hx Hw) as G. destruct (same _ _); exact G.
    + exfalso. apply existsb_exists in Eh as (j & Hj & Hcn). pose proof (find_none _ _ Ef j Hj) as N. cbn in N. congruence.
Qed.

(* ---- AutoCalculator ---- *)
Definition wholeDiagonal (cs : list cons) (xs : list var) : bool :=
  match cs, xs with
  | [c], [x] => match jacobian c x with Ok (_, p) => p_diag p && p_inv p | _ => false end
  | _, _ => false
  end.
Lemma wholeDiagonal_iff cs xs : proper cs xs -> (wholeDiagonal cs xs = true <-> diagonalDeclared cs xs).
Proof.
  intros [Px Pc]. unfold wholeDiagonal, diagonalDeclared. split.
  - destruct cs as [|c [|? ?]], xs as [|x [|? ?]]; try discriminate. unfold jacobian. destruct (find _ _) as [j|] eqn:Ef; [|discriminate].
    destruct (same _ _) eqn:Es; [|discriminate]. apply same_iff in Es. rewrite andb_true_iff. intros [H1 H2]. apply find_some in Ef as [Hj _]. exists c, j. subst x. auto.
  - intros (c & j & -> & -> & Hj & H1 & H2). destruct (Pc c (or_introl eq_refl)) as [_ P]. pose proof (Px (j_var j) (or_introl eq_refl)) as Hn.
    unfold jacobian. assert (Ef : find (fun i => contains (j_var i) (j_var j)) (c_jacs c) = Some j).
    { assert (Hs : contains (j_var j) (j_var j) = true) by (apply contains_iff; unfold nonEmpty in Hn; lia).
      clear - P Hj Hn Hs. induction (c_jacs c) as [|i l IH]; [destruct Hj|]. destruct P as [P1 P2]. cbn [find]. destruct (contains (j_var i) (j_var j)) eqn:E.
      - destruct Hj as [->|Hj]; [reflexivity|]. exfalso. apply (P1 j Hj). apply (within_contains _ _ Hn) in E. unfold nonEmpty in Hn.
        exists (v_b (j_var j)), (v_s (j_var j)). split; [apply E|]; split; auto; lia.
      - destruct Hj as [->|Hj]; [congruence|]. apply IH; assumption. }
    rewrite Ef. replace (same (j_var j) (j_var j)) with true by (symmetry; apply same_iff; reflexivity). rewrite H1, H2. reflexivity.
Qed.
Lemma auto_choice cs xs rank s : newSubstitution cs xs rank Auto = Ok s ->
  match s_impl s with
  | IDiagonal d => wholeDiagonal cs xs = true /\ s_rank s = Z.of_nat (size xs) /\ rows cs = size xs /\
                   DiagModel.newImpl (DiagModel.mkCalc 0 (-1) [] []) true (rows cs) (size xs) (size xs) = Ok d
  | IGeneric => wholeDiagonal cs xs = false
  end.
Proof.
  intros H. apply newSubstitution_ok in H as (Hx & Hk & _ & _ & Hb & Hm). pose proof (check_apart _ _ _ Hk) as Ha.
  pose proof (newBase_ok _ _ _ _ Ha Hb) as (_ & E1 & E2 & E3 & L1 & L2 & _ & E4 & _).
  assert (G : generic cs xs (s_rank s) = Ok (s_base s, s_impl s) -> s_impl s = IGeneric).
  { unfold generic. rewrite Hb. cbn [bind]. intros E. injection E as <-. reflexivity. }
  unfold makeImpl in Hm. destruct cs as [|c [|c' cs]], xs as [|x [|x' xs]]; try discriminate; try (rewrite (G Hm); reflexivity).
  unfold wholeDiagonal. destruct (jacobian c x) as [[M p]| |]; cbn [bind snd] in Hm; try discriminate.
  destruct (p_diag p && p_inv p) eqn:Ep; [|rewrite (G Hm); reflexivity].
  unfold diagonal in Hm. rewrite Hb in Hm. cbn [bind] in Hm. rewrite E4 in Hm. cbn [length Nat.eqb andb] in Hm.
  destruct (DiagModel.newImpl _ true _ _ _) as [d| |] eqn:Ed; cbn [bind] in Hm; try discriminate. injection Hm as Hm. rewrite <- Hm.
  assert (Er : b_r (s_base s) = b_n (s_base s)).
  { unfold DiagModel.newImpl in Ed. cbn [DiagModel.k_first DiagModel.k_size Z.leb Z.compare] in Ed. unfold DiagModel.implContiguous in Ed.
    destruct (negb _); [discriminate|]. cbn [negb] in Ed. change (-1 =? -1)%Z with true in Ed. cbv iota in Ed. cbv zeta in Ed.
    destruct (Z.of_nat (b_n (s_base s)) - 0 =? Z.of_nat (b_r (s_base s)))%Z eqn:E; cbn [negb] in Ed; [|discriminate]. apply Z.eqb_eq in E. lia. }
  split; [reflexivity|]. split; [rewrite <- E3, Er, E2; reflexivity|]. split; [lia|]. rewrite Er, E2, E1 in Ed. exact Ed.
Qed.
Lemma diagonal_made n d : DiagModel.newImpl (DiagModel.mkCalc 0 (-1) [] []) true n n n = Ok d ->
  DiagSpec.made n n n (fun i => i < n) (fun _ => False) d.
Proof.
  intros E. left. exists 0%Z, (-1)%Z, (DiagModel.mkCalc 0 (-1) [] []). split; [reflexivity|]. split; [exact E|]. split; [|tauto].
  intros i. change (-1 =? -1)%Z with true. cbv iota. lia.
Qed.
Lemma diagonal_structured n A : diagonalRegular n n A -> DiagSpec.structured n n (fun i => i < n) (fun _ => False) (seq 0 n) A.
Proof.
  intros [_ H]. split.
  - clear H. generalize 0. induction n as [|k IH]; intros s; [constructor|]. cbn [seq]. constructor; [apply IH|].
    apply Forall_forall. intros z Hz. apply in_seq in Hz. lia.
  - split; [apply seq_length|]. split; [intros i; rewrite in_seq; lia|]. split; [tauto|].
    intros i j Hi Hj. rewrite seq_nth by exact Hi. rewrite <- (H i j Hi Hj). cbn. intuition lia.
Qed.
Lemma diagonal_contract n d A : DiagModel.newImpl (DiagModel.mkCalc 0 (-1) [] []) true n n n = Ok d -> diagonalRegular n n A ->
  exists inv Ash S, DiagModel.update_ d A = Ok inv /\ GcSpec.calculates n n n A Ash (DiagModel.i_N d) S /\
    forall minus outA outS inM, exists oA oS, DiagModel.premultiply d inv minus outA outS inM = Ok (oA, oS) /\
      forall p, DiagSpec.eqm n p oA (if minus : bool then DiagSpec.opp (DiagSpec.mul n Ash inM) else DiagSpec.mul n Ash inM) /\
                DiagSpec.eqm (n - n) p oS (DiagSpec.mul n (DiagSpec.tr S) inM).
Proof.
  intros E R. pose proof (diagonal_made n d E) as Md. pose proof (diagonal_structured n A R) as St.
  destruct (DiagProofs2.asharp _ _ _ _ _ _ _ _ Md St) as (inv & Ash & Eu & HA & HP).
  destruct (DiagProofs2.left_null _ _ _ _ _ _ _ _ Md St) as (inv' & S & Eu' & HS & HP'); [intros z []|].
  rewrite Eu in Eu'. injection Eu' as <-. exists inv, Ash, S. split; [exact Eu|]. split; [split; [exact HA|]; split; [apply (DiagProofs2.null_space _ _ _ _ _ _ _ _ Md St)|exact HS]|].
  intros minus outA outS inM. destruct (HP' minus outA outS inM) as (oA & oS & EP & HoS). exists oA, oS. split; [exact EP|].
  specialize (HP minus outA outS inM). rewrite EP in HP. intros p. split; [apply HP|apply HoS].
Qed.
