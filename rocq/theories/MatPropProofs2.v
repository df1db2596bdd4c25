(* Soundness of build and of the operators on matrix properties. *)
From mathcomp Require Import all_ssreflect all_algebra.
Require Import Verif.Base Verif.MatPropModel Verif.MatPropSpec Verif.MatPropProofs.
Set Implicit Arguments.
Unset Strict Implicit.
Unset Printing Implicit Defensive.
Import Order.TTheory GRing.Theory Num.Theory.
Local Open Scope ring_scope.

Section Fields.
Variable R : realFieldType.
Lemma pd_inv m n (M : 'M[R]_(m, n)) : pd M -> inverse M.
Proof. by move=> P; case: (P) => E _; subst n; apply: pd_inverse. Qed.
Lemma oppr_inverse m n (M : 'M[R]_(m, n)) : inverse (- M) -> inverse M.
Proof. by move=> [N [A B]]; exists (- N); rewrite mulmxN -mulNmx A mulNmx -mulmxN B. Qed.
Lemma inverse_opp m n (M : 'M[R]_(m, n)) : inverse M -> inverse (- M).
Proof. by move=> [N [A B]]; exists (- N); rewrite mulmxN mulNmx opprK A mulNmx mulmxN opprK B. Qed.
Lemma nd_opp m n (M : 'M[R]_(m, n)) : nd M -> pd (- M).
Proof. by move=> [E [S P]]; split=> //; split; [exact: symN|move=> x /P; rewrite quadN oppr_gt0]. Qed.
Lemma pd_opp m n (M : 'M[R]_(m, n)) : pd M -> nd (- M).
Proof. by move=> [E [S P]]; split=> //; split; [exact: symN|move=> x /P; rewrite quadN oppr_lt0]. Qed.
Lemma nsd_opp m n (M : 'M[R]_(m, n)) : nsd M -> psd (- M).
Proof. by move=> [S P]; split; [exact: symN|move=> x; rewrite quadN oppr_ge0]. Qed.
Lemma psd_opp m n (M : 'M[R]_(m, n)) : psd M -> nsd (- M).
Proof. by move=> [S P]; split; [exact: symN|move=> x; rewrite quadN oppr_le0]. Qed.
Lemma nd_inv m n (M : 'M[R]_(m, n)) : nd M -> inverse M.
Proof. by move=> /nd_opp/pd_inv/oppr_inverse. Qed.
Lemma inverse_sq m n (M : 'M[R]_(m, n)) : inverse M -> m = n.
Proof. by move=> [N [/mulmx1_min A /mulmx1_min B]]; apply/eqP; rewrite eqn_leq A B. Qed.
Lemma psd_inv_pd m n (M : 'M[R]_(m, n)) : psd M -> inverse M -> pd M.
Proof. by move=> P I; have E := inverse_sq I; subst n; apply: psd_inverse_pd. Qed.
Lemma nsd_inv_nd m n (M : 'M[R]_(m, n)) : nsd M -> inverse M -> nd M.
Proof. by move=> /nsd_opp P /inverse_opp I; rewrite -[M]opprK; apply/pd_opp/psd_inv_pd. Qed.
Section One.
Variables (m n : nat) (M : 'M[R]_(m, n)).
Definition fields_ok (p : props) : Prop :=
  (invertible_ p -> inverse M) /\ shape_ok M (shape_ p) /\ pos_ok M (positiveness_ p) /\ (symmetric_ p -> symmetric M).

Lemma pos_sym p : pos_ok M p -> p <> NA -> symmetric M.
Proof. by case: p => //= [[]|[? []]|[]|[? []]|[? []]] //. Qed.
Lemma zero_psd : M = 0 -> psd M.
Proof. by move=> ->; split; [exact: sym0|move=> x; rewrite quad0]. Qed.
Lemma zero_nsd : M = 0 -> nsd M.
Proof. by move=> ->; split; [exact: sym0|move=> x; rewrite quad0]. Qed.
Lemma shape_mult s : shape_ok M s -> (shN MULTIPLE <= shN s)%N -> exists a, multiple M a.
Proof.
case: s => //= [[_ H]|[_ H]|H] _; [by exists 1|by exists (- 1)|exists 0; exact/mult0].
Qed.
Lemma shape_diag s : shape_ok M s -> (shN DIAGONAL <= shN s)%N -> diagonal M.
Proof.
case: s => //= [[a]|[_]|[_]|] H _; try exact: mult_diag H.
by apply: (@mult_diag _ _ _ 0); apply/mult0.
Qed.
Lemma leb_le a b : Nat.leb a b = (a <= b)%N.
Proof. by apply/idP/idP=> [/PeanoNat.Nat.leb_le/ssrnat.leP //|/ssrnat.leP/PeanoNat.Nat.leb_le]. Qed.
Lemma eqb_eq a b : Nat.eqb a b = (a == b).
Proof. by apply/idP/eqP=> [/PeanoNat.Nat.eqb_eq //|->]; apply/PeanoNat.Nat.eqb_eq. Qed.
Lemma sh_eqP a b : sh_eq a b -> a = b.
Proof. by case: a; case: b. Qed.
Lemma po_eqP a b : po_eq a b -> a = b.
Proof. by case: a; case: b. Qed.

Lemma fields_says p : fields_ok p -> says M p.
Proof.
move=> [I [S [P Y]]]; case: p I S P Y => c i s y p /= I S P Y.
have D : isDiagonal (mkP c i s y p) -> diagonal M by rewrite /isDiagonal leb_le; apply: shape_diag.
have L : isLowerTriangular (mkP c i s y p) -> lower M.
  move=> /orP [/sh_eqP /= E|/D]; [by rewrite E in S|exact: diag_lower].
have U : isUpperTriangular (mkP c i s y p) -> upper M.
  rewrite /isUpperTriangular leb_le /= leq_eqVlt => /orP [/eqP E|E].
    by case: (s) E S.
  by apply/diag_upper/D; rewrite /isDiagonal leb_le.
constructor=> //=.
- rewrite /isTriangular leb_le /= leq_eqVlt => /orP [/eqP E|E].
    by left; case: (s) E S.
  by right; apply: U; rewrite /isUpperTriangular leb_le.
- by rewrite /isMultipleOfIdentity leb_le; apply: shape_mult.
- by move=> /sh_eqP /= E; rewrite E in S.
- by move=> /sh_eqP /= E; rewrite E in S.
- by move=> /sh_eqP /= E; rewrite E in S.
- move=> /orP [/orP [/po_eqP /= E|/po_eqP /= E]|/sh_eqP /= E].
  + by rewrite E in P.
  + rewrite E /= in P; case: P => MN [SY P]; split=> // x.
    case: (pickP (fun k : 'I_m => x k != 0)) => [k N|N]; first by apply/ltW/P; exists k.
    by rewrite /quad big1 // => k _; rewrite big1 // => l _; move/negbFE/eqP: (N k) => ->; rewrite !mul0r.
  + by rewrite E in S; apply: zero_psd.
- by move=> /po_eqP /= E; rewrite E in P.
- move=> /orP [/orP [/po_eqP /= E|/po_eqP /= E]|/sh_eqP /= E].
  + by rewrite E in P.
  + rewrite E /= in P; case: P => MN [SY P]; split=> // x.
    case: (pickP (fun k : 'I_m => x k != 0)) => [k N|N]; first by apply/ltW/P; exists k.
    by rewrite /quad big1 // => k _; rewrite big1 // => l _; move/negbFE/eqP: (N k) => ->; rewrite !mul0r.
  + by rewrite E in S; apply: zero_nsd.
- by move=> /po_eqP /= E; rewrite E in P.
- by rewrite /isIndefinite /= => N; apply: (pos_sym P) => E; rewrite E in N.
- move=> /orP [/orP [/po_eqP /= E|/po_eqP /= E]|/po_eqP /= E]; rewrite E /= in P => //.
    by split; [case: P|split; [case: P => _ []|exact: pd_inv]].
  by split; [case: P|split; [case: P => _ []|exact: nd_inv]].
Qed.

(* build *)
Lemma promote_ok p (i : bool) : pos_ok M p -> (i -> inverse M) -> pos_ok M (promoteP p i).
Proof.
case: i => //; case: p => //= P /(_ isT) I; [exact: psd_inv_pd|exact: nsd_inv_nd|].
by split=> //; apply: inverse_sq I.
Qed.
Lemma sum_delta (x : nat -> R) k (i : 'I_k) : \sum_(j < k) (if nat_of_ord i == nat_of_ord j then x j else 0) = x i.
Proof.
rewrite (bigD1 i) //= eqxx big1 ?addr0 // => j /negbTE N.
by rewrite eq_sym; case: ifP => // /eqP/ord_inj E; rewrite E eqxx in N.
Qed.
Lemma pmax_ok p q r : pos_ok M p -> pos_ok M q -> pmax p q = Ok r -> pos_ok M r.
Proof.
by move=> P Q; rewrite /pmax; case: (greaterThan p q) => //= -[] [<-].
Qed.
Lemma mult_quad a x : m = n -> multiple M a -> quad M x = a * \sum_(i < m) x i ^+ 2.
Proof.
move=> E [_ H]; subst n; rewrite /quad mulr_sumr; apply: eq_bigr => i _.
transitivity (\sum_(j < m) (if nat_of_ord i == nat_of_ord j then a * x j ^+ 2 else 0)).
  apply: eq_bigr => j _; rewrite H; case: ifP => [/eqP Q|]; last by rewrite mulr0 mul0r.
  by rewrite Q (mulrC (x j)) -mulrA.
by rewrite (sum_delta (fun k => a * x k ^+ 2)).
Qed.
Lemma sq_sum_pos x : @nonzero R m x -> 0 < \sum_(i < m) x i ^+ 2.
Proof.
move=> [i N]; rewrite (bigD1 i) //= ltr_spaddl ?lt_neqAle ?(eq_sym 0) ?sqrf_eq0 ?N ?sqr_ge0 //.
by apply: sumr_ge0 => j _; apply: sqr_ge0.
Qed.
Lemma default_ok s : shape_ok M s -> pos_ok M (defaultPos s).
Proof.
case: s => //= [|[a]|[E]|[E]|].
- exact: diag_sym.
- by move/mult_diag/diag_sym.
- move=> H; split=> //; split=> [|x /sq_sum_pos P]; first by move/mult_diag/diag_sym: H.
  by rewrite (mult_quad x E H) mul1r.
- move=> H; split=> //; split=> [|x /sq_sum_pos P]; first by move/mult_diag/diag_sym: H.
  by rewrite (mult_quad x E H) mulN1r oppr_lt0.
- by move=> ->; apply: sym0.
Qed.
End One.

Lemma sh_inv m n (M : 'M[R]_(m, n)) a : m = n -> a != 0 -> multiple M a -> inverse M.
Proof.
move=> E; subst n => N [_ H]; have -> : M = a%:M.
  by apply/matrixP=> i j; rewrite H mxE -val_eqE /=; case: ifP => _; rewrite ?mulr1n ?mulr0n.
exists (a^-1)%:M; rewrite -!scalar_mxM mulfV // mulVf //.
Qed.
Definition lu (s : shape) : bool := sh_eq s LOWER || sh_eq s UPPER.
Lemma build_ok m n (M : 'M[R]_(m, n)) a q : shape_ok M (a_shape a) -> pos_ok M (a_pos a) ->
  (value (a_inv a) -> inverse M) -> (m = n \/ lu (a_shape a) = false \/ a_pos a = NA) ->
  build a = Ok q -> fields_ok M q.
Proof.
case: a => s p c i /= S P I SQ; rewrite /build /=.
case: ifP => // _; case: ifP => // _; case: ifP => // _; case: ifP => // _.
case Q: (deducePositiveness s p (value i)) => [r||] //= [<-]; split; last split; last split.
- move=> /= /orP [/I //|]; rewrite /deduceInvertibility.
  move=> /orP [/orP [/orP [/orP [/sh_eqP E|/sh_eqP E]|/po_eqP E]|/po_eqP E]|/po_eqP E].
  + by rewrite E /= in S; case: S => MN H; apply: (sh_inv MN _ H); rewrite oner_neq0.
  + by rewrite E /= in S; case: S => MN H; apply: (sh_inv MN _ H); rewrite oppr_eq0 oner_neq0.
  + by rewrite E /= in P; apply: pd_inv.
  + by rewrite E /= in P; apply: nd_inv.
  + by rewrite E /= in P; case: P => _ [].
- rewrite /= /deduceShape; case: ifP => // /andP [LU NP].
  have SY : symmetric M by apply: (pos_sym P) => E; rewrite E in NP.
  case: SQ => [E|[F|F]]; last by rewrite F in NP.
    subst n; move: LU => /orP [/sh_eqP E|/sh_eqP E]; rewrite E /= in S *.
      exact: low_sym_diag.
    exact: upp_sym_diag.
  by rewrite /lu LU in F.
- apply: pmax_ok Q; [|exact: promote_ok]; apply: promote_ok => //; exact: default_ok.
- move=> /= /orP [|NP]; last by apply: (pos_sym P) => E; rewrite E in NP.
  by rewrite leb_le => H; apply/diag_sym/(shape_diag S H).
Qed.

(* what is built *)
Lemma built_lu p : built p -> lu (shape_ p) -> positiveness_ p = NA.
Proof.
move=> [->|[[s q c i]]] //; rewrite /build /=.
case: ifP => // _; case: ifP => // _; case: ifP => // _; case: ifP => // _.
case Q: (deducePositiveness s q (value i)) => [r||] //= [<-] /=; rewrite /deduceShape.
case: ifP => // H LU; rewrite /lu in LU; move: H; rewrite LU /= => /negbT; rewrite negbK => /po_eqP E; subst q.
move: Q; rewrite /deducePositiveness.
move: LU => /orP [/sh_eqP ->|/sh_eqP ->] /=; rewrite /promoteP; case: (value i) => /= -[<-] //.
Qed.
Lemma says_fields m n (M : 'M[R]_(m, n)) p : says M p -> fields_ok M p.
Proof.
case: p => c i s y p [I T L U D MU ID MI Z SY P1 P2 N1 N2 IN NZ]; split=> //=; split; [|split=> //].
- case: s I T L U D MU ID MI Z SY P1 P2 N1 N2 IN NZ => //= *; by [apply: L|apply: U|apply: D|apply: MU|apply: ID|apply: MI|apply: Z|auto].
- case: p I T L U D MU ID MI Z SY P1 P2 N1 N2 IN NZ => //= *; by [auto].
Qed.


(* shapes implied by a shape *)
Definition imp (s r : shape) : bool :=
  match r with
  | GENERAL => true
  | LOWER => sh_eq s LOWER || (shN DIAGONAL <= shN s)%N
  | UPPER => (shN UPPER <= shN s)%N
  | DIAGONAL => (shN DIAGONAL <= shN s)%N
  | MULTIPLE => (shN MULTIPLE <= shN s)%N
  | _ => sh_eq s r
  end.
Lemma imp_ok m n (M : 'M[R]_(m, n)) s r : imp s r -> shape_ok M s -> shape_ok M r.
Proof.
move=> I S; case: r I => //=.
- by move=> /orP [/sh_eqP E|H]; [rewrite E in S|apply/diag_lower/(shape_diag S)].
- move=> H; case: (leqP 3 (shN s)) => H'; first exact/diag_upper/(shape_diag S).
  by case: s H H' S.
- exact: shape_diag.
- exact: shape_mult.
- by move=> /sh_eqP E; rewrite E in S.
- by move=> /sh_eqP E; rewrite E in S.
- by move=> /sh_eqP E; rewrite E in S.
Qed.
Section Ops.
Variables (m n : nat).
Implicit Types (M N : 'M[R]_(m, n)).
Lemma multN M a : multiple M a -> multiple (- M) (- a).
Proof.
move=> [E H]; split; first by case: E => [->|->]; [left|right; rewrite oppr0].
by move=> i j; rewrite mxE H; case: ifP; rewrite ?oppr0.
Qed.
Lemma multZ M a d : multiple M a -> multiple (d *: M) (d * a).
Proof.
move=> [E H]; split; first by case: E => [->|->]; [left|right; rewrite mulr0].
by move=> i j; rewrite mxE H; case: ifP; rewrite ?mulr0.
Qed.
Lemma multD M N a b : multiple M a -> multiple N b -> multiple (M + N) (a + b).
Proof.
move=> [E H] [F K]; split.
  case: E => [->|->]; first by left.
  by case: F => [->|->]; [left|right; rewrite addr0].
by move=> i j; rewrite mxE H K; case: ifP; rewrite ?addr0.
Qed.
Lemma sum_closed M N r : (shN r <= shN MULTIPLE)%N -> shape_ok M r -> shape_ok N r -> shape_ok (M + N) r.
Proof.
case: r => //= _.
- by move=> A B i j L; rewrite mxE A // B // addr0.
- by move=> A B i j L; rewrite mxE A // B // addr0.
- by move=> A B i j L; rewrite mxE A // B // addr0.
- by move=> [a A] [b B]; exists (a + b); apply: multD.
Qed.
Lemma shape_neg M s : shape_ok M s -> shape_ok (- M) (sh_neg s).
Proof.
case: s => //=.
- by move=> A i j L; rewrite mxE A // oppr0.
- by move=> A i j L; rewrite mxE A // oppr0.
- by move=> A i j L; rewrite mxE A // oppr0.
- by move=> [a A]; exists (- a); apply: multN.
- by move=> [E A]; split=> //; apply: multN.
- by move=> [E A]; split=> //; rewrite -[1]opprK; apply: multN.
- by move=> ->; rewrite oppr0.
Qed.
Lemma shape_add M N s1 s2 : shape_ok M s1 -> shape_ok N s2 -> shape_ok (M + N) (sh_add s1 s2).
Proof.
move=> A B.
have G r : (shN r <= shN MULTIPLE)%N -> imp s1 r -> imp s2 r -> shape_ok (M + N) r.
  by move=> L I J; apply: sum_closed => //; [exact: imp_ok A|exact: imp_ok B].
have Z1 : s1 = ZERO -> M + N = N by move=> E; rewrite E /= in A; rewrite A add0r.
have Z2 : s2 = ZERO -> M + N = M by move=> E; rewrite E /= in B; rewrite B addr0.
case: s1 A G Z1 => A G Z1; case: s2 B G Z2 => B G Z2; rewrite /sh_add /minmax /=; try exact: (G GENERAL isT isT isT); try exact: (G LOWER isT isT isT); try exact: (G UPPER isT isT isT); try exact: (G DIAGONAL isT isT isT); try exact: (G MULTIPLE isT isT isT).
all: try (by rewrite (Z1 erefl)); try (by rewrite (Z2 erefl)); try exact: I.
- case: A => E A; case: B => _ B; apply/mult0; rewrite -[0](subrr 1); exact: multD.
- case: A => E A; case: B => _ B; apply/mult0; rewrite -[0](addNr 1); exact: multD.
Qed.
Lemma pos_neg M p : pos_ok M p -> pos_ok (- M) (po_neg p).
Proof.
case: p => //=; [exact: psd_opp|exact: pd_opp|exact: nsd_opp|exact: nd_opp|exact: symN|].
by move=> [E [S I]]; split=> //; split; [exact: symN|exact: inverse_opp].
Qed.
Lemma pos_add M N p1 p2 q : pos_ok M p1 -> pos_ok N p2 -> po_add p1 p2 = Ok q -> pos_ok (M + N) q.
Proof.
move=> A B.
have S : p1 <> NA -> p2 <> NA -> symmetric (M + N) by move=> X Y; apply: symD; [exact: pos_sym A X|exact: pos_sym B Y].
have PP : psd M -> psd N -> psd (M + N).
  by move=> [X1 X2] [Y1 Y2]; split; [exact: symD|move=> x; rewrite quadD addr_ge0].
have NN : nsd M -> nsd N -> nsd (M + N).
  by move=> [X1 X2] [Y1 Y2]; split; [exact: symD|move=> x; rewrite quadD -oppr_ge0 opprD addr_ge0 ?oppr_ge0].
have P1 : pd M -> psd N -> pd (M + N).
  by move=> [E [X1 X2]] [Y1 Y2]; split=> //; split; [exact: symD|move=> x /X2 H; rewrite quadD ltr_spaddl].
have P2 : psd M -> pd N -> pd (M + N).
  by move=> [Y1 Y2] [E [X1 X2]]; split=> //; split; [exact: symD|move=> x /X2 H; rewrite quadD ltr_spaddr].
have N1 : nd M -> nsd N -> nd (M + N).
  by move=> [E [X1 X2]] [Y1 Y2]; split=> //; split; [exact: symD|move=> x /X2 H; rewrite quadD -oppr_gt0 opprD ltr_spaddl ?oppr_gt0 ?oppr_ge0].
have N2 : nsd M -> nd N -> nd (M + N).
  by move=> [Y1 Y2] [E [X1 X2]]; split=> //; split; [exact: symD|move=> x /X2 H; rewrite quadD -oppr_gt0 opprD ltr_spaddr ?oppr_gt0 ?oppr_ge0].
have W1 (K : 'M[R]_(m, n)) : pd K -> psd K.
  move=> H; have F : fields_ok K (mkP false false GENERAL false PD) by split.
  exact: (say_psd (fields_says F) isT).
have W2 (K : 'M[R]_(m, n)) : nd K -> nsd K.
  move=> H; have F : fields_ok K (mkP false false GENERAL false ND) by split.
  exact: (say_nsd (fields_says F) isT).
case: p1 A S => A S; case: p2 B S => B S //=; rewrite /po_add /= => -[<-] //=; try exact: S; auto.
Qed.
End Ops.

Section Mul.
Variables (m k n : nat) (A : 'M[R]_(m, k)) (B : 'M[R]_(k, n)).
Lemma multM a b : multiple A a -> multiple B b -> multiple (A *m B) (a * b).
Proof.
move=> [[E|E] H] [F K]; last first.
  have -> : A = 0 by apply/mult0; rewrite -E; split; [right|].
  by rewrite E mul0mx mul0r; apply/mult0.
have AB : forall i j, (A *m B) i j = a * (if nat_of_ord i == nat_of_ord j then b else 0).
  move=> i j; rewrite mxE; transitivity (\sum_(l < k) (if nat_of_ord i == nat_of_ord l then a * B l j else 0)).
    by apply: eq_bigr => l _; rewrite H; case: ifP => // _; rewrite mul0r.
  move: i; rewrite E => i.
  pose x l := if insub l is Some p then a * B p j else 0.
  transitivity (\sum_(l < k) (if nat_of_ord i == nat_of_ord l then x l else 0)).
    by apply: eq_bigr => l _; case: ifP => // _; rewrite /x valK.
  by rewrite sum_delta /x valK K.
split; first by case: F => [F|->]; [left; rewrite E|right; rewrite mulr0].
by move=> i j; rewrite AB; case: ifP => _ //; rewrite mulr0.
Qed.
Lemma mul_closed r : (shN r <= shN MULTIPLE)%N -> shape_ok A r -> shape_ok B r -> shape_ok (A *m B) r.
Proof.
case: r => //= _.
- move=> X Y i j L; rewrite mxE big1 // => l _; case: (ltnP i l) => H; first by rewrite X ?mul0r.
  by rewrite Y ?mulr0 //; apply: leq_ltn_trans H L.
- move=> X Y i j L; rewrite mxE big1 // => l _; case: (ltnP l i) => H; first by rewrite X ?mul0r.
  by rewrite Y ?mulr0 //; apply: leq_trans L H.
- move=> X Y i j L; rewrite mxE big1 // => l _.
  case: (altP (nat_of_ord i =P nat_of_ord l)) => [E|/eqP N]; last by rewrite X ?mul0r.
  by rewrite Y ?mulr0 // -E.
- by move=> [a X] [b Y]; exists (a * b); apply: multM.
Qed.
Lemma shape_mul s1 s2 q : shape_ok A s1 -> shape_ok B s2 -> sh_mul s1 s2 = Ok q -> shape_ok (A *m B) q.
Proof.
move=> X Y.
have G r : (shN r <= shN MULTIPLE)%N -> imp s1 r -> imp s2 r -> shape_ok (A *m B) r.
  by move=> L I J; apply: mul_closed => //; [exact: imp_ok X|exact: imp_ok Y].
have Z1 : s1 = ZERO -> A *m B = 0 by move=> E; rewrite E /= in X; rewrite X mul0mx.
have Z2 : s2 = ZERO -> A *m B = 0 by move=> E; rewrite E /= in Y; rewrite Y mulmx0.
case: s1 X G Z1 => X G Z1; case: s2 Y G Z2 => Y G Z2; rewrite /sh_mul /minmax /= => -[<-]; try exact: (G GENERAL isT isT isT); try exact: (G LOWER isT isT isT); try exact: (G UPPER isT isT isT); try exact: (G DIAGONAL isT isT isT); try exact: (G MULTIPLE isT isT isT); try exact: Z1; try exact: Z2.
all: case: X => E X; case: Y => F Y; split; rewrite ?E //.
- by rewrite -[1](mulr1 1); apply: multM.
- by rewrite -[- 1](mul1r (-1)); apply: multM.
- by rewrite -[- 1](mulr1 (-1)); apply: multM.
- by have := multM X Y; rewrite mulrNN mulr1.
Qed.
Lemma inverse_mul : inverse A -> inverse B -> inverse (A *m B).
Proof.
move=> [A' [X Y]] [B' [Z T]]; exists (B' *m A'); split.
  by rewrite mulmxA -(mulmxA A) Z mulmx1 X.
by rewrite mulmxA -(mulmxA B') Y mulmx1 T.
Qed.
End Mul.
End Fields.
