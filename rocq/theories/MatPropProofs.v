(* Facts on matrices used for the soundness of the matrix properties. *)
From mathcomp Require Import all_ssreflect all_algebra.
Require Import Verif.Base Verif.MatPropModel Verif.MatPropSpec.
Set Implicit Arguments.
Unset Strict Implicit.
Unset Printing Implicit Defensive.
Import Order.TTheory GRing.Theory Num.Theory.
Local Open Scope ring_scope.

Section Facts.
Variable R : realFieldType.

Section Quad.
Variables (m n : nat).
Implicit Types (M N : 'M[R]_(m, n)) (x : nat -> R).
Lemma quadN M x : quad (- M) x = - quad M x.
Proof.
rewrite /quad -sumrN; apply: eq_bigr => i _; rewrite -sumrN; apply: eq_bigr => j _.
by rewrite mxE mulrN mulNr.
Qed.
Lemma quadD M N x : quad (M + N) x = quad M x + quad N x.
Proof.
rewrite /quad -big_split; apply: eq_bigr => i _ /=; rewrite -big_split; apply: eq_bigr => j _ /=.
by rewrite mxE mulrDr mulrDl.
Qed.
Lemma quadZ d M x : quad (d *: M) x = d * quad M x.
Proof.
rewrite /quad mulr_sumr; apply: eq_bigr => i _; rewrite mulr_sumr; apply: eq_bigr => j _.
by rewrite mxE !mulrA (mulrC (x i) d).
Qed.
Lemma quad0 x : quad (0 : 'M[R]_(m, n)) x = 0.
Proof. by rewrite /quad big1 // => i _; rewrite big1 // => j _; rewrite mxE mulr0 mul0r. Qed.
Lemma symN M : symmetric M -> symmetric (- M).
Proof. by move=> S i j i' j' E F; rewrite !mxE (S i j i' j' E F). Qed.
Lemma symD M N : symmetric M -> symmetric N -> symmetric (M + N).
Proof. by move=> S T i j i' j' E F; rewrite !mxE (S i j i' j' E F) (T i j i' j' E F). Qed.
Lemma symZ d M : symmetric M -> symmetric (d *: M).
Proof. by move=> S i j i' j' E F; rewrite !mxE (S i j i' j' E F). Qed.
Lemma sym0 : symmetric (0 : 'M[R]_(m, n)).
Proof. by move=> i j i' j' _ _; rewrite !mxE. Qed.
Lemma diag_sym M : diagonal M -> symmetric M.
Proof.
move=> D i j i' j' E F.
case: (altP (nat_of_ord i =P nat_of_ord j)) => [Q|/eqP Q].
  have A : nat_of_ord i = nat_of_ord i' by rewrite -F -Q.
  have B : nat_of_ord j = nat_of_ord j' by rewrite -Q E.
  by rewrite (ord_inj A) (ord_inj B).
rewrite D // D // => Q'; apply: Q; by rewrite E F -Q'.
Qed.
Lemma diag_lower M : diagonal M -> lower M.
Proof. by move=> D i j L; apply: D => E; move: L; rewrite E ltnn. Qed.
Lemma diag_upper M : diagonal M -> upper M.
Proof. by move=> D i j L; apply: D => E; move: L; rewrite E ltnn. Qed.
Lemma mult_diag a M : multiple M a -> diagonal M.
Proof. by move=> [_ H] i j /eqP/negbTE N; rewrite H N. Qed.
Lemma mult0 M : multiple M 0 <-> M = 0.
Proof.
split=> [[_ H]|->].
  by apply/matrixP=> i j; rewrite H mxE; case: ifP.
by split; [right|move=> i j; rewrite mxE; case: ifP].
Qed.
Lemma lowupp_diag M : lower M -> upper M -> diagonal M.
Proof.
move=> L U i j N; case: (ltngtP (nat_of_ord i) (nat_of_ord j)) => [A|A|A]; [exact: L|exact: U|by case: N].
Qed.
End Quad.

Lemma low_sym_diag n (M : 'M[R]_n) : lower M -> symmetric M -> diagonal M.
Proof.
move=> L S; apply: lowupp_diag => // i j A.
by rewrite (S i j j i erefl erefl) (L j i A).
Qed.
Lemma upp_sym_diag n (M : 'M[R]_n) : upper M -> symmetric M -> diagonal M.
Proof.
move=> L S; apply: lowupp_diag => // i j A.
by rewrite (S i j j i erefl erefl) (L j i A).
Qed.

(* square matrices and vectors *)
Section Square.
Variable n : nat.
Implicit Types (M : 'M[R]_n) (v w : 'rV[R]_n).
Definition bil M v w : R := (v *m M *m w^T) 0 0.
Definition vec (x : nat -> R) : 'rV[R]_n := \row_i x i.
Definition fn_of v (i : nat) : R := if insub i is Some k then v 0 k else 0.
Lemma vec_fn v : vec (fn_of v) = v.
Proof. by apply/rowP=> i; rewrite mxE /fn_of valK. Qed.
Lemma quad_bil M x : quad M x = bil M (vec x) (vec x).
Proof.
rewrite /quad /bil mxE exchange_big /=; apply: eq_bigr => j _.
by rewrite !mxE mulr_suml; apply: eq_bigr => i _; rewrite !mxE.
Qed.
Lemma bilDl M u v w : bil M (u + v) w = bil M u w + bil M v w.
Proof. by rewrite /bil !mulmxDl mxE. Qed.
Lemma bilDr M u v w : bil M u (v + w) = bil M u v + bil M u w.
Proof. by rewrite /bil linearD mulmxDr mxE. Qed.
Lemma bilZl M a v w : bil M (a *: v) w = a * bil M v w.
Proof. by rewrite /bil -!scalemxAl mxE. Qed.
Lemma bilZr M a v w : bil M v (a *: w) = a * bil M v w.
Proof. by rewrite /bil linearZ -scalemxAr mxE. Qed.
Lemma sym_tr M : symmetric M -> M^T = M.
Proof. by move=> S; apply/matrixP=> i j; rewrite mxE; apply: S. Qed.
Lemma bil_sym M v w : symmetric M -> bil M v w = bil M w v.
Proof.
move=> /sym_tr S; rewrite /bil.
have -> : (v *m M *m w^T) 0 0 = (v *m M *m w^T)^T 0 0 by rewrite [RHS]mxE.
by rewrite !trmx_mul trmxK S mulmxA.
Qed.
Lemma sq_norm0 v : (v *m v^T) 0 0 = 0 -> v = 0.
Proof.
rewrite mxE => H; apply/rowP=> i; rewrite mxE; apply/eqP; rewrite -sqrf_eq0.
have P : forall k : 'I_n, true -> 0 <= v 0 k * v^T k 0 by move=> k _; rewrite mxE -expr2 sqr_ge0.
by move/(psumr_eq0P P)/(_ i erefl): H; rewrite mxE -expr2 => ->.
Qed.
Lemma nonzero_vec x : @nonzero R n x <-> vec x != 0.
Proof.
split=> [[i N]|N].
  by apply: contra N => /eqP/rowP/(_ i); rewrite !mxE => ->.
case: (pickP (fun i : 'I_n => x i != 0)) => [i P|P]; first by exists i.
by case/negP: N; apply/eqP/rowP=> i; rewrite !mxE; apply/eqP/negbNE; rewrite P.
Qed.
Lemma inverse_unit M : inverse M <-> M \in unitmx.
Proof.
split=> [[N [A _]]|U]; first by case: (mulmx1_unit A).
by exists (invmx M); rewrite mulmxV // mulVmx.
Qed.
Lemma pd_inverse M : pd M -> inverse M.
Proof.
move=> [_ [S P]]; apply/inverse_unit; rewrite -row_free_unit -kermx_eq0.
apply/eqP/row_matrixP=> i; rewrite row0; set v := row i _.
have VM : v *m M = 0 by rewrite -row_mul mulmx_ker row0.
apply/eqP; apply: contraT => N; have := P (fn_of v).
rewrite quad_bil vec_fn /bil VM mul0mx mxE ltxx; apply.
by apply/nonzero_vec; rewrite vec_fn.
Qed.
Lemma psd_inverse_pd M : psd M -> inverse M -> pd M.
Proof.
move=> [S P] /inverse_unit U; split=> //; split=> // x /nonzero_vec N.
rewrite lt_neqAle P andbT eq_sym quad_bil; apply: contra N => /eqP Q0.
set v := vec x in Q0 *; set w := v *m M.
have Pv u : 0 <= bil M u u by rewrite -(vec_fn u) -quad_bil.
have B : bil M v w = (w *m w^T) 0 0 by [].
pose b : R := (w *m w^T) 0 0; rewrite -/b in B; set a := bil M w w.
have a0 : 0 <= a := Pv w.
have EX t : bil M (v + t *: w) (v + t *: w) = t * b *+ 2 + t ^+ 2 * a.
  by rewrite bilDl !bilDr !bilZl !bilZr Q0 (bil_sym w v S) B -/a add0r addrA -mulr2n mulrA -expr2.
have : b = 0.
  apply/eqP; rewrite -sqrf_eq0; apply: contraT => NB.
  have B2 : 0 < b ^+ 2 by rewrite lt_neqAle eq_sym NB sqr_ge0.
  have A1 : 0 < a + 1 by rewrite ltr_spaddr ?ltr01.
  pose s := (a + 1)^-1; have S0 : 0 < s by rewrite invr_gt0.
  have := Pv (v + (- (b * s)) *: w); rewrite EX.
  have -> : - (b * s) * b *+ 2 + (- (b * s)) ^+ 2 * a = b ^+ 2 * s * (s * a - 2%:R).
    rewrite mulrBr addrC sqrrN mulr_natr mulNr mulNrn; congr (_ - _ *+ 2).
      by rewrite exprMn expr2 (expr2 s) -!mulrA.
    by rewrite mulrAC expr2.
  rewrite (pmulr_rge0 _ (mulr_gt0 B2 S0)) subr_ge0 => C.
  have D : s * a <= 1 by rewrite mulrC ler_pdivr_mulr // mul1r ler_addl ler01.
  by have := le_trans C D; rewrite -[1]/(1%:R) ler_nat.
move=> /sq_norm0 W0; apply/eqP.
by rewrite -[v](mulmxK U) -/w W0 mul0mx.
Qed.
End Square.
End Facts.
