(* The lemmas behind MatPropProps.v *)
From mathcomp Require Import all_ssreflect all_algebra.
Require Import Verif.Base Verif.MatPropModel Verif.MatPropSpec Verif.MatPropProofs Verif.MatPropProofs2 Verif.MatPropProofs3 Verif.MatPropProofs4.
Set Implicit Arguments.
Unset Strict Implicit.
Unset Printing Implicit Defensive.
Import Order.TTheory GRing.Theory Num.Theory.
Local Open Scope ring_scope.

Lemma ident_meets (R : realFieldType) T n : meets (mkArgs IDENTITY NA None None) (fun _ : T => (1%:M : 'M[R]_(n, n))).
Proof.
split; [|by split].
move=> t /=; split=> //; split; [by left|move=> i j; rewrite mxE -val_eqE /=; by case: ifP].
Qed.
Lemma ident_has (R : realFieldType) T n : has (mkP true true IDENTITY true PD) (fun _ : T => (1%:M : 'M[R]_(n, n))).
Proof. by apply: (meets_has _ (ident_meets R T n)); [left|]. Qed.
Lemma scale_wrong (R : realFieldType) :
  exists p q (M : unit -> 'M[R]_(1, 1)) (d : R),
    built p /\ has p M /\ mp_scale (sign d) p = Ok q /\ isIdentity q /\ ~ has q (fun t => d *: M t).
Proof.
exists (mkP true true IDENTITY true PD), (mkP true true IDENTITY true PD), (fun _ => 1%:M), 2%:R.
split; [by right; exists (mkArgs IDENTITY NA None None)|]; split; first exact: ident_has.
have P : 0 < 2%:R :> R by rewrite ltr0n.
split; [by rewrite /sign ltNge ltW //= P|split=> //].
move=> [_ /(_ tt) S]; have [_ [_ /(_ 0 0)]] := say_id S isT.
rewrite !mxE /= mulr1 => /eqP; by rewrite -(@mulr1n R 1) eqr_nat.
Qed.
Lemma neg_total p : built p -> exists q, mp_neg p = Ok q.
Proof.
move=> B; have := check1_ok _ _ neg_exact (built_in _ B).
by case: (mp_neg p) => // q _; exists q.
Qed.
Lemma scale_total p d : built p ->
  (mp_scale d p = Throw /\ d = Eq /\ ~~ isConstant p) \/ ((exists q, mp_scale d p = Ok q) /\ (d = Eq -> isConstant p)).
Proof.
move=> B0; have := check1_ok _ _ scale_exact (built_in _ B0); move=> /andP [/andP [A B]]; case: d.
- case C: (isConstant p) => /=; case: (mp_scale Eq p) => //; last by left.
  by move=> q _; right; split; [exists q|].
- by move=> _; right; split=> //; move: A; case: (mp_scale Lt p) => // q _; exists q.
- by move=> _; right; split=> //; move: B; case: (mp_scale Gt p) => // q _; exists q.
Qed.
Lemma exact_split (b : bool) (P : Prop) (r : res props) : exact_throw b r -> reflect P b ->
  (r = Throw /\ P) \/ ((exists q, r = Ok q) /\ ~ P).
Proof.
move=> E H; move: E; rewrite /exact_throw; case: H => H; case: r => //=; first by left.
by move=> q _; right; split=> //; exists q.
Qed.
Lemma add_throws_ok : check2 (fun p q => Bool.eqb (add_throws p q)
  ((((isPositiveDefinite p || isPositiveDefinite q) && (po_eq (positiveness_ p) PSD || isPositiveDefinite p) && (po_eq (positiveness_ q) PSD || isPositiveDefinite q))
  || ((isNegativeDefinite p || isNegativeDefinite q) && (po_eq (positiveness_ p) NSD || isNegativeDefinite p) && (po_eq (positiveness_ q) NSD || isNegativeDefinite q)))
  || (((isIdentity p || isMinusIdentity p) && isZero q) || ((isIdentity q || isMinusIdentity q) && isZero p)))).
Proof. by vm_compute. Qed.
Lemma add_total p q : built p -> built q ->
  let definite := (isPositiveDefinite p \/ isPositiveDefinite q) /\ nonneg p /\ nonneg q
               \/ (isNegativeDefinite p \/ isNegativeDefinite q) /\ nonpos p /\ nonpos q in
  let unit_plus_zero := (isIdentity p \/ isMinusIdentity p) /\ isZero q \/ (isIdentity q \/ isMinusIdentity q) /\ isZero p in
  (mp_add p q = Throw /\ (definite \/ unit_plus_zero)) \/ ((exists r, mp_add p q = Ok r) /\ ~ (definite \/ unit_plus_zero)).
Proof.
move=> BP BQ; have P := built_in _ BP; have Q := built_in _ BQ; move=> definite unit_plus_zero; rewrite /definite /unit_plus_zero {definite unit_plus_zero}.
have E := check2_ok _ _ _ add_exact P Q; have := check2_ok _ _ _ add_throws_ok P Q.
clear P Q; move/Bool.eqb_prop => F; rewrite F in E.
apply: exact_split E _; apply: (iffP idP); rewrite /nonneg /nonpos.
- move=> /orP [/orP []|/orP []].
  + by move=> /andP [/andP [/orP A B] C]; left; left.
  + by move=> /andP [/andP [/orP A B] C]; left; right.
  + by move=> /andP [/orP A B]; right; left.
  + by move=> /andP [/orP A B]; right; right.
- move=> [[[/orP -> [-> ->]]|[/orP -> [-> ->]]]|[[/orP -> ->]|[/orP -> ->]]]; by rewrite ?orbT.
Qed.
Lemma sub_total p q : built p -> built q -> exists q', mp_neg q = Ok q' /\ mp_sub p q = mp_add p q'.
Proof.
move=> P Q; have [r E] := neg_total Q; exists r; split=> //.
by have := check2_ok _ _ _ sub_exact (built_in _ P) (built_in _ Q); rewrite E /= => /res_eqb_eq.
Qed.
Lemma mul_total p q : built p -> built q ->
  (mp_mul p q = Throw /\ (isZero p \/ isZero q) /\ ~~ (isConstant p && isConstant q)) \/
  ((exists r, mp_mul p q = Ok r) /\ ~ ((isZero p \/ isZero q) /\ ~~ (isConstant p && isConstant q))).
Proof.
move=> BP BQ; have P := built_in _ BP; have Q := built_in _ BQ; have E := check2_ok _ _ _ mul_exact P Q; clear P Q.
apply: exact_split E _; rewrite /mul_throws; apply: (iffP andP) => [[/orP]|[/orP]] //.
Qed.
Lemma throws_wrong (R : realFieldType) :
  (exists p (M : unit -> 'M[R]_(1, 1)), built p /\ has p M /\ mp_add p p = Throw) /\
  (exists p (M : bool -> 'M[R]_(1, 1)), built p /\ has p M /\ mp_scale (sign (0 : R)) p = Throw) /\
  (exists p q (M N : bool -> 'M[R]_(1, 1)), built p /\ built q /\ has p M /\ has q N /\ mp_mul p q = Throw).
Proof.
have D : has default_props (fun t : bool => one (if t then 1 else 0 : R)) by split=> // t; split.
split; [|split].
- exists (mkP true true IDENTITY true PD), (fun _ => 1%:M); split; first by right; exists (mkArgs IDENTITY NA None None).
  by split; first exact: ident_has.
- by exists default_props, (fun t => one (if t then 1 else 0)); split; [left|split=> //; rewrite /sign ltxx].
- exists (mkP true false ZERO true INDEF), default_props, (fun _ => 0), (fun t => one (if t then 1 else 0)).
  split; first by right; exists (mkArgs ZERO NA None None).
  split; first by left.
  split; last by [].
  by apply: (@meets_has _ _ _ _ (mkArgs ZERO NA None None)); [left|split|].
Qed.
Lemma implied (R : realFieldType) T m n a q (M : T -> 'M[R]_(m, n)) :
  m = n \/ a_pos a = NA \/ (a_shape a <> LOWER /\ a_shape a <> UPPER) -> meets a M -> build a = Ok q -> has q M.
Proof.
move=> H; apply: meets_has; case: H => [|[|[A B]]]; [by left|by right; right|right; left].
by case: (a_shape a) A B.
Qed.
Lemma accepted (R : realFieldType) a q : build a = Ok q -> exists M : bool -> 'M[R]_(1, 1), meets a M.
Proof. by move=> /(wit_meets R) H; eexists; exact: H. Qed.
Lemma outcomes a : build a = Throw \/ exists q, build a = Ok q.
Proof.
case: a => s p c i; rewrite /build /=; do 4 (case: ifP; auto); move=> *.
rewrite /deducePositiveness /pmax /greaterThan; case: BinInt.Z.eqb => /=; auto; case: BinInt.Z.ltb => /=; right; by eexists.
Qed.
