(* Proofs for SlcProps.v: the declared properties *)
Require Import Arith.
From mathcomp Require Import all_ssreflect all_algebra.
Require Import Verif.Base Verif.MatPropModel Verif.MatPropSpec Verif.MatPropProofs2 Verif.MatPropProofs4 Verif.MatPropProps0.
Require Import Verif.SlcModel Verif.SlcSpec Verif.SlcProofs.
Set Implicit Arguments.
Unset Strict Implicit.
Unset Printing Implicit Defensive.
Import GRing.Theory Num.Theory.
Local Open Scope ring_scope.

Lemma says_nothing (R : realFieldType) m n (M : 'M[R]_(m, n)) c : says M (mkP c false GENERAL false NA).
Proof. by split. Qed.
Lemma says_zero (R : realFieldType) m n (M : 'M[R]_(m, n)) q c : M = 0 ->
  build (mkArgs ZERO NA c None) = Ok q -> says M q.
Proof. by move=> Z B; apply/fields_says/(build_ok _ _ _ _ B) => //=; right; right. Qed.

Lemma built_zero_const p : built p -> isZero p -> isConstant p.
Proof.
move=> [->|[[s q c i]]] //; rewrite /build /=.
case: ifP => // _; case: ifP => // _; case: ifP => // _; case: ifP => // _.
case Q: (deducePositiveness s q (value i)) => [r||] //= [<-] /=; rewrite /isZero /isConstant /= /deduceShape.
case: ifP => // _ /sh_eqP ->; by rewrite /deduceConstance orbT.
Qed.

Lemma slice_ok (R : realFieldType) (T : Type) p m n s d (E : T -> nat -> nat -> R) :
  built p -> has p (fun t => matOf (mkMat m n (E t))) -> (s + d <= n)%N ->
  exists q, built q /\
    (forall t, constSlice (mkObj (mkMat m n (E t)) p) s d = Ok (mkObj (mkMat m d (fun i j => E t i (s + j)%N)) q)) /\
    has q (fun t => matOf (mkMat m d (fun i j => E t i (s + j)%N))) /\
    isZero q = isZero p /\ isConstant q = isConstant p.
Proof.
move=> B [HC HS] L.
have Ct : isConstant p -> forall t t', matOf (mkMat m d (fun i j => E t i (s + j)%N)) = matOf (mkMat m d (fun i j => E t' i (s + j)%N)).
  move=> C t t'; apply/matrixP=> i j; rewrite !mxE /=.
  have J : (s + j < n)%N by apply: leq_trans L; rewrite ltn_add2l.
  by move: (HC C t t') => /matrixP /(_ i (Ordinal J)); rewrite !mxE.
have Ml t : middleCols (mkMat m n (E t)) s d = Ok (mkMat m d (fun i j => E t i (s + j)%N)).
  rewrite /middleCols /=; case: (PeanoNat.Nat.leb_spec0 (s + d) n) => // N; by case: N; apply/leP.
case Z: (isZero p).
- have C := built_zero_const B Z.
  have [q Q] : exists q, slice p = Ok q by rewrite /slice Z C; eexists.
  have [Qz Qc] : isZero q /\ isConstant q by move: Q; rewrite /slice Z C => -[<-].
  exists q; split; [|split; [|split; [split|]]].
  + by right; move: Q; rewrite /slice Z C => Q; eexists; exact: Q.
  + by move=> t; rewrite /constSlice /= Ml /= Q.
  + by move=> _; apply: Ct.
  + move=> t; move: Q; rewrite /slice Z; apply: says_zero.
    apply/matrixP=> i j; rewrite !mxE /=.
    have J : (s + j < n)%N by apply: leq_trans L; rewrite ltn_add2l.
    by move: (say_zero (HS t) Z) => /matrixP /(_ i (Ordinal J)); rewrite !mxE.
  + by rewrite C Qz Qc.
- exists (mkP (isConstant p) false GENERAL false NA).
  have Q : slice p = Ok (mkP (isConstant p) false GENERAL false NA).
    by rewrite /slice Z; case: (isConstant p).
  split; [|split; [|split; [split|]]].
  + by right; move: Q; rewrite /slice Z => Q; eexists; exact: Q.
  + by move=> t; rewrite /constSlice /= Ml /= Q.
  + exact: Ct.
  + by move=> t; apply: says_nothing.
  + by [].
Qed.

Lemma history_ok (R : realFieldType) (l : list (target * op R)) : forall o o',
  sound o -> honest o l -> steps +%R (fun x y => x - y) o l = Ok o' -> sound o'.
Proof.
elim: l => [|[t c] l IH] o o' S /=; first by move=> _ [<-].
move=> [H1 H2].
case St: (step _ _ o (t, c)) => [o1||] //= Ss; apply: (IH o1) Ss; last exact: H2.
have [_ /(_ _ St)] := step_spec R +%R (fun x y => x - y) o t c.
case: c {H2 St} H1 => [e|e|e|[] e|p] /= H1 [Ep W]; rewrite /sound Ep.
- exact: says_nothing.
- exact: says_nothing.
- exact: says_nothing.
- exact: H1.
- exact: says_nothing.
- by rewrite W.
Qed.

Lemma add_ok (K : Type) (add sub : K -> K -> K) (o : obj K) t A d :
  fits (mx o) t d -> nr A = nr (mx o) -> nc A = d ->
  exists o', addTo add sub o t A = Ok o' /\
    replaced (mx o) t (fun i k => add (entry (mx o) t i k) (en A i k)) (mx o') /\
    pr o' = mkP true false GENERAL false NA.
Proof.
move=> F Er Ec; have [o' H] := add_defined K add sub o t A d F Er Ec.
by exists o'; have [] := add_spec K add sub o t A o' H.
Qed.

(* the identity of size 2 *)
Definition id2 (R : realFieldType) : obj R :=
  mkObj (mkMat 2 2 (fun i j => if i == j then 1 else 0)) (mkP true true IDENTITY true PD).
Lemma id2_mx (R : realFieldType) : matOf (mx (id2 R)) = 1%:M.
Proof. by apply/matrixP=> i j; rewrite !mxE -val_eqE /=; case: ifP. Qed.
Lemma id2_sound (R : realFieldType) : sound (id2 R).
Proof. by rewrite /sound id2_mx; have [_ /(_ tt)] := ident_has R unit 2. Qed.

Lemma view_wrong (R : realFieldType) : exists (o : obj R) s d c p,
  built (pr o) /\ sound o /\ view o (Cols s d) = Ok c /\ viewProps o (Cols s d) = Ok p /\ ~ says (matOf c) p.
Proof.
exists (id2 R), 0%N, 1%N; do 2 eexists; split; [|split; [exact: id2_sound|split; [reflexivity|split; [reflexivity|]]]].
  by right; exists (mkArgs IDENTITY NA None None).
by move=> S; have [] := say_id S isT.
Qed.
Lemma declare_wrong (R : realFieldType) : exists (o o' : obj R) s d c p,
  sound o /\ built p /\ view o (Cols s d) = Ok c /\ says (matOf c) p /\
  step +%R (fun x y => x - y) o (Cols s d, SetProps p) = Ok o' /\ ~ sound o'.
Proof.
pose M : mat R := mkMat 1 2 (fun i j => if j == 1%N then 1 else 0).
exists (mkObj M default_props), (mkObj M (mkP true false ZERO true INDEF)), 0%N, 1%N; do 2 eexists.
split; [exact: says_nothing|]; split; [|split; [reflexivity|split; [|split; [reflexivity|]]]].
- by right; exists (mkArgs ZERO NA None None).
- apply: (@says_zero _ _ _ _ _ None); last reflexivity.
  by apply/matrixP=> i j; rewrite !mxE /=; case: j => [[|?] ?].
- move=> S; have /matrixP /(_ ord0 (Ordinal (isT : (1 < 2)%N))) := say_zero S isT.
  by rewrite !mxE /= => /eqP; rewrite oner_eq0.
Qed.
