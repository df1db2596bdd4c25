(* Soundness of the operators and of the constructors. *)
From mathcomp Require Import all_ssreflect all_algebra.
Require Import Verif.Base Verif.MatPropModel Verif.MatPropSpec Verif.MatPropProofs Verif.MatPropProofs2 Verif.MatPropProofs3.
Set Implicit Arguments.
Unset Strict Implicit.
Unset Printing Implicit Defensive.
Import Order.TTheory GRing.Theory Num.Theory.
Local Open Scope ring_scope.

Section Ops.
Variables (R : realFieldType) (T : Type).
Lemma build_const a q : build a = Ok q -> isConstant q -> value (a_const a) \/ deduceConstance (a_shape a).
Proof.
case: a => s p c i; rewrite /build /=.
case: ifP => // _; case: ifP => // _; case: ifP => // _; case: ifP => // _.
case: (deducePositiveness s p (value i)) => [r||] //= [<-] /=; rewrite /isConstant /= => /orP; tauto.
Qed.
Lemma shape_const m n s (M : T -> 'M[R]_(m, n)) : (forall t, shape_ok (M t) s) -> deduceConstance s -> forall t t', M t = M t'.
Proof.
move=> H D t t'; have := H t; have := H t'.
case: s H D => //= _ _.
- by move=> [_ [_ A]] [_ [_ B]]; apply/matrixP=> i j; rewrite A B.
- by move=> [_ [_ A]] [_ [_ B]]; apply/matrixP=> i j; rewrite A B.
- by move=> -> ->.
Qed.
Lemma build_has m n a q (M : T -> 'M[R]_(m, n)) :
  (forall t, shape_ok (M t) (a_shape a)) -> (forall t, pos_ok (M t) (a_pos a)) ->
  (value (a_const a) -> forall t t', M t = M t') -> (value (a_inv a) -> forall t, inverse (M t)) ->
  (m = n \/ lu (a_shape a) = false \/ a_pos a = NA) -> build a = Ok q -> has q M.
Proof.
move=> S P C I SQ B; split.
- by move=> H; case: (build_const B H) => D; [apply: C|apply: shape_const D].
- move=> t; apply: fields_says; apply: (build_ok (S t) (P t) _ SQ B) => V; exact: I.
Qed.
Lemma has_fields m n p (M : T -> 'M[R]_(m, n)) : has p M ->
  (constant_ p -> forall t t', M t = M t') /\ (forall t, shape_ok (M t) (shape_ p)) /\ (forall t, pos_ok (M t) (positiveness_ p)) /\
  (invertible_ p -> forall t, inverse (M t)).
Proof.
move=> [C S]; split=> //; split; [|split].
- by move=> t; have [_ []] := says_fields (S t).
- by move=> t; have [_ [_ []]] := says_fields (S t).
- by move=> I t; have [J _] := says_fields (S t); apply: J.
Qed.
Lemma neg_ok m n p q (M : T -> 'M[R]_(m, n)) : built p -> has p M -> mp_neg p = Ok q -> has q (fun t => - M t).
Proof.
move=> BP /has_fields [C [S [P I]]] B; apply: (build_has _ _ _ _ _ B) => /=.
- by move=> t; apply: shape_neg.
- by move=> t; apply: pos_neg.
- by move=> V t t'; rewrite (C V t t').
- by move=> V t; apply: inverse_opp; apply: I.
- case L: (lu (sh_neg (shape_ p))); last by right; left.
  right; right; rewrite (built_lu BP) //; by move: L; case: (shape_ p).
Qed.
Lemma add_lu s1 s2 : lu (sh_add s1 s2) -> lu s1 \/ lu s2.
Proof. by case: s1; case: s2 => //=; auto. Qed.
Lemma po_add_na p1 p2 q : p1 = NA \/ p2 = NA -> po_add p1 p2 = Ok q -> q = NA.
Proof. by case=> ->; [|case: p1] => /= -[]. Qed.
Lemma add_ok m n p1 p2 q (A B : T -> 'M[R]_(m, n)) : built p1 -> built p2 -> has p1 A -> has p2 B ->
  mp_add p1 p2 = Ok q -> has q (fun t => A t + B t).
Proof.
move=> B1 B2 /has_fields [C [S [P I]]] /has_fields [C' [S' [P' I']]]; rewrite /mp_add.
case E: (po_add _ _) => [r||] //= B0; apply: (build_has _ _ _ _ _ B0) => //=.
- by move=> t; apply: shape_add.
- by move=> t; apply: pos_add E.
- by move=> /andP [V V'] t t'; rewrite (C V t t') (C' V' t t').
- case L: (lu (sh_add (shape_ p1) (shape_ p2))); last by right; left.
  right; right; apply: po_add_na E; by case/add_lu: L => L; [left|right]; apply: built_lu L.
Qed.
Lemma sub_ok m n p1 p2 q (A B : T -> 'M[R]_(m, n)) : built p1 -> built p2 -> has p1 A -> has p2 B ->
  mp_sub p1 p2 = Ok q -> has q (fun t => A t - B t).
Proof.
move=> B1 B2 H1 H2 E.
have := check2_ok _ _ _ sub_exact (built_in _ B1) (built_in _ B2); move/res_eqb_eq; rewrite E.
case N: (mp_neg p2) => [r||] //= H; symmetry in H.
apply: (add_ok B1 _ H1 (neg_ok B2 H2 N) H).
by right; move: N; rewrite /mp_neg; eexists; exact: N.
Qed.
Lemma mul_ok m n k p1 p2 q (A : T -> 'M[R]_(m, n)) (B : T -> 'M[R]_(n, k)) : has p1 A -> has p2 B ->
  mp_mul p1 p2 = Ok q -> has q (fun t => A t *m B t).
Proof.
move=> /has_fields [C [S [P I]]] /has_fields [C' [S' [P' I']]]; rewrite /mp_mul.
case E: (sh_mul _ _) => [r||] //= B0; apply: (build_has _ _ _ _ _ B0) => //=.
- by move=> t; apply: shape_mul E.
- by move=> /andP [V V'] t t'; rewrite (C V t t') (C' V' t t').
- by move=> /andP [V V'] t; apply: inverse_mul; [apply: I|apply: I'].
- by right; right.
Qed.

(* scaling *)
Lemma shape_pos_scale m n s (M : 'M[R]_(m, n)) (d : R) : s <> IDENTITY -> s <> MINUSID ->
  shape_ok M s -> shape_ok (d *: M) s.
Proof.
case: s => //= _ _.
- by move=> A i j L; rewrite mxE A // mulr0.
- by move=> A i j L; rewrite mxE A // mulr0.
- by move=> A i j L; rewrite mxE A // mulr0.
- by move=> [a A]; exists (d * a); apply: multZ.
- by move=> ->; rewrite scaler0.
Qed.
Lemma pos_pos_scale m n p (M : 'M[R]_(m, n)) (d : R) : 0 < d -> pos_ok M p -> pos_ok (d *: M) p.
Proof.
move=> D; case: p => //=.
- by move=> [S Q]; split; [exact: symZ|move=> x; rewrite quadZ mulr_ge0 // ltW].
- by move=> [E [S Q]]; split=> //; split; [exact: symZ|move=> x /Q H; rewrite quadZ mulr_gt0].
- by move=> [S Q]; split; [exact: symZ|move=> x; rewrite quadZ mulr_ge0_le0 // ltW].
- by move=> [E [S Q]]; split=> //; split; [exact: symZ|move=> x /Q H; rewrite quadZ pmulr_rlt0].
- exact: symZ.
- move=> [E [S [N [X Y]]]]; split=> //; split; first exact: symZ.
  by exists (d^-1 *: N); rewrite -!scalemxAl -!scalemxAr !scalerA mulfV ?mulVf ?scale1r ?X ?Y // gt_eqF.
Qed.
Lemma inv_scale m n (M : 'M[R]_(m, n)) (d : R) : d != 0 -> inverse M -> inverse (d *: M).
Proof.
move=> D [N [X Y]].
by exists (d^-1 *: N); rewrite -!scalemxAl -!scalemxAr !scalerA mulfV ?mulVf ?scale1r ?X ?Y.
Qed.
(* +-I times something positive is a multiple, not the identity *)
Lemma scale_ok m n p q (M : T -> 'M[R]_(m, n)) (d : R) : built p -> has p M ->
  (isIdentity p || isMinusIdentity p -> d = 1 \/ d = -1 \/ d = 0) ->
  mp_scale (sign d) p = Ok q -> has q (fun t => d *: M t).
Proof.
move=> BP /has_fields [C [S [P I]]] HI; rewrite /mp_scale /sign.
have LUP : lu (shape_ p) = false \/ positiveness_ p = NA.
  by case L: (lu (shape_ p)); [right; exact: built_lu|left].
have NI : d != 1 -> d != -1 -> d != 0 -> shape_ p <> IDENTITY /\ shape_ p <> MINUSID.
  move=> N1 N2 N3; split=> E; move: HI; rewrite /isIdentity /isMinusIdentity E /= => /(_ isT) [H|[H|H]];
    by move: N1 N2 N3; rewrite H eqxx.
case: ltrgt0P => D; rewrite /= => B0; apply: (build_has _ _ _ _ _ B0) => //=.
- move=> t; case: (eqVneq d 1) => [->|N1]; first by rewrite scale1r.
  have [] := NI N1 _ _; rewrite ?gt_eqF //; last by move=> X Y; apply: shape_pos_scale.
  by apply: lt_trans D; rewrite oppr_lt0 ltr01.
- by move=> t; apply: pos_pos_scale.
- by move=> V t t'; rewrite (C V t t').
- by move=> V t; apply: inv_scale; [rewrite gt_eqF|apply: I].
- by right.
- move=> t; case: (eqVneq d (-1)) => [->|N1]; first by rewrite scaleN1r; apply: shape_neg.
  have [] := NI _ N1 _; rewrite ?lt_eqF //; first by apply: lt_trans D _; apply: ltr01.
  move=> X Y; have -> : sh_neg (shape_ p) = shape_ p by case: (shape_ p) X Y.
  by apply: shape_pos_scale.
- move=> t; rewrite -[d *: _]opprK -scaleNr -scalerN scaleNr -scalerN opprK.
  have -> : d *: M t = (- d) *: (- M t) by rewrite scalerN scaleNr opprK.
  by apply: pos_pos_scale; [rewrite oppr_gt0|apply: pos_neg].
- by move=> V t t'; rewrite (C V t t').
- by move=> V t; apply: inv_scale; [rewrite lt_eqF|apply: I].
- by right; case: LUP => [L|L]; [left; move: L; case: (shape_ p)|right; rewrite L].
- by move=> t; rewrite D scale0r.
- move=> t; rewrite D scale0r; case: (positiveness_ p) => //=; exact: sym0.
- by move=> V t t'; rewrite (C V t t').
- by right; left.
Qed.
End Ops.

Section Build.
Variables (R : realFieldType).
Lemma meets_has T m n a q (M : T -> 'M[R]_(m, n)) : (m = n \/ lu (a_shape a) = false \/ a_pos a = NA) ->
  meets a M -> build a = Ok q -> has q M.
Proof.
move=> SQ [S [P [C I]]] B; apply: (build_has S P _ _ SQ B).
- by move: C; case: (a_const a) => [[]|].
- by move: I; case: (a_inv a) => [[]|].
Qed.
Lemma inv_not_zero m n (M : 'M[R]_(m, n)) : (0 < m)%N -> inverse M -> M = 0 -> False.
Proof.
move=> L [N [X _]] Z; move: X; rewrite Z mul0mx => /matrixP /(_ (Ordinal L) (Ordinal L)).
by rewrite !mxE eqxx /= => /eqP; rewrite eq_sym oner_eq0.
Qed.
Lemma nonzero_ex m : (0 < m)%N -> @nonzero R m (fun _ => 1).
Proof. by move=> L; exists (Ordinal L); rewrite oner_neq0. Qed.
Lemma psd_nd m n (M : 'M[R]_(m, n)) : (0 < m)%N -> psd M -> nd M -> False.
Proof.
move=> L [_ P] [_ [_ N]]; have := N _ (nonzero_ex L); by rewrite ltNge P.
Qed.
Lemma nsd_pd m n (M : 'M[R]_(m, n)) : (0 < m)%N -> nsd M -> pd M -> False.
Proof.
move=> L [_ P] [_ [_ N]]; have := N _ (nonzero_ex L); by rewrite ltNge P.
Qed.
Lemma id_pd m n (M : 'M[R]_(m, n)) : m = n /\ multiple M 1 -> pd M.
Proof. by move=> H; have := @default_ok _ _ _ M IDENTITY H. Qed.
Lemma mid_nd m n (M : 'M[R]_(m, n)) : m = n /\ multiple M (-1) -> nd M.
Proof. by move=> H; have := @default_ok _ _ _ M MINUSID H. Qed.
Lemma pd_psd m n (M : 'M[R]_(m, n)) : pd M -> psd M.
Proof.
move=> [E [S P]]; split=> // x; case: (boolP [exists i : 'I_m, x i != 0]) => [/existsP H|/existsPn H]; first exact/ltW/P.
rewrite /quad big1 // => i _; rewrite big1 // => j _.
by have /negPn/eqP -> := H i; rewrite !mul0r.
Qed.
Lemma nd_nsd m n (M : 'M[R]_(m, n)) : nd M -> nsd M.
Proof. by move=> /nd_opp/pd_psd/psd_opp; rewrite opprK. Qed.
Lemma deduceInv_ok m n (M : 'M[R]_(m, n)) s p : shape_ok M s -> pos_ok M p -> deduceInvertibility s p -> inverse M.
Proof.
move=> S P; rewrite /deduceInvertibility => /orP [/orP [/orP [/orP []|]|]|].
- by move/sh_eqP=> E; rewrite E in S; apply: pd_inv; apply: id_pd.
- by move/sh_eqP=> E; rewrite E in S; apply: nd_inv; apply: mid_nd.
- by move/po_eqP=> E; rewrite E in P; apply: pd_inv.
- by move/po_eqP=> E; rewrite E in P; apply: nd_inv.
- by move/po_eqP=> E; rewrite E in P; case: P => _ [].
Qed.
Lemma throw_unmet (T : Type) (t0 : T) m n a (M : T -> 'M[R]_(m, n)) : (0 < m)%N -> build a = Throw -> ~ meets a M.
Proof.
move=> L; case: a => s p c i; rewrite /build /meets /= => B [S [P [C I]]].
have S0 := S t0; have P0 := P t0.
move: B; case: ifP => B1.
  move=> _; move: B1 S0 P0.
  move=> /orP [/orP [/orP [/orP [/orP [/orP [|]|]|]|]|]|] /andP [/sh_eqP -> /po_eqP ->] /= S0 P0.
  - exact: inv_not_zero L (pd_inv P0) S0.
  - exact: inv_not_zero L (nd_inv P0) S0.
  - case: P0 => _ [_ J]; exact: inv_not_zero L J S0.
  - exact: nsd_pd L P0 (id_pd S0).
  - exact: psd_nd L (pd_psd (id_pd S0)) P0.
  - exact: psd_nd L P0 (mid_nd S0).
  - exact: nsd_pd L (nd_nsd (mid_nd S0)) P0.
case: ifP => B2.
  move=> _; move: B2 C => /andP [/andP [G V] D]; case: c G V => [[]|] //= _ _; apply.
  exact: shape_const D.
case: ifP => B3.
  move=> _; move: B3 I => /andP [G /andP [V D]]; case: i G V => [[]|] //= _ _; apply.
  by move=> t; apply: deduceInv_ok D.
case: ifP => B4.
  move=> _; move: B4 I => /andP [G /andP [V D]]; case: i G V B3 => [[]|] //= _ _ _ I.
  by move/sh_eqP: D => E; rewrite E in S0; apply: inv_not_zero L (I t0) S0.
case Q: (deducePositiveness s p (value i)) => [r||] //= _.
have V : value i -> inverse (M t0) by case: i I {B3 B4 Q} => [[]|] //= I _; apply: I.
have X := promote_ok (default_ok S0) V; have Y := promote_ok P0 V.
move: Q X Y; rewrite /deducePositiveness; move: B1 S0 V.
by case: s {S B2 B3 B4}; case: p {P P0}; case: (value i) => //= _ S0 V _ X Y;
  try (exact: psd_nd L X Y); try (exact: nsd_pd L X Y); try (exact: psd_nd L (pd_psd X) Y);
  try (exact: nsd_pd L Y X); try (exact: psd_nd L Y X); try (exact: psd_nd L (pd_psd Y) X).
Qed.
End Build.

(* what the constructor accepts is not void: a 1x1 matrix over two states *)
Section Sat.
Variable R : realFieldType.
Definition one (v : R) : 'M[R]_(1, 1) := const_mx v.
Lemma one_quad v x : quad (one v) x = v * x 0%N ^+ 2.
Proof. by rewrite /quad !big_ord1 mxE /= expr2 mulrAC mulrC. Qed.
Lemma one_nz x : @nonzero R 1 x -> 0 < x 0%N ^+ 2.
Proof. by move=> [i]; rewrite (ord1 i) /= => N; rewrite lt_neqAle sqr_ge0 eq_sym sqrf_eq0 N. Qed.
Lemma one_sym v : symmetric (one v).
Proof. by move=> i j i' j' _ _; rewrite !mxE. Qed.
Lemma one_mult v : multiple (one v) v.
Proof. by split; [left|move=> i j; rewrite mxE (ord1 i) (ord1 j)]. Qed.
Lemma one_inv v : v != 0 -> inverse (one v).
Proof. by move=> N; apply: (sh_inv _ N (one_mult v)). Qed.
Lemma one_ninv v : inverse (one v) -> v != 0.
Proof.
move=> I; apply/eqP=> Z; apply: (@inv_not_zero R 1 1 (one v) isT I).
by apply/matrixP=> i j; rewrite !mxE.
Qed.
Definition sgn_of (a : args) : R := if sh_eq (a_shape a) MINUSID || po_eq (a_pos a) NSD || po_eq (a_pos a) ND then -1 else 1.
Definition wit (a : args) (t : bool) : R :=
  if sh_eq (a_shape a) ZERO then 0
  else match a_inv a, a_const a, t with
  | Some false, Some false, false => sgn_of a
  | Some false, _, _ => 0
  | _, Some false, false => sgn_of a * 2%:R
  | _, _, _ => sgn_of a
  end.
Lemma one_shape s v : match s with IDENTITY => v = 1 | MINUSID => v = -1 | ZERO => v = 0 | _ => True end -> shape_ok (one v) s.
Proof.
case: s => //=.
- by move=> _ i j; rewrite (ord1 i) (ord1 j).
- by move=> _ i j; rewrite (ord1 i) (ord1 j).
- by move=> _ i j; rewrite (ord1 i) (ord1 j).
- by move=> _; exists v; apply: one_mult.
- by move=> ->; split=> //; apply: one_mult.
- by move=> ->; split=> //; apply: one_mult.
- by move=> ->; apply/matrixP=> i j; rewrite !mxE.
Qed.
Lemma one_pos p v : match p with PSD => 0 <= v | PD => 0 < v | NSD => v <= 0 | ND => v < 0 | NZI => v != 0 | _ => True end -> pos_ok (one v) p.
Proof.
case: p => //=.
- by move=> H; split; [exact: one_sym|move=> x; rewrite one_quad mulr_ge0 ?sqr_ge0].
- by move=> H; split=> //; split; [exact: one_sym|move=> x /one_nz N; rewrite one_quad mulr_gt0].
- by move=> H; split; [exact: one_sym|move=> x; rewrite one_quad mulr_le0_ge0 ?sqr_ge0].
- by move=> H; split=> //; split; [exact: one_sym|move=> x /one_nz N; rewrite one_quad pmulr_llt0].
- by move=> _; exact: one_sym.
- by move=> N; split=> //; split; [exact: one_sym|exact: one_inv].
Qed.
Lemma build_facts a q : build a = Ok q ->
  (deduceInvertibility (a_shape a) (a_pos a) -> a_inv a <> Some false /\ a_shape a <> ZERO) /\
  (a_pos a = PSD \/ a_pos a = PD -> a_shape a <> MINUSID) /\
  (a_pos a = NSD \/ a_pos a = ND -> a_shape a <> IDENTITY) /\
  (deduceConstance (a_shape a) -> a_const a <> Some false) /\
  (a_inv a = Some true -> a_shape a <> ZERO).
Proof.
case: a => s p c i /=; rewrite /build /=.
case: ifP => // B1; case: ifP => // B2; case: ifP => // B3; case: ifP => // B4 _.
split; [|split; [|split; [|split]]].
- move=> D; split; first by move=> E; move: B3; rewrite E /= D.
  by move=> E; move: D B1; rewrite E; case: (p).
- by move=> [] E F; move: B1; rewrite E F.
- by move=> [] E F; move: B1; rewrite E F.
- by move=> D E; move: B2; rewrite E /= D.
- by move=> E F; move: B4; rewrite E F.
Qed.
Lemma wit_meets a q : build a = Ok q -> meets a (fun t => one (wit a t)).
Proof.
move=> B; have [F1 [F2 [F3 [F4 F5]]]] := build_facts B.
have P2 : 0 < 2%:R :> R by rewrite ltr0n.
have D (v w : R) : one v = one w -> v = w.
  by move=> E; have := congr1 (fun M : 'M[R]_(1, 1) => M 0 0) E; rewrite !mxE.
have G0 : sgn_of a != 0 by rewrite /sgn_of; case: ifP => _; rewrite ?oppr_eq0 oner_eq0.
have W t : (wit a t == 0) /\ (a_inv a = Some false \/ a_shape a = ZERO) \/ wit a t = sgn_of a \/ wit a t = sgn_of a * 2%:R.
  rewrite /wit; case Z: (sh_eq _ ZERO); first by left; rewrite eqxx; split=> //; right; exact: sh_eqP.
  case: (a_inv a) => [[]|]; case: (a_const a) => [[]|]; case: t; auto; by left; rewrite eqxx; auto.
have WN t : a_inv a <> Some false -> a_shape a <> ZERO -> wit a t != 0.
  move=> N1 N2; case: (W t) => [[_ []] //|[->|->]] //; by rewrite mulf_neq0 // gt_eqF.
have WP t : 0 <= sgn_of a -> 0 <= wit a t by move=> H; case: (W t) => [[/eqP -> _]|[->|->]] //; rewrite mulr_ge0 // ltW.
have WM t : sgn_of a <= 0 -> wit a t <= 0 by move=> H; case: (W t) => [[/eqP -> _]|[->|->]] //; rewrite mulr_le0_ge0 // ltW.
have SP : a_pos a = PSD \/ a_pos a = PD -> 0 <= sgn_of a.
  move=> H; rewrite /sgn_of; case: ifP => [|_]; last exact: ler01.
  by have := F2 H; case: (a_shape a) => //; case: H => ->.
have SM : a_pos a = NSD \/ a_pos a = ND -> sgn_of a <= 0.
  by move=> H; rewrite /sgn_of; case: ifP => [_|]; [rewrite oppr_le0 ler01|case: H => ->; rewrite /= ?orbT].
split; [|split; [|split]].
- move=> t; apply: one_shape; case E: (a_shape a) => //.
  + have [|N1 N2] := F1; first by rewrite E.
    have := F4; rewrite E => /(_ isT) N3; rewrite /wit /sgn_of E /=.
    have -> : po_eq (a_pos a) NSD || po_eq (a_pos a) ND = false.
      by apply/negP=> /orP [] /po_eqP Q; apply: F3 E; auto.
    by case: (a_inv a) N1 => [[]|] //; case: (a_const a) N3 => [[]|].
  + have [|N1 N2] := F1; first by rewrite E.
    have := F4; rewrite E => /(_ isT) N3; rewrite /wit /sgn_of E /=.
    by case: (a_inv a) N1 => [[]|] //; case: (a_const a) N3 => [[]|].
  + by rewrite /wit E.
- have I0 : a_pos a = PD \/ a_pos a = ND \/ a_pos a = NZI -> forall t, wit a t != 0.
    by move=> H t; have [|N1 N2] := F1; [rewrite /deduceInvertibility; case: H => [->|[]->]; rewrite ?orbT|apply: WN].
  move=> t; apply: one_pos; case E: (a_pos a) => //.
  + by apply/WP/SP; left.
  + by rewrite lt_neqAle eq_sym I0 ?WP //; auto.
  + by apply/WM/SM; left.
  + by rewrite lt_neqAle I0 ?WM //; auto.
  + by apply: I0; auto.
- case C: (a_const a) => [[]|] //.
  + by move=> t t'; rewrite /wit C; case: t; case: t'; case: (a_inv a) => [[]|].
  + move=> /(_ true false) /D /eqP; rewrite /wit C.
    have -> : sh_eq (a_shape a) ZERO = false by apply/negP=> /sh_eqP E; apply: F4 C; rewrite E.
    have X : (sgn_of a == sgn_of a * 2%:R) = false.
      by rewrite -{1}[sgn_of a]mulr1 (inj_eq (mulfI G0)) -(@mulr1n R 1) eqr_nat.
    by case: (a_inv a) => [[]|]; rewrite ?X // eq_sym (negbTE G0).
- case C: (a_inv a) => [[]|] //.
  + by move=> t; apply: one_inv; apply: WN; rewrite ?C //; apply: F5.
  + by move=> /(_ true) /one_ninv; rewrite /wit C; case: ifP => _; case: (a_const a) => [[]|]; rewrite eqxx.
Qed.
End Sat.
