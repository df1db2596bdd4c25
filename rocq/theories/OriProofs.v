Require Import Reals List Lra Lia Psatz.
Require Import Verif.ConeModel Verif.ConeProofs Verif.DfModel Verif.CtcModel Verif.CtcSpec Verif.CtcProofs Verif.FrModel Verif.FrSpec Verif.FrProofs Verif.OriModel Verif.OriSpec.
Import ListNotations.
Local Open Scope R_scope.

Lemma onAxes_tmul E x : onAxes E x = tmul E x.
Proof. unfold onAxes, tmul. apply v3_eq; cbn; ring. Qed.
Lemma onAxes_world x : onAxes world x = x.
Proof. unfold onAxes, world. apply v3_eq; cbn; ring. Qed.
Lemma m3_eq A B : row0 A = row0 B -> row1 A = row1 B -> row2 A = row2 B -> A = B.
Proof. destruct A, B; cbn; intros; subst; reflexivity. Qed.
Lemma onAxes_inj A B : (forall x, onAxes A x = onAxes B x) -> A = B.
Proof.
  intros H. apply m3_eq; [specialize (H (mkV3 1 0 0))|specialize (H (mkV3 0 1 0))|specialize (H (mkV3 0 0 1))]; unfold onAxes in H; cbn in H;
    injection H as H1 H2 H3; apply v3_eq; lra.
Qed.

(* the equations of an orientation *)
Record orient (a b c d e f g h i : R) : Prop := mkOrient {
  r00 : a*a + b*b + c*c = 1; r11 : d*d + e*e + f*f = 1; r22 : g*g + h*h + i*i = 1;
  r01 : a*d + b*e + c*f = 0; r02 : a*g + b*h + c*i = 0; r12 : d*g + e*h + f*i = 0;
  c00 : a*a + d*d + g*g = 1; c11 : b*b + e*e + h*h = 1; c22 : c*c + f*f + i*i = 1;
  c01 : a*b + d*e + g*h = 0; c02 : a*c + d*f + g*i = 0; c12 : b*c + e*f + h*i = 0;
  fa : a = e*i - f*h; fb : b = f*g - d*i; fc : c = d*h - e*g;
  fd : d = h*c - i*b; fe : e = i*a - g*c; ff : f = g*b - h*a;
  fg : g = b*f - c*e; fh : h = c*d - a*f; fi : i = a*e - b*d }.
Lemma orient_of a b c d e f g h i : orientation (mkM3 (mkV3 a b c) (mkV3 d e f) (mkV3 g h i)) -> orient a b c d e f g h i.
Proof.
  intros [H D]. unfold orthonormal, place, coordinates in H. cbn in H. unfold crossp in D. cbn in D. injection D as Dg Dh Di.
  destruct (H (mkV3 1 0 0)) as [A1 B1]. destruct (H (mkV3 0 1 0)) as [A2 B2]. destruct (H (mkV3 0 0 1)) as [A3 B3]. clear H. cbn in *.
  injection A1 as A11 A12 A13. injection A2 as A21 A22 A23. injection A3 as A31 A32 A33.
  injection B1 as B11 B12 B13. injection B2 as B21 B22 B23. injection B3 as B31 B32 B33.
  assert (r00 : a*a + b*b + c*c = 1) by lra. assert (r11 : d*d + e*e + f*f = 1) by lra. assert (r22 : g*g + h*h + i*i = 1) by lra.
  assert (r01 : a*d + b*e + c*f = 0) by lra. assert (r02 : a*g + b*h + c*i = 0) by lra. assert (r12 : d*g + e*h + f*i = 0) by lra.
  assert (fa : a = e*i - f*h).
  { rewrite Di, Dh. replace (e * (a * e - b * d) - f * (c * d - a * f)) with (a * (d*d + e*e + f*f) - d * (a*d + b*e + c*f)) by ring. rewrite r11, r01. ring. }
  assert (fb : b = f*g - d*i).
  { rewrite Di, Dg. replace (f * (b * f - c * e) - d * (a * e - b * d)) with (b * (d*d + e*e + f*f) - e * (a*d + b*e + c*f)) by ring. rewrite r11, r01. ring. }
  assert (fc : c = d*h - e*g).
  { rewrite Dh, Dg. replace (d * (c * d - a * f) - e * (b * f - c * e)) with (c * (d*d + e*e + f*f) - f * (a*d + b*e + c*f)) by ring. rewrite r11, r01. ring. }
  assert (fd : d = h*c - i*b).
  { rewrite Di, Dh. replace ((c * d - a * f) * c - (a * e - b * d) * b) with (d * (a*a + b*b + c*c) - a * (a*d + b*e + c*f)) by ring. rewrite r00, r01. ring. }
  assert (fe : e = i*a - g*c).
  { rewrite Di, Dg. replace ((a * e - b * d) * a - (b * f - c * e) * c) with (e * (a*a + b*b + c*c) - b * (a*d + b*e + c*f)) by ring. rewrite r00, r01. ring. }
  assert (ff : f = g*b - h*a).
  { rewrite Dh, Dg. replace ((b * f - c * e) * b - (c * d - a * f) * a) with (f * (a*a + b*b + c*c) - c * (a*d + b*e + c*f)) by ring. rewrite r00, r01. ring. }
  constructor; try assumption; lra.
Qed.
Lemma of_orient a b c d e f g h i : orient a b c d e f g h i -> orientation (mkM3 (mkV3 a b c) (mkV3 d e f) (mkV3 g h i)).
Proof.
  intros [r00 r11 r22 r01 r02 r12 c00 c11 c22 c01 c02 c12 fa fb fc fd fe ff fg fh fi]. split.
  - intros [x y z]. unfold place, coordinates. cbn. split; apply v3_eq; cbn.
    + replace (_ + _ + _ + _) with (x * (a*a + d*d + g*g) + y * (a*b + d*e + g*h) + z * (a*c + d*f + g*i)) by ring. rewrite c00, c01, c02. ring.
    + replace (_ + _ + _ + _) with (x * (a*b + d*e + g*h) + y * (b*b + e*e + h*h) + z * (b*c + e*f + h*i)) by ring. rewrite c11, c01, c12. ring.
    + replace (_ + _ + _ + _) with (x * (a*c + d*f + g*i) + y * (b*c + e*f + h*i) + z * (c*c + f*f + i*i)) by ring. rewrite c22, c02, c12. ring.
    + replace (_ + _ + _) with (x * (a*a + b*b + c*c) + y * (a*d + b*e + c*f) + z * (a*g + b*h + c*i)) by ring. rewrite r00, r01, r02. ring.
    + replace (_ + _ + _) with (x * (a*d + b*e + c*f) + y * (d*d + e*e + f*f) + z * (d*g + e*h + f*i)) by ring. rewrite r11, r01, r12. ring.
    + replace (_ + _ + _) with (x * (a*g + b*h + c*i) + y * (d*g + e*h + f*i) + z * (g*g + h*h + i*i)) by ring. rewrite r22, r02, r12. ring.
  - unfold crossp. cbn. apply v3_eq; cbn; lra.
Qed.

(* ---- every orientation is a rotation of the axes of the world ---- *)
Section Euler.
Variables a b c d e f g h i : R.
Hypothesis OR : orient a b c d e f g h i.
Let cs := (a + e + i - 1) / 2.
Let v1 := (f - h) / 2.
Let v2 := (g - c) / 2.
Let v3_ := (b - d) / 2.
Lemma id11 : (1 + cs) * (a - cs) = v1 * v1.
Proof. destruct OR. assert (X : (1+a+e+i)*(1+a-e-i) = (f-h)*(f-h)) by lra. unfold cs, v1. lra. Qed.
Lemma id22 : (1 + cs) * (e - cs) = v2 * v2.
Proof. destruct OR. assert (X : (1+a+e+i)*(1+e-a-i) = (g-c)*(g-c)) by lra. unfold cs, v2. lra. Qed.
Lemma id33 : (1 + cs) * (i - cs) = v3_ * v3_.
Proof. destruct OR. assert (X : (1+a+e+i)*(1+i-a-e) = (b-d)*(b-d)) by lra. unfold cs, v3_. lra. Qed.
Lemma id12 : (1 + cs) * ((b + d) / 2) = v1 * v2.
Proof. destruct OR. assert (X : (1+a+e+i)*(b+d) = (f-h)*(g-c)) by lra. unfold cs, v1, v2. lra. Qed.
Lemma id13 : (1 + cs) * ((c + g) / 2) = v1 * v3_.
Proof. destruct OR. assert (X : (1+a+e+i)*(c+g) = (f-h)*(b-d)) by lra. unfold cs, v1, v3_. lra. Qed.
Lemma id23 : (1 + cs) * ((f + h) / 2) = v2 * v3_.
Proof. destruct OR. assert (X : (1+a+e+i)*(f+h) = (g-c)*(b-d)) by lra. unfold cs, v2, v3_. lra. Qed.
Lemma norm_v : v1*v1 + v2*v2 + v3_*v3_ = 1 - cs * cs.
Proof. rewrite <- id11, <- id22, <- id33. unfold cs. field. Qed.
End Euler.

(* a rotation vector, by cases *)
Definition axisOf (a b c d e f g h i : R) : v3 * R :=
  let cs := (a + e + i - 1) / 2 in
  let s := sqrt (1 - cs * cs) in
  if Rlt_dec 0 (1 - cs * cs) then (mkV3 ((f - h) / 2 / s) ((g - c) / 2 / s) ((b - d) / 2 / s), acos cs)
  else if Rlt_dec 0 cs then (mkV3 1 0 0, 0)
  else if Rlt_dec (-1) a then let k := sqrt ((a + 1) / 2) in (mkV3 k (b / (2 * k)) (c / (2 * k)), PI)
  else if Rlt_dec (-1) e then let k := sqrt ((e + 1) / 2) in (mkV3 (b / (2 * k)) k (f / (2 * k)), PI)
  else let k := sqrt ((i + 1) / 2) in (mkV3 (c / (2 * k)) (f / (2 * k)) k, PI).
Definition aRotationVelocity (E : m3) : v3 :=
  let p := axisOf (vx (row0 E)) (vy (row0 E)) (vz (row0 E)) (vx (row1 E)) (vy (row1 E)) (vz (row1 E)) (vx (row2 E)) (vy (row2 E)) (vz (row2 E)) in
  vscale (snd p) (fst p).

Lemma half_turn k a b c e f i : 0 < k -> k * k = (a + 1) / 2 -> b * b = (a+1)*(e+1) -> c * c = (a+1)*(i+1) -> b*c = (a+1)*f -> 
  (b/(2*k)) * (b/(2*k)) = (e+1)/2 /\ (c/(2*k)) * (c/(2*k)) = (i+1)/2 /\ (b/(2*k)) * (c/(2*k)) = f/2 /\ k * (b/(2*k)) = b/2 /\ k * (c/(2*k)) = c/2.
Proof.
  intros Hk K B C BC. assert (N : 2 * k <> 0) by lra. assert (A : a + 1 = 2 * (k * k)) by lra. rewrite A in *.
  repeat split; try (field; lra).
  - replace (b / (2 * k) * (b / (2 * k))) with (b * b / (2 * (2 * (k * k)))) by (field; lra). rewrite B. field. lra.
  - replace (c / (2 * k) * (c / (2 * k))) with (c * c / (2 * (2 * (k * k)))) by (field; lra). rewrite C. field. lra.
  - replace (b / (2 * k) * (c / (2 * k))) with (b * c / (2 * (2 * (k * k)))) by (field; lra). rewrite BC. field. lra.
Qed.

Lemma axisOf_spec a b c d e f g h i : orient a b c d e f g h i ->
  let p := axisOf a b c d e f g h i in
  dotp (fst p) (fst p) = 1 /\ 0 <= snd p <= PI /\ forall x, onAxes (mkM3 (mkV3 a b c) (mkV3 d e f) (mkV3 g h i)) x = turn (fst p) (snd p) x.
Proof.
  intros OR. pose proof PI_RGT_0 as HPI.
  pose proof (id11 _ _ _ _ _ _ _ _ _ OR) as I11. pose proof (id22 _ _ _ _ _ _ _ _ _ OR) as I22. pose proof (id33 _ _ _ _ _ _ _ _ _ OR) as I33.
  pose proof (id12 _ _ _ _ _ _ _ _ _ OR) as I12. pose proof (id13 _ _ _ _ _ _ _ _ _ OR) as I13. pose proof (id23 _ _ _ _ _ _ _ _ _ OR) as I23.
  pose proof (norm_v _ _ _ _ _ _ _ _ _ OR) as NV. cbv zeta in *. unfold axisOf.
  set (cs := (a + e + i - 1) / 2) in *. set (v1 := (f - h) / 2) in *. set (v2 := (g - c) / 2) in *. set (v3_ := (b - d) / 2) in *.
  assert (P : 0 <= 1 - cs * cs) by (rewrite <- NV; nra).
  destruct (Rlt_dec 0 (1 - cs * cs)) as [L|L].
  - (* less than half a turn *)
    set (s := sqrt (1 - cs * cs)). assert (S : 0 < s) by (apply sqrt_lt_R0; exact L). assert (SS : s * s = 1 - cs * cs) by (apply sqrt_sqrt; lra).
    assert (B : -1 < cs < 1) by nra. cbn [fst snd]. split; [|split].
    + unfold dotp. cbn. replace (_ + _ + _) with ((v1*v1 + v2*v2 + v3_*v3_) / (s * s)) by (field; lra). rewrite NV, SS. field. lra.
    + destruct (acos_bound cs). lra.
    + assert (CT : cos (acos cs) = cs) by (apply cos_acos; lra).
      assert (ST : sin (acos cs) = s) by (unfold s; rewrite sin_acos by lra; f_equal; unfold Rsqr; ring).
      intros [x y z]. unfold onAxes, turn. rewrite CT, ST. unfold crossp, dotp. cbn.
      assert (Q : forall k l, (1 - cs) * (k / s) * (l / s) = k * l / (1 + cs)).
      { intros k l. replace ((1 - cs) * (k / s) * (l / s)) with ((1 - cs) * (k * l) / (s * s)) by (field; lra). rewrite SS. field. split; [|lra]. replace (1 - cs * cs) with ((1 - cs) * (1 + cs)) by ring. nra. }
      assert (Q11 : v1 * v1 / (1 + cs) = a - cs) by (rewrite <- I11; field; lra).
      assert (Q22 : v2 * v2 / (1 + cs) = e - cs) by (rewrite <- I22; field; lra).
      assert (Q33 : v3_ * v3_ / (1 + cs) = i - cs) by (rewrite <- I33; field; lra).
      assert (Q12 : v1 * v2 / (1 + cs) = (b + d) / 2) by (rewrite <- I12; field; lra).
      assert (Q13 : v1 * v3_ / (1 + cs) = (c + g) / 2) by (rewrite <- I13; field; lra).
      assert (Q23 : v2 * v3_ / (1 + cs) = (f + h) / 2) by (rewrite <- I23; field; lra).
      apply v3_eq; cbn.
      * replace (cs * x + s * (v2 / s * z - v3_ / s * y) + (1 - cs) * (v1 / s * x + v2 / s * y + v3_ / s * z) * (v1 / s))
          with (cs * x + (v2 * z - v3_ * y) + x * ((1-cs) * (v1/s) * (v1/s)) + y * ((1-cs)*(v1/s)*(v2/s)) + z * ((1-cs)*(v1/s)*(v3_/s))) by (field; lra).
        rewrite !Q, Q11, Q12, Q13. unfold v2, v3_. field.
      * replace (cs * y + s * (v3_ / s * x - v1 / s * z) + (1 - cs) * (v1 / s * x + v2 / s * y + v3_ / s * z) * (v2 / s))
          with (cs * y + (v3_ * x - v1 * z) + x * ((1-cs) * (v1/s) * (v2/s)) + y * ((1-cs)*(v2/s)*(v2/s)) + z * ((1-cs)*(v2/s)*(v3_/s))) by (field; lra).
        rewrite !Q, Q22, Q12, Q23. unfold v1, v3_. field.
      * replace (cs * z + s * (v1 / s * y - v2 / s * x) + (1 - cs) * (v1 / s * x + v2 / s * y + v3_ / s * z) * (v3_ / s))
          with (cs * z + (v1 * y - v2 * x) + x * ((1-cs) * (v1/s) * (v3_/s)) + y * ((1-cs)*(v2/s)*(v3_/s)) + z * ((1-cs)*(v3_/s)*(v3_/s))) by (field; lra).
        rewrite !Q, Q33, Q13, Q23. unfold v1, v2. field.
  - assert (E1 : cs * cs = 1) by lra. assert (V1 : v1 = 0) by nra. assert (V2 : v2 = 0) by nra. assert (V3 : v3_ = 0) by nra.
    assert (Hd : d = b) by (unfold v3_ in V3; lra). assert (Hg : g = c) by (unfold v2 in V2; lra). assert (Hh : h = f) by (unfold v1 in V1; lra).
    clearbody v1 v2 v3_. subst d g h. destruct OR.
    destruct (Rlt_dec 0 cs) as [Lc|Lc].
    + (* no rotation *)
      assert (C1 : cs = 1) by nra. assert (T : a + e + i = 3) by (unfold cs in C1; lra).
      assert (a <= 1) by nra. assert (e <= 1) by nra. assert (i <= 1) by nra. assert (a = 1) by lra. assert (e = 1) by lra. assert (i = 1) by lra. subst a e i.
      assert (b = 0) by nra. assert (c = 0) by nra. assert (f = 0) by nra. subst b c f. cbn [fst snd]. split; [unfold dotp; cbn; ring|]. split; [lra|].
      intros [x y z]. unfold onAxes, turn, crossp, dotp. rewrite cos_0, sin_0. cbn. apply v3_eq; cbn; ring.
    + (* half a turn *)
      assert (C1 : cs = -1) by nra. assert (T : i = -1 - a - e) by (unfold cs in C1; lra). clear E1 L P I11 I22 I33 I12 I13 I23 NV.
      assert (W : forall k1 k2 k3, k1 * k1 = (a+1)/2 -> k2*k2 = (e+1)/2 -> k3 * k3 = (i+1)/2 -> k1*k2 = b/2 -> k1*k3 = c/2 -> k2*k3 = f/2 ->
        dotp (mkV3 k1 k2 k3) (mkV3 k1 k2 k3) = 1 /\ 0 <= PI <= PI /\ forall x, onAxes (mkM3 (mkV3 a b c) (mkV3 b e f) (mkV3 c f i)) x = turn (mkV3 k1 k2 k3) PI x).
      { intros k1 k2 k3 K1 K2 K3 K12 K13 K23. split; [unfold dotp; cbn; lra|]. split; [lra|]. intros [x y z]. unfold onAxes, turn, crossp, dotp. rewrite cos_PI, sin_PI. cbn. apply v3_eq; cbn.
        - replace (-1 * x + 0 * (k2 * z - k3 * y) + (1 - -1) * (k1 * x + k2 * y + k3 * z) * k1) with (- x + 2 * (x * (k1 * k1) + y * (k1 * k2) + z * (k1 * k3))) by ring. rewrite K1, K12, K13. field.
        - replace (-1 * y + 0 * (k3 * x - k1 * z) + (1 - -1) * (k1 * x + k2 * y + k3 * z) * k2) with (- y + 2 * (x * (k1 * k2) + y * (k2 * k2) + z * (k2 * k3))) by ring. rewrite K2, K12, K23. field.
        - replace (-1 * z + 0 * (k1 * y - k2 * x) + (1 - -1) * (k1 * x + k2 * y + k3 * z) * k3) with (- z + 2 * (x * (k1 * k3) + y * (k2 * k3) + z * (k3 * k3))) by ring. rewrite K3, K13, K23. field. }
      assert (EB : b*b = (a+1)*(e+1)) by lra. assert (EC : c*c = (a+1)*(i+1)) by lra. assert (EF : f*f = (e+1)*(i+1)) by lra.
      assert (BC : b*c = (a+1)*f) by lra. assert (BF : b*f = (e+1)*c) by lra. assert (CF : c*f = (i+1)*b) by lra.
      assert (SQ : forall x, -1 < x -> 0 < sqrt ((x+1)/2) /\ sqrt ((x+1)/2) * sqrt ((x+1)/2) = (x+1)/2) by (intros x Hx; split; [apply sqrt_lt_R0; lra|apply sqrt_sqrt; lra]).
      destruct (Rlt_dec (-1) a) as [La|La]; [|destruct (Rlt_dec (-1) e) as [Le|Le]]; cbn [fst snd].
      * destruct (SQ a La) as [k0 kk]. destruct (half_turn _ a b c e f i k0 kk EB EC BC) as (A1 & A2 & A3 & A4 & A5). apply W; assumption.
      * destruct (SQ e Le) as [k0 kk]. destruct (half_turn _ e b f a c i k0 kk ltac:(lra) EF BF) as (A1 & A2 & A3 & A4 & A5). apply W; try assumption; lra.
      * assert (Li : -1 < i) by lra. destruct (SQ i Li) as [k0 kk]. destruct (half_turn _ i c f a b e k0 kk ltac:(lra) ltac:(lra) CF) as (A1 & A2 & A3 & A4 & A5). apply W; try assumption; lra.
Qed.
Lemma aRotationVelocity_is : isRotationVelocity aRotationVelocity.
Proof.
  intros [[a b c] [d e f] [g h i]] H. destruct (axisOf_spec _ _ _ _ _ _ _ _ _ (orient_of _ _ _ _ _ _ _ _ _ H)) as (U & T & X). cbv zeta in *.
  unfold aRotationVelocity. cbn [row0 row1 row2 vx vy vz]. set (p := axisOf a b c d e f g h i) in *.
  exists (fst p), (snd p). split; [exact U|]. split; [exact T|]. split; [reflexivity|]. intros x. rewrite onAxes_world. apply X.
Qed.
