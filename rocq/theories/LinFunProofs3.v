Require Import QArith ZArith List Bool Sorting Lia Lqa Arith.
Require Import Verif.Base Verif.QSum Verif.RangeModel Verif.RangeCountingModel Verif.RangeCountingSpec.
Require Import Verif.SpaceModel Verif.VarCountingModel Verif.VarCountingSpec Verif.VarCountingProofs2 Verif.VarCountingProofs4 Verif.VarCountingProofs6.
Require Import Verif.LinFunModel Verif.LinFunSpec Verif.LinFunProofs Verif.LinFunProofs2.
Import ListNotations.
Local Open Scope Z_scope.
Local Arguments Z.add : simpl never.
Local Arguments Z.sub : simpl never.
Local Arguments Z.of_nat : simpl never.
Local Arguments Z.to_nat : simpl never.

Section Layout.
Variables (L : layout) (spOf : nat -> space) (base : nat -> bool).
Hypothesis G : good L spOf.
Notation part := (part L). Notation einv := (einv L). Notation flatp := (flatp L base).
Notation usable := (usable L base).

Lemma usable_part x : usable x -> exists p, part x p /\ flatp p /\ (base (fst p) = true -> type_ (c_space x) = Euclidean).
Proof.
  intros [(q & D & M) E]. exists (c_sup x, q). split; [split; [reflexivity|split; [exact M|exact D]]|]. split; [|simpl; intros B; apply E, B].
  intros B. simpl in *. destruct (E B) as (_ & E1 & E2). destruct M as (M1 & M2 & M3 & M4 & M5 & M6 & M7 & M8 & M9). apply (flat_of L spOf G); lia.
Qed.
Lemma usable_size x : usable x -> 0 < vsize base x.
Proof.
  intros H. destruct (usable_part x H) as (p & (E & M & D) & _). destruct M as (M1 & M2 & M3 & M4 & M5 & M6 & M7 & M8 & M9). unfold vsize.
  pose proof (or_mono L spOf G (c_sup x) (start (snd p)) (rend (snd p))). pose proof (ot_mono L spOf G (c_sup x) (start (snd p)) (rend (snd p))).
  unfold rend in *. destruct (base (c_sup x)); lia.
Qed.
(* a term of n rows *)
Definition linv (n : nat) (l : lin) : Prop :=
  usable (l_var l) /\ mr (l_mat l) = n /\ Z.of_nat (mc (l_mat l)) = vsize base (l_var l) /\ shape_true (l_mat l) (l_shape l).
Lemma linv_tinv n l : Forall (linv n) l -> exists ps, Forall2 (tinv L base n) l ps.
Proof.
  induction 1 as [|t l (U & A & B & C) F (ps & IH)]; [exists []; constructor|]. destruct (usable_part _ U) as (p & P1 & P2 & P3).
  exists (p :: ps). constructor; [|exact IH]. repeat (split; [assumption|]). assumption.
Qed.
Lemma tinv_vars n l ps : Forall2 (tinv L base n) l ps -> Forall2 (fun v p => c_sup v = fst p /\ made_of L v (snd p)) (map l_var l) ps.
Proof. induction 1 as [|t p l ps T F IH]; simpl; constructor; auto. destruct T as ((A & B & _) & _). auto. Qed.

(* ---- reading values ---- *)
Section Sum.
Variables (val : cvar -> vec) (org : cvar -> Z) (env : nat -> Z -> Q).
Hypothesis Hval : forall x p, part x p -> flatp p -> vn (val x) = Z.to_nat (tSize (c_space x)) /\ forall i, ve (val x) i = env (c_sup x) (org x + Z.of_nat i).
Notation jsum := (jsum org env). Notation contrib := (contrib org env).

Lemma accumulate_run n : forall jac es acc, Forall2 (einv n) jac es -> Forall flatp es -> vn acc = n ->
  exists w, accumulate val acc jac = Some w /\ vn w = n /\ forall i, (ve w i == ve acc i + jsum jac i)%Q.
Proof.
  induction jac as [|j jac IH]; intros es acc F Fl Ha; inversion F as [|? p ? es' E F' Ej Ep]; subst.
  - exists acc. simpl. split; [reflexivity|]. split; [reflexivity|]. intros i. unfold jsum. simpl. ring.
  - inversion Fl as [|? ? Fp Fl']; subst. destruct E as (P & [R C] & _). destruct (Hval _ p P Fp) as [V1 V2]. cbn [accumulate].
    unfold mvmul. rewrite V1. replace (Z.to_nat (tSize (c_space (j_var j)))) with (mc (j_mat j)) by lia. rewrite Nat.eqb_refl.
    unfold vadd. cbn [vn]. rewrite R, Nat.eqb_refl. cbn [ve].
    destruct (IH es' (mkVec (vn acc) (fun i => ve acc i + qsumn (fun c => me (j_mat j) i c * ve (val (j_var j)) c) (mc (j_mat j)))%Q) F' Fl' eq_refl) as (w & W1 & W2 & W3).
    exists w. split; [exact W1|]. split; [exact W2|]. intros i. rewrite W3. cbn [ve]. unfold jsum at 2. cbn [qsum]. fold (jsum jac i).
    assert (K : (qsumn (fun c => me (j_mat j) i c * ve (val (j_var j)) c) (mc (j_mat j)) == contrib (j_mat j) (j_var j) i)%Q).
    { unfold contrib. apply qsumn_ext. intros c _. rewrite V2. reflexivity. }
    rewrite K. ring.
Qed.
End Sum.

Definition orgV (x : cvar) : Z := start (subRange base x).
Definition orgT (x : cvar) : Z := start (tSubRange x).
Lemma follows_T : Follows L base orgT.
Proof. intros p F x y q _ _ _ _ _. unfold orgT. reflexivity. Qed.
Lemma follows_V : Follows L base orgV.
Proof.
  intros p F x y q P Q E H1 H2. unfold orgV. rewrite (proj1 (sub_range L base x p P)), (proj1 (sub_range L base y q Q)).
  rewrite (proj1 (tsub_range L x p P)), (proj1 (tsub_range L y q Q)), <- E. unfold co. destruct (base (fst p)) eqn:B; [|reflexivity].
  assert (Dq : 0 < dim (snd q)) by apply Q. pose proof (flat_sub L (fst p) (snd p) (start (snd q)) (F B)). unfold rend in *. lia.
Qed.
Lemma value_val env x p : part x p -> flatp p -> vn (valueOf base env x) = Z.to_nat (tSize (c_space x)) /\ forall i, ve (valueOf base env x) i = env (c_sup x) (orgV x + Z.of_nat i).
Proof. intros P F. split; [|reflexivity]. cbn [valueOf vn]. rewrite (flat_size L base x p P F). reflexivity. Qed.
Lemma dot_val env x p : part x p -> flatp p -> vn (dotValueOf env x) = Z.to_nat (tSize (c_space x)) /\ forall i, ve (dotValueOf env x) i = env (c_sup x) (orgT x + Z.of_nat i).
Proof. intros P F. split; reflexivity. Qed.

(* what the constructors give *)
Definition termSum (val : cvar -> nat -> Q) (l : list lin) (i : nat) : Q := qsum (fun t => qsumn (fun j => me (l_mat t) i j * val (l_var t) j)%Q (mc (l_mat t))) l.
Definition built (n : nat) (l : list lin) (b : vec) (f : blf) : Prop :=
  f_size f = n /\ Forall (fun j => shape_true (j_mat j) (j_shape j)) (f_jac f) /\
  (forall env, exists w, value base env f = Some w /\ vn w = n /\ forall i, (ve w i == ve b i + termSum (coord base env) l i)%Q) /\
  (forall denv, exists w, velocity denv f = Some w /\ vn w = n /\ forall i, (ve w i == termSum (dcoord denv) l i)%Q).
Lemma built_of n l b jac es : Forall2 (einv n) jac es -> Forall flatp es -> vn b = n ->
  (forall org env, Follows L base org -> forall i, (jsum org env jac i == tsum org env l i)%Q) -> built n l b (mkF n jac b).
Proof.
  intros F Fl Hb S. split; [reflexivity|]. split.
  { cbn [f_jac]. clear - F. induction F as [|j p jac es E F IH]; constructor; auto. apply E. }
  split.
  - intros env. destruct (accumulate_run (valueOf base env) orgV env (value_val env) n jac es b F Fl Hb) as (w & W1 & W2 & W3).
    exists w. split; [exact W1|]. split; [exact W2|]. intros i. rewrite W3, S by apply follows_V. apply Qplus_comp; [reflexivity|].
    apply qsum_ext. intros t _. apply qsumn_ext. intros j _. reflexivity.
  - intros env. destruct (accumulate_run (dotValueOf env) orgT env (dot_val env) n jac es (zero n) F Fl eq_refl) as (w & W1 & W2 & W3).
    exists w. split; [exact W1|]. split; [exact W2|]. intros i. rewrite W3, S by apply follows_T. cbn [zero ve]. rewrite Qplus_0_l.
    apply qsum_ext. intros t _. apply qsumn_ext. intros j _. reflexivity.
Qed.

Lemma ofLinear_built n l : linv n l -> exists f, ofLinear base l = Ok f /\ built n [l] (zero n) f.
Proof.
  intros H. destruct (linv_tinv n [l]) as (ps & T); [constructor; [exact H|constructor]|]. destruct ps as [|p ps]; [inversion T|]. assert (Tp : tinv L base n l p) by (inversion T; auto). clear T ps.
  unfold ofLinear. destruct H as (_ & R & _). rewrite R.
  assert (K : exists jac es, addTerm base n [] l = Ok jac /\ Forall2 (einv n) jac es /\ Forall flatp es /\ forall org env, Follows L base org -> forall i, (jsum org env jac i == tsum org env [l] i)%Q).
  { destruct (addTerm_cases L spOf base G orgV (fun _ _ => 0%Q) n [] [] l p) as (_ & (jac & E1 & E2 & _) & _); auto. exists jac, ([] ++ [p]).
    split; [exact E1|]. split; [exact E2|]. split; [constructor; [apply Tp|constructor]|]. intros org env Fo i.
    destruct (addTerm_cases L spOf base G org env n [] [] l p) as (_ & (jac' & E1' & _ & E3') & _); auto.
    assert (jac' = jac) by congruence. subst jac'. rewrite E3'. unfold tsum, jsum. simpl. ring. }
  destruct K as (jac & es & E1 & E2 & E3 & E4). rewrite E1. cbn [bind]. unfold setB. cbn [f_size zero vn]. rewrite Nat.eqb_refl.
  eexists. split; [reflexivity|]. apply (built_of n [l] (zero n) jac es); auto.
Qed.

Lemma ofAffine_built n a : a_lin a <> [] -> Forall (linv n) (a_lin a) -> (forall b, a_cst a = Some b -> vn b = n) ->
  exists f, ofAffine spOf base a = Ok f /\ built n (a_lin a) (match a_cst a with None => zero n | Some b => b end) f.
Proof.
  intros Ne Fo Hb. destruct (linv_tinv n _ Fo) as (qs & T).
  destruct (simple_first L spOf base G (map l_var (a_lin a)) qs (tinv_vars n _ _ T)) as (s & outs & s1 & ws & s2 & fl & ps & E1 & E2 & E3 & E4 & [E5 _] & E6 & E7).
  unfold ofAffine. remember (a_lin a) as l eqn:El. destruct l as [|t l']; [contradiction|]. 
  assert (R : mr (l_mat t) = n) by (inversion Fo; subst; apply H1). rewrite R.
  rewrite map_map in E1. rewrite E1. cbn [bind]. rewrite E2. cbn [bind]. rewrite E3. cbn [bind].
  assert (Lp : length ws = length ps) by (clear - E5; induction E5; simpl; auto).
  assert (Dps : Forall (fun p => 0 < dim (snd p)) ps).
  { rewrite Forall_forall. intros [k q] Hp. apply of_sup_In in Hp. destruct (E6 k) as (D & _). rewrite Forall_forall in D. apply D. exact Hp. }
  assert (Fps : Forall flatp ps).
  { rewrite Forall_forall. intros [k q] Hp B. simpl in B |- *. intros x Hx. apply of_sup_In in Hp. destruct (E6 k) as (_ & _ & C).
    destruct (proj2 (C x)) as (q' & Hq' & Hx'); [exists q; auto|].
    assert (Fq : flatp (k, q')). { revert T Hq'. clear. generalize (t :: l'). intros l T Hq'. induction T as [|u p l ps' Tp T IH]; [destruct Hq'|]. destruct Hq' as [->|Hq']; [apply Tp|auto]. }
    apply (Fq B). exact Hx'. }
  pose proof (canonical_separate ps _ E6) as Sep. pose proof (canonical_nodup ps _ E6) as ND.
  assert (K : exists jac es, (do jac <- preAdd base n [] ws fl; addTerms base n jac (t :: l')) = Ok jac /\ Forall2 (einv n) jac es /\ Forall flatp es /\ forall org env, Follows L base org -> forall i, (jsum org env jac i == tsum org env (t :: l') i)%Q).
  { assert (K0 : forall org env, exists jac0 es0 jac es, preAdd base n [] ws fl = Ok jac0 /\ Forall2 (einv n) jac0 es0 /\ addTerms base n jac0 (t :: l') = Ok jac /\ Forall2 (einv n) jac es /\ Forall flatp es /\ (Follows L base org -> forall i, (jsum org env jac i == tsum org env (t :: l') i)%Q)).
    { intros org env. destruct (preAdd_run L spOf base G org env n ws ps fl [] [] E5) as (jac0 & es0 & P1 & P2 & P3 & _ & P5 & P6); auto.
      assert (Lf : length fl = length ps) by congruence.
      destruct (affine_run L spOf base G org env ps fl qs Lf E6 E7 n (t :: l') qs [] jac0 es0 T eq_refl P2 Fps) as (jac & es & A1 & A2 & A3 & A4); auto.
      { intros e He. destruct (P3 e He) as [[]|H]. exact H. }
      { intros d []. }
      exists jac0, es0, jac, es. split; [exact P1|]. split; [exact P2|]. split; [exact A1|]. split; [exact A2|]. split; [exact A3|]. intros Fw i. rewrite A4, P6 by auto. unfold jsum. simpl. ring. }
    destruct (K0 orgV (fun _ _ => 0%Q)) as (jac0 & es0 & jac & es & P1 & _ & A1 & A2 & A3 & _). exists jac, es. rewrite P1. cbn [bind]. split; [exact A1|]. split; [exact A2|]. split; [exact A3|].
    intros org env Fw i. destruct (K0 org env) as (jac0' & es0' & jac' & es' & P1' & _ & A1' & _ & _ & A4). assert (jac0' = jac0) by congruence. subst jac0'. assert (jac' = jac) by congruence. subst jac'. auto. }
  destruct K as (jac & es & K1 & K2 & K3 & K4).
  destruct (preAdd base n [] ws fl) as [jac0| |]; cbn [bind] in K1 |- *; try discriminate. rewrite K1. cbn [bind]. unfold setB. cbn [f_size f_jac].
  set (b := match a_cst a with Some b => b | None => zero n end).
  assert (Vb : vn b = n) by (unfold b; destruct (a_cst a) as [b'|]; [apply Hb; reflexivity|reflexivity]). rewrite Vb, Nat.eqb_refl.
  eexists. split; [reflexivity|]. apply (built_of n (t :: l') b jac es); auto.
Qed.
End Layout.
