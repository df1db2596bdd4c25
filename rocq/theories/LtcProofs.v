From Coq Require Import ZArith List Bool QArith Lia Lqa.
From Verif Require Import Base RangeModel SpaceModel SpaceProps VariableModel VariableSpec VariableProofs VariableProofs2 MapVarModel MapVarSpec MapVarProofs QSum LtcModel LtcSpec.
Import ListNotations.
Local Open Scope nat_scope.
Local Arguments dot : simpl never.
Local Arguments dotIter : simpl never.

Lemma ext_len h h' v : extends h h' -> v < length (objs h) -> v < length (objs h').
Proof. intros X H. destruct (nth_error (objs h) v) eqn:E; [|apply nth_error_None in E; lia]. destruct (X v v0 E) as (o & E' & _). apply nth_error_Some. congruence. Qed.
Lemma look h v : v < length (objs h) -> exists o, nth_error (objs h) v = Some o.
Proof. intros H. destruct (nth_error (objs h) v) eqn:E; [eauto|apply nth_error_None in E; lia]. Qed.
Lemma superOf_ext h h' v : extends h h' -> v < length (objs h) -> superOf h' v = superOf h v.
Proof. intros X H. destruct (look h v H) as (o & E). destruct (X v o E) as (o' & E' & W & _). unfold superOf. rewrite (proj2 (get_ok _ _ _) E), (proj2 (get_ok _ _ _) E'). simpl. rewrite W. reflexivity. Qed.
Lemma range_ext h h' v : hinv h -> hinv h' -> extends h h' -> v < length (objs h) -> subvariableRange h' v = subvariableRange h v.
Proof.
  intros I I' X H. destruct (look h v H) as (o & E). destruct (X v o E) as (o' & E' & W & _).
  rewrite (sub_range h v o I E), (sub_range h' v o' I' E'). rewrite W. reflexivity.
Qed.
Lemma contains_ext h h' u v : hinv h -> hinv h' -> extends h h' -> u < length (objs h) -> v < length (objs h) -> vcontains h' u v = vcontains h u v.
Proof. intros. unfold vcontains. rewrite !(superOf_ext h h') by auto. rewrite !(range_ext h h') by auto. reflexivity. Qed.
Lemma intersects_ext h h' u v : hinv h -> hinv h' -> extends h h' -> u < length (objs h) -> v < length (objs h) -> vintersects h' u v = vintersects h u v.
Proof. intros. unfold vintersects. rewrite !(superOf_ext h h') by auto. rewrite !(range_ext h h') by auto. reflexivity. Qed.

(* one derivation *)
Definition step (h : heap) (o : order) (v : nat) : res (heap * nat) := match o with Zero => Ok (h, v) | _ => dot h v (num o) false end.
Lemma nth_lt h : hinv h -> forall n v d, v < length (objs h) -> nthDeriv h n v d -> d < length (objs h).
Proof.
  intros I. induction n as [|n IH]; intros v d H N; simpl in N; [subst; auto|]. destruct N as (u & N & o & E & D).
  destruct (ok_deriv _ _ _ (hi_obj _ I u o E) d D) as (od & E' & _). apply nth_error_Some. congruence.
Qed.
Lemma step_ok h o v : reachable h -> v < length (objs h) -> exists h' d, step h o v = Ok (h', d) /\ reachable h' /\ extends h h' /\ nthDeriv h' (num o) v d /\ d < length (objs h').
Proof.
  intros R H. pose proof (reach_hinv h R) as I. destruct (look h v H) as (ov & E).
  assert (G : o <> Zero -> exists h' d, dot h v (num o) false = Ok (h', d) /\ reachable h' /\ extends h h' /\ nthDeriv h' (num o) v d /\ d < length (objs h')).
  { intros No. destruct (dotIter_ok (num o) h v ov false I E) as (h' & w & D & I' & X & N). exists h', w.
    assert (D' : dot h v (num o) false = Ok (h', w)) by (destruct o; [congruence|exact D|exact D]).
    split; [exact D'|]. split; [|split; [exact X|split; [exact N|eapply nth_lt; [exact I'|eapply ext_len; eassumption|exact N]]]].
    eapply (r_step h (VDot v (num o) false)); [exact R|split; [exact H|destruct o; simpl; congruence]|]. simpl. rewrite D'. reflexivity. }
  destruct o; [exists h, v; split; [reflexivity|]; split; [exact R|]; split; [apply extends_refl|]; split; [reflexivity|exact H]|apply G; discriminate|apply G; discriminate].
Qed.
Lemma derivative_of h o v d : hinv h -> v < length (objs h) -> nthDeriv h (num o) v d -> derivative h o v d.
Proof. intros I H N. destruct o; [exact N| |]; exact (dotIter_exist _ h v d false I (look h v H) N). Qed.
Lemma nthDeriv_of h o v d : reachable h -> v < length (objs h) -> derivative h o v d -> nthDeriv h (num o) v d.
Proof.
  intros R H D. destruct o; [exact D| |]; destruct (look h v H) as (ov & E); pose proof (reach_hinv h R) as I.
  - destruct (dotIter_ok 1 h v ov false I E) as (h' & w & D' & _ & _ & N). unfold derivative in D. change (dot h v (num One) false) with (dotIter 1 h v false) in D. rewrite D' in D. injection D as <- <-. exact N.
  - destruct (dotIter_ok 2 h v ov false I E) as (h' & w & D' & _ & _ & N). unfold derivative in D. change (dot h v (num Two) false) with (dotIter 2 h v false) in D. rewrite D' in D. injection D as <- <-. exact N.
Qed.
(* the derivative has the tangent space of the variable, and the variable for primitive *)
Lemma nth_prim h : hinv h -> forall n v d ov, nth_error (objs h) v = Some ov -> nthDeriv h n v d ->
  walkPrim n h d = Ok v /\ exists od, nth_error (objs h) d = Some od /\ v_dn od = n + v_dn ov /\ v_space od = v_space ov /\ v_shift od = v_shift ov.
Proof.
  intros I. induction n as [|n IH]; intros v d ov E N; simpl in N; [subst; split; [reflexivity|exists ov; auto]|].
  destruct N as (u & N & o & Eu & D). destruct (IH v u ov E N) as (W & ou & Eu' & A & B & C). rewrite Eu in Eu'. injection Eu' as <-.
  destruct (ok_deriv _ _ _ (hi_obj _ I u o Eu) d D) as (od & Ed & P & Q1 & Q2 & Q3 & _). split.
  - simpl. rewrite (proj2 (get_ok _ _ _) Ed). simpl. rewrite P. exact W.
  - exists od. split; [exact Ed|]. split; [simpl; lia|]. split; congruence.
Qed.
Lemma primitive_ok h o v d : reachable h -> v < length (objs h) -> derivative h o v d -> primitive (num o) h d = Ok v.
Proof.
  intros R H D. apply nthDeriv_of in D; auto. destruct (look h v H) as (ov & E). destruct (nth_prim h (reach_hinv h R) _ _ _ _ E D) as (W & od & Ed & A & _).
  unfold primitive. rewrite (proj2 (get_ok _ _ _) Ed). simpl. rewrite (proj2 (Nat.leb_le _ _)) by lia. exact W.
Qed.
Lemma jac_deriv h c v d : reachable h -> v < length (objs h) -> derivative h (c_order c) v d -> ltcJacobian h c d = jacobian h (f_J (c_f c)) v.
Proof.
  intros R H D. pose proof (primitive_ok h _ v d R H D) as P. unfold ltcJacobian. destruct (c_order c); simpl in *; [rewrite D; reflexivity| |]; rewrite P; reflexivity.
Qed.

(* all the derivations *)
Lemma derive_ok o : forall vs h, reachable h -> Forall (fun v => v < length (objs h)) vs ->
  exists h' ds, derive h o vs = Ok (h', ds) /\ reachable h' /\ extends h h' /\ Forall2 (derivative h' o) vs ds /\ Forall (fun d => d < length (objs h')) ds.
Proof.
  induction vs as [|v vs IH]; intros h R F.
  - exists h, []. split; [reflexivity|]. split; [exact R|]. split; [apply extends_refl|]. split; constructor.
  - inversion F; subst. destruct (step_ok h o v R H1) as (h1 & d & E & R1 & X1 & N & L).
    destruct (IH h1 R1) as (h' & ds & E' & R' & X' & D' & L'). { eapply Forall_impl; [|exact H2]. intros a Ha. eapply ext_len; eassumption. }
    exists h', (d :: ds). simpl. unfold step in E. rewrite E. simpl. rewrite E'. split; [reflexivity|]. split; [exact R'|]. split; [eapply extends_trans; eassumption|]. split.
    + constructor; [|exact D']. apply derivative_of; [apply reach_hinv; exact R'|eapply ext_len; [exact X'|eapply ext_len; eassumption]|eapply nthDeriv_ext; eassumption].
    + constructor; [eapply ext_len; eassumption|exact L'].
Qed.
Lemma anyI_false h v : forall l, Forall (fun x => vintersects h x v = Ok false) l -> anyIntersects h l v = Ok false.
Proof. induction l as [|x l IH]; intros F; [reflexivity|]. inversion F; subst. simpl. rewrite H1. simpl. auto. Qed.
Lemma anyC_false h v : forall l, Forall (fun x => vcontains h x v = Ok false) l -> anyContains h l v = Ok false.
Proof. induction l as [|x l IH]; intros F; [reflexivity|]. inversion F; subst. simpl. rewrite H1. simpl. auto. Qed.
Lemma not_contained h x v : reachable h -> x < length (objs h) -> v < length (objs h) -> (exists c, cell h v c) -> vintersects h x v = Ok false -> vcontains h x v = Ok false.
Proof.
  intros R Hx Hv C I. destruct (c07_contains h x v R Hx Hv) as (b & E & K). rewrite E. f_equal. destruct b; [|reflexivity]. exfalso.
  destruct C as (c & Hc). pose proof (proj1 (K (ex_intro _ c Hc)) eq_refl c Hc) as Hx'. destruct (c07_intersects h x v R Hx Hv) as (b' & E' & K'). rewrite I in E'. injection E' as <-.
  assert (false = true) by (apply K'; [eauto|eauto|eauto]). discriminate.
Qed.
Lemma cell_ext h h' v c : extends h h' -> v < length (objs h) -> cell h' v c -> cell h v c.
Proof. intros X H (o' & E' & A & B). destruct (look h v H) as (o & E). destruct (X v o E) as (o2 & E2 & W & _). rewrite E' in E2. injection E2 as <-. exists o. rewrite W in A, B. split; auto. Qed.

Lemma add_ok h l v : reachable h -> Forall (fun x => x < length (objs h)) l -> v < length (objs h) -> (exists c, cell h v c) -> Forall (fun x => vintersects h x v = Ok false) l -> addVariable h l v = Ok (l ++ [v]).
Proof.
  intros R L Hv C F. unfold addVariable. rewrite anyC_false.
  - simpl. rewrite anyI_false by exact F. reflexivity.
  - rewrite Forall_forall in *. intros x Hx. apply not_contained; auto.
Qed.
Lemma add_res h l v : reachable h -> Forall (fun x => x < length (objs h)) l -> v < length (objs h) -> match addVariable h l v with Ok l' => Forall (fun x => x < length (objs h)) l' | Throw => True | UB => False end.
Proof.
  intros R L Hv. unfold addVariable.
  assert (A : exists b, anyContains h l v = Ok b). { clear -R L Hv. induction L; simpl; [eauto|]. destruct (c07_contains h x v R H Hv) as (b & E & _). rewrite E. simpl. destruct b; eauto. }
  assert (B : exists b, anyIntersects h l v = Ok b). { clear -R L Hv. induction L; simpl; [eauto|]. destruct (c07_intersects h x v R H Hv) as (b & E & _). rewrite E. simpl. destruct b; eauto. }
  destruct A as [a A]. destruct B as [b B]. rewrite A. simpl. destruct a; [exact L|]. rewrite B. simpl. destruct b; [exact Logic.I|]. apply Forall_app. split; [exact L|constructor; [exact Hv|constructor]].
Qed.
Lemma addVars_cons h o lin acc v vs : addVars h o lin acc (v :: vs) =
  match o with Zero => if lin v then do acc <- addVariable h acc v; addVars h o lin acc vs else Throw | _ => do (h, d) <- step h o v; do acc <- addVariable h acc d; addVars h o lin acc vs end.
Proof. destruct o; reflexivity. Qed.
Lemma ext_Forall h h' l : extends h h' -> Forall (fun v => v < length (objs h)) l -> Forall (fun v => v < length (objs h')) l.
Proof. intros X. apply Forall_impl. intros a. apply ext_len. exact X. Qed.
Lemma addVars_ok o lin : forall vs h acc h' ds, reachable h -> Forall (fun v => v < length (objs h)) vs -> Forall (fun v => v < length (objs h)) acc ->
  derive h o vs = Ok (h', ds) -> (o = Zero -> Forall (fun v => lin v = true) vs) -> disjointVars h' (acc ++ ds) -> addVars h o lin acc vs = Ok (h', acc ++ ds).
Proof.
  induction vs as [|v vs IH]; intros h acc h' ds R F Fa D L Dj.
  - simpl in D. injection D as <- <-. rewrite app_nil_r. reflexivity.
  - inversion F; subst. destruct (step_ok h o v R H1) as (h1 & d & E & R1 & X1 & N & Ld).
    pose proof (ext_Forall _ _ _ X1 H2) as F1. destruct (derive_ok o vs h1 R1 F1) as (h2 & ds' & E' & R' & X' & D' & L').
    simpl in D. change (match o with Zero => Ok (h, v) | _ => dot h v (num o) false end) with (step h o v) in D. rewrite E in D. simpl in D. rewrite E' in D. simpl in D. injection D as <- <-.
    assert (Fa1 : Forall (fun v => v < length (objs h1)) acc) by (eapply ext_Forall; eassumption).
    assert (Ad : addVariable h1 acc d = Ok (acc ++ [d])).
    { destruct Dj as [P C]. apply add_ok; auto.
      - apply Forall_app in C. destruct C as [_ C]. apply Forall_inv in C. destruct C as (c & Hc). exists c. eapply cell_ext; eassumption.
      - clear -P Fa1 R1 R' X' Ld. induction acc as [|x acc IH]; constructor; inversion Fa1; subst; inversion P; subst.
        + rewrite <- (intersects_ext h1 h2) by (auto using reach_hinv). rewrite Forall_forall in H3. apply H3. apply in_or_app. right. left. reflexivity.
        + apply IH; auto. }
    rewrite addVars_cons. replace (acc ++ d :: ds') with ((acc ++ [d]) ++ ds') in * by (rewrite <- app_assoc; reflexivity).
    assert (G : addVars h1 o lin (acc ++ [d]) vs = Ok (h2, (acc ++ [d]) ++ ds')).
    { apply IH; auto. - apply Forall_app. split; [exact Fa1|constructor; [exact Ld|constructor]]. - intros Ho. specialize (L Ho). inversion L; auto. }
    destruct o.
    + specialize (L eq_refl). apply Forall_inv in L. rewrite L. simpl in E. injection E as <- <-. rewrite Ad. exact G.
    + rewrite E. simpl. rewrite Ad. simpl. exact G.
    + rewrite E. simpl. rewrite Ad. simpl. exact G.
Qed.
Lemma addVars_nonlin lin : forall vs h acc, reachable h -> Forall (fun v => v < length (objs h)) vs -> Forall (fun v => v < length (objs h)) acc -> (exists v, In v vs /\ lin v = false) -> addVars h Zero lin acc vs = Throw.
Proof.
  induction vs as [|v vs IH]; intros h acc R F Fa (w & Hw & Lw); [destruct Hw|]. inversion F; subst. simpl. destruct (lin v) eqn:El; [|reflexivity].
  pose proof (add_res h acc v R Fa H1) as A. destruct (addVariable h acc v) as [acc'| |]; [simpl|reflexivity|destruct A]. apply IH; auto. exists w. split; [|exact Lw]. destruct Hw as [->|Hw]; [congruence|exact Hw].
Qed.
Lemma addVars_noUB o lin : forall vs h acc, reachable h -> Forall (fun v => v < length (objs h)) vs -> Forall (fun v => v < length (objs h)) acc ->
  match addVars h o lin acc vs with Ok (h', l) => reachable h' /\ extends h h' /\ Forall (fun v => v < length (objs h')) l | Throw => True | UB => False end.
Proof.
  induction vs as [|v vs IH]; intros h acc R F Fa; [simpl; split; [exact R|split; [apply extends_refl|exact Fa]]|]. inversion F; subst. rewrite addVars_cons.
  destruct (step_ok h o v R H1) as (h1 & d & E & R1 & X1 & N & Ld). pose proof (ext_Forall _ _ _ X1 H2) as F1. pose proof (ext_Forall _ _ _ X1 Fa) as Fa1.
  pose proof (add_res h1 acc d R1 Fa1 Ld) as A.
  assert (G : match (do acc <- addVariable h1 acc d; addVars h1 o lin acc vs) with Ok (h', l) => reachable h' /\ extends h h' /\ Forall (fun v => v < length (objs h')) l | Throw => True | UB => False end).
  { destruct (addVariable h1 acc d) as [acc'| |]; simpl; [|exact Logic.I|destruct A]. specialize (IH h1 acc' R1 F1 A). destruct (addVars h1 o lin acc' vs) as [[h' l]| |]; [|exact Logic.I|destruct IH].
    destruct IH as (I1 & I2 & I3). split; [exact I1|]. split; [eapply extends_trans; eassumption|exact I3]. }
  destruct o; [destruct (lin v); [|exact Logic.I]; simpl in E; injection E as <- <-; exact G|rewrite E; exact G|rewrite E; exact G].
Qed.

(* the value *)
Lemma find_combine {A} (m : vmap A) x J : NoDup (map fst m) -> In (x, J) m -> find m x = Some J.
Proof.
  induction m as [|[y K] m IH]; intros N I; [destruct I|]. simpl in *. inversion N; subst. destruct (Nat.eqb_spec y x) as [->|Ne].
  - destruct I as [[= ->]|I]; [reflexivity|]. exfalso. apply H1. apply in_map_iff. exists (x, J). auto.
  - destruct I as [[= -> ->]|I]; [congruence|]. auto.
Qed.
Lemma sum_ok h c env i : reachable h -> sized h env -> NoDup (map fst (f_J (c_f c))) -> forall m ds, (forall p, In p m -> In p (f_J (c_f c))) -> goodMap h m ->
  (c_order c = Zero -> forall x, In x (map fst m) -> flat h x) ->
  Forall2 (derivative h (c_order c)) (map fst m) ds ->
  exists q, ltcSum h c env ds i = Ok q /\ (q == qsum (fun p => qsum (fun cx => nth i (fst cx) 0 * snd cx) (combine (snd (fst p)) (env (snd p)))) (combine m ds))%Q.
Proof.
  intros R Sz ND. induction m as [|[x J] m IH]; intros ds Sub G Fl F2; inversion F2; subst; [exists 0%Q; split; [reflexivity|simpl; reflexivity]|].
  assert (Hx : x < length (objs h)) by (eapply good_lt; [exact G|left; reflexivity]).
  destruct (IH l') as (q & E & Q); [intros p Hp; apply Sub; right; exact Hp|intros a K Ha; apply (G a K); right; exact Ha|intros Ho a Ha; apply Fl; [exact Ho|right; exact Ha]|exact H3|].
  simpl. rewrite (jac_deriv h c x y R Hx H1). unfold jacobian, mapAt. rewrite (find_combine _ x J) by (auto; apply Sub; left; reflexivity). simpl.
  destruct (look h x Hx) as (ox & Ex). pose proof (nthDeriv_of h _ x y R Hx H1) as N. pose proof (reach_hinv h R) as I. destruct (nth_prim h I _ _ _ _ Ex N) as (_ & oy & Ey & D1 & D2 & D3).
  assert (Len : length J = length (env y)).
  { apply Nat2Z.inj. rewrite (Sz y oy Ey). destruct (G x J (or_introl eq_refl)) as (t & C). destruct (columns_fun h x ox _ _ Ex C) as [_ ->].
    pose proof (ok_size _ _ _ (hi_obj _ I y oy Ey)) as S1. rewrite S1, D1, D2. destruct (c_order c) eqn:Ho; [|reflexivity|reflexivity].
    destruct (Fl eq_refl x (or_introl eq_refl)) as (o & E' & K). rewrite Ex in E'. injection E' as <-. simpl. destruct (v_dn ox); simpl; [|reflexivity]. destruct K as [K|K]; [congruence|destruct K; congruence]. }
  rewrite Len, Nat.eqb_refl, E. simpl. eexists. split; [reflexivity|]. unfold mulRow. rewrite Q. reflexivity.
Qed.
Lemma vsubL_ok a b : length a = length b -> exists r, vsubL a b = Ok r /\ length r = length a /\ forall i, i < length a -> (nth i r 0 == nth i a 0 - nth i b 0)%Q.
Proof.
  intros H. unfold vsubL. rewrite H, Nat.eqb_refl. eexists. split; [reflexivity|]. split; [rewrite map_length, combine_length; lia|]. intros i Hi.
  assert (E : nth i (map (fun p : Q * Q => (fst p - snd p)%Q) (combine a b)) (0 - 0)%Q = (nth i a 0 - nth i b 0)%Q).
  { change (0 - 0)%Q with ((fun p : Q * Q => (fst p - snd p)%Q) (0%Q, 0%Q)). rewrite map_nth, combine_nth by lia. reflexivity. }
  rewrite <- E. rewrite (nth_indep _ 0%Q (0 - 0)%Q) by (rewrite map_length, combine_length; lia). reflexivity.
Qed.
Lemma rhs_ok c v : length v = f_n (c_f c) -> length (f_na (c_f c)) = f_n (c_f c) -> exists r, rhsOf c v = Ok r /\ forall i, i < f_n (c_f c) -> (nth i r 0 == nth i v 0 - drift (c_f c) (c_order c) i)%Q.
Proof.
  intros L1 L2. unfold rhsOf, drift. destruct (c_order c).
  - exists v. split; [reflexivity|]. intros. ring.
  - exists v. split; [reflexivity|]. intros. ring.
  - destruct (vsubL_ok v (f_na (c_f c))) as (r & E & _ & K); [lia|]. exists r. split; [exact E|]. intros i Hi. apply K. lia.
Qed.
Lemma goodMap_ext {A} h h' (m : vmap A) : extends h h' -> goodMap h m -> goodMap h' m.
Proof. intros X G x J H. destruct (G x J H) as (t & o & E & P1 & P2). destruct (X x o E) as (o' & E' & W & _). exists t, o'. split; [exact E'|]. rewrite W. auto. Qed.
Lemma flat_ext h h' x : extends h h' -> flat h x -> flat h' x.
Proof. intros X (o & E & K). destruct (X x o E) as (o' & E' & W & _). exists o'. split; [exact E'|]. rewrite W. exact K. Qed.

Lemma main h f k h' ds : k_f k = f -> reachable h -> goodFunc h f -> derive h (k_order k) (f_vars f) = Ok (h', ds) -> disjointVars h' ds ->
  (k_order k = Zero -> Forall (fun v => f_lin f v = true /\ flat h v) (f_vars f)) -> length (k_td k) = f_n f -> match k_td2 k with Some w => length w = f_n f | None => k_type k <> DOUBLE_SIDED end ->
  exists c, newLtc h k = Ok (h', c) /\ c_vars c = ds /\ forall env, sized h' env ->
   (satisfied h' c env <-> forall i, i < f_n f ->
      match k_type k with
      | DOUBLE_SIDED => exists w, k_td2 k = Some w /\ related GREATER_THAN (chainRule f env ds i + drift f (k_order k) i) (nth i (k_td k) 0%Q) /\ related LOWER_THAN (chainRule f env ds i + drift f (k_order k) i) (nth i w 0%Q)
      | t => related t (chainRule f env ds i + drift f (k_order k) i) (nth i (k_td k) 0%Q)
      end).
Proof.
  intros <- R (Fv & Fk & ND & G & Na) D Dj Lin L1 L2.
  destruct (derive_ok (k_order k) (f_vars (k_f k)) h R Fv) as (h2 & ds2 & D2 & R' & X & Dv & _). rewrite D in D2. injection D2 as <- <-.
  assert (A : addVars h (k_order k) (f_lin (k_f k)) [] (f_vars (k_f k)) = Ok (h', ds)).
  { apply (addVars_ok (k_order k) _ (f_vars (k_f k)) h [] h' ds); auto. intros Ho. eapply Forall_impl; [|apply Lin; exact Ho]. intros a [Ha _]. exact Ha. }
  unfold newLtc. rewrite A. simpl. eexists. split; [reflexivity|]. split; [reflexivity|]. intros env Sz. set (c := mkLtc _ _ _ _ _ _).
  assert (V : forall i, exists q, ltcValue h' c env i = Ok q /\ (q == chainRule (k_f k) env ds i)%Q).
  { intros i. apply (sum_ok h' c env i R' Sz); simpl; [rewrite Fk; exact ND|auto|eapply goodMap_ext; eassumption| |rewrite Fk; exact Dv].
    intros Ho x Hx. rewrite Fk in Hx. specialize (Lin Ho). rewrite Forall_forall in Lin. eapply flat_ext; [exact X|]. apply Lin. exact Hx. }
  destruct (rhs_ok c (c_td c) L1 Na) as (r & Er & Kr). simpl in Kr.
  assert (Rw : forall w, k_td2 k = Some w -> exists r, rhsOf c w = Ok r /\ forall i, i < f_n (k_f k) -> (nth i r 0 == nth i w 0 - drift (k_f k) (k_order k) i)%Q).
  { intros w Hw. apply (rhs_ok c w); [rewrite Hw in L2; exact L2|exact Na]. }
  unfold satisfied. change (f_n (c_f c)) with (f_n (k_f k)).
  assert (P : forall i, i < f_n (k_f k) -> ((exists x l u e, ltcValue h' c env i = Ok x /\ ltcL c = Ok l /\ ltcU c = Ok u /\ ltcE c = Ok e /\
    match l with Some l => nth i l 0 <= x | None => True end%Q /\ match u with Some u => x <= nth i u 0 | None => True end%Q /\ match e with Some e => x == nth i e 0 | None => True end%Q) <->
    match k_type k with
      | DOUBLE_SIDED => exists w, k_td2 k = Some w /\ related GREATER_THAN (chainRule (k_f k) env ds i + drift (k_f k) (k_order k) i) (nth i (k_td k) 0%Q) /\ related LOWER_THAN (chainRule (k_f k) env ds i + drift (k_f k) (k_order k) i) (nth i w 0%Q)
      | t => related t (chainRule (k_f k) env ds i + drift (k_f k) (k_order k) i) (nth i (k_td k) 0%Q)
    end)).
  { intros i Hi. destruct (V i) as (q & Eq & Q). specialize (Kr i Hi). unfold ltcL, ltcU, ltcE. change (c_type c) with (k_type k). change (c_td2 c) with (k_td2 k). rewrite Er, Eq.
    destruct (k_type k) eqn:T; simpl bind; cbv beta.
    - split.
      + intros (x & l & u & e & [= <-] & [= <-] & [= <-] & [= <-] & _ & _ & H). simpl. rewrite <- Q, H, Kr. ring.
      + intros H. simpl in H. eexists q, None, None, (Some r). do 4 (split; [reflexivity|]). split; [exact Logic.I|]. split; [exact Logic.I|]. rewrite Kr, Q. lra.
    - split.
      + intros (x & l & u & e & [= <-] & [= <-] & [= <-] & [= <-] & H & _ & _). simpl. rewrite Kr, Q in H. lra.
      + intros H. simpl in H. eexists q, (Some r), None, None. do 4 (split; [reflexivity|]). split; [|split; exact Logic.I]. rewrite Kr, Q. lra.
    - split.
      + intros (x & l & u & e & [= <-] & [= <-] & [= <-] & [= <-] & _ & H & _). simpl. rewrite Kr, Q in H. lra.
      + intros H. simpl in H. eexists q, None, (Some r), None. do 4 (split; [reflexivity|]). split; [exact Logic.I|]. split; [|exact Logic.I]. rewrite Kr, Q. lra.
    - destruct (k_td2 k) as [w|] eqn:Ew; [|congruence]. destruct (Rw w eq_refl) as (r2 & Er2 & Kr2). specialize (Kr2 i Hi). rewrite Er2. simpl bind. split.
      + intros (x & l & u & e & [= <-] & [= <-] & [= <-] & [= <-] & H & H2 & _). exists w. split; [reflexivity|]. simpl. rewrite Kr, Q in H. rewrite Kr2, Q in H2. split; lra.
      + intros (w' & [= <-] & H & H2). simpl in H, H2. eexists q, (Some r), (Some r2), None. do 4 (split; [reflexivity|]). split; [rewrite Kr, Q; lra|]. split; [rewrite Kr2, Q; lra|exact Logic.I]. }
  split; intros H i Hi; [exact (proj1 (P i Hi) (H i Hi))|exact (proj2 (P i Hi) (H i Hi))].
Qed.
