Require Import QArith ZArith List Bool Sorting Lia Lqa Arith.
Require Import Verif.Base Verif.QSum Verif.RangeModel Verif.RangeCountingModel Verif.RangeCountingSpec.
Require Import Verif.SpaceModel Verif.VarCountingModel Verif.VarCountingSpec Verif.VarCountingProofs2 Verif.VarCountingProofs4 Verif.VarCountingProofs6.
Require Import Verif.LinFunModel Verif.LinFunSpec Verif.LinFunProofs Verif.LinFunProofs2 Verif.LinFunProofs3 Verif.LinFunProofs4.
Import ListNotations.
Local Open Scope Z_scope.
Local Arguments Z.add : simpl never.
Local Arguments Z.sub : simpl never.
Local Arguments Z.of_nat : simpl never.
Local Arguments Z.to_nat : simpl never.

Section Layout.
Variables (L : layout) (spOf : nat -> space) (base : nat -> bool).
Hypothesis G : good L spOf.
Notation part := (part L). Notation einv := (einv L). Notation flatp := (flatp L base).
Notation usable := (usable L base).

Lemma expression e n : fits base e n -> (forall x, In x (vars e) -> usable x) -> vars e <> [] -> (forall x, e <> EVar x) ->
  exists p f, build base e = Some p /\ ofOperand spOf base p = Some (Ok f) /\ f_size f = n /\
    Forall (fun j => shape_true (j_mat j) (j_shape j)) (f_jac f) /\
    (forall env, exists w, value base env f = Some w /\ vn w = n /\ forall i, (i < n)%nat -> (ve w i == meaning (coord base env) constant e i)%Q) /\
    (forall denv, exists w, velocity denv f = Some w /\ vn w = n /\ forall i, (i < n)%nat -> (ve w i == meaning (dcoord denv) nothing e i)%Q).
Proof.
  intros F U Nv Ne.
  assert (Up : forall x, usable x -> 0 < vsize base x) by (intros x; apply (usable_size L spOf base G)).
  assert (K1 : forall env, exists p, build base e = Some p /\ oinv base usable n p /\ (isVar p = true <-> exists x, e = EVar x) /\ (isCst p = true <-> vars e = []) /\ same n (osem (coord base env) constant p) (meaning (coord base env) constant e)).
  { intros env. apply (build_ok base usable Up (coord base env) constant 1); auto. intros b i. unfold constant. ring. }
  assert (K2 : forall env, exists p, build base e = Some p /\ oinv base usable n p /\ (isVar p = true <-> exists x, e = EVar x) /\ (isCst p = true <-> vars e = []) /\ same n (osem (dcoord env) nothing p) (meaning (dcoord env) nothing e)).
  { intros env. apply (build_ok base usable Up (dcoord env) nothing 0); auto. intros b i. unfold nothing. ring. }
  destruct (K1 (fun _ _ => 0%Q)) as (p & E & O & V & C & _).
  assert (M1 : forall env, same n (osem (coord base env) constant p) (meaning (coord base env) constant e)).
  { intros env. destruct (K1 env) as (p' & E' & _ & _ & _ & S). assert (p' = p) by congruence. subst p'. exact S. }
  assert (M2 : forall env, same n (osem (dcoord env) nothing p) (meaning (dcoord env) nothing e)).
  { intros env. destruct (K2 env) as (p' & E' & _ & _ & _ & S). assert (p' = p) by congruence. subst p'. exact S. }
  exists p. destruct p as [x|b|l|a].
  - exfalso. destruct (proj1 V eq_refl) as (y & Hy). exact (Ne y Hy).
  - exfalso. apply Nv, C. reflexivity.
  - simpl in O. destruct (ofLinear_built L spOf base G n l O) as (f & E1 & B1 & B2 & B3 & B4). exists f. split; [exact E|]. split; [simpl; rewrite E1; reflexivity|].
    split; [exact B1|]. split; [exact B2|]. split.
    + intros env. destruct (B3 env) as (w & W1 & W2 & W3). exists w. split; [exact W1|]. split; [exact W2|]. intros i Hi. rewrite W3, <- (M1 env i Hi). unfold termSum, osem, lsem. simpl. ring.
    + intros env. destruct (B4 env) as (w & W1 & W2 & W3). exists w. split; [exact W1|]. split; [exact W2|]. intros i Hi. rewrite W3, <- (M2 env i Hi). unfold termSum, osem, lsem. simpl. ring.
  - destruct O as (O1 & O2 & O3). destruct (ofAffine_built L spOf base G n a O1 O2 O3) as (f & E1 & B1 & B2 & B3 & B4). exists f. split; [exact E|]. split; [simpl; rewrite E1; reflexivity|].
    split; [exact B1|]. split; [exact B2|]. split.
    + intros env. destruct (B3 env) as (w & W1 & W2 & W3). exists w. split; [exact W1|]. split; [exact W2|]. intros i Hi. rewrite W3, <- (M1 env i Hi). unfold termSum, osem, lsem.
      apply Qplus_comp; [|reflexivity]. destruct (a_cst a); reflexivity.
    + intros env. destruct (B4 env) as (w & W1 & W2 & W3). exists w. split; [exact W1|]. split; [exact W2|]. intros i Hi. rewrite W3, <- (M2 env i Hi). unfold termSum, osem, lsem.
      destruct (a_cst a); simpl; unfold nothing; ring.
Qed.

(* ---- outcomes ---- *)
(* a term that is refused whatever the state *)
Definition bad (n : nat) (l : lin) : Prop :=
  (base (c_sup (l_var l)) = true /\ type_ (c_space (l_var l)) <> Euclidean) \/ mr (l_mat l) <> n \/ Z.of_nat (mc (l_mat l)) <> vsize base (l_var l).
Lemma bad_throw n jac l : bad n l -> addTerm base n jac l = Throw.
Proof.
  intros H. unfold addTerm. destruct (negb (isEuclideanS (c_space (l_var l))) && base (c_sup (l_var l))) eqn:E; [reflexivity|].
  destruct (Nat.eqb_spec (mr (l_mat l)) n) as [R|R]; [|reflexivity]. destruct (Z.eqb_spec (Z.of_nat (mc (l_mat l))) (vsize base (l_var l))) as [C|C]; [|reflexivity]. exfalso.
  destruct H as [[H1 H2]|[H|H]]; auto. rewrite H1, andb_true_r in E. unfold isEuclideanS in E. destruct (type_ (c_space (l_var l))); simpl in E; auto; discriminate.
Qed.
Lemma addTerm_total n jac es l p : Forall2 (einv n) jac es -> tinv L base n l p ->
  (exists jac' es', addTerm base n jac l = Ok jac' /\ Forall2 (einv n) jac' es') \/ addTerm base n jac l = Throw.
Proof.
  intros F (P & Fp & Eu & R & C & Sh). pose proof (flat_size L base _ _ P Fp) as Vs.
  unfold addTerm. destruct (negb (isEuclideanS (c_space (l_var l))) && base (c_sup (l_var l))); [right; reflexivity|].
  rewrite R, Nat.eqb_refl, C, Z.eqb_refl. cbn [negb].
  destruct (existsb (fun j => vcont base (j_var j) (l_var l)) jac) eqn:E1.
  - destruct (plusAt_sum L spOf base G (fun _ => 0) (fun _ _ => 0%Q) n (l_var l) p (l_mat l) P R (eq_trans C Vs) jac es F E1) as (jac' & X1 & X2 & _). left. exists jac', es. auto.
  - unfold addVariable. rewrite E1. destruct (existsb (fun j => vint base (j_var j) (l_var l)) jac); [right; reflexivity|]. cbn [bind]. left. eexists. exists (es ++ [p]). split; [reflexivity|].
    apply Forall2_app; [exact F|]. constructor; [|constructor]. split; [exact P|]. split; [split; [exact R|simpl; congruence]|exact Sh].
Qed.
Lemma addTerms_bad n : forall l jac es, Forall2 (einv n) jac es -> Forall (fun t => (exists p, tinv L base n t p) \/ bad n t) l -> Exists (bad n) l -> addTerms base n jac l = Throw.
Proof.
  induction l as [|t l IH]; intros jac es F H X; [inversion X|]. cbn [addTerms]. apply Forall_cons_iff in H. destruct H as [[[p T]|B] H].
  - destruct (addTerm_total n jac es t p F T) as [(jac' & es' & E & F')|E]; [|rewrite E; reflexivity]. rewrite E. cbn [bind]. eapply IH; eauto.
    apply Exists_cons in X. destruct X as [X|X]; [|exact X]. rewrite (bad_throw n jac t X) in E. discriminate.
  - rewrite (bad_throw n jac t B). reflexivity.
Qed.

(* ---- lists of matrices ---- *)
Lemma covers_part x p k c : part x p -> (covers base x k c <-> fst p = k /\ co L base k (start (snd p)) <= c < co L base k (rend (snd p))).
Proof.
  intros (E & (_ & _ & _ & _ & _ & R1 & R2 & T1 & T2) & _). rewrite E in *. unfold covers, co. rewrite E. split.
  - intros [Ek H]. rewrite <- Ek in *. split; [reflexivity|]. destruct (base (fst p)); lia.
  - intros [Ek H]. rewrite <- Ek in *. split; [reflexivity|]. cbn zeta. destruct (base (fst p)); lia.
Qed.
Lemma inside_iff x y p q : part x p -> part y q -> (inside base y x <-> inP q p).
Proof.
  intros P Q0. assert (D : 0 < dim (snd q)) by apply Q0. pose proof (co_lt L spOf base G (fst q) (start (snd q)) (rend (snd q)) ltac:(unfold rend; lia)) as Lt. split.
  - intros H. assert (H1 : covers base x (fst q) (co L base (fst q) (start (snd q)))) by (apply H, (covers_part y q); auto; split; [auto|lia]).
    assert (H2 : covers base x (fst q) (co L base (fst q) (rend (snd q)) - 1)) by (apply H, (covers_part y q); auto; split; [auto|lia]).
    apply (covers_part x p) in H1; auto. apply (covers_part x p) in H2; auto. destruct H1 as [E H1], H2 as [_ H2].
    split; [exact E|]. pose proof (co_le_iff L spOf base G (fst q) (start (snd p)) (start (snd q))). pose proof (co_le_iff L spOf base G (fst q) (rend (snd q)) (rend (snd p))). lia.
  - intros (A & B & C) k c H. apply (covers_part y q) in H; auto. apply (covers_part x p); auto. destruct H as [E H]. subst k. split; [exact A|].
    pose proof (co_le_iff L spOf base G (fst q) (start (snd p)) (start (snd q))). pose proof (co_le_iff L spOf base G (fst q) (rend (snd q)) (rend (snd p))). lia.
Qed.
Lemma apart_iff x y p q : part x p -> part y q -> (apart base x y <-> ~ meet p q).
Proof.
  intros P Q0. split.
  - intros H [E (a & X & Y)]. apply (H (fst q) (co L base (fst q) a)).
    pose proof (co_le_iff L spOf base G (fst q) (start (snd p)) a). pose proof (co_lt_iff L spOf base G (fst q) a (rend (snd p))).
    pose proof (co_le_iff L spOf base G (fst q) (start (snd q)) a). pose proof (co_lt_iff L spOf base G (fst q) a (rend (snd q))).
    unfold In_range, rend in *. split; [apply (covers_part x p)|apply (covers_part y q)]; auto; split; auto; unfold rend in *; lia.
  - intros H k c [X Y]. apply (covers_part x p) in X; auto. apply (covers_part y q) in Y; auto. destruct X as [E1 X], Y as [E2 Y]. apply H. split; [congruence|].
    assert (Dp : 0 < dim (snd p)) by apply P. assert (Dq : 0 < dim (snd q)) by apply Q0.
    exists (Z.max (start (snd p)) (start (snd q))).
    assert (start (snd p) < rend (snd q)) by (apply (co_lt_iff L spOf base G k); lia).
    assert (start (snd q) < rend (snd p)) by (apply (co_lt_iff L spOf base G k); lia).
    unfold In_range, rend in *. lia.
Qed.
Lemma compatible_iff xs ps : Forall2 part xs ps -> (compatible base xs <-> compat ps).
Proof.
  intros F.
  assert (Sp : forall a y b, xs = a ++ y :: b -> exists a' q b', ps = a' ++ q :: b' /\ Forall2 part a a' /\ part y q).
  { intros a y b E. subst xs. apply Forall2_app_inv_l in F. destruct F as (a' & r & Fa & Fr & ->). inversion Fr as [|? q ? b' Pq Fb]; subst. eauto 7. }
  assert (Sp' : forall a q b, ps = a ++ q :: b -> exists a' y b', xs = a' ++ y :: b' /\ Forall2 part a' a /\ part y q).
  { intros a y b E. subst ps. apply Forall2_app_inv_r in F. destruct F as (a' & r & Fa & Fr & ->). inversion Fr as [|q ? b' ? Pq Fb]; subst. eauto 7. }
  assert (In1 : forall a a' x, Forall2 part a a' -> In x a -> exists p, In p a' /\ part x p).
  { induction 1 as [|u v a0 b0 Huv Fab IH]; intros Hi; [destruct Hi|]. destruct Hi as [<-|Hi]; [exists v; simpl; auto|]. destruct (IH Hi) as (p & ? & ?). exists p. simpl. auto. }
  assert (In2 : forall a a' p, Forall2 part a a' -> In p a' -> exists x, In x a /\ part x p).
  { induction 1 as [|u v a0 b0 Huv Fab IH]; intros Hi; [destruct Hi|]. destruct Hi as [<-|Hi]; [exists u; simpl; auto|]. destruct (IH Hi) as (x & ? & ?). exists x. simpl. auto. }
  split; intros H.
  - intros a q b E. destruct (Sp' a q b E) as (a' & y & b' & Ex & Fa & Pq). destruct (H a' y b' Ex) as [(x & Hx & Hi)|Hn].
    + left. destruct (In1 _ _ x Fa Hx) as (p & Hp & Pp). exists p. split; [exact Hp|]. apply (inside_iff x y p q); auto.
    + right. intros e He. destruct (In2 _ _ e Fa He) as (x & Hx & Px). apply (apart_iff x y e q); auto.
  - intros a y b E. destruct (Sp a y b E) as (a' & q & b' & Ex & Fa & Pq). destruct (H a' q b' Ex) as [(p & Hp & Hi)|Hn].
    + left. destruct (In2 _ _ p Fa Hp) as (x & Hx & Px). exists x. split; [exact Hx|]. apply (inside_iff x y p q); auto.
    + right. intros x Hx. destruct (In1 _ _ x Fa Hx) as (p & Hp & Pp). apply (apart_iff x y p q); auto.
Qed.
Lemma inP_dec p q : {inP p q} + {~ inP p q}.
Proof.
  unfold inP. destruct (Nat.eq_dec (fst q) (fst p)); [|right; tauto]. destruct (Z_le_dec (start (snd q)) (start (snd p))); [|right; tauto].
  destruct (Z_le_dec (rend (snd p)) (rend (snd q))); [left; auto|right; tauto].
Qed.
Lemma meet_dec p q : {meet p q} + {~ meet p q}.
Proof.
  unfold meet. destruct (Nat.eq_dec (fst p) (fst q)) as [E|E]; [|right; tauto].
  set (m := Z.max (start (snd p)) (start (snd q))).
  destruct (Z_lt_dec m (rend (snd p))) as [A|A]; [destruct (Z_lt_dec m (rend (snd q))) as [B|B]|].
  - left. split; [exact E|]. exists m. unfold In_range, rend in *. lia.
  - right. intros [_ (a & X & Y)]. unfold In_range, rend in *. lia.
  - right. intros [_ (a & X & Y)]. unfold In_range, rend in *. lia.
Qed.
Lemma compat_or ps : compat ps \/ exists a p b, ps = a ++ p :: b /\ (forall e, In e a -> ~ inP p e) /\ exists e, In e a /\ meet e p.
Proof.
  induction ps as [|p ps IH] using rev_ind; [left; intros a p b E; destruct a; discriminate|]. destruct IH as [C|(a & q & b & -> & H1 & H2)].
  2:{ right. exists a, q, (b ++ [p]). rewrite <- app_assoc. auto. }
  destruct (Exists_dec (inP p) ps (inP_dec p)) as [X|X].
  - left. intros a q b E. destruct b as [|z b] using rev_ind.
    + apply app_inj_tail in E. destruct E as [<- <-]. left. apply Exists_exists in X. exact X.
    + change (q :: b ++ [z]) with ((q :: b) ++ [z]) in E. rewrite app_assoc in E. apply app_inj_tail in E. destruct E as [E _]. exact (C a q b E).
  - destruct (Exists_dec (fun e => meet e p) ps (fun e => meet_dec e p)) as [Y|Y].
    + right. exists ps, p, []. split; [reflexivity|]. split; [intros e He Hi; apply X, Exists_exists; eauto|apply Exists_exists; exact Y].
    + left. intros a q b E. destruct b as [|z b] using rev_ind.
      * apply app_inj_tail in E. destruct E as [<- <-]. right. intros e He Hm. apply Y, Exists_exists. eauto.
      * change (q :: b ++ [z]) with ((q :: b) ++ [z]) in E. rewrite app_assoc in E. apply app_inj_tail in E. destruct E as [E _]. exact (C a q b E).
Qed.

Definition terms (As : list mat) (xs : list cvar) : list lin := map (fun p => mkLin (fst p) (snd p) General) (combine As xs).
Lemma termSum_sumAx val As xs i : (termSum val (terms As xs) i == sumAx val As xs i)%Q.
Proof. unfold termSum, terms. rewrite qsum_map. reflexivity. Qed.
Lemma sized_linv n : forall As xs, Forall2 (fun A x => mr A = n /\ Z.of_nat (mc A) = vsize base x) As xs -> Forall usable xs -> Forall (linv L base n) (terms As xs).
Proof. induction 1 as [|A x As xs [H1 H2] F IH]; intros Hu; [constructor|]. apply Forall_cons_iff in Hu. destruct Hu as [Hx Hu]. constructor; [|apply IH; exact Hu]. split; [exact Hx|]. split; [exact H1|]. split; [exact H2|exact Logic.I]. Qed.
Lemma f2len {A B} (P : A -> B -> Prop) a b : Forall2 P a b -> length a = length b.
Proof. induction 1; simpl; auto. Qed.

Lemma matrices n As xs b : As <> [] -> Forall2 (fun A x => mr A = n /\ Z.of_nat (mc A) = vsize base x) As xs -> Forall usable xs ->
  (compatible base xs -> vn b = n -> exists f, ofMatrices base As xs b = Ok f /\ f_size f = n /\
     (forall env, exists w, value base env f = Some w /\ vn w = n /\ forall i, (ve w i == ve b i + sumAx (coord base env) As xs i)%Q) /\
     (forall denv, exists w, velocity denv f = Some w /\ vn w = n /\ forall i, (ve w i == sumAx (dcoord denv) As xs i)%Q)) /\
  (~ compatible base xs \/ vn b <> n -> ofMatrices base As xs b = Throw).
Proof.
  intros Ne F Hu. pose proof (sized_linv n As xs F Hu) as Li. destruct (linv_tinv L spOf base G n _ Li) as (ps & T).
  assert (Fp : Forall2 part xs ps).
  { clear - T F. revert ps T. induction F as [|A x As xs HA F IH]; intros ps T; simpl in T; inversion T as [|? p ? ps' Tp T']; subst; constructor; auto. apply Tp. }
  unfold ofMatrices. destruct As as [|A As]; [contradiction|].
  assert (R : mr A = n) by (inversion F; subst; tauto). rewrite R. rewrite (f2len _ _ _ F), Nat.eqb_refl. cbn [negb]. fold (terms (A :: As) xs).
  pose proof (compatible_iff xs ps Fp) as CI. split.
  - intros C Hb. apply CI in C.
    assert (K : forall org env, exists jac es, addTerms base n [] (terms (A :: As) xs) = Ok jac /\ Forall2 (einv n) jac es /\ Forall flatp es /\
       (Follows L base org -> forall i, (jsum org env jac i == jsum org env [] i + tsum org env (terms (A :: As) xs) i)%Q)).
    { intros org env. apply (addTerms_run L spOf base G org env n _ ps [] [] [] T); auto; [intros x []|intros d []]. }
    destruct (K (orgV base) (fun _ _ => 0%Q)) as (jac & es & E1 & E2 & E3 & _). rewrite E1. cbn [bind]. unfold setB. cbn [f_size f_jac]. rewrite Hb, Nat.eqb_refl.
    eexists. split; [reflexivity|]. split; [reflexivity|].
    destruct (built_of L base n (terms (A :: As) xs) b jac es E2 E3 Hb) as (_ & _ & B3 & B4).
    { intros org env Fo i. destruct (K org env) as (jac' & es' & E1' & _ & _ & E4). assert (jac' = jac) by congruence. subst jac'. rewrite (E4 Fo). unfold jsum at 1. simpl. ring. }
    split.
    + intros env. destruct (B3 env) as (w & W1 & W2 & W3). exists w. split; [exact W1|]. split; [exact W2|]. intros i. rewrite W3, termSum_sumAx. reflexivity.
    + intros env. destruct (B4 env) as (w & W1 & W2 & W3). exists w. split; [exact W1|]. split; [exact W2|]. intros i. rewrite W3, termSum_sumAx. reflexivity.
  - intros H. destruct (compat_or ps) as [C|X].
    + destruct H as [H|H]; [exfalso; apply H, CI, C|].
      destruct (addTerms_run L spOf base G (orgV base) (fun _ _ => 0%Q) n _ ps [] [] [] T) as (jac & es & E1 & _); auto; [intros x []|intros d []|].
      rewrite E1. cbn [bind]. unfold setB. cbn [f_size]. destruct (Nat.eqb_spec (vn b) n); [contradiction|reflexivity].
    + rewrite (addTerms_throw L spOf base G (orgV base) (fun _ _ => 0%Q) n _ ps [] [] [] T); auto; [intros x []|intros d []].
Qed.

(* sizes or spaces that do not fit are always reported *)
Lemma matrices_bad As xs b A0 : hd_error As = Some A0 ->
  length As <> length xs \/
  (exists i A x, nth_error As i = Some A /\ nth_error xs i = Some x /\ ((base (c_sup x) = true /\ type_ (c_space x) <> Euclidean) \/ mr A <> mr A0 \/ Z.of_nat (mc A) <> vsize base x)) ->
  (forall x, In x xs -> usable x \/ (base (c_sup x) = true /\ type_ (c_space x) <> Euclidean)) ->
  ofMatrices base As xs b = Throw.
Proof.
  intros Hd H Hu. destruct As as [|A As]; [discriminate|]. injection Hd as ->. unfold ofMatrices.
  destruct (Nat.eqb_spec (length (A0 :: As)) (length xs)) as [E|E]; [|reflexivity]. cbn [negb]. destruct H as [H|(i & A & x & HA & Hx & Hb)]; [contradiction|].
  rewrite (addTerms_bad (mr A0) _ [] []); [reflexivity|constructor| |].
  - rewrite Forall_forall. intros t Ht. apply in_map_iff in Ht. destruct Ht as ([A' x'] & <- & Hi). simpl.
    destruct (Hu x') as [U|U]; [eapply in_combine_r; eauto| |right; left; exact U].
    destruct (Nat.eq_dec (mr A') (mr A0)) as [R|R]; [|right; right; left; exact R].
    destruct (Z.eq_dec (Z.of_nat (mc A')) (vsize base x')) as [C|C]; [|right; right; right; exact C].
    left. destruct (usable_part L spOf base G x' U) as (p & P1 & P2 & P3). exists p. repeat (split; [assumption|]). exact Logic.I.
  - apply Exists_exists. exists (mkLin A x General). split; [|exact Hb]. apply in_map_iff. exists (A, x). split; [reflexivity|].
    apply nth_error_In with (n := i). clear - HA Hx. revert xs Hx HA. generalize (A0 :: As). intros l. revert i. induction l as [|a l IH]; intros i xs Hx HA; [destruct i; discriminate|].
    destruct xs as [|y xs]; [destruct i; discriminate|]. destruct i; simpl in *; [congruence|]. apply IH; auto.
Qed.

(* an expression over a variable of another space *)
Lemma preAdd_total n : forall vs ps fl jac es, Forall2 (fun v p => c_sup v = fst p /\ made_of L v (snd p)) vs ps -> length fl = length vs ->
  Forall (fun p => 0 < dim (snd p)) ps -> NoDup ps -> (forall p e, In p ps -> In e es -> ~ meet e p) -> separate ps -> Forall2 (einv n) jac es ->
  exists jac' es', preAdd base n jac vs fl = Ok jac' /\ Forall2 (einv n) jac' es'.
Proof.
  intros vs ps fl jac es A B C D E F H. destruct (preAdd_run L spOf base G (fun _ => 0) (fun _ _ => 0%Q) n vs ps fl jac es A B C D E F H) as (jac' & es' & X1 & X2 & _). eauto.
Qed.
Definition apart_of (x : cvar) : Prop := exists q, 0 < dim q /\ made_of L x q.
Lemma nonEuclidean e n : fits base e n -> (forall x, In x (vars e) -> apart_of x /\ (base (c_sup x) = true -> type_ (c_space x) = Euclidean -> mSize (c_space x) = rSize (c_space x) /\ mSize (c_space x) = tSize (c_space x))) ->
  (exists x, In x (vars e) /\ base (c_sup x) = true /\ type_ (c_space x) <> Euclidean) -> (forall x, e <> EVar x) ->
  exists p, build base e = Some p /\ ofOperand spOf base p = Some Throw.
Proof.
  intros F U (x0 & Hx0 & Hb0 & Ht0) Ne.
  set (UU := fun x => apart_of x /\ (base (c_sup x) = true -> type_ (c_space x) = Euclidean -> mSize (c_space x) = rSize (c_space x) /\ mSize (c_space x) = tSize (c_space x))).
  assert (Up : forall x, UU x -> 0 < vsize base x).
  { intros x [(q & D & M) _]. destruct M as (M1 & M2 & M3 & M4 & M5 & M6 & M7 & M8 & M9). unfold vsize.
    pose proof (or_mono L spOf G (c_sup x) (start q) (rend q)). pose proof (ot_mono L spOf G (c_sup x) (start q) (rend q)).
    unfold rend in *. destruct (base (c_sup x)); lia. }
  destruct (build_ok base UU Up (fun _ _ => 0%Q) nothing 0 ltac:(intros; unfold nothing; ring) e n F U) as (p & E & O & V & C & _).
  exists p. split; [exact E|].
  assert (Tv : forall l, linU base UU n l -> (exists q, tinv L base n l q) \/ bad n l).
  { intros l ((Ux & Ux') & L1 & L2 & L3).
    destruct (base (c_sup (l_var l))) eqn:B; [destruct (type_ (c_space (l_var l))) eqn:Ty|]; try (right; left; split; [exact B|congruence]).
    - left. assert (Uu : usable (l_var l)). { split; [exact Ux|]. intros _. destruct (Ux' eq_refl eq_refl). auto. }
      destruct (usable_part L spOf base G _ Uu) as (q & P1 & P2 & P3). exists q. repeat (split; [assumption|]). assumption.
    - left. assert (Uu : usable (l_var l)). { split; [exact Ux|]. intros B'. congruence. }
      destruct (usable_part L spOf base G _ Uu) as (q & P1 & P2 & P3). exists q. repeat (split; [assumption|]). assumption. }
  assert (Bd : forall l, l_var l = x0 -> bad n l) by (intros l <-; left; auto).
  pose proof (build_vars base e p E) as Vars.
  destruct p as [x|b|l|a].
  - exfalso. destruct (proj1 V eq_refl) as (y & Hy). exact (Ne y Hy).
  - exfalso. rewrite (proj1 C eq_refl) in Hx0. destruct Hx0.
  - simpl in Vars, O. assert (x0 = l_var l) as Hv by (rewrite <- Vars in Hx0; destruct Hx0 as [H|[]]; auto). simpl. unfold ofLinear.
    assert (R : mr (l_mat l) = n) by apply O. rewrite R, (bad_throw n [] l) by (apply Bd; auto). reflexivity.
  - destruct O as (O1 & O2 & O3). simpl in Vars. simpl.
    assert (Bx : Exists (bad n) (a_lin a)).
    { rewrite <- Vars in Hx0. apply in_map_iff in Hx0. destruct Hx0 as (l & Hl & Hi). apply Exists_exists. exists l. split; [exact Hi|apply Bd, Hl]. }
    assert (Tvs : Forall (fun t => (exists p, tinv L base n t p) \/ bad n t) (a_lin a)) by (rewrite Forall_forall in *; auto).
    assert (Qs : exists qs, Forall2 (fun v p => c_sup v = fst p /\ made_of L v (snd p)) (map l_var (a_lin a)) qs).
    { clear - O2. induction O2 as [|t l (Ux & _) F (qs & IH)]; [exists []; constructor|]. destruct Ux as [(q & D & M) _]. exists ((c_sup (l_var t), q) :: qs). simpl. constructor; auto. }
    destruct Qs as (qs & T).
    destruct (simple_first L spOf base G (map l_var (a_lin a)) qs T) as (s & outs & s1 & ws & s2 & fl & ps & E1 & E2 & E3 & E4 & [E5 _] & E6 & _).
    unfold ofAffine. destruct (a_lin a) as [|t l'] eqn:El; [contradiction|].
    assert (R : mr (l_mat t) = n) by (inversion O2; subst; apply H1). rewrite R.
    rewrite map_map in E1. rewrite E1. cbn [bind]. rewrite E2. cbn [bind]. rewrite E3. cbn [bind].
    assert (Dps : Forall (fun p => 0 < dim (snd p)) ps).
    { rewrite Forall_forall. intros [k q] Hp. apply of_sup_In in Hp. destruct (E6 k) as (D & _). rewrite Forall_forall in D. apply D. exact Hp. }
    destruct (preAdd_total n ws ps fl [] [] E5 E4 Dps (canonical_nodup ps _ E6)) as (jac & es & P1 & P2); auto; [apply (canonical_separate ps _ E6)|].
    rewrite P1. cbn [bind]. rewrite (addTerms_bad n (t :: l') jac es P2 Tvs Bx). reflexivity.
Qed.
End Layout.

(* ---- setters ---- *)
Section Setters.
Variable val : cvar -> vec.
Definition jterm (j : jent) (i : nat) : Q := qsumn (fun c => me (j_mat j) i c * ve (val (j_var j)) c)%Q (mc (j_mat j)).
Lemma accumulate_spec : forall jac acc w, accumulate val acc jac = Some w ->
  vn w = vn acc /\ Forall (fun j => mc (j_mat j) = vn (val (j_var j)) /\ mr (j_mat j) = vn acc) jac /\ forall i, (ve w i == ve acc i + qsum (fun j => jterm j i) jac)%Q.
Proof.
  induction jac as [|j jac IH]; intros acc w H; cbn [accumulate] in H.
  - injection H as <-. split; [reflexivity|]. split; [constructor|]. intros i. simpl. ring.
  - unfold mvmul in H. destruct (Nat.eqb_spec (mc (j_mat j)) (vn (val (j_var j)))) as [E|]; [|discriminate].
    unfold vadd in H. cbn [vn] in H. destruct (Nat.eqb_spec (vn acc) (mr (j_mat j))) as [E'|]; [|discriminate]. apply IH in H. cbn [vn ve] in H. destruct H as (A & B & C).
    split; [exact A|]. split; [constructor; auto|]. intros i. rewrite C. cbn [qsum]. unfold jterm at 2. ring.
Qed.
Lemma accumulate_def : forall jac acc, Forall (fun j => mc (j_mat j) = vn (val (j_var j)) /\ mr (j_mat j) = vn acc) jac -> exists w, accumulate val acc jac = Some w.
Proof.
  induction jac as [|j jac IH]; intros acc H; cbn [accumulate]; [eauto|]. apply Forall_cons_iff in H. destruct H as [[A B] H].
  unfold mvmul. rewrite A, Nat.eqb_refl. unfold vadd. cbn [vn]. rewrite B, Nat.eqb_refl. apply IH. exact H.
Qed.
End Setters.

Lemma setA_ok base f i j A sh env w : nth_error (f_jac f) i = Some j -> value base env f = Some w -> vn (f_b f) = f_size f -> 0 <= vsize base (j_var j) ->
  mr A = f_size f -> Z.of_nat (mc A) = vsize base (j_var j) ->
  exists f' w', setA base f i A sh = Ok f' /\ value base env f' = Some w' /\ vn w' = vn w /\
    forall r, (ve w' r == ve w r - qsumn (fun c => me (j_mat j) r c * ve (valueOf base env (j_var j)) c) (mc (j_mat j)) + qsumn (fun c => me A r c * ve (valueOf base env (j_var j)) c) (mc A))%Q.
Proof.
  intros Hi Hv Hb Hp Hr Hc. unfold setA. rewrite Hi, Hr, Nat.eqb_refl, Hc, Z.eqb_refl. cbn [andb].
  unfold value in Hv. destruct (accumulate_spec _ _ _ _ Hv) as (V1 & V2 & V3). pose proof (nth_error_split _ _ Hi) as (l1 & l2 & El & Ln). rewrite El in *.
  rewrite firstn_app, <- Ln, Nat.sub_diag, firstn_all. simpl firstn. rewrite app_nil_r.
  replace (skipn (S (length l1)) (l1 ++ j :: l2)) with l2 by (rewrite skipn_app, skipn_all2 by lia; replace (S (length l1) - length l1)%nat with 1%nat by lia; reflexivity).
  apply Forall_app in V2. destruct V2 as [V2a V2b]. apply Forall_cons_iff in V2b. destruct V2b as [V2j V2b].
  destruct (accumulate_def (valueOf base env) (l1 ++ mkJ (j_var j) A sh :: l2) (f_b f)) as (w' & W).
  { apply Forall_app. split; [exact V2a|]. constructor; [|exact V2b]. simpl. split; [lia|congruence]. }
  eexists. exists w'. split; [reflexivity|]. split; [exact W|]. destruct (accumulate_spec _ _ _ _ W) as (X1 & X2 & X3). split; [congruence|].
  intros r. rewrite X3, V3, !qsum_app. cbn [qsum]. unfold jterm at 2 5. cbn [j_var j_mat]. ring.
Qed.
Lemma setA_bad base f i j A sh : nth_error (f_jac f) i = Some j -> mr A <> f_size f \/ Z.of_nat (mc A) <> vsize base (j_var j) -> setA base f i A sh = Throw.
Proof.
  intros Hi H. unfold setA. rewrite Hi. destruct (Nat.eqb_spec (mr A) (f_size f)); [|reflexivity]. destruct (Z.eqb_spec (Z.of_nat (mc A)) (vsize base (j_var j))); [|reflexivity]. destruct H; contradiction.
Qed.
Lemma setB_ok base f b env w : value base env f = Some w -> vn (f_b f) = f_size f -> vn b = f_size f ->
  exists f' w', setB f b = Ok f' /\ value base env f' = Some w' /\ vn w' = vn w /\ forall r, (ve w' r == ve w r - ve (f_b f) r + ve b r)%Q.
Proof.
  intros Hv Hb H. unfold setB. rewrite H, Nat.eqb_refl. unfold value in *. destruct (accumulate_spec _ _ _ _ Hv) as (V1 & V2 & V3). cbn [f_jac f_b].
  destruct (accumulate_def (valueOf base env) (f_jac f) b) as (w' & W); [rewrite Hb in V2; rewrite H; exact V2|].
  eexists. exists w'. split; [reflexivity|]. split; [exact W|]. destruct (accumulate_spec _ _ _ _ W) as (X1 & X2 & X3). split; [congruence|].
  intros r. rewrite X3, V3. ring.
Qed.
