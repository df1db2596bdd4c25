(* Proofs for C54: main lemmas, and the sets for which a claim fails. *)
From Coq Require Import List Bool Arith QArith Lia Lqa.
Import ListNotations.
From Verif Require Import Base QSum SubstModel SubSetModel SubSetSpec SubSetProofs SubSetProofs2 SubSetProofs3 SubSetProofs4 SubSetProofs5.
From Verif Require GraphModel SubstSpec DiagSpec.
Local Open Scope nat_scope.

Section P.
Variable sz : nat -> nat.
Variable cdef : nat -> cons.

Section T.
Variables (hist : list op) (l : list ssub) (mm : nat -> ust * (nat -> calc)) (t1 : st) (ups : list data) (t : st).
Hypothesis PR : present sz cdef hist l.
Hypothesis FI : finalized sz cdef hist mm t1.
Hypothesis UP : updates sz cdef ups t1 = Ok t.

Lemma main_settled : settled sz cdef l mm ups t /\ addVars t = addVars t1.
Proof.
  destruct FI as (t0 & R & F). destruct (reached sz cdef hist l PR t0 R) as [I <-]. destruct (settles sz cdef t0 mm t1 ups t I F UP) as [S _]. split; [exact S|].
  apply (updates_units sz cdef ups t1 t UP).
Qed.
Lemma main_variables : NoDup (vars t) /\ forall v, In v (vars t) <-> exists s, In s l /\ In v (ss_xs s).
Proof. destruct main_settled as [S _]. split; [exact (vars_NoDup _ _ _ _ _ _ S)|exact (vars_In _ _ _ _ _ _ S)]. Qed.
Lemma main_others : NoDup (others t) /\
  forall v, In v (others t) <-> (exists s c, In s l /\ In c (ss_cs s) /\ In v (c_vars (k_cst (cdef c)))) /\ ~ exists s, In s l /\ In v (ss_xs s).
Proof.
  destruct main_settled as [S _]. split; [exact (others_NoDup _ _ _ _ _ _ S)|]. intros v. rewrite (others_In _ _ _ _ _ _ S), (vars_In _ _ _ _ _ _ S). reflexivity.
Qed.
Lemma main_substitute :
  (forall v, ~ In v (vars t) -> substitute sz cdef t v = [SV v]) /\
  (forall v w, In v (vars t) -> In (SV w) (substitute sz cdef t v) -> In w (others t)) /\
  (forall v z, In v (vars t) -> In (SZ z) (substitute sz cdef t v) -> In z (addVars t)) /\
  (forall v f, In (v, f) (combine (vars t) (functions sz cdef t)) -> forall val val' zv zv',
    (forall w, In (SV w) (substitute sz cdef t v) -> forall b, b < sz w -> (val w b == val' w b)%Q) ->
    (forall z, In (SZ z) (substitute sz cdef t v) -> forall b, b < z_size z -> (zv (z_unit z) (z_idx z) b == zv' (z_unit z) (z_idx z) b)%Q) ->
    forall b, (f val zv b == f val' zv' b)%Q).
Proof.
  destruct main_settled as [S A]. split; [exact (substitute_none _ _ _ _ _ _ S)|]. split; [exact (substitute_others _ _ _ _ _ _ S)|]. split; [|exact (substitute_dep _ _ _ _ _ _ S)].
  intros v z I J. destruct FI as (t0 & R & F). destruct (reached sz cdef hist l PR t0 R) as [IV _]. destruct (finalize_units sz cdef t0 mm t1 IV F) as (_ & _ & _ & _ & _ & _ & AV & _).
  destruct (settles sz cdef t0 mm t1 ups t IV F UP) as [_ SM]. destruct (updates_units sz cdef ups t1 t UP) as (_ & _ & _ & _ & _ & _ & _ & _ & CU).
  rewrite A, AV. apply in_app_iff. right.
  assert (C : current sz cdef t z) by (apply (current_used _ _ _ _ _ _ S); eauto). destruct C as (G & L & u & r & E & Ir & K & N).
  destruct (same_subs (units t1) (units t) (eq_sym SM) (fun _ => True) _ u E) as (u1 & E1 & S1).
  apply (current_In sz cdef t1). split; [congruence|]. split; [exact L|]. exists u1, r. rewrite S1. auto.
Qed.
Lemma main_additional : (forall mm', ~ In (OFinalize mm') hist) -> NoDup (addVars t) /\
  forall z, In z (addVars t) <-> exists v, In v (vars t) /\ In (SZ z) (substitute sz cdef t v).
Proof.
  intros NF. destruct main_settled as [S A]. destruct FI as (t0 & R & F). destruct (reached sz cdef hist l PR t0 R) as [IV _]. destruct (finalize_units sz cdef t0 mm t1 IV F) as (_ & _ & _ & _ & _ & _ & AV & _).
  rewrite (addVars_none sz cdef hist NF init t0 R) in AV. cbn [init addVars app] in AV.
  destruct (settles sz cdef t0 mm t1 ups t IV F UP) as [_ SM]. destruct (updates_units sz cdef ups t1 t UP) as (_ & _ & _ & _ & _ & _ & _ & _ & CU).
  assert (EQ : forall z, current sz cdef t1 z <-> current sz cdef t z).
  { intros z. unfold current. rewrite CU. split; intros (G & L & u & r & E & Ir & K & N); (split; [exact G|]; split; [exact L|]).
    - destruct (same_subs (units t) (units t1) SM (fun _ => True) _ u E) as (u1 & E1 & S1). exists u1, r. rewrite S1. auto.
    - destruct (same_subs (units t1) (units t) (eq_sym SM) (fun _ => True) _ u E) as (u1 & E1 & S1). exists u1, r. rewrite S1. auto. }
  rewrite A, AV. split; [apply current_NoDup|]. intros z. rewrite <- (current_used _ _ _ _ _ _ S), <- EQ. symmetry. apply current_In.
Qed.
Hypothesis ND : forall c, NoDup (c_vars (k_cst (cdef c))).
Lemma main_elimination ups' D val : ups = ups' ++ [D] -> contracted sz cdef D t ->
  (all_hold sz cdef D val l <->
   exists zv, (forall v f, In (v, f) (combine (vars t) (functions sz cdef t)) -> forall b, b < sz v -> (val v b == f val zv b)%Q) /\
              (forall n g, In (n, g) (additionalConstraints sz cdef t) -> forall a, a < n -> (g val zv a == 0)%Q)).
Proof. destruct main_settled as [S _]. exact (elimination_t sz cdef l mm ups t S ND D ups' val). Qed.
Lemma main_values ups' D : ups = ups' ++ [D] -> contracted sz cdef D t ->
  (forall zv val v, ~ In v (vars t) -> updateVariableValues sz cdef t zv val v = val v) /\
  (forall zv val, (forall n g, In (n, g) (additionalConstraints sz cdef t) -> forall a, a < n -> (g val zv a == 0)%Q) ->
     all_hold sz cdef D (updateVariableValues sz cdef t zv val) l) /\
  (forall val, all_hold sz cdef D val l -> exists zv,
     (forall n g, In (n, g) (additionalConstraints sz cdef t) -> forall a, a < n -> (g val zv a == 0)%Q) /\
     forall v b, b < sz v -> (updateVariableValues sz cdef t zv val v b == val v b)%Q).
Proof.
  intros EU C. destruct main_settled as [S _]. split; [intros zv val v N; apply (proj1 (values_ok sz cdef _ _ _ _ S zv val)), N|]. split.
  - intros zv val H. apply (main_elimination ups' D _ EU C). exists zv. split.
    + intros v f I b Lb. rewrite (proj2 (values_ok sz cdef _ _ _ _ S zv val) v f I b). apply (functions_dep sz cdef _ _ _ _ S v f _ _ I). apply (agree_values sz cdef _ _ _ _ S).
    + intros n g I a La. rewrite <- (H n g I a La). symmetry. apply (additional_dep sz cdef _ _ _ _ S n g _ _ I). apply (agree_values sz cdef _ _ _ _ S).
  - intros val H. apply (main_elimination ups' D val EU C) in H. destruct H as (zv & H1 & H2). exists zv. split; [exact H2|].
    intros v b Lb. destruct (in_dec Nat.eq_dec v (vars t)) as [I|N]; [|now rewrite (proj1 (values_ok sz cdef _ _ _ _ S zv val) v N)].
    rewrite (places_vars sz cdef _ _ _ _ S) in I. apply in_map_iff in I. destruct I as (y & <- & I).
    assert (J : In (pV y, pF sz cdef y) (combine (vars t) (functions sz cdef t))) by (apply (functions_place sz cdef _ _ _ _ S); eauto).
    rewrite (proj2 (values_ok sz cdef _ _ _ _ S zv val) _ _ J b). symmetry. now apply H1.
Qed.
End T.

Lemma main_finalizes hist l mm t0 : present sz cdef hist l -> run sz cdef hist init = Some t0 -> separate l -> exists t1, finalize sz cdef mm t0 = Done t1.
Proof. intros P R S. destruct (reached sz cdef hist l P t0 R) as [I <-]. now apply finalizes. Qed.
Lemma main_present hist l t : present sz cdef hist l -> run sz cdef hist init = Some t ->
  subs t = l /\ (forall c, uses t c = true <-> exists s, In s l /\ In c (ss_cs s)) /\
  (forall c, match getSubstitutionFor t c with Some s => In s l /\ In c (ss_cs s) | None => forall s, In s l -> ~ In c (ss_cs s) end).
Proof.
  intros P R. destruct (reached sz cdef hist l P t R) as [_ <-]. split; [reflexivity|]. split.
  - intros c. unfold uses. rewrite existsb_exists. split; intros (s & I & J); exists s; (split; [exact I|]); now apply SubSetProofs.mem_In.
  - intros c. unfold getSubstitutionFor. destruct (find _ _) as [s|] eqn:F.
    + apply find_some in F. destruct F as [I J]. split; [exact I|]. now apply SubSetProofs.mem_In.
    + intros s I J. pose proof (find_none _ _ F s I) as K. cbv beta in K. apply SubSetProofs.mem_not in K. contradiction.
Qed.
(* a history defined so far: only an update or a construction can fail *)
End P.
