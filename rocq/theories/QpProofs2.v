(* What build leaves. *)
Require Import QArith Qminmax List Arith Bool Lia Lqa.
Require Import Verif.Base Verif.QSum Verif.AssignModel Verif.AssignSpec Verif.AssignProofs4 Verif.AssignProofs5
  Verif.BoundModel Verif.BoundSpec Verif.QpModel Verif.QpSpec Verif.QpProofs.
Import ListNotations.
Local Open Scope Q_scope.

Local Arguments QpModel.countEq : simpl never.
Local Arguments QpModel.countIneq : simpl never.
Section Build.
Variable debug : bool.
Variable sqrtf : Q -> Q.
Variable abig : Q.
Variable v_size : nat -> nat.
Variable sv : solver.
Variable o : options.
Variables (vars : list nat) (sub : substs).
Notation csize := (constraintSize sv).
Notation countEq := (countEq sv).
Notation countIneq := (countIneq sv).

Fixpoint ctargets (nEq e i : nat) (l : list source) : list target :=
  match l with
  | [] => []
  | c :: l' => if isEq c then eqTarget sv e i c :: ctargets nEq (e + csize c) i l'
               else ineqTarget sv nEq e i c :: ctargets nEq e (i + csize c) l'
  end.
Fixpoint otargets (k : nat) (l : list objective) : list target :=
  match l with [] => [] | j :: l' => objTarget sv k (j_src j) :: otargets (k + c_size (j_src j)) l' end.

Definition built (r : option reqs) (w : Q) (a : item) : Prop :=
  construct sqrtf abig v_size (startIn v_size vars) (fst a) (fst (snd a)) sub r w = Ok (snd (snd a)).

Definition withCs (e i : nat) (cs : list (target * assignment)) (s : state) : state :=
  mkSt (s_n s) (s_nObj s) (s_nEq s) (s_nIneq s) (s_useb s) (s_minNorm s) (s_D s) (s_Q s) (s_c s) (s_C s)
       (s_xl s) (s_xu s) (s_objSize s) e i cs (s_os s) (s_bs s).
Definition withOs (k : nat) (os : list (target * assignment)) (s : state) : state :=
  mkSt (s_n s) (s_nObj s) (s_nEq s) (s_nIneq s) (s_useb s) (s_minNorm s) (s_D s) (s_Q s) (s_c s) (s_C s)
       (s_xl s) (s_xu s) k (s_eqSize s) (s_ineqSize s) (s_cs s) os (s_bs s).
Definition withBs (bs : list (nat * list bop)) (s : state) : state :=
  mkSt (s_n s) (s_nObj s) (s_nEq s) (s_nIneq s) (s_useb s) (s_minNorm s) (s_D s) (s_Q s) (s_c s) (s_C s)
       (s_xl s) (s_xu s) (s_objSize s) (s_eqSize s) (s_ineqSize s) (s_cs s) (s_os s) bs.

Lemma count_cons c l : (countEq (c :: l) = (if isEq c then csize c else 0) + countEq l)%nat /\
  (countIneq (c :: l) = (if isEq c then 0 else csize c) + countIneq l)%nat.
Proof. unfold QpModel.countEq, QpModel.countIneq. simpl. destruct (isEq c); simpl; auto. Qed.

Lemma each_cstrs l : forall s s', each (addConstraint sqrtf abig v_size sv vars sub) l s = Ok s' ->
  exists items, map fst items = l /\ map (fun a => fst (snd a)) items = ctargets (s_nEq s) (s_eqSize s) (s_ineqSize s) l /\
    Forall (built None 1) items /\
    s' = withCs (s_eqSize s + countEq l) (s_ineqSize s + countIneq l) (s_cs s ++ map snd items) s.
Proof.
  induction l as [|c l IH]; intros s s' H.
  - simpl in H. injection H as <-. exists []. simpl. repeat split; auto. unfold withCs, QpModel.countEq, QpModel.countIneq. simpl.
    rewrite app_nil_r, !Nat.add_0_r. destruct s; reflexivity.
  - cbn [each] in H. destruct (addConstraint sqrtf abig v_size sv vars sub c s) as [s1| |] eqn:E; cbn [bind] in H; try discriminate.
    unfold addConstraint in E. destruct (count_cons c l) as [CE CI].
    destruct (isEq c) eqn:Q.
    + destruct (assign sqrtf abig v_size vars sub c (eqTarget sv (s_eqSize s) (s_ineqSize s) c) None 1) as [g| |] eqn:G; cbn [bind] in E; try discriminate.
      injection E as <-. apply IH in H as (items & M1 & M2 & B & ->). cbn in *.
      exists ((c, (eqTarget sv (s_eqSize s) (s_ineqSize s) c, g)) :: items). cbn. rewrite Q.
      split; [congruence|]. split; [congruence|]. split; [constructor; auto|]. unfold withCs. cbn.
      rewrite CE, CI, <- app_assoc. cbn. rewrite <- !Nat.add_assoc. reflexivity.
    + destruct (assign sqrtf abig v_size vars sub c (ineqTarget sv (s_nEq s) (s_eqSize s) (s_ineqSize s) c) None 1) as [g| |] eqn:G; cbn [bind] in E; try discriminate.
      injection E as <-. apply IH in H as (items & M1 & M2 & B & ->). cbn in *.
      exists ((c, (ineqTarget sv (s_nEq s) (s_eqSize s) (s_ineqSize s) c, g)) :: items). cbn. rewrite Q.
      split; [congruence|]. split; [congruence|]. split; [constructor; auto|]. unfold withCs. cbn.
      rewrite CE, CI, <- app_assoc. cbn. rewrite <- !Nat.add_assoc. reflexivity.
Qed.
(* the objectives: items with their objective *)
Definition jitem : Type := objective * (target * assignment).
Definition toItem (a : jitem) : item := (j_src (fst a), snd a).
Definition jbuilt (a : jitem) : Prop := built (Some (j_req (fst a))) (j_scal (fst a)) (toItem a).
Lemma each_objs l : forall s s', each (addObjective sqrtf abig v_size sv vars sub) l s = Ok s' ->
  exists items, map fst items = l /\ map (fun a => fst (snd a)) items = otargets (s_objSize s) l /\
    Forall jbuilt items /\
    s' = withOs (s_objSize s + countObj l) (s_os s ++ map snd items) s.
Proof.
  induction l as [|c l IH]; intros s s' H.
  - simpl in H. injection H as <-. exists []. simpl. repeat split; auto. unfold withOs, QpModel.countObj. simpl.
    rewrite app_nil_r, !Nat.add_0_r. destruct s; reflexivity.
  - cbn [each] in H. destruct (addObjective sqrtf abig v_size sv vars sub c s) as [s1| |] eqn:E; cbn [bind] in H; try discriminate.
    unfold addObjective in E.
    destruct (assign sqrtf abig v_size vars sub (j_src c) (objTarget sv (s_objSize s) (j_src c)) (Some (j_req c)) (j_scal c)) as [g| |] eqn:G; cbn [bind] in E; try discriminate.
    injection E as <-. apply IH in H as (items & M1 & M2 & B & ->). cbn in *.
    exists ((c, (objTarget sv (s_objSize s) (j_src c), g)) :: items). cbn.
    split; [congruence|]. split; [congruence|]. split; [constructor; auto|]. unfold withOs. cbn.
    unfold countObj. cbn. rewrite <- app_assoc. cbn. rewrite <- !Nat.add_assoc. reflexivity.
Qed.
Definition bops (b : nat * bsource) : nat * list bop := (fst b, buildDouble abig (snd b) AS_GIVEN false).
Lemma each_bnds l : forall s s', each (addBound abig v_size vars) l s = Ok s' ->
  Forall (fun b => In (fst b) vars) l /\ s' = withBs (s_bs s ++ map bops l) s.
Proof.
  induction l as [|b l IH]; intros s s' H.
  - simpl in H. injection H as <-. split; auto. simpl. rewrite app_nil_r. destruct s; reflexivity.
  - cbn [each] in H. destruct (addBound abig v_size vars b s) as [s1| |] eqn:E; cbn [bind] in H; try discriminate.
    unfold addBound in E. destruct (startIn v_size vars (fst b)) eqn:SI; [|discriminate].
    unfold constructBound in E. assert (canBeUsed (snd b) DOUBLE_SIDED = true) as CB by (destruct b as [? [[] [] []]]; reflexivity).
    rewrite CB in E. cbn [bind negb] in E. injection E as <-. apply IH in H as (F & ->). split.
    + constructor; auto. destruct (in_dec Nat.eq_dec (fst b) vars) as [I|I]; auto. rewrite startIn_out in SI by auto. discriminate.
    + unfold withBs. cbn. rewrite <- app_assoc. reflexivity.
Qed.

(* the rows of the targets *)
Lemma csize_target c nEq e i : t_dim (if isEq c then eqTarget sv e i c else ineqTarget sv nEq e i c) = csize c.
Proof.
  unfold eqTarget, ineqTarget, constraintSize, isEq. destruct (ct_eqb (c_type c) EQUAL) eqn:E.
  - destruct (c_type c); try discriminate. destruct sv; reflexivity.
  - destruct sv; simpl; rewrite ?orb_true_r; reflexivity.
Qed.
Definition start_of (nEq e i : nat) (c : source) : nat :=
  if native sv then (e + i)%nat else if isEq c then e else (nEq + i)%nat.
Lemma start_target c nEq e i : t_start (if isEq c then eqTarget sv e i c else ineqTarget sv nEq e i c) = start_of nEq e i c.
Proof. unfold start_of, eqTarget, ineqTarget. destruct sv, (isEq c); reflexivity. Qed.
Lemma ctargets_cons nEq e i c l : ctargets nEq e i (c :: l) =
  (if isEq c then eqTarget sv e i c else ineqTarget sv nEq e i c) ::
  ctargets nEq (if isEq c then e + csize c else e) (if isEq c then i else i + csize c) l.
Proof. simpl. destruct (isEq c); reflexivity. Qed.

(* where the rows of the constraints are *)
Definition zone (nEq e i e' i' : nat) (eq : bool) (r : nat) : Prop :=
  if native sv then (e + i <= r < e' + i')%nat
  else if eq then (e <= r < e')%nat else (nEq + i <= r < nEq + i')%nat.
Lemma ctargets_in l : forall nEq e i c t, (e + countEq l <= nEq)%nat -> In (c, t) (combine l (ctargets nEq e i l)) ->
  forall r, rows_of t r -> zone nEq e i (e + countEq l) (i + countIneq l) (isEq c) r.
Proof.
  induction l as [|d l IH]; intros nEq e i c t LE I r R; [destruct I|].
  rewrite ctargets_cons in I. destruct (count_cons d l) as [CE CI]. rewrite CE in *. rewrite CI in *.
  cbn [combine] in I. destruct I as [I|I].
  - injection I as <- <-. unfold rows_of in R. rewrite csize_target, start_target in R. unfold start_of in R. unfold zone.
    destruct (native sv), (isEq d); lia.
  - apply IH with (r := r) in I; [|destruct (isEq d); lia|exact R]. unfold zone in *.
    destruct (native sv), (isEq d), (isEq c); lia.
Qed.
Lemma ctargets_cover l : forall nEq e i eq r, zone nEq e i (e + countEq l) (i + countIneq l) eq r ->
  (e + countEq l <= nEq)%nat ->
  exists c t, In (c, t) (combine l (ctargets nEq e i l)) /\ rows_of t r /\ (native sv = false -> isEq c = eq).
Proof.
  induction l as [|d l IH]; intros nEq e i eq r Z LE.
  - exfalso. unfold zone, QpModel.countEq, QpModel.countIneq in Z. simpl in Z. destruct (native sv), eq; lia.
  - destruct (count_cons d l) as [CE CI]. rewrite CE in *. rewrite CI in *. rewrite ctargets_cons.
    set (t := if isEq d then eqTarget sv e i d else ineqTarget sv nEq e i d).
    assert (DT : t_dim t = csize d) by apply csize_target. assert (ST : t_start t = start_of nEq e i d) by apply start_target.
    destruct (native sv) eqn:NV.
    + destruct (le_lt_dec (e + i + csize d) r) as [L|L].
      * destruct (IH nEq (if isEq d then e + csize d else e)%nat (if isEq d then i else i + csize d)%nat eq r) as (c & t' & I & R & Q).
        { unfold zone in *. rewrite NV in *. destruct (isEq d); lia. } { destruct (isEq d); lia. }
        exists c, t'. split; [right; exact I|]. split; [exact R|]. discriminate.
      * exists d, t. split; [left; reflexivity|]. split; [|discriminate]. unfold rows_of. rewrite DT, ST. unfold start_of. rewrite NV.
        unfold zone in Z. rewrite NV in Z. lia.
    + assert (ZH : (isEq d = eq /\ rows_of t r) \/ zone nEq (if isEq d then e + csize d else e) (if isEq d then i else i + csize d)
           ((if isEq d then e + csize d else e) + countEq l) ((if isEq d then i else i + csize d) + countIneq l) eq r).
      { unfold rows_of. rewrite DT, ST. unfold start_of, zone in *. rewrite NV in *. destruct (isEq d), eq;
          try (right; lia).
        - destruct (le_lt_dec (e + csize d) r); [right; lia|left; lia].
        - destruct (le_lt_dec (nEq + i + csize d) r); [right; lia|left; lia]. }
      destruct ZH as [[Q R]|Z'].
      * exists d, t. split; [left; reflexivity|]. auto.
      * destruct (IH nEq _ _ eq r Z') as (c & t' & I & R & Q); [destruct (isEq d); lia|].
        exists c, t'. split; [right; exact I|]. auto.
Qed.
Lemma ctargets_disjoint l : forall nEq e i, (e + countEq l <= nEq)%nat -> ForallOrdPairs disjoint (ctargets nEq e i l).
Proof.
  induction l as [|d l IH]; intros nEq e i LE; [constructor|]. destruct (count_cons d l) as [CE CI]. rewrite CE in LE.
  rewrite ctargets_cons. constructor; [|apply IH; destruct (isEq d); lia].
  apply Forall_forall. intros t I r R R'.
  assert (LEN : forall l nEq e i, length (ctargets nEq e i l) = length l).
  { clear. induction l as [|d l IH]; intros; simpl; auto. destruct (isEq d); simpl; rewrite IH; auto. }
  destruct (In_nth _ _ t I) as (p & Lp & Ep). rewrite LEN in Lp.
  set (l2 := ctargets nEq (if isEq d then e + csize d else e)%nat (if isEq d then i else i + csize d)%nat l) in *.
  assert (IN : In (nth p l d, t) (combine l l2)).
  { rewrite <- Ep. replace (nth p l d, nth p l2 t) with (nth p (combine l l2) (d, t)).
    - apply nth_In. rewrite combine_length. unfold l2. rewrite LEN. lia.
    - apply combine_nth. unfold l2. rewrite LEN. reflexivity. }
  apply ctargets_in with (r := r) in IN; [|destruct (isEq d); lia|exact R'].
  unfold rows_of in R. rewrite csize_target, start_target in R. unfold start_of, zone in *.
  destruct (native sv), (isEq d), (isEq (nth p l d)); lia.
Qed.

(* objectives *)
Lemma obj_start k c : t_start (objTarget sv k c) = k /\ t_dim (objTarget sv k c) = c_size c.
Proof. destruct sv; auto. Qed.
Lemma otargets_in l : forall k t, In t (otargets k l) -> forall r, rows_of t r -> (k <= r < k + countObj l)%nat.
Proof.
  induction l as [|j l IH]; intros k t I r R; [destruct I|]. unfold countObj in *. simpl in *. destruct I as [<-|I].
  - unfold rows_of in R. destruct (obj_start k (j_src j)) as [S D]. rewrite S, D in R. lia.
  - specialize (IH _ _ I r R). lia.
Qed.
Lemma otargets_disjoint l : forall k, ForallOrdPairs disjoint (otargets k l).
Proof.
  induction l as [|j l IH]; intros k; simpl; constructor; [|apply IH].
  apply Forall_forall. intros t I r R R'. apply (otargets_in _ _ _ I) in R'.
  unfold rows_of in R. destruct (obj_start k (j_src j)) as [S D]. rewrite S, D in R. lia.
Qed.
End Build.
