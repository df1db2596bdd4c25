(* Sets of substitutions for C54. *)
From Coq Require Import List Bool Arith QArith Lia Lqa.
Import ListNotations.
From Verif Require Import Base QSum SubstModel SubSetModel SubSetSpec SubSetProofs SubSetProofs6.
From Verif Require SubstSpec DiagSpec.
Local Open Scope nat_scope.

(* the substitutions present, computed *)
Section F.
Variable sz : nat -> nat.
Variable cdef : nat -> cons.
Fixpoint presentF (h : list op) (l : list ssub) : list ssub :=
  match h with
  | [] => l
  | OAdd cs xs r :: h' => presentF h' (match newSub sz cdef cs xs r with Ok s => l ++ [s] | _ => l end)
  | ORemove i :: h' => presentF h' (deleted i l)
  | _ :: h' => presentF h' l
  end.
Lemma presentF_ok h' : forall h l, present sz cdef h l -> present sz cdef (h ++ h') (presentF h' l).
Proof.
  induction h' as [|o h' IH]; intros h l P; [now rewrite app_nil_r|]. replace (h ++ o :: h') with ((h ++ [o]) ++ h') by now rewrite <- app_assoc.
  destruct o as [cs xs r|i|mm|D]; cbn [presentF]; apply IH; [|now constructor|now constructor|now constructor].
  destruct (newSub sz cdef cs xs r) as [s| |] eqn:E.
  - apply newSub_ok in E. destruct E as [-> A]. now constructor.
  - constructor; [exact P|]. intros A. rewrite (proj2 (newSub_ok sz cdef cs xs r _) (conj eq_refl A)) in E. discriminate.
  - constructor; [exact P|]. intros A. rewrite (proj2 (newSub_ok sz cdef cs xs r _) (conj eq_refl A)) in E. discriminate.
Qed.
Lemma presentF_all h : present sz cdef h (presentF h []).
Proof. exact (presentF_ok h [] [] (p_nil _ _)). Qed.
End F.
Definition getS (o : option st) : st := match o with Some s => s | None => init end.
Definition isSome {A} (o : option A) : bool := match o with Some _ => true | None => false end.
Lemma getS_ok o : isSome o = true -> o = Some (getS o).
Proof. destruct o; [reflexivity|discriminate]. Qed.
Definition getD (o : outcome) : st := match o with Done s | Threw s => s | Undef => init end.
Definition isDone (o : outcome) : bool := match o with Done _ => true | _ => false end.
Definition isThrew (o : outcome) : bool := match o with Threw _ => true | _ => false end.
Lemma getD_ok o : isDone o = true -> o = Done (getD o).
Proof. destruct o; [reflexivity|discriminate|discriminate]. Qed.
Lemma getT_ok o : isThrew o = true -> o = Threw (getD o).
Proof. destruct o; [discriminate|reflexivity|discriminate]. Qed.
Definition getR (o : res st) : st := match o with Ok s => s | _ => init end.
Lemma getR_ok o : is_ok o = true -> o = Ok (getR o).
Proof. destruct o; [reflexivity|discriminate|discriminate]. Qed.

Definition s00 : ust := mkS (fun _ _ _ => 7%Q) (fun _ _ _ => 7%Q) (fun _ => 7%Q) (fun _ _ _ => 7%Q) (fun _ _ _ => 7%Q) (fun _ => 7%Q) (fun _ _ _ _ => 7%Q) (fun _ _ _ _ => 7%Q) (fun _ _ => 7%Q) [] [].
Definition zc : calc := mkCalc (fun _ _ => 0%Q) (fun _ _ => 0%Q) (fun _ _ => 0%Q).
Definition mm0 : nat -> ust * (nat -> calc) := fun _ => (s00, fun _ => zc).

(* six substitutions: x0 depends on x1, which depends on x2, of size 2, for a single row; x4 and
   x5 depend on each other; the matrix of x7 is zero *)
Definition sz1 (v : nat) : nat := if v =? 2 then 2 else 1.
Definition cdef1 (c : nat) : cons :=
  match c with
  | 0 => mkCons true (mkCst 1 [0; 1; 3] AS_GIVEN)
  | 1 => mkCons true (mkCst 1 [1; 2] OPPOSITE)
  | 2 => mkCons true (mkCst 1 [2; 3] AS_GIVEN)
  | 3 => mkCons true (mkCst 1 [4; 5; 6] AS_GIVEN)
  | 4 => mkCons true (mkCst 1 [5; 4] ZERO)
  | 5 => mkCons true (mkCst 1 [7; 6] AS_GIVEN)
  | _ => mkCons false (mkCst 0 [] ZERO)
  end.
Definition hist1 : list op :=
  [OAdd [0] [0] None; OAdd [5] [0] None; OAdd [1] [1] None; OAdd [2] [2] None; OAdd [3] [4] None; OAdd [4] [5] None;
   OAdd [5] [7] (Some 0); OAdd [2] [3] None; ORemove 6; ORemove 9].
Definition l1 : list ssub := presentF sz1 cdef1 hist1 [].
Definition t0_1 : st := getS (run sz1 cdef1 hist1 init).
Definition t1_1 : st := getD (finalize sz1 cdef1 mm0 t0_1).
Definition m1 (q : Q) : mat := fun _ _ => q.
Definition jac1 (c v : nat) : mat :=
  match c, v with
  | 0, 0 => m1 1 | 0, 1 => m1 2 | 0, 3 => m1 3
  | 1, 1 => m1 1 | 1, 2 => fun _ b => if b =? 0 then 5%Q else 7%Q
  | 2, 2 => fun _ b => if b =? 0 then 1%Q else 0%Q | 2, 3 => m1 1
  | 3, 4 => m1 1 | 3, 5 => m1 1 | 3, 6 => m1 2
  | 4, 5 => m1 1
  | 5, 6 => m1 1
  | _, _ => m1 0
  end.
Definition e1 (c : nat) : vec := fun _ => match c with 0 => 10%Q | 1 => 20%Q | 2 => 30%Q | 3 => 40%Q | 4 => 50%Q | _ => 60%Q end.
Definition cal1 (p k : nat) : calc :=
  match p, k with
  | 0, 0 => mkCalc (fun a _ => if a =? 0 then 1%Q else 0%Q) (fun a _ => if a =? 1 then 1%Q else 0%Q) (fun _ _ => 0%Q)
  | 0, _ => mkCalc (m1 1) (m1 0) (m1 0)
  | 1, _ => mkCalc (fun a b => if a =? b then 1%Q else if a <? b then (-1)%Q else 0%Q) (m1 0) (m1 0)
  | _, _ => mkCalc (m1 3) (m1 1) (m1 1)
  end.
Definition D1 : data := mkD jac1 e1 cal1.
Definition D0 : data := mkD (fun _ _ => m1 9) (fun _ _ => 9%Q) (fun _ _ => zc).
Definition t_1 : st := getR (updates sz1 cdef1 [D0; D1] t1_1).

(* small contracts, given the entries *)
Local Ltac q := unfold DiagSpec.mulv, DiagSpec.mul, DiagSpec.tr, DiagSpec.zero, qsumn in *; simpl in *.
Lemma contract_row (A : mat) : (A 0%nat 0%nat == 1)%Q -> (A 0%nat 1%nat == 0)%Q ->
  SubstSpec.contract 1 2 1 A (mkCalc (fun a _ => if a =? 0 then 1%Q else 0%Q) (fun a _ => if a =? 1 then 1%Q else 0%Q) (fun _ _ => 0%Q)).
Proof.
  intros A0 A1. split; [|split].
  - intros i j Li Lj. q. destruct i; [|lia]. destruct j as [|[|j]]; [rewrite A0, A1; ring|rewrite A0, A1; ring|lia].
  - split.
    + intros i j Li Lj. q. destruct i; [|lia]. rewrite A0, A1. ring.
    + intros x H. exists (fun _ => x 1). specialize (H 0 ltac:(lia)). q. rewrite A0, A1 in H. split.
      * intros i Li. q. destruct i as [|[|i]]; [simpl; lra|simpl; lra|lia].
      * intros z' Hz i Li. specialize (Hz 1 ltac:(lia)). q. destruct i; [lra|lia].
  - split; [intros i j Li Lj; q; lia|]. intros x H. exists (fun _ => 0%Q). specialize (H 0 ltac:(lia)). q. rewrite A0 in H. split.
    + intros i Li. q. destruct i; [lra|lia].
    + intros z' _ i Li. lia.
Qed.
Lemma contract_one (A N S : mat) : (A 0%nat 0%nat == 1)%Q -> SubstSpec.contract 1 1 1 A (mkCalc (m1 1) N S).
Proof.
  intros A0. split; [|split].
  - intros i j Li Lj. q. destruct i; [|lia]. destruct j; [|lia]. rewrite A0. unfold m1. ring.
  - split; [intros i j Li Lj; q; lia|]. intros x H. exists (fun _ => 0%Q). specialize (H 0 ltac:(lia)). q. rewrite A0 in H. split.
    + intros i Li. q. destruct i; [lra|lia].
    + intros z' _ i Li. lia.
  - split; [intros i j Li Lj; q; lia|]. intros x H. exists (fun _ => 0%Q). specialize (H 0 ltac:(lia)). q. rewrite A0 in H. split.
    + intros i Li. q. destruct i; [lra|lia].
    + intros z' _ i Li. lia.
Qed.
Lemma contract_upper (A N S : mat) : (A 0%nat 0%nat == 1)%Q -> (A 0%nat 1%nat == 1)%Q -> (A 1%nat 0%nat == 0)%Q -> (A 1%nat 1%nat == 1)%Q ->
  SubstSpec.contract 2 2 2 A (mkCalc (fun a b => if a =? b then 1%Q else if a <? b then (-1)%Q else 0%Q) N S).
Proof.
  intros A0 A1 A2 A3. split; [|split].
  - intros i j Li Lj. q. destruct i as [|[|i]]; destruct j as [|[|j]]; try lia; simpl; rewrite ?A0, ?A1, ?A2, ?A3; ring.
  - split; [intros i j Li Lj; q; lia|]. intros x H. exists (fun _ => 0%Q). pose proof (H 0 ltac:(lia)) as H0. pose proof (H 1 ltac:(lia)) as H1. q. rewrite A0, A1 in H0. rewrite A2, A3 in H1. split.
    + intros i Li. q. destruct i as [|[|i]]; [lra|lra|lia].
    + intros z' _ i Li. lia.
  - split; [intros i j Li Lj; q; lia|]. intros x H. exists (fun _ => 0%Q). pose proof (H 0 ltac:(lia)) as H0. pose proof (H 1 ltac:(lia)) as H1. q. rewrite A0, A2 in H0. rewrite A1, A3 in H1. split.
    + intros i Li. q. destruct i as [|[|i]]; [lra|lra|lia].
    + intros z' _ i Li. lia.
Qed.
Lemma contract_zero (A : mat) : (A 0%nat 0%nat == 0)%Q -> SubstSpec.contract 1 1 0 A (mkCalc (m1 3) (m1 1) (m1 1)).
Proof.
  intros A0.
  assert (NB : DiagSpec.nullBasis 1 1 1 A (m1 1)).
  { split; [intros i j Li Lj; q; destruct i; [|lia]; destruct j; [|lia]; rewrite A0; unfold m1; ring|].
    intros x _. exists x. split.
    - intros i Li. q. destruct i; [unfold m1; ring|lia].
    - intros z' Hz i Li. specialize (Hz i Li). q. destruct i; [unfold m1 in Hz; rewrite Hz; ring|lia]. }
  split; [intros i j Li Lj; q; destruct i; [|lia]; destruct j; [|lia]; rewrite A0; unfold m1; ring|]. split; [exact NB|].
  split; [intros i j Li Lj; q; destruct i; [|lia]; destruct j; [|lia]; rewrite A0; unfold m1; ring|].
  intros x _. exists x. split.
  - intros i Li. q. destruct i; [unfold m1; ring|lia].
  - intros z' Hz i Li. specialize (Hz i Li). q. destruct i; [unfold m1 in Hz; rewrite Hz; ring|lia].
Qed.

Lemma present1 : present sz1 cdef1 hist1 l1.
Proof. apply presentF_all. Qed.
Lemma run1 : run sz1 cdef1 hist1 init = Some t0_1.
Proof. apply getS_ok. vm_compute. reflexivity. Qed.
Lemma finalized1 : finalized sz1 cdef1 hist1 mm0 t1_1.
Proof. exists t0_1. split; [exact run1|]. apply getD_ok. vm_compute. reflexivity. Qed.
Lemma updated1 : updates sz1 cdef1 ([D0] ++ [D1]) t1_1 = Ok t_1.
Proof. apply getR_ok. vm_compute. reflexivity. Qed.
Lemma units1 : map n_subs (units t_1) = [[mkSS [2] [2] 1; mkSS [1] [1] 1; mkSS [0] [0] 1]; [mkSS [3; 4] [4; 5] 2]; [mkSS [5] [7] 0]].
Proof. vm_compute. reflexivity. Qed.
Lemma contracted1 : contracted sz1 cdef1 D1 t_1.
Proof.
  intros p u k s E1 E2. pose proof (map_nth_error n_subs p _ E1) as M. rewrite units1 in M. revert E2.
  destruct p as [|[|[|p]]]; simpl in M; [| | |destruct p; discriminate]; injection M as <-; intros E2.
  - destruct k as [|[|[|k]]]; simpl in E2; [| | |destruct k; discriminate]; injection E2 as <-.
    + apply contract_row; reflexivity.
    + apply contract_one; reflexivity.
    + apply contract_one; reflexivity.
  - destruct k as [|k]; simpl in E2; [|destruct k; discriminate]. injection E2 as <-. apply contract_upper; reflexivity.
  - destruct k as [|k]; simpl in E2; [|destruct k; discriminate]. injection E2 as <-. apply contract_zero; reflexivity.
Qed.
Lemma distinct1 : forall c, NoDup (c_vars (k_cst (cdef1 c))).
Proof. intros c. do 6 (destruct c as [|c]; [apply SubSetProofs.nodupb_NoDup; reflexivity|]). constructor. Qed.

(* one variable, two constraints *)
Definition one (v : nat) : nat := 1.
Definition cdef2 (c : nat) : cons := mkCons true (mkCst 1 (match c with 0 => [0; 1] | 1 => [0; 2] | _ => [] end) AS_GIVEN).
Definition hist2 : list op := [OAdd [0] [0] None; OAdd [1] [0] None].
(* one constraint, two variables *)
Definition hist3 : list op := [OAdd [0] [0] None; OAdd [0] [1] None].
(* a set finalized, then not anymore *)
Definition hist4 : list op := [OAdd [0] [1] None; OFinalize mm0; OAdd [0] [0] None; OAdd [1] [0] None].
(* a nullspace variable, twice *)
Definition sz5 (v : nat) : nat := 2.
Definition hist5 : list op := [OAdd [0] [0] None; OFinalize mm0].
(* two equal rows: each substitution has the rank 1, together the rank is 1 *)
Definition cdef6 (c : nat) : cons := mkCons true (mkCst 1 [0; 1] AS_GIVEN).
Definition hist6 : list op := [OAdd [0] [0] None; OAdd [1] [1] None].
Definition D6 : data := mkD (fun _ _ => m1 1) (fun _ _ => 1%Q) (fun _ _ => mkCalc (m1 1) (m1 0) (m1 0)).
(* three variables depending on each other, a fourth one on the third *)
Definition cdef7 (c : nat) : cons :=
  mkCons true (mkCst 1 (match c with 0 => [0; 1] | 1 => [1; 2] | 2 => [2; 0] | _ => [3; 2] end) ZERO).
Definition hist7 : list op := [OAdd [0] [0] None; OAdd [1] [1] None; OAdd [2] [2] None; OAdd [3] [3] None].

Definition final (sz : nat -> nat) (cdef : nat -> cons) (h : list op) : outcome := finalize sz cdef mm0 (getS (run sz cdef h init)).
Lemma shared_variable : exists sz cdef hist s s' v t0 mm t1, present sz cdef hist [s; s'] /\ run sz cdef hist init = Some t0 /\
  In v (ss_xs s) /\ In v (ss_xs s') /\ finalize sz cdef mm t0 = Threw t1.
Proof.
  exists one, cdef2, hist2, (mkSS [0] [0] 1), (mkSS [1] [0] 1), 0, (getS (run one cdef2 hist2 init)), mm0, (getD (final one cdef2 hist2)).
  split; [exact (presentF_all one cdef2 hist2)|]. split; [apply getS_ok; vm_compute; reflexivity|]. split; [left; reflexivity|]. split; [left; reflexivity|].
  apply getT_ok. vm_compute. reflexivity.
Qed.
Lemma shared_constraint : exists sz cdef hist s s' c t0 mm, present sz cdef hist [s; s'] /\ run sz cdef hist init = Some t0 /\
  In c (ss_cs s) /\ In c (ss_cs s') /\ NoDup (ss_xs s ++ ss_xs s') /\ finalize sz cdef mm t0 = Undef.
Proof.
  exists one, cdef2, hist3, (mkSS [0] [0] 1), (mkSS [0] [1] 1), 0, (getS (run one cdef2 hist3 init)), mm0.
  split; [exact (presentF_all one cdef2 hist3)|]. split; [apply getS_ok; vm_compute; reflexivity|]. split; [left; reflexivity|]. split; [left; reflexivity|].
  split; [apply SubSetProofs.nodupb_NoDup; reflexivity|]. vm_compute. reflexivity.
Qed.
Lemma stale_additional : exists sz cdef hist l mm t1 z, present sz cdef hist l /\ finalized sz cdef hist mm t1 /\ In z (addVars t1) /\
  forall v, In v (vars t1) -> ~ In (SZ z) (substitute sz cdef t1 v).
Proof.
  exists sz5, cdef2, hist5, [mkSS [0] [0] 1], mm0, (getD (final sz5 cdef2 hist5)), (mkZv 1 0 0 1).
  split; [exact (presentF_all sz5 cdef2 hist5)|]. split.
  - exists (getS (run sz5 cdef2 hist5 init)). split; [apply getS_ok; vm_compute; reflexivity|]. apply getD_ok. vm_compute. reflexivity.
  - split; [vm_compute; auto|]. replace (vars (getD (final sz5 cdef2 hist5))) with [0] by (vm_compute; reflexivity). intros v [<-|[]].
    replace (substitute sz5 cdef2 (getD (final sz5 cdef2 hist5)) 0) with [SV 1; SZ (mkZv 2 0 0 1)] by (vm_compute; reflexivity). intros [E|[E|[]]]; discriminate.
Qed.
Lemma not_atomic : exists sz cdef hist l t0 mm t1, present sz cdef hist l /\ run sz cdef hist init = Some t0 /\ finalize sz cdef mm t0 = Threw t1 /\
  units t0 <> [] /\ units t1 = [] /\ vars t1 = vars t0 /\ vars t1 <> [] /\ forall D, updateSubstitutions sz cdef D t1 = Ok t1.
Proof.
  exists one, cdef2, hist4, [mkSS [0] [1] 1; mkSS [0] [0] 1; mkSS [1] [0] 1], (getS (run one cdef2 hist4 init)), mm0, (getD (final one cdef2 hist4)).
  split; [exact (presentF_all one cdef2 hist4)|]. split; [apply getS_ok; vm_compute; reflexivity|]. split; [apply getT_ok; vm_compute; reflexivity|].
  split; [intros E; apply (f_equal (@length _)) in E; vm_compute in E; discriminate|]. split; [vm_compute; reflexivity|]. split; [vm_compute; reflexivity|].
  split; [vm_compute; discriminate|]. intros D. vm_compute. reflexivity.
Qed.
Lemma group_rank : exists sz cdef hist l mm t1 D, present sz cdef hist l /\ separate l /\ finalized sz cdef hist mm t1 /\
  (forall s, In s l -> exists K, SubstSpec.contract (list_sum (map (fun c => c_size (k_cst (cdef c))) (ss_cs s))) (list_sum (map sz (ss_xs s))) (ss_rank s)
     (fillA sz (fun i v => match nth_error (ss_cs s) i with Some c => d_jac D c v | None => fun _ _ => 0%Q end) (toSub cdef s)) K) /\
  forall cal, ~ contracted sz cdef (mkD (d_jac D) (d_e D) cal) t1.
Proof.
  exists one, cdef6, hist6, [mkSS [0] [0] 1; mkSS [1] [1] 1], mm0, (getD (final one cdef6 hist6)), D6.
  split; [exact (presentF_all one cdef6 hist6)|]. split; [split; apply SubSetProofs.nodupb_NoDup; reflexivity|]. split.
  - exists (getS (run one cdef6 hist6 init)). split; [apply getS_ok; vm_compute; reflexivity|]. apply getD_ok. vm_compute. reflexivity.
  - split.
    + intros s [<-|[<-|[]]]; exists (mkCalc (m1 1) (m1 0) (m1 0)); apply contract_one; reflexivity.
    + intros cal C. assert (U : map n_subs (units (getD (final one cdef6 hist6))) = [[mkSS [0; 1] [0; 1] 2]]) by (vm_compute; reflexivity).
      destruct (units (getD (final one cdef6 hist6))) as [|u us] eqn:E; [discriminate|]. cbn [map] in U. injection U as U _.
      pose proof (C 0 u 0 (mkSS [0; 1] [0; 1] 2)) as K. rewrite E, U in K. specialize (K eq_refl eq_refl). destruct K as (_ & (_ & N) & _).
      destruct (N (fun i => if i =? 0 then 1%Q else (-1)%Q)) as (z & Z & _).
      * intros i Li. destruct i as [|[|i]]; [reflexivity|reflexivity|]. simpl in Li. lia.
      * specialize (Z 0 ltac:(simpl; lia)). q. discriminate.
Qed.
Lemma update_undefined : exists sz cdef hist l mm t1 D, present sz cdef hist l /\ separate l /\ finalized sz cdef hist mm t1 /\ updates sz cdef [D] t1 = UB.
Proof.
  exists one, cdef7, hist7, [mkSS [0] [0] 1; mkSS [1] [1] 1; mkSS [2] [2] 1; mkSS [3] [3] 1], mm0, (getD (final one cdef7 hist7)), D6.
  split; [exact (presentF_all one cdef7 hist7)|]. split; [split; apply SubSetProofs.nodupb_NoDup; reflexivity|]. split.
  - exists (getS (run one cdef7 hist7 init)). split; [apply getS_ok; vm_compute; reflexivity|]. apply getD_ok. vm_compute. reflexivity.
  - vm_compute. reflexivity.
Qed.
