(* Concrete problems for QpProps.v. *)
Require Import QArith Qminmax Qabs List Arith Bool Lia Lqa.
Require Import Verif.Base Verif.QSum Verif.AssignModel Verif.AssignSpec Verif.BoundModel Verif.BoundSpec
  Verif.QpModel Verif.QpSpec Verif.QpProofs Verif.QpProofs3 Verif.QpProofs5 Verif.QpProofs6.
Import ListNotations.
Local Open Scope Q_scope.

Definition one (_ : nat) : nat := 1%nat.
Definition idf (q : Q) : Q := q.
Definition none : mat * mat * mat := (zeroM, zeroM, zeroM).
Definition noVal : data := mkData [] [] [] (fun _ _ => zeroM) (fun _ => constV 0).
Definition req1 (w : Q) : reqs := mkReq w false (constV 1) true 0.

(* variables 0 and 1 of size 1; x0 + x1 <= 3, 0 <= x1 <= 1; objective 2 x0 = 6 with a weight of 4
   (sqrtf is idf: the weight on the row is then 4 and not 2) *)
Definition P0 : problem := mkProb [0; 1]%nat []
  [mkSource LOWER_THAN AS_GIVEN 1 [0; 1]%nat (fun _ => PGen)]
  [mkObj (mkSource EQUAL AS_GIVEN 1 [0]%nat (fun _ => PGen)) (req1 4) 1]
  [(1%nat, mkB DOUBLE_SIDED AS_GIVEN BId)] false.
Definition V0 : data := mkData [mkCV (fun _ _ _ => 1) (constV 0) (constV 0) (constV 3)]
  [mkCV (fun _ _ _ => 2) (constV 6) (constV 0) (constV 0)] [fun _ => mkBV 0 0 1 1] (fun _ _ => zeroM) (fun _ => constV 0).
(* the two variables, minimum norm *)
Definition Pmin : problem := mkProb [0; 1]%nat [] [] [] [] true.
(* objective x1 = 2 *)
Definition P1 : problem := mkProb [0; 1]%nat [] []
  [mkObj (mkSource EQUAL AS_GIVEN 1 [1]%nat (fun _ => PGen)) (req1 1) 1] [] false.
Definition V1 : data := mkData [] [mkCV (fun _ _ _ => 1) (constV 2) (constV 0) (constV 0)] [] (fun _ _ => zeroM) (fun _ => constV 0).
Definition opt (chol : bool) (damp : Q) : options := mkOpt 10 chol (1 # 10) damp.

Lemma wf_P0 : wf idf P0.
Proof.
  split; [repeat constructor; simpl; intuition discriminate|]. split; [|split; [|discriminate]].
  - intros c [<-|[]]. split; [repeat constructor; simpl; intuition discriminate|intros y u E; discriminate E].
  - intros j [<-|[]]. split; [split; [repeat constructor; simpl; intuition|intros y u E; discriminate E]|]. split; [reflexivity|discriminate].
Qed.
Lemma wf_V0 : wf_data one P0 V0.
Proof.
  split; [reflexivity|]. split; [reflexivity|]. split; [reflexivity|].
  split; intros c U [E|[]]; injection E as <- <-; 
    (split; [intros y _ E; discriminate E|]); (split; [intros y _ E; discriminate E|]); intros y u E; discriminate E.
Qed.
Lemma wf_Pmin : wf idf Pmin.
Proof. split; [repeat constructor; simpl; intuition discriminate|]. split; [intros c []|]. split; [intros j []|reflexivity]. Qed.
Lemma wf_Vmin : wf_data one Pmin noVal.
Proof. unfold wf_data. repeat match goal with |- _ /\ _ => split end; try reflexivity; intros c U []. Qed.
Lemma wf_P1 : wf idf P1.
Proof.
  split; [repeat constructor; simpl; intuition discriminate|]. split; [intros c []|]. split; [|discriminate].
  intros j [<-|[]]. split; [split; [repeat constructor; simpl; intuition|intros y u E; discriminate E]|]. split; [reflexivity|discriminate].
Qed.
Lemma wf_V1 : wf_data one P1 V1.
Proof.
  split; [reflexivity|]. split; [reflexivity|]. split; [reflexivity|].
  split; intros c U; [intros []|]. intros [E|[]]. injection E as <- <-. split; [intros y _ E; discriminate E|]. split; [intros y _ E; discriminate E|]. intros y u E; discriminate E.
Qed.

Lemma reached_of debug sv o P l : is_ok (do s1 <- build debug idf 100 one sv o P fresh; solves one sv o (p_vars P) l s1) = true ->
  exists s, reached debug idf 100 one sv o [] P l s.
Proof.
  destruct (build debug idf 100 one sv o P fresh) as [s1| |] eqn:B; cbn [bind]; try discriminate.
  destruct (solves one sv o (p_vars P) l s1) as [s| |] eqn:S; try discriminate. intros _. exists s, fresh, s1. auto.
Qed.
Lemma reached_P0 sv chol : exists s, reached true idf 100 one sv (opt chol 0) [] P0 [(V0, none)] s.
Proof. apply reached_of. destruct sv, chol; vm_compute; reflexivity. Qed.
Lemma reached_Pmin sv chol : exists s, reached false idf 100 one sv (opt chol 0) [] Pmin [] s.
Proof. apply reached_of. destruct sv, chol; vm_compute; reflexivity. Qed.
Lemma reached_P1 sv chol damp : exists s, reached true idf 100 one sv (opt chol damp) [] P1 [] s.
Proof. apply reached_of. destruct sv, chol; vm_compute; reflexivity. Qed.

Lemma range0 : in_range one P0 V0 SLSSOL 100 10 (fun j => if Nat.eqb j 0 then 2 else 1) .
Proof.
  split; [|split].
  - intros [|[|j]] L; simpl in L; try lia; vm_compute; discriminate.
  - intros y b U k [E|[]] K. injection E as <- <- <-. repeat split; try reflexivity; intros; discriminate.
  - intros _ c U i [E|[]] T L. injection E as <- <-. vm_compute. split; discriminate.
Qed.
(* P1 has no constraint: the range is the one of the option *)
Lemma range1 V sv z : d_bnds V = [] -> (in_range one P1 V sv 100 10 z <-> forall j, (j < 2)%nat -> Qabs (z j) <= 10).
Proof.
  intros B. split; [intros (H & _); exact H|]. intros H. split; [exact H|]. split; [intros y b U k []|intros _ c U i []].
Qed.
Lemma error1 z : user_error idf one P1 V1 z == (z 1%nat - 2) * (z 1%nat - 2).
Proof. unfold user_error, error2, sumsq, qsumn. cbn. unfold row_weight, value, qsumn, idf. cbn. unfold full_point, completed, point_of, constV. cbn. ring. Qed.
Lemma feasible1 z : user_feasible one P1 V1 z.
Proof. split; [intros c U []|intros y b U k []]. Qed.
Lemma sumsq_pos m f : 0 <= sumsq m f.
Proof. unfold sumsq, qsumn. induction (seq 0 m) as [|a l IH]; simpl; [lra|]. nra. Qed.

(* what is handed by LexLS for P1 after a build for the minimum norm *)
Definition rebuilt : res (handed * state) :=
  do s0 <- lives false idf 100 one SLexLS (opt false 0) [(Pmin, [])] fresh;
  do s1 <- build false idf 100 one SLexLS (opt false 0) P1 s0;
  solve one SLexLS (opt false 0) (p_vars P1) V1 zeroM zeroM zeroM s1.
Lemma rebuilt_parts : exists A2 l2 u2 A1 l1 u1 xl xu s',
  rebuilt = Ok (HLexLS 2 1 0 A2 l2 u2 A1 l1 u1 xl xu, s') /\
  [A2 0%nat 0%nat; A2 0%nat 1%nat; l2 0%nat; u2 0%nat; xl 0%nat; xl 1%nat; xu 0%nat; xu 1%nat] = [1; 1; 2; 2; -(10); -(10); 10; 10].
Proof.
  assert (K : match rebuilt with
    | Ok (HLexLS n k m A2 l2 u2 A1 l1 u1 xl xu, _) =>
        ((n, k, m), [A2 0%nat 0%nat; A2 0%nat 1%nat; l2 0%nat; u2 0%nat; xl 0%nat; xl 1%nat; xu 0%nat; xu 1%nat])
    | _ => ((0, 0, 0)%nat, []) end = ((2, 1, 0)%nat, [1; 1; 2; 2; -(10); -(10); 10; 10])) by (vm_compute; reflexivity).
  destruct rebuilt as [[h s']| |]; try discriminate K. destruct h; try discriminate K.
  injection K as E1 E2 E3 K1 K2 K3 K4 K5 K6 K7 K8. subst. repeat eexists. congruence.
Qed.
