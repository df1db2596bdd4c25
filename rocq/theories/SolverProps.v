(* C26, C27: row layout of the least-square solvers and its incremental update. *)
From Coq Require Import List Bool Arith Permutation Lia.
Import ListNotations.
From Verif Require Import Base SolverModel SolverSpec SolverProofs4 SolverProofs7.

(* ---- A concrete problem: two variables, an equality, a double-sided inequality, a bound and
   two objectives; then a batch of events that removes the equality and an objective, and adds a
   variable, a one-sided inequality, another bound and an objective. ---- *)
Definition x1 := mkVar 1 2.
Definition x2 := mkVar 2 3.
Definition x3 := mkVar 3 1.
Definition eq10 := mkC 10 2 true false [x1] false true.
Definition in11 := mkC 11 3 false true [x2] false true.
Definition in12 := mkC 12 2 false false [x1; x3] false true.
Definition bd20 := mkC 20 2 false true [x1] false true.
Definition bd21 := mkC 21 1 false true [x3] false true.
Definition ob30 := mkC 30 2 true false [x1; x2] false true.
Definition ob31 := mkC 31 1 true false [x2] false true.
Definition ob32 := mkC 32 3 true false [x3] false true.
Definition in13 := mkC 13 1 false false [x1] false true.
Definition bd22 := mkC 22 2 false true [x1] true true.
Definition ob40 := mkC 40 2 true false [x1] false true.
Definition P0 := mkProb [x1; x2] [eq10; in11] [bd20] [ob30; ob31].
Definition ev0 := mkEv [eq10] [in12] [] [bd21] [ob30] [ob32] true.
Definition vs0 := [x1; x2; x3].

Ltac nodup := repeat (constructor; [simpl; intuition discriminate|]); try constructor.
Ltac wfp := constructor; simpl;
  [nodup|nodup|nodup|nodup| | | | | ];
  repeat first [apply Forall_nil|apply Forall_cons];
  try (split; [simpl; nodup|intros y; simpl; intuition (subst; auto 10)]);
  try (simpl; discriminate); try (simpl; congruence); try reflexivity;
  try (eexists; split; [reflexivity|simpl; auto 10]).

Example P0_wf : wf_prob P0. Proof. unfold P0. wfp. Qed.
Example ev0_wf : wf_events P0 vs0 ev0.
Proof. constructor; simpl; try (intros y; simpl; intuition (subst; auto)); try nodup; discriminate. Qed.
Example P0_after_wf : wf_prob (after P0 vs0 ev0).
Proof. unfold P0, after; simpl. wfp. Qed.
Example P0_safe k : ~ same_product k P0 vs0 ev0.
Proof. intros H. destruct H as (_ & H & _). discriminate. Qed.

(* the history: build, then the batch *)
Example history_ex : forall k, exists st, history_safe k (after P0 vs0 ev0) st.
Proof.
  intros k. destruct (build_total k P0 (init k) P0_wf) as (st0 & B).
  assert (H : history_safe k P0 st0) by (eapply hs_build; eauto; apply P0_wf).
  destruct (safe_progress k P0 st0 vs0 ev0 H ev0_wf P0_after_wf) as (st1 & E).
  { repeat constructor. }
  exists st1. eapply hs_process; eauto using ev0_wf, P0_after_wf, P0_safe.
Qed.

(* The same, with the ranges computed. *)
Example C26_ex :
  exists st0 st, build (QLD true) P0 (init (QLD true)) = Ok st0 /\ process (QLD true) vs0 ev0 st0 = Ok st /\
    ranges (st_eq st0) = [(0, 2)] /\ ranges (st_ineq st0) = [(0, 6)] /\ ranges (st_obj st0) = [(0, 2); (2, 1)] /\
    ranges (st_eq st) = [] /\ ranges (st_ineq st) = [(0, 6); (6, 2)] /\ ranges (st_obj st) = [(0, 1); (1, 3)] /\
    st_nEq st = 0 /\ st_nIneq st = 8 /\ st_nObj st = 4.
Proof. vm_compute. do 2 eexists. repeat split; reflexivity. Qed.
Example C26_ex_shared :
  exists st0 st, build LSSOL P0 (init LSSOL) = Ok st0 /\ process LSSOL vs0 ev0 st0 = Ok st /\
    ranges (st_eq st0) = [(0, 2)] /\ ranges (st_ineq st0) = [(2, 3)] /\
    ranges (st_eq st) = [] /\ ranges (st_ineq st) = [(0, 3); (3, 2)].
Proof. vm_compute. do 2 eexists. repeat split; reflexivity. Qed.

(* C26, for all histories of builds with an actual objective and of batches of events: every
   row of the equalities, of the inequalities and of the objectives belongs to the range of
   exactly one constraint.  Missing for the full statement: histories starting with a
   minimum-norm build, for which it is false (C26_min_norm_refuted). *)
Theorem C26_rows_fill_partial : forall k P st, history k P st -> constraints_fill k st /\ objectives_fill st.
Proof. exact history_fill. Qed.
Print Assumptions C26_rows_fill_partial.

(* The matrix of constraints has exactly these rows (and twice the number of variables for the
   bounds of Quadprog), and the counts are those of the current problem. *)
Theorem C26_matrix_rows : forall k P st, history k P st ->
  o_rows (mCstr (st_store st)) = st_nEq st + st_nIneq st + extra_rows k P /\
  st_nEq st = sumSizes (rowsOf k) (q_eqs P) /\
  st_nIneq st = sumSizes (rowsOf k) (q_ineqs P) /\
  st_nObj st = sumSizes c_size (q_objs P).
Proof. exact history_rows. Qed.
Print Assumptions C26_matrix_rows.

(* After a minimum-norm build, adding an objective leaves the rows of the minimum norm without
   any range, and the objective is ignored: the cost handed is still the minimum norm. *)
Theorem C26_min_norm_refuted : exists P ev st0 st,
  wf_prob P /\ wf_events P (q_vars P) ev /\ wf_prob (after P (q_vars P) ev) /\
  buildMinNorm LSSOL P (init LSSOL) = Ok st0 /\ process LSSOL (q_vars P) ev st0 = Ok st /\
  ~ objectives_fill st /\
  exists p, handed LSSOL st = Ok p /\ p_obj p = None /\ q_objs (after P (q_vars P) ev) <> [].
Proof.
  set (Q := mkProb [x1; x2] [eq10] [] []). set (ev := mkEv [] [] [] [] [] [ob30] false).
  exists Q, ev. do 2 eexists.
  split; [unfold Q; wfp|]. split.
  { constructor; simpl; try (intros y; simpl; intuition); try nodup. }
  split; [unfold Q, after; simpl; wfp|]. split; [vm_compute; reflexivity|]. split; [vm_compute; reflexivity|].
  split.
  - intros F. specialize (F 6). vm_compute in F. discriminate.
  - eexists. split; [vm_compute; reflexivity|]. split; [reflexivity|]. discriminate.
Qed.
Print Assumptions C26_min_norm_refuted.

(* C27: what the next solve hands to the numerical solver is the current problem: the rows of
   its equalities, inequalities and objectives with their coefficients in the columns of their
   variables, and the bounds of each variable. Missing for the full statement: histories where
   the shape of the matrix of constraints changes but not its number of coefficients
   (C27_same_product_refuted), and minimum-norm builds (C26_min_norm_refuted). *)
Theorem C27_problem_partial : forall k P st, history_safe k P st ->
  exists p, handed k st = Ok p /\ is_problem k P p.
Proof. exact safe_handed. Qed.
Print Assumptions C27_problem_partial.

(* ... and it is what a rebuild from scratch would hand. *)
Theorem C27_rebuild_partial : forall k P st st0 st1, history_safe k P st -> build k P st0 = Ok st1 ->
  exists p q, handed k st = Ok p /\ handed k st1 = Ok q /\ same_problem p q.
Proof. exact safe_rebuild. Qed.
Print Assumptions C27_rebuild_partial.

(* Neither building nor processing fails on a well-formed problem, if no bound has a diagonal
   jacobian other than I and -I. *)
Theorem C27_process_ok_partial : forall k P st vs ev,
  history_safe k P st -> wf_events P vs ev -> wf_prob (after P vs ev) ->
  Forall (fun b => c_diag b = false) (q_bnds P) ->
  exists st', process k vs ev st = Ok st'.
Proof. exact safe_progress. Qed.
Print Assumptions C27_process_ok_partial.

Theorem C27_build_ok : forall k P st0, wf_prob P -> exists st, build k P st0 = Ok st.
Proof. exact build_total. Qed.
Print Assumptions C27_build_ok.

Example C27_ex : exists st0 st p,
  build LexLS P0 (init LexLS) = Ok st0 /\ process LexLS vs0 ev0 st0 = Ok st /\ handed LexLS st = Ok p /\
  nth 3 (p_eq p) ([], []) =
    ([[Coef 12 0 1 0]; [Coef 12 0 1 1]; []; []; []; [Coef 12 0 3 0]], [[Rhs 12 0]; [Rhs 12 0]]) /\
  p_bnd p = [[[Rhs 20 0]; [Rhs 20 0]]; [[Rhs 20 1]; [Rhs 20 1]]; [[]; []]; [[]; []]; [[]; []]; [[Rhs 21 0]; [Rhs 21 0]]].
Proof. vm_compute. do 3 eexists. repeat split; reflexivity. Qed.

(* Removing a variable of size 1 out of 3 while adding an inequality of size 1 to two equality
   rows: 2x3 becomes 3x2.  The equality keeps writing through a reference on the 2x3 matrix. *)
Theorem C27_same_product_refuted : forall ch, exists P vs ev st0 st,
  wf_prob P /\ wf_events P vs ev /\ wf_prob (after P vs ev) /\
  build (QLD ch) P (init (QLD ch)) = Ok st0 /\ process (QLD ch) vs ev st0 = Ok st /\ handed (QLD ch) st = UB.
Proof.
  set (Q := mkProb [x1; x3] [eq10] [] [ob40]). set (ev := mkEv [] [in13] [] [] [] [] true).
  assert (W : wf_prob Q /\ wf_events Q [x1] ev /\ wf_prob (after Q [x1] ev)).
  { split; [unfold Q; wfp|]. split.
    - constructor; simpl; try (intros y; simpl; intuition); try nodup; discriminate.
    - unfold Q, after; simpl; wfp. }
  destruct W as (W1 & W2 & W3).
  destruct ch; exists Q, [x1], ev; do 2 eexists;
    (split; [exact W1|]; split; [exact W2|]; split; [exact W3|];
     split; [vm_compute; reflexivity|]; split; vm_compute; reflexivity).
Qed.
Print Assumptions C27_same_product_refuted.

(* A bound whose jacobian is diagonal, neither I nor -I: any event that moves the bounds is UB. *)
Theorem C27_diagonal_bound_refuted : forall k, exists P vs ev st0,
  wf_prob P /\ wf_events P vs ev /\ wf_prob (after P vs ev) /\ ~ same_product k P vs ev /\
  build k P (init k) = Ok st0 /\ process k vs ev st0 = UB.
Proof.
  intros k. set (Q := mkProb [x1] [] [bd22] [ob40]). set (ev := mkEv [] [] [] [] [] [] true).
  assert (W : wf_prob Q /\ wf_events Q [x1; x2] ev /\ wf_prob (after Q [x1; x2] ev)).
  { split; [unfold Q; wfp|]. split.
    - constructor; simpl; try (intros y; simpl; intuition); try nodup; discriminate.
    - unfold Q, after; simpl; wfp. }
  destruct W as (W1 & W2 & W3).
  assert (S : ~ same_product k Q [x1; x2] ev) by (intros (_ & _ & _ & [H|[H _]] & _); apply H; reflexivity).
  destruct k as [[|]|[|]| |]; exists Q, [x1; x2], ev; eexists;
    (split; [exact W1|]; split; [exact W2|]; split; [exact W3|]; split; [exact S|];
     split; vm_compute; reflexivity).
Qed.
Print Assumptions C27_diagonal_bound_refuted.
