(* C85. Dimensions and warm start of LexLS. *)
From Coq Require Import List Bool Arith QArith Lia.
Import ListNotations.
From Verif Require Import Base LxModel LxSpec LxProofs.
Local Open Scope nat_scope.

(* The calls are defined exactly if the first one is a build. *)
Theorem C85_defined : forall warm ops, (exists s, lxrun (newLexls warm) ops = Ok s) <-> match ops with LSolve _ :: _ => False | _ => True end.
Proof. exact defined_ok. Qed.
Print Assumptions C85_defined.
(* Otherwise they are undefined behaviour, not an exception. *)
Theorem C85_unbuilt : forall warm a l, lxrun (newLexls warm) (LSolve a :: l) = UB.
Proof. exact unbuilt_ok. Qed.
Print Assumptions C85_unbuilt.

(* Whatever was built or changed before, at each resolution the library is set up for the last sizes given, with the data of the
   bounds, the constraints and the objectives of these sizes, and solve tells whether the status is one of the two of success. *)
Theorem C85_dimensions : forall warm ops s n nObj nEq nIneq l a, lxrun (newLexls warm) ops = Ok s -> lastSize ops n nObj nEq nIneq l ->
  exists s' g b, solve a s = Ok (s', g, b) /\ g_conf g = Some (n, [(n, true); (nEq + nIneq, false); (nObj, false)]) /\
    g_data g = [(n, 2); (nEq + nIneq, n + 2); (nObj, n + 2)] /\ g_vars g = seq 0 n /\ (b = true <-> a_status a = Solved \/ a_status a = SolvedCycling).
Proof. exact dimensions_ok. Qed.
Print Assumptions C85_dimensions.

(* With warm start, a resolution that follows another one starts from its solution, with the constraints that were active at one of
   their bounds, and no other one... *)
Theorem C85_warm : forall ops s n nObj nEq nIneq l p a s' g b, lxrun (newLexls true) ops = Ok s -> lastSize ops n nObj nEq nIneq (l ++ [p]) -> solve a s = Ok (s', g, b) ->
  g_x0 g = Some (a_x p) /\
  (forall lv k t, In (lv, k, t) (g_activate g) <-> (t = ActiveLB \/ t = ActiveUB) /\ ((lv = 0 /\ nth_error (a_act0 p) k = Some t) \/ (lv = 1 /\ nth_error (a_act1 p) k = Some t))).
Proof. exact warm_ok. Qed.
Print Assumptions C85_warm.
(* ...and the first one after a build or a change of the problem starts from zero, with nothing active. *)
Theorem C85_cold : forall ops s n nObj nEq nIneq a s' g b, lxrun (newLexls true) ops = Ok s -> lastSize ops n nObj nEq nIneq [] -> solve a s = Ok (s', g, b) ->
  g_x0 g = Some (repeat 0%Q n) /\ g_activate g = [].
Proof. exact cold_ok. Qed.
Print Assumptions C85_cold.
(* Without warm start no resolution depends on the previous ones. *)
Theorem C85_off : forall ops s a s' g b, lxrun (newLexls false) ops = Ok s -> solve a s = Ok (s', g, b) -> g_x0 g = None /\ g_activate g = [].
Proof. exact off_ok. Qed.
Print Assumptions C85_off.
(* What is activated exists: when the answers of the library since the last sizes have these sizes, only rows of the data are
   activated, and the starting point has the size of the variables. *)
Theorem C85_valid : forall warm ops s n nObj nEq nIneq l a s' g b, lxrun (newLexls warm) ops = Ok s -> lastSize ops n nObj nEq nIneq l ->
  (forall p, In p l -> fits n nEq nIneq p) -> solve a s = Ok (s', g, b) ->
  (forall lv k t, In (lv, k, t) (g_activate g) -> exists m c, nth_error (g_data g) lv = Some (m, c) /\ k < m) /\ (forall x, g_x0 g = Some x -> length x = n).
Proof. exact valid_ok. Qed.
Print Assumptions C85_valid.

(* Four variables and 2 rows of objectives, then 2 variables and 3 rows: the data of the objectives keeps its number of coefficients. *)
Definition ans2 : answer := mkAns Solved [ActiveLB; OtherState 0] [OtherState 1; ActiveUB; OtherState 0; ActiveLB] [3; 5]%Q.
Definition lx_ops : list lxop := [Size 4 2 1 1; LSolve (mkAns SolvedCycling (repeat (OtherState 0) 4) (repeat ActiveUB 2) (repeat 1%Q 4)); Size 2 3 1 3; LSolve ans2].
Example C85_case : lastSize lx_ops 2 3 1 3 [ans2] /\ fits 2 1 3 ans2 /\ exists s s' g, lxrun (newLexls true) lx_ops = Ok s /\ solve ans2 s = Ok (s', g, true) /\
  g_conf g = Some (2, [(2, true); (4, false); (3, false)]) /\ g_activate g = [(0, 0, ActiveLB); (1, 1, ActiveUB); (1, 3, ActiveLB)] /\ g_x0 g = Some [3; 5]%Q.
Proof.
  split; [exists (firstn 2 lx_ops); reflexivity|]. split; [repeat split|]. do 3 eexists. split; [reflexivity|]. split; [reflexivity|]. repeat split.
Qed.

(* A change that leaves all sizes as they are, for instance of a weight, loses the warm start: the processing of the events always
   resizes. *)
Theorem C85_kept_refuted : exists ops s n nObj nEq nIneq p s1 s' g b, lxrun (newLexls true) ops = Ok s /\ lastSize ops n nObj nEq nIneq [p] /\ fits n nEq nIneq p /\
  lxrun s [Size n nObj nEq nIneq] = Ok s1 /\ solve p s1 = Ok (s', g, b) /\ In ActiveUB (a_act1 p) /\ g_activate g = [] /\ g_x0 g <> Some (a_x p).
Proof.
  exists lx_ops. eexists. exists 2, 3, 1, 3, ans2. do 4 eexists. split; [reflexivity|]. split; [exists (firstn 2 lx_ops); reflexivity|]. split; [repeat split|].
  split; [reflexivity|]. split; [reflexivity|]. split; [cbn; auto|]. split; [reflexivity|]. discriminate.
Qed.
Print Assumptions C85_kept_refuted.
