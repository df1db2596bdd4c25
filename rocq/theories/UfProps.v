(* C83. fromURDF. *)
From Coq Require Import List Bool Arith ZArith QArith Lia.
Import ListNotations.
From Verif Require Import Base RobModel RobSpec UfModel UfSpec UfProofs.
Local Open Scope nat_scope.

(* A free flyer (0), a revolute joint (1), a spherical joint (2) and a revolute joint (3), as read from a file; the
   configuration asked for has an unknown joint (9) and a joint with the wrong number of values (2). *)
Definition legged : rbody := [mkRJ 0 7 6 true; mkRJ 1 1 1 false; mkRJ 2 4 3 false; mkRJ 3 1 1 false].
Definition legged_q : list (list Q) := [[1; 0; 0; 0; 0; 0; 0]; [0]; [1; 0; 0; 0]; [0]]%Q.
Definition legged_v : list (list Q) := [[0; 0; 0; 0; 0; 0]; [0]; [0; 0; 0]; [0]]%Q.
Definition leggedFile : parsed := mkPar legged (mkC legged_q legged_v legged_v).
Definition asked : table := [(3, [5%Q]); (9, [6%Q]); (2, [7; 8; 9]%Q); (0, [1; 0; 0; 0; 0; 0; 4]%Q)].
Lemma legged_proper : proper legged.
Proof.
  split; [repeat constructor; cbn; intuition discriminate|].
  intros j Hj. cbn in Hj. repeat destruct Hj as [<-|Hj]; try contradiction; cbn; (split; [lia|intros; try discriminate; auto]).
Qed.
Lemma legged_hyps : NoDup (map fst asked) /\ proper legged /\ shaped legged (u_c leggedFile) /\ length (repeat 0%Q 13) = sumOf rj_np legged.
Proof. split; [repeat constructor; cbn; intuition discriminate|]. split; [apply legged_proper|]. split; [repeat split; reflexivity|reflexivity]. Qed.

(* Every joint of the robot starts in the configuration given for it, when it has the size of the joint, and in the one of the
   file otherwise; a message names the joints given with another size, and no other one.  The velocities are those of the file. *)
Theorem C83_configuration ticks q0 p q : proper (u_mb p) -> shaped (u_mb p) (u_c p) -> NoDup (map fst q) -> length q0 = sumOf rj_np (u_mb p) ->
  exists r w, fromURDF ticks q0 (Some p) q = Ok (r, w) /\ shaped (u_mb p) (r_c r) /\
    (forall before j vs, splits (u_mb p) before j -> (nth_error (c_q (r_c r)) (length before) = Some vs <-> starting q (c_q (u_c p)) j (length before) vs)) /\
    c_alpha (r_c r) = c_alpha (u_c p) /\ c_alphaD (r_c r) = c_alphaD (u_c p) /\
    (forall n, In n w <-> misfit (u_mb p) q n) /\ NoDup w.
Proof. exact (configuration_ok ticks q0 p q). Qed.
Print Assumptions C83_configuration.
Example C83_configuration_case : exists r, fromURDF 0 (repeat 0%Q 13) (Some leggedFile) asked = Ok (r, [2]) /\
  c_q (r_c r) = [[1; 0; 0; 0; 0; 0; 4]; [0]; [1; 0; 0; 0]; [5]]%Q /\ starting asked legged_q (mkRJ 3 1 1 false) 3 [5%Q] /\ starting asked legged_q (mkRJ 2 4 3 false) 2 [1; 0; 0; 0]%Q.
Proof.
  eexists. split; [reflexivity|]. split; [reflexivity|]. split; [left; split; [left; reflexivity|reflexivity]|]. right. split; [|reflexivity].
  intros (us & I & L). cbn in I. repeat destruct I as [I|I]; try contradiction; try discriminate; inversion I; subst; discriminate L.
Qed.

(* The variable of the positions holds these numbers, joint after joint. *)
Theorem C83_variable ticks q0 p q r w before j vs c x : proper (u_mb p) -> shaped (u_mb p) (u_c p) -> NoDup (map fst q) -> length q0 = sumOf rj_np (u_mb p) ->
  fromURDF ticks q0 (Some p) q = Ok (r, w) -> splits (u_mb p) before j -> starting q (c_q (u_c p)) j (length before) vs -> nth_error vs c = Some x ->
  nth_error (r_q r) (fullRank rj_np before c) = Some x.
Proof. exact (variable_ok ticks q0 p q r w before j vs c x). Qed.
Print Assumptions C83_variable.
Example C83_variable_case : exists r w, fromURDF 0 (repeat 0%Q 13) (Some leggedFile) asked = Ok (r, w) /\
  splits legged (firstn 3 legged) (mkRJ 3 1 1 false) /\ nth_error (r_q r) (fullRank rj_np (firstn 3 legged) 0) = Some 5%Q.
Proof. eexists. eexists. split; [reflexivity|]. split; [exists []; reflexivity|reflexivity]. Qed.

(* Asking for the same configurations in another order, or not asking for the unknown joints and those that do not fit, gives the
   same robot. *)
Theorem C83_relevant ticks q0 p q q' : proper (u_mb p) -> shaped (u_mb p) (u_c p) -> NoDup (map fst q) -> NoDup (map fst q') -> length q0 = sumOf rj_np (u_mb p) ->
  (forall j vs, In j (u_mb p) -> length vs = rj_np j -> (In (rj_name j, vs) q <-> In (rj_name j, vs) q')) ->
  exists r w w', fromURDF ticks q0 (Some p) q = Ok (r, w) /\ fromURDF ticks q0 (Some p) q' = Ok (r, w').
Proof. exact (relevant_ok ticks q0 p q q'). Qed.
Print Assumptions C83_relevant.
Example C83_relevant_case : let q' := [(0, [1; 0; 0; 0; 0; 0; 4]%Q); (3, [5%Q])] in
  (forall j vs, In j legged -> length vs = rj_np j -> (In (rj_name j, vs) asked <-> In (rj_name j, vs) q')) /\
  exists r, fromURDF 0 (repeat 0%Q 13) (Some leggedFile) asked = Ok (r, [2]) /\ fromURDF 0 (repeat 0%Q 13) (Some leggedFile) q' = Ok (r, []).
Proof.
  split; [|eexists; split; reflexivity]. intros j vs Hj L. cbn in Hj. repeat destruct Hj as [<-|Hj]; try contradiction; cbn in L |- *;
    (split; intros I; repeat destruct I as [I|I]; try contradiction; injection I; try discriminate; intros; subst; try discriminate; tauto).
Qed.

(* The configuration read from the file must have a place for every joint named: the call is not defined otherwise. *)
Theorem C83_short ticks q0 p q before j vs : NoDup (map rj_name (u_mb p)) -> splits (u_mb p) before j -> In (rj_name j, vs) q -> length (c_q (u_c p)) <= length before ->
  fromURDF ticks q0 (Some p) q = UB.
Proof. exact (short_ok ticks q0 p q before j vs). Qed.
Print Assumptions C83_short.
Example C83_short_case : let p := mkPar legged (mkC (firstn 3 legged_q) legged_v legged_v) in
  splits (u_mb p) (firstn 3 legged) (mkRJ 3 1 1 false) /\ In (3, [5%Q]) asked /\ length (c_q (u_c p)) <= 3.
Proof. split; [exists []; reflexivity|]. split; [left; reflexivity|cbn; lia]. Qed.

(* Without the file there is no robot. *)
Theorem C83_no_file ticks q0 q : fromURDF ticks q0 None q = Throw.
Proof. exact eq_refl. Qed.
Print Assumptions C83_no_file.

(* A configuration asked for and silently ignored: a misspelt joint gives no message at all. *)
Theorem C83_reported_refuted : exists ticks q0 p q n vs r w, proper (u_mb p) /\ shaped (u_mb p) (u_c p) /\ NoDup (map fst q) /\ length q0 = sumOf rj_np (u_mb p) /\
  fromURDF ticks q0 (Some p) q = Ok (r, w) /\ In (n, vs) q /\ ~ In n w /\ ~ In vs (c_q (r_c r)).
Proof.
  destruct legged_hyps as (N & P & S & L). exists 0%Z, (repeat 0%Q 13), leggedFile, asked, 9, [6%Q]. eexists. eexists. split; [exact P|]. split; [exact S|]. split; [exact N|]. split; [exact L|].
  split; [reflexivity|]. split; [right; left; reflexivity|]. split; [cbn; intuition discriminate|]. cbn. intuition discriminate.
Qed.
Print Assumptions C83_reported_refuted.
