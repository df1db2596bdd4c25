(* The starting configuration asked for *)
From Coq Require Import List Bool Arith ZArith QArith.
Import ListNotations.
From Verif Require Import Base RobModel RobSpec UfModel.
Local Open Scope nat_scope.

(* the configuration vs of the joint j, the k-th one, when d was read from the file: the one given, if there is one of the
   size of the joint, the one of the file otherwise *)
Definition starting (q : table) (d : list (list Q)) (j : rjoint) (k : nat) (vs : list Q) : Prop :=
  (In (rj_name j, vs) q /\ length vs = rj_np j) \/ (~ (exists us, In (rj_name j, us) q /\ length us = rj_np j) /\ nth_error d k = Some vs).
(* an entry of q is for a joint of another size *)
Definition misfit (mb : rbody) (q : table) (n : nat) : Prop := exists j vs, In j mb /\ rj_name j = n /\ In (n, vs) q /\ length vs <> rj_np j.
