(* Model of tvm::robot::fromURDF (src/robot/utils.cpp), over the robots of RobModel.v.  The parsing of RBDyn is not in the
   repository: a file that can be opened is given by the multi-body and the configuration read from it; the gravity, the
   masses, the limits and the links are left out.  Names are numbers. *)
From Coq Require Import List Bool Arith ZArith QArith.
Import ListNotations.
From Verif Require Import Base RobModel.
Local Open Scope nat_scope.

Record parsed := mkPar { u_mb : rbody; u_c : config }.
Fixpoint setNth {A} (l : list A) (k : nat) (x : A) : list A :=
  match l with [] => [] | a :: l => match k with 0 => x :: l | S k => a :: setNth l k x end end.
(* the loop of utils.cpp:35-49; the messages of lines 44-45 are the names they mention, in order *)
Fixpoint mergeQ (mb : rbody) (init : list (list Q)) (q : table) : res (list (list Q) * list nat) :=
  match q with
  | [] => Ok (init, [])
  | (n, vs) :: q =>
      match jindex mb n with
      | None => mergeQ mb init q
      | Some i =>
          match nth_error init i with
          | None => UB
          | Some cur => if length cur =? length vs then mergeQ mb (setNth init i vs) q
                        else do (r, w) <- mergeQ mb init q; Ok (r, n :: w)
          end
      end
  end.
(* fromURDF, utils.cpp:17-52; [f]: None when the file cannot be opened; [q0]: see construct *)
Definition fromURDF (ticks : Z) (q0 : list Q) (f : option parsed) (q : table) : res (robot * list nat) :=
  match f with
  | None => Throw
  | Some p =>
      do (qi, w) <- mergeQ (u_mb p) (c_q (u_c p)) q;
      do r <- construct (u_mb p) ticks q0 (mkC qi (c_alpha (u_c p)) (c_alphaD (u_c p))); Ok (r, w)
  end.
