(* What is expected of a calculator (SubstitutionCalculatorImpl.h:21-31) and what is assumed of the decomposition of Eigen. *)
From Coq Require Import List Bool Arith QArith.
Import ListNotations.
From Verif Require Import Base QSum DiagSpec GcModel.
Local Open Scope nat_scope.

Definition identity : mat := fun i j => if i =? j then 1%Q else 0%Q.
(* the part of R that counts *)
Definition upper (r : nat) (R : mat) : mat := fun k j => if (k <? r) && (k <=? j) then R k j else 0%Q.
(* A P = Q R with P a permutation, R upper triangular with rows of zeros from the rank on and a non zero diagonal before. Of Q
   orthogonal it is only required that its transpose is its inverse. *)
Definition decomposes (m n : nat) (A : mat) (f : qr) : Prop :=
  f_rank f <= m /\ f_rank f <= n /\
  (forall j, j < n -> f_P f j < n) /\ (forall i j, i < n -> j < n -> f_P f i = f_P f j -> i = j) /\
  (forall k, k < f_rank f -> ~ (f_R f k k == 0)%Q) /\
  exists Qm, eqm m m (mul m Qm (f_QT f)) identity /\ eqm m m (mul m (f_QT f) Qm) identity /\
    forall i j, i < m -> j < n -> (A i (f_P f j) == mul m Qm (upper (f_rank f) (f_R f)) i j)%Q.
(* A^#, N, S are a generalized inverse and bases of the null spaces *)
Definition calculates (m n r : nat) (A Ash N S : mat) : Prop :=
  eqm m n (mul m (mul n A Ash) A) A /\ nullBasis m n (n - r) A N /\ nullBasis n m (m - r) (tr A) S.
(* r is the rank of A *)
Definition hasRank (m n : nat) (A : mat) (r : nat) : Prop := r <= n /\ exists B, nullBasis m n (n - r) A B.
(* The products of the calculator with decomposition f and null space N are those by A^#, N and S. *)
Definition multiplies (m n r : nat) (f : qr) (N Ash K S : mat) : Prop :=
  eqm n (n - r) N K /\
  forall minus outA inM, exists oA oS, premultiply m n r f minus outA inM = Ok (oA, oS) /\
    forall p, eqm n p oA (if minus then opp (mul m Ash inM) else mul m Ash inM) /\ eqm (m - r) p oS (mul m (tr S) inM).
