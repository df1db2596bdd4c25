(* Model of the task dynamics Proportional and ProportionalDerivative
   (src/task_dynamics/Proportional.cpp, src/task_dynamics/ProportionalDerivative.cpp,
   include/tvm/task_dynamics/ProportionalDerivative.h) and of the decorator FeedForward
   (include/tvm/task_dynamics/FeedForward.h).  Doubles are real numbers.  Vectors and matrices are
   sizes with the coefficients below them.  An Eigen expression on operands of incompatible sizes is
   UB.  The asserts of the constructor of ProportionalDerivative::Impl are those of a release build:
   not compiled.  The non-const accessors to the gains, documented as unchecked, are left out. *)
From Coq Require Import List Bool Arith Reals.
Import ListNotations.
From Verif Require Import Base.
Local Open Scope R_scope.

Record vec := mkVec { len : nat; vc : nat -> R }.
Record mat := mkMat { rows : nat; cols : nat; mc : nat -> nat -> R }.
(* using Gain = variant<double, VectorXd, MatrixXd>, Proportional.h:27 *)
Inductive gain := Scalar (k : R) | Diagonal (k : vec) | Matrix (k : mat).

Fixpoint sum (n : nat) (f : nat -> R) : R := match n with O => 0 | S n => sum n f + f n end.
(* Eigen: a - b, -a, a + b on vectors *)
Definition vsub (a b : vec) : res vec := if len a =? len b then Ok (mkVec (len a) (fun i => vc a i - vc b i)) else UB.
Definition vadd (a b : vec) : res vec := if len a =? len b then Ok (mkVec (len a) (fun i => vc a i + vc b i)) else UB.
Definition vneg (a : vec) : vec := mkVec (len a) (fun i => - vc a i).
(* Eigen: k * v, k.asDiagonal() * v, k * v for the three kinds of gain *)
Definition times (g : gain) (x : vec) : res vec :=
  match g with
  | Scalar k => Ok (mkVec (len x) (fun i => k * vc x i))
  | Diagonal k => if len k =? len x then Ok (mkVec (len x) (fun i => vc k i * vc x i)) else UB
  | Matrix k => if cols k =? len x then Ok (mkVec (rows k) (fun i => sum (cols k) (fun j => mc k i j * vc x j))) else UB
  end.

(* TaskDynamicsImpl::TaskDynamicsImpl, TaskDynamicsImpl.cpp:18-32; [n] the size of the function and
   [eu] whether its image space is Euclidean.  The registrations in the computation graph are left
   out (see CallGraphModel). *)
Definition baseImpl (n : nat) (eu : bool) (rhs : vec) : res vec :=
  if negb (n =? len rhs) then Throw else if negb eu then Throw else Ok rhs.

(* ---- Proportional ---- *)
Record pimpl := mkP { p_n : nat; p_rhs : vec; p_kp : gain }.
(* Proportional::Impl::Impl, Proportional.cpp:28-37 *)
Definition pNew (n : nat) (eu : bool) (rhs : vec) (kp : gain) : res pimpl :=
  do r <- baseImpl n eu rhs;
  if match kp with
     | Scalar _ => false
     | Diagonal k => negb (len k =? n)
     | Matrix k => negb (cols k =? n) && negb (rows k =? n)
     end then Throw else Ok (mkP n r kp).
(* updateValue, lines 39-57, [f] the value of the function *)
Definition pValue (p : pimpl) (f : vec) : res vec :=
  do e <- vsub f (p_rhs p); do x <- times (p_kp p) e; Ok (vneg x).
(* ProportionalDerivative::Impl::checkGainSize, ProportionalDerivative.cpp:158-179, and the checks
   of Proportional::Impl::gain, Proportional.cpp:59-77 *)
Definition checkGainSize (n : nat) (g : gain) : res unit :=
  match g with
  | Scalar _ => Ok tt
  | Diagonal k => if negb (len k =? n) then Throw else Ok tt
  | Matrix k => if negb (rows k =? n) || negb (cols k =? n) then Throw else Ok tt
  end.
(* gain, Proportional.cpp:59-77 *)
Definition pGain (p : pimpl) (g : gain) : res pimpl := do _ <- checkGainSize (p_n p) g; Ok (mkP (p_n p) (p_rhs p) g).

(* ---- ProportionalDerivative ---- *)
(* RealSchur, given by its result: the matrices U and T; only the diagonal of T is used *)
Section PD.
Variable schur : mat -> mat * mat.

(* 2 * U * T.diagonal().asDiagonal() * U.transpose() *)
Definition schurDamping (k : mat) : mat :=
  let (u, t) := schur k in
  mkMat (rows u) (rows u) (fun i j => sum (cols u) (fun l => 2 * mc u i l * mc t l l * mc u j l)).
(* The damping computed from a stiffness: ProportionalDerivative.cpp:42 and 139, 45 and 146, 51-54
   and 152-155.  None: the square root of a negative number is taken, the damping is not a number.
   RealSchur needs a square matrix. *)
Definition criticalDamping (g : gain) : res (option gain) :=
  match g with
  | Scalar k => Ok (if Rlt_dec k 0 then None else Some (Scalar (2 * sqrt k)))
  | Diagonal k => Ok (if existsb (fun i => if Rlt_dec (vc k i) 0 then true else false) (seq 0 (len k)) then None
                      else Some (Diagonal (mkVec (len k) (fun i => 2 * sqrt (vc k i)))))
  | Matrix k => if rows k =? cols k then Ok (Some (Matrix (schurDamping k))) else UB
  end.
(* the constructors taking only a stiffness, lines 42-55 *)
Definition pdCritical (kp : gain) : res (option (gain * gain)) :=
  do kv <- criticalDamping kp; Ok (match kv with Some kv => Some (kp, kv) | None => None end).

Record pdimpl := mkPD { d_n : nat; d_rhs : vec; d_kp : gain; d_kv : gain }.
(* Impl::Impl, lines 64-82 *)
Definition pdNew (n : nat) (eu : bool) (rhs : vec) (g : gain * gain) : res pdimpl :=
  do r <- baseImpl n eu rhs; Ok (mkPD n r (fst g) (snd g)).
(* updateValue, lines 84-114, [f] and [v] the value and velocity of the function *)
Definition pdValue (p : pdimpl) (f v : vec) : res vec :=
  do x <- times (d_kv p) v;
  do e <- vsub f (d_rhs p);
  do y <- times (d_kp p) e;
  vsub (vneg x) y.
(* gains(kp, kv), lines 118-134 and ProportionalDerivative.h:200-207 *)
Definition pdGains (p : pdimpl) (kp kv : gain) : res pdimpl :=
  do _ <- checkGainSize (d_n p) kp;
  do _ <- checkGainSize (d_n p) kv;
  Ok (mkPD (d_n p) (d_rhs p) kp kv).
(* gains(kp), lines 136-156: the version for a matrix does not set kp_ *)
Definition pdGain (p : pdimpl) (kp : gain) : res (option pdimpl) :=
  do _ <- checkGainSize (d_n p) kp;
  do kv <- criticalDamping kp;
  Ok (match kv with
      | Some kv => Some (mkPD (d_n p) (d_rhs p) (match kp with Matrix _ => d_kp p | _ => kp end) kv)
      | None => None
      end).
End PD.

(* ---- FeedForward ---- *)
(* FeedForward::Impl::Impl, FeedForward.h:49-64, over an implementation already built; [ff] the
   feed-forward term at the construction *)
Definition ffNew {A} (n : nat) (ff : vec) (p : A) : res A := if negb (len ff =? n) then Throw else Ok p.
(* updateValue, lines 68-72 *)
Definition ffValue (inner : res vec) (ff : vec) : res vec := do x <- inner; vadd x ff.
