(* The checks of a function by finite differences (include/tvm/utils/checkFunction.h, src/utils/checkFunction.cpp), function by function.
   Doubles are real numbers, the step is not zero.  The UpdatelessFunction gives the outputs of the function at the values and velocities
   it is called with (see C51); the derivative of the function is that for all its variables.  The random vectors (setRandom, normalize) are
   those of any sequence.  The printed messages are left out. *)
Require Import Reals List Bool Arith.
Require Import Verif.Base.
Import ListNotations.
Local Open Scope R_scope.

Definition vect := nat -> R.
Fixpoint rsum (f : nat -> R) (n : nat) : R := match n with O => 0 | S m => rsum f m + f m end.
(* x.cwiseAbs2().sum() for a vector of size n *)
Definition norm2 (n : nat) (a : vect) : R := rsum (fun r => a r * a r) n.
Definition minus (a b : vect) : vect := fun r => a r - b r.
(* isApprox of Eigen: the square of the distance is at most prec^2 times the smallest of the squares of the norms *)
Definition isApprox (n : nat) (prec : R) (a b : vect) : bool :=
  if Rle_dec (norm2 n (minus a b)) (prec * prec * Rmin (norm2 n a) (norm2 n b)) then true else false.
Definition upd (v : vect) (i : nat) (a : R) : vect := fun k => if Nat.eqb k i then a else v k.
Definition setCol (J : nat -> nat -> R) (i : nat) (a : vect) : nat -> nat -> R := fun r c => if Nat.eqb c i then a r else J r c.

(* A variable of the function: its size, the size of its derivative, and whether it is Euclidean (then the sizes are the same) *)
Record cvar := mkCv { v_size : nat; v_dsize : nat; v_eucl : bool }.
(* The function: its variables, its size, which outputs are enabled, and its outputs.  [w_jac k] is the jacobian of the k-th variable. *)
Record cfun := mkCf {
  w_vars : list cvar; w_size : nat;
  w_hasValue : bool; w_hasJacobian : bool; w_hasVelocity : bool; w_hasNormalAcc : bool;
  w_value : vect -> vect; w_jac : nat -> vect -> nat -> nat -> R; w_velocity : vect -> vect -> vect; w_normalAcc : vect -> vect -> vect }.
(* CheckOptions::CheckConfiguration, checkFunction.h:47-53, and CheckOptions, :31-62 *)
Record config := mkCc { c_value : option (list R); c_velocity : option (list R); c_acceleration : option (list R); c_samples : nat }.
Record copts := mkCo { o_step : R; o_prec : R; o_samples : nat; o_configs : list config }.
(* A VectorXd as a function of the index *)
Definition vec (l : list R) : vect := fun i => nth i l 0.
Definition total (l : list nat) : nat := fold_left Nat.add l 0%nat.

(* defaultOptions, checkFunction.cpp:21-27 *)
Definition defaultOptions (o : copts) : copts :=
  match o_configs o, o_samples o with [], O => mkCo (o_step o) (o_prec o) 1 [] | _, _ => o end.

Section Function.
Variables (f : cfun) (o : copts).

(* ---- the jacobian at a point: checkFunction.cpp:85-144 ---- *)
(* lines 95-101 *)
Fixpoint gather (k s : nat) (xs : list cvar) (v0 : vect) (J0 : nat -> nat -> R) : nat -> nat -> R :=
  match xs with
  | [] => J0
  | x :: r => gather (S k) (s + v_size x) r v0
                (fun a c => if Nat.leb s c && Nat.ltb c (s + v_size x) then w_jac f k v0 a (c - s) else J0 a c)
  end.
(* lines 104-117: the point, the index of the column, the finite differences and the scale *)
Record fdstate := mkFd { d_v : vect; d_i : nat; d_J : nat -> nat -> R; d_norm2 : R }.
Definition fdCol (f0 : vect) (J0 : nat -> nat -> R) (s : fdstate) : fdstate :=
  let i := d_i s in
  let v := upd (d_v s) i (d_v s i + o_step o) in
  let J := setCol (d_J s) i (fun r => (w_value f v r - f0 r) / o_step o) in
  let n2 := Rmax (d_norm2 s) (Rmin (norm2 (w_size f) (fun r => J r i)) (norm2 (w_size f) (fun r => J0 r i))) in
  mkFd (upd v i (v i - o_step o)) (S i) J n2.
Fixpoint times {A} (n : nat) (g : A -> A) (a : A) : A := match n with O => a | S m => times m g (g a) end.
Definition fdLoop (f0 : vect) (J0 : nat -> nat -> R) (s : fdstate) : fdstate :=
  fold_left (fun s x => times (v_size x) (fdCol f0 J0) s) (w_vars f) s.
(* lines 120-135: i is set to 0 before the loops and is not changed in them *)
Definition compareLoop (J J0 : nat -> nat -> R) (n2 : R) : bool :=
  let i := 0%nat in
  fold_left (fun b x => times (v_size x)
    (fun b => if Rgt_dec (norm2 (w_size f) (minus (fun r => J r i) (fun r => J0 r i))) (o_prec o * o_prec o * n2) then false else b) b) (w_vars f) true.
(* [junk] is in the matrices before they are filled.  Without variables, uf.value throws (UpdatelessFunction.cpp:224-251) *)
Definition checkJacobianAt (junk : nat -> nat -> R) (v0 : vect) : res bool :=
  match w_vars f with
  | [] => Throw
  | _ => let f0 := w_value f v0 in
         let J0 := gather 0 0 (w_vars f) v0 junk in
         let s := fdLoop f0 J0 (mkFd v0 0 junk 0) in
         Ok (compareLoop (d_J s) J0 (d_norm2 s))
  end.

(* ---- the velocity at a point: checkFunction.cpp:220-254 ---- *)
(* lines 233-237, also 362-369: the sum of the products of the jacobians with the segments of [a] *)
Fixpoint sumJ (k s : nat) (xs : list cvar) (size : cvar -> nat) (v0 a : vect) (acc : vect) : vect :=
  match xs with
  | [] => acc
  | x :: r => sumJ (S k) (s + size x) r size v0 a (fun i => acc i + rsum (fun j => w_jac f k v0 i j * a (s + j)%nat) (size x))
  end.
Definition checkVelocityAt (val vel : vect) : res bool :=
  match w_vars f with
  | [] => Throw
  | _ => let v0 := w_velocity f val vel in
         let v := sumJ 0 0 (w_vars f) v_dsize val vel (fun _ => 0) in
         Ok (isApprox (w_size f) (o_prec o) v v0)
  end.

(* ---- the normal acceleration at a point: checkFunction.cpp:341-385 ---- *)
Definition checkNormalAccelerationAt (val0 vel0 acc : vect) : res bool :=
  match w_vars f with
  | [] => Throw
  | _ => let dt := o_step o in
         let vel1 := fun i => vel0 i + acc i * dt in
         let val1 := fun i => val0 i + vel0 i * dt + 1 / 2 * (acc i * acc i) * dt * dt in
         let v0 := w_velocity f val0 vel0 in
         let v1 := w_velocity f val1 vel1 in
         let a := fun r => (v1 r - v0 r) / dt in
         let Ja := sumJ 0 0 (w_vars f) v_size val0 acc (fun _ => 0) in
         let a := minus a Ja in
         Ok (isApprox (w_size f) (o_prec o) (w_normalAcc f val0 vel0) a)
  end.

(* ---- the points: checkFunction.cpp:146-200, 256-321, 387-469 ---- *)
(* [rnd k n]: the vector of size n of the k-th call of setRandom (and normalize); the position in the sequence is threaded *)
Variables (rnd : nat -> nat -> vect) (junk : nat -> nat -> R).
Definition size_ : nat := total (map v_size (w_vars f)).
Definition dsize_ : nat := total (map v_dsize (w_vars f)).
(* a number of failures and the position in the random sequence *)
Definition count (b : bool) (n : nat) : nat := if b then n else S n.
Fixpoint randomJacobian (n : nat) (k failed : nat) : res (nat * nat) :=
  match n with
  | O => Ok (failed, k)
  | S m => do b <- checkJacobianAt junk (rnd k size_); randomJacobian m (S k) (count b failed)
  end.
Fixpoint configsJacobian (cs : list config) (failed : nat) : res nat :=
  match cs with
  | [] => Ok failed
  | c :: r => match c_value c with
              | None => configsJacobian r failed
              | Some v => if negb (Nat.eqb (length v) size_) then configsJacobian r failed
                          else do b <- checkJacobianAt junk (vec v); configsJacobian r (count b failed)
              end
  end.
Definition checkJacobian_ (k : nat) : res (bool * nat) :=
  if negb (forallb v_eucl (w_vars f)) then Throw
  else do p <- randomJacobian (o_samples o) k 0;
       do m <- configsJacobian (o_configs o) 0;
       Ok (Nat.eqb (fst p + m) 0, snd p).

(* getFromConfigOrRandom, checkFunction.cpp:57-78 *)
Definition fromConfig (m : option (list R)) (n k : nat) : option vect * nat :=
  match m with
  | Some v => (if Nat.eqb (length v) n then Some (vec v) else None, k)
  | None => (Some (rnd k n), S k)
  end.

Fixpoint randomVelocity (n : nat) (k failed : nat) : res (nat * nat) :=
  match n with
  | O => Ok (failed, k)
  | S m => do b <- checkVelocityAt (rnd k size_) (rnd (S k) dsize_); randomVelocity m (S (S k)) (count b failed)
  end.
(* one sample of a configuration, lines 289-307 *)
Definition configVelocity (c : config) (k failed : nat) : res (nat * nat) :=
  match fromConfig (c_value c) size_ k with
  | (None, k) => Ok (failed, k)
  | (Some val, k) => match fromConfig (c_velocity c) dsize_ k with
                     | (None, k) => Ok (failed, k)
                     | (Some vel, k) => do b <- checkVelocityAt val vel; Ok (count b failed, k)
                     end
  end.
Fixpoint repeatRes (n : nat) (g : nat -> nat -> res (nat * nat)) (k failed : nat) : res (nat * nat) :=
  match n with O => Ok (failed, k) | S m => do p <- g k failed; repeatRes m g (snd p) (fst p) end.
Definition given {A} (x : option A) : bool := match x with Some _ => true | None => false end.
Definition timesVelocity (c : config) : nat := if given (c_value c) && given (c_velocity c) then 1%nat else c_samples c.
Fixpoint configsVelocity (cs : list config) (k failed : nat) : res (nat * nat) :=
  match cs with
  | [] => Ok (failed, k)
  | c :: r => do p <- repeatRes (timesVelocity c) (configVelocity c) k failed; configsVelocity r (snd p) (fst p)
  end.
Definition checkVelocity_ (k : nat) : res (bool * nat) :=
  do p <- randomVelocity (o_samples o) k 0;
  do q <- configsVelocity (o_configs o) (snd p) 0;
  Ok (Nat.eqb (fst p + fst q) 0, snd q).

Fixpoint randomNormalAcc (n : nat) (k failed : nat) : res (nat * nat) :=
  match n with
  | O => Ok (failed, k)
  | S m => do b <- checkNormalAccelerationAt (rnd k size_) (rnd (S k) dsize_) (rnd (S (S k)) dsize_); randomNormalAcc m (S (S (S k))) (count b failed)
  end.
(* one sample of a configuration, lines 432-452 *)
Definition configNormalAcc (c : config) (k failed : nat) : res (nat * nat) :=
  match fromConfig (c_value c) size_ k with
  | (None, k) => Ok (failed, k)
  | (Some val, k) => match fromConfig (c_velocity c) dsize_ k with
                     | (None, k) => Ok (failed, k)
                     | (Some vel, k) => match fromConfig (c_acceleration c) dsize_ k with
                                        | (None, k) => Ok (failed, k)
                                        | (Some acc, k) => do b <- checkNormalAccelerationAt val vel acc; Ok (count b failed, k)
                                        end
                     end
  end.
Definition timesNormalAcc (c : config) : nat := if given (c_value c) && given (c_velocity c) && given (c_acceleration c) then 1%nat else c_samples c.
Fixpoint configsNormalAcc (cs : list config) (k failed : nat) : res (nat * nat) :=
  match cs with
  | [] => Ok (failed, k)
  | c :: r => do p <- repeatRes (timesNormalAcc c) (configNormalAcc c) k failed; configsNormalAcc r (snd p) (fst p)
  end.
Definition checkNormalAcceleration_ (k : nat) : res (bool * nat) :=
  if negb (forallb v_eucl (w_vars f)) then Throw
  else do p <- randomNormalAcc (o_samples o) k 0;
       do q <- configsNormalAcc (o_configs o) (snd p) 0;
       Ok (Nat.eqb (fst p + fst q) 0, snd q).
End Function.

(* ---- the API: checkFunction.cpp:204-215, 325-336, 473-485, 487-503 ---- *)
Definition checkJacobian (f : cfun) (o : copts) (rnd : nat -> nat -> vect) (junk : nat -> nat -> R) : res bool :=
  if negb (w_hasValue f && w_hasJacobian f) then Throw
  else do p <- checkJacobian_ f (defaultOptions o) rnd junk 0; Ok (fst p).
Definition checkVelocity (f : cfun) (o : copts) (rnd : nat -> nat -> vect) : res bool :=
  if negb (w_hasVelocity f && w_hasJacobian f) then Throw
  else do p <- checkVelocity_ f (defaultOptions o) rnd 0; Ok (fst p).
Definition checkNormalAcceleration (f : cfun) (o : copts) (rnd : nat -> nat -> vect) : res bool :=
  if negb (w_hasNormalAcc f && w_hasVelocity f && w_hasJacobian f) then Throw
  else do p <- checkNormalAcceleration_ f (defaultOptions o) rnd 0; Ok (fst p).
Definition checkFunction (f : cfun) (o : copts) (rnd : nat -> nat -> vect) (junk : nat -> nat -> R) : res bool :=
  if negb (w_hasNormalAcc f && w_hasVelocity f && w_hasJacobian f && w_hasValue f) then Throw
  else let o := defaultOptions o in
       do p <- checkJacobian_ f o rnd junk 0;
       if negb (fst p) then Ok false
       else do q <- checkVelocity_ f o rnd (snd p);
            if negb (fst q) then Ok false
            else do s <- checkNormalAcceleration_ f o rnd (snd q); Ok (fst s).
