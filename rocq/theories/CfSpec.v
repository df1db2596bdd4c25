(* What the checks of a function should decide. *)
Require Import Reals List Bool Arith.
Require Import Verif.Base Verif.CfModel.
Import ListNotations.
Local Open Scope R_scope.

(* The j-th column of the k-th variable is the column c of all the variables together. *)
Definition before (size : cvar -> nat) (f : cfun) (k : nat) : nat := list_sum (map size (firstn k (w_vars f))).
Definition column (f : cfun) (k j c : nat) : Prop :=
  exists x, nth_error (w_vars f) k = Some x /\ (j < v_size x)%nat /\ c = (before v_size f k + j)%nat.
Definition width (f : cfun) : nat := list_sum (map v_size (w_vars f)).
Definition dwidth (f : cfun) : nat := list_sum (map v_dsize (w_vars f)).
Definition euclidean (f : cfun) : Prop := Forall (fun x => v_eucl x = true /\ v_dsize x = v_size x) (w_vars f).

(* The point moved by t along the coordinate c *)
Definition move (v : vect) (c : nat) (t : R) : vect := fun i => if Nat.eqb i c then v i + t else v i.
(* The finite differences for the coordinate c *)
Definition fd (f : cfun) (h : R) (v : vect) (c : nat) : vect := fun r => (w_value f (move v c h) r - w_value f v r) / h.
(* D gives the partial derivatives of the value of f at v. *)
Definition partials (f : cfun) (v : vect) (D : nat -> vect) : Prop :=
  forall c r, (c < width f)%nat -> (r < w_size f)%nat -> derivable_pt_lim (fun t => w_value f (move v c t) r) 0 (D c r).

(* s is the largest, over the columns, of the smallest of the squares of the norms of the columns of D and of the jacobian of f at v. *)
Definition scale (f : cfun) (v : vect) (D : nat -> vect) (s : R) : Prop :=
  let both k j c := Rmin (norm2 (w_size f) (D c)) (norm2 (w_size f) (fun r => w_jac f k v r j)) in
  (forall k j c, column f k j c -> both k j c <= s) /\ (s = 0 \/ exists k j c, column f k j c /\ s = both k j c).
(* a and b are close at this scale. *)
Definition close (n : nat) (prec s : R) (a b : vect) : Prop := norm2 n (minus a b) <= prec * prec * s.
(* isApprox: for the scale of each of the two *)
Definition approx (n : nat) (prec : R) (a b : vect) : Prop := close n prec (norm2 n a) a b /\ close n prec (norm2 n b) a b.

(* The jacobian of f at v applied to a motion of the variables *)
Definition applyJ (size : cvar -> nat) (f : cfun) (v a : vect) : vect := fun r =>
  rsum (fun k => match nth_error (w_vars f) k with
                 | Some x => rsum (fun j => w_jac f k v r j * a (before size f k + j)%nat) (size x)
                 | None => 0
                 end) (length (w_vars f)).

(* A is the derivative of the velocity of f along any motion that passes through val with the velocity vel and the acceleration acc. *)
Definition acceleration_along (f : cfun) (val vel acc A : vect) : Prop :=
  forall p q : R -> vect, p 0 = val -> q 0 = vel ->
    (forall i, derivable_pt_lim (fun t => p t i) 0 (vel i)) -> (forall i, derivable_pt_lim (fun t => q t i) 0 (acc i)) ->
    forall r, (r < w_size f)%nat -> derivable_pt_lim (fun t => w_velocity f (p t) (q t) r) 0 (A r).

(* An affine function with correct outputs *)
Definition affine (f : cfun) (A : nat -> nat -> R) (b : vect) : Prop :=
  (forall v r, (r < w_size f)%nat -> w_value f v r = b r + rsum (fun c => A r c * v c) (width f)) /\
  (forall k j c v r, column f k j c -> (r < w_size f)%nat -> w_jac f k v r j = A r c) /\
  (forall v d r, (r < w_size f)%nat -> w_velocity f v d r = rsum (fun c => A r c * d c) (width f)) /\
  (forall v d r, (r < w_size f)%nat -> w_normalAcc f v d r = 0).

(* The samples tested: the number of random ones *)
Definition samples (o : copts) : nat := match o_configs o, o_samples o with [], O => 1 | _, n => n end.

(* What a point should satisfy to be accepted: every column of the jacobian is close to the finite differences ... *)
Definition column_ok (f : cfun) (o : copts) (v : vect) (c : nat) : Prop :=
  forall s k j, scale f v (fd f (o_step o) v) s -> column f k j c -> close (w_size f) (o_prec o) s (fd f (o_step o) v c) (fun r => w_jac f k v r j).
Definition jacobian_ok (f : cfun) (o : copts) (v : vect) : Prop := forall c, column_ok f o v c.
(* ... the velocity to the one given by the jacobian ... *)
Definition velocity_ok (f : cfun) (o : copts) (val vel : vect) : Prop :=
  approx (w_size f) (o_prec o) (applyJ v_dsize f val vel) (w_velocity f val vel).
(* ... and the normal acceleration to the finite differences of the velocity, less the part given by the jacobian.  The point reached is the one of
   the code: the constant acceleration documented would give val i + vel i * t + 1/2 * acc i * t^2. *)
Definition reached (val vel acc : vect) (t : R) : vect := fun i => val i + vel i * t + 1 / 2 * (acc i * acc i) * t * t.
Definition normal_ok (f : cfun) (o : copts) (val vel acc : vect) : Prop :=
  let t := o_step o in
  approx (w_size f) (o_prec o) (w_normalAcc f val vel)
    (fun r => (w_velocity f (reached val vel acc t) (fun i => vel i + acc i * t) r - w_velocity f val vel r) / t - applyJ v_size f val acc r).

(* A configuration can be used if what it gives has the right sizes. *)
Definition usable_as (m : option (list R)) (n : nat) : Prop := forall v, m = Some v -> length v = n.
Definition taken (m : option (list R)) (n : nat) (rnd : nat -> nat -> vect) (a : vect) : Prop :=
  match m with Some v => a = vec v | None => exists k, a = rnd k n end.
Definition times_velocity (c : config) : nat := match c_value c, c_velocity c with Some _, Some _ => 1 | _, _ => c_samples c end.
Definition times_normal (c : config) : nat := match c_value c, c_velocity c, c_acceleration c with Some _, Some _, Some _ => 1 | _, _, _ => c_samples c end.
(* p can be tested for the velocity for the configuration c. *)
Definition point_velocity (f : cfun) (rnd : nat -> nat -> vect) (c : config) (p : vect * vect) : Prop :=
  (usable_as (c_value c) (width f) /\ usable_as (c_velocity c) (dwidth f)) /\
  taken (c_value c) (width f) rnd (fst p) /\ taken (c_velocity c) (dwidth f) rnd (snd p).
Definition usable_normal (f : cfun) (c : config) : Prop :=
  usable_as (c_value c) (width f) /\ usable_as (c_velocity c) (dwidth f) /\ usable_as (c_acceleration c) (dwidth f).
Definition point_normal (f : cfun) (rnd : nat -> nat -> vect) (c : config) (p : vect * vect * vect) : Prop :=
  usable_normal f c /\
  taken (c_value c) (width f) rnd (fst (fst p)) /\ taken (c_velocity c) (dwidth f) rnd (snd (fst p)) /\ taken (c_acceleration c) (dwidth f) rnd (snd p).
