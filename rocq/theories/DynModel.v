(* Model of the task dynamics Clamped (include/tvm/task_dynamics/Clamped.h), OneStepToZero
   (src/task_dynamics/OneStepToZero.cpp) and VelocityDamper (src/task_dynamics/VelocityDamper.cpp).
   Vectors are lists of rationals.  The dynamics wrapped by Clamped is given by the value it
   computes.  Division by zero is never computed: where the code may divide by zero the result is
   None, standing for an infinity or not-a-number. *)
From Coq Require Import List Bool Arith QArith Qminmax.
Import ListNotations.
From Verif Require Import Base.
Local Open Scope Q_scope.

Definition ltb (x y : Q) : bool := negb (Qle_bool y x).

(* ---- Clamped ---- *)
Inductive bounds := BScalar (b : Q) | BVector (l : list Q).
Record clamped := mkCl { c_min : bounds; c_max : bounds }.
(* Clamped(pair<double, double>), Clamped.h:128-140 *)
Definition clampedScalars (mn mx : Q) : res clamped :=
  if ltb 0 mn then Throw else if ltb mx 0 then Throw else Ok (mkCl (BScalar mn) (BScalar mx)).
(* Clamped(double), lines 122-124 *)
Definition clampedScalar (mx : Q) : res clamped := clampedScalars (- mx) mx.
(* Clamped(pair<VectorConstRef, VectorConstRef>), lines 150-166 *)
Definition clampedVectors (mn mx : list Q) : res clamped :=
  if negb (length mn =? length mx)%nat then Throw
  else if existsb (ltb 0) mn then Throw
  else if existsb (fun x => ltb x 0) mx then Throw
  else Ok (mkCl (BVector mn) (BVector mx)).
(* Clamped(VectorConstRef), lines 144-146 *)
Definition clampedVector (mx : list Q) : res clamped := clampedVectors (map Qopp mx) mx.
Definition expand (n : nat) (b : bounds) : list Q := match b with BScalar x => repeat x n | BVector l => l end.
(* Impl::Impl, lines 170-195, [n] the size of the function: the vectors min_ and max_ *)
Definition clampedImpl (n : nat) (c : clamped) : res (list Q * list Q) :=
  let mn := expand n (c_min c) in
  let mx := expand n (c_max c) in
  if negb (length mn =? n)%nat || negb (length mx =? n)%nat then Throw
  else if existsb (ltb 0) mn then Throw
  else if existsb (fun x => ltb x 0) mx then Throw
  else Ok (mn, mx).
(* std::min(s, x) *)
Definition stdmin (s x : Q) : Q := if ltb x s then x else s.
(* the loop of Impl::updateValue, lines 202-214; reading past the bounds is UB *)
Fixpoint scale (v mn mx : list Q) (s : Q) : res Q :=
  match v with
  | [] => Ok s
  | x :: v' =>
      match mn, mx with
      | a :: mn', b :: mx' =>
          scale v' mn' mx' (if ltb b x then stdmin s (b / x) else if ltb x a then stdmin s (a / x) else s)
      | _, _ => UB
      end
  end.
(* Impl::updateValue, lines 198-216, [v] being the value computed by the wrapped dynamics *)
Definition clampedValue (m : list Q * list Q) (v : list Q) : res (list Q) :=
  do s <- scale v (fst m) (snd m) 1; Ok (map (fun x => x * s) v).

(* ---- OneStepToZero ---- *)
Inductive order := Zero | One | Two | More.
(* checkParam, OneStepToZero.cpp:17-37; the constructors only call it *)
Definition oneStepCheck (o : order) (dt : Q) : res (order * Q) :=
  match o with
  | Zero => Throw
  | More => Throw
  | _ => if Qle_bool dt 0 then Throw else Ok (o, dt)
  end.
Fixpoint zip2 (g : Q -> Q -> Q) (l m : list Q) : list Q :=
  match l, m with x :: l', y :: m' => g x y :: zip2 g l' m' | _, _ => [] end.
(* updateValue, lines 52-60 *)
Definition oneStepValue (p : order * Q) (rhs f v : list Q) : list Q :=
  let value := map (fun x => x / snd p) (zip2 Qminus rhs f) in
  match fst p with
  | Two => map (fun x => x * (2 / snd p)) (zip2 Qminus value v)
  | _ => value
  end.

(* ---- VelocityDamper ---- *)
Record config := mkConf { k_di : list Q; k_ds : list Q; k_xsi : list Q; k_off : list Q }.
(* AnisotropicConfig(...), VelocityDamper.cpp:35-66 *)
Definition someBool (g : Q -> Q -> bool) (l m : list Q) : bool := existsb (fun p => g (fst p) (snd p)) (combine l m).
Definition anisotropic (di ds xsi : list Q) (off : option (list Q)) : res config :=
  let off := match off with Some l => l | None => repeat 0 (length di) end in
  if negb (length di =? length ds)%nat || negb (length di =? length xsi)%nat || negb (length di =? length off)%nat then Throw
  else if someBool Qle_bool di ds then Throw
  else if existsb (fun x => ltb x 0) ds then Throw
  else if existsb (fun x => ltb x 0) xsi then Throw
  else if existsb (Qeq_bool 0) xsi && negb (forallb (Qeq_bool 0) xsi) then Throw
  else if existsb (fun x => ltb x 0) off then Throw
  else Ok (mkConf di ds xsi off).
(* Config(...), lines 14-33, and AnisotropicConfig(Config), lines 68-73 *)
Definition isotropic (di ds xsi off : Q) : res config :=
  if Qle_bool di ds then Throw else if ltb ds 0 then Throw else if ltb xsi 0 then Throw else if ltb off 0 then Throw
  else anisotropic [di] [ds] [xsi] (Some [off]).
Record damper := mkDamper { p_dt : option Q; p_auto : bool; p_di : list Q; p_ds : list Q; p_xsi : list Q; p_big : Q }.
(* VelocityDamper(...), lines 75-119; [dt] is given for the second order *)
Definition newDamper (dt : option Q) (c : config) (big : Q) : res damper :=
  match k_xsi c with
  | [] => UB
  | x0 :: _ =>
      let auto := Qeq_bool x0 0 in
      if match dt with Some t => Qle_bool t 0 | None => false end then Throw
      else if Qle_bool big 0 then Throw
      else Ok (mkDamper dt auto (k_di c) (k_ds c) (if auto then k_off c else k_xsi c) big)
  end.
(* resizeParameter, lines 140-153 *)
Definition resizeParameter (n : nat) (l : list Q) : res (list Q) :=
  match l with
  | [x] => Ok (repeat x n)
  | _ => if (length l =? n)%nat then Ok l else Throw
  end.
(* What Impl keeps for one component: ds_, di_, xsiOff_, a_, axsi_ and active_ *)
Record comp := mkComp { ds : Q; di : Q; off : Q; a : Q; axsi : option Q; active : bool }.
Fixpoint components (auto : bool) (ds di xsi : list Q) : list comp :=
  match ds, di, xsi with
  | s :: ds', i :: di', x :: xsi' =>
      let a := - (/ (i - s)) in
      (if auto then mkComp s i x a (Some 1) false else mkComp s i 0 a (Some (a * x)) false) :: components auto ds' di' xsi'
  | _, _, _ => []
  end.
(* Impl::Impl, lines 157-203 *)
Definition damperImpl (n : nat) (p : damper) : res (list comp) :=
  do s <- resizeParameter n (p_ds p);
  do i <- resizeParameter n (p_di p);
  do x <- resizeParameter n (p_xsi p);
  Ok (components (p_auto p) s i x).
(* constraint::Type *)
Inductive ctype := EQUAL | GREATER_THAN | LOWER_THAN | DOUBLE_SIDED.
(* updateValue_(s), lines 231-251, for one component; [d] is d_[i], [dv] the velocity *)
Definition activation (auto : bool) (s d dv : Q) (c : comp) : comp :=
  if auto then
    if Qle_bool d (di c) && negb (active c) then
      mkComp (ds c) (di c) (off c) (a c)
        (if Qeq_bool (d - ds c) 0 then None else Some (a c * (s * dv * (ds c - di c) / (d - ds c) + off c))) true
    else if ltb (di c) d && active c then mkComp (ds c) (di c) (off c) (a c) (axsi c) false
    else c
  else c.
Definition value_ (d : Q) (c : comp) : option Q :=
  match axsi c with Some x => Some ((d - ds c) * x) | None => None end.
(* updateValue, lines 205-229, for one component with right-hand side [r], value [f] and velocity [dv] *)
Definition updateOne (p : damper) (t : ctype) (c : comp) (r f dv : Q) : comp * option Q :=
  match t with
  | LOWER_THAN =>
      let d := r - f in
      let c' := activation (p_auto p) (-1) d dv c in
      let v := value_ d c' in
      let v := match p_dt p, v with Some dt, Some x => Some ((x + dv) / dt) | _, _ => v end in
      (c', if ltb (di c) d then Some (p_big p) else match v with Some x => Some (- x) | None => None end)
  | _ =>
      let d := f - r in
      let c' := activation (p_auto p) 1 d dv c in
      let v := value_ d c' in
      let v := match p_dt p, v with Some dt, Some x => Some ((x - dv) / dt) | _, _ => v end in
      (c', if ltb (di c) d then Some (- p_big p) else v)
  end.
(* the vectors: component by component *)
Fixpoint updateAll (p : damper) (t : ctype) (cs : list comp) (r f dv : list Q) : list comp * list (option Q) :=
  match cs, r, f, dv with
  | c :: cs', r0 :: r', f0 :: f', v0 :: v' =>
      let (c1, o) := updateOne p t c r0 f0 v0 in
      let (cs1, os) := updateAll p t cs' r' f' v' in
      (c1 :: cs1, o :: os)
  | _, _, _, _ => ([], [])
  end.
