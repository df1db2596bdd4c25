(* Specification of the row layout and of the data handed to the numerical solver (C26, C27). *)
From Coq Require Import List Bool Arith Permutation.
Import ListNotations.
From Verif Require Import Base SolverModel.

(* A least-square problem, as seen by its user: the variables, the general constraints, the
   bounds and the objectives. *)
Record prob := mkProb { q_vars : list var; q_cstrs : list cstr; q_bnds : list cstr; q_objs : list cstr }.
Definition q_eqs (P : prob) := filter c_eq (q_cstrs P).
Definition q_ineqs (P : prob) := filter (fun c => negb (c_eq c)) (q_cstrs P).

(* The constraint only involves variables of the problem, each once. *)
Definition on_vars (vs : list var) (c : cstr) : Prop :=
  NoDup (map v_id (c_vars c)) /\ incl (c_vars c) vs.

Record wf_prob (P : prob) : Prop := {
  wf_vars : NoDup (map v_id (q_vars P));
  wf_cids : NoDup (map c_id (q_cstrs P));
  wf_bids : NoDup (map c_id (q_bnds P));
  wf_oids : NoDup (map c_id (q_objs P));
  wf_con : Forall (on_vars (q_vars P)) (q_cstrs P);
  wf_oon : Forall (on_vars (q_vars P)) (q_objs P);
  wf_bon : Forall (fun b => exists v, c_vars b = [v] /\ In v (q_vars P)) (q_bnds P);
  (* an equality is not double-sided *)
  wf_eqd : Forall (fun c => c_eq c = true -> c_double c = false) (q_cstrs P);
  (* only the L2 norm *)
  wf_l2 : Forall (fun o => c_l2 o = true) (q_objs P) }.

(* Building a solver for P from scratch: startBuild with the right sizes, the additions, and
   finalizeBuild, as WeightedLeastSquares.cpp 113-205 does. *)
Definition build (k : kind) (P : prob) (st : state) : res state :=
  do s1 <- foldR (addConstraint k) (q_cstrs P)
             (startBuild k (q_vars P) (sumSizes c_size (q_objs P))
                         (sumSizes (constraintSize k) (q_eqs P))
                         (sumSizes (constraintSize k) (q_ineqs P))
                         (negb (isNil (q_bnds P))) st);
  do s2 <- foldR (addBound k) (q_bnds P) s1;
  do s3 <- foldR (addObjective k) (q_objs P) s2;
  Ok (finalizeBuild s3).

(* Same with no objective and the minimum norm as cost. *)
Definition buildMinNorm (k : kind) (P : prob) (st : state) : res state :=
  do s1 <- foldR (addConstraint k) (q_cstrs P)
             (startBuild k (q_vars P) (totalSize (q_vars P))
                         (sumSizes (constraintSize k) (q_eqs P))
                         (sumSizes (constraintSize k) (q_ineqs P))
                         (negb (isNil (q_bnds P))) st);
  do s2 <- foldR (addBound k) (q_bnds P) s1;
  do s3 <- setMinimumNorm s2;
  Ok (finalizeBuild s3).

(* The problem after a batch of events. *)
Definition without (l r : list cstr) : list cstr :=
  filter (fun c => negb (existsb (fun d => c_id d =? c_id c) r)) l.
Definition after (P : prob) (vs : list var) (ev : events) : prob :=
  mkProb vs (without (q_cstrs P) (ev_remC ev) ++ ev_addC ev)
            (without (q_bnds P) (ev_remB ev) ++ ev_addB ev)
            (without (q_objs P) (ev_remO ev) ++ ev_addO ev).

(* The events are about what is in the problem, and the absence of a variable event means that
   the variables are the same. *)
Record wf_events (P : prob) (vs : list var) (ev : events) : Prop := {
  we_remC : incl (ev_remC ev) (q_cstrs P); we_remCd : NoDup (map c_id (ev_remC ev));
  we_remB : incl (ev_remB ev) (q_bnds P);
  we_remO : incl (ev_remO ev) (q_objs P); we_remOd : NoDup (map c_id (ev_remO ev));
  we_var : ev_var ev = false -> vs = q_vars P }.

(* The number of rows a constraint needs: a double-sided one needs two blocks of rows with the
   solvers that only know one-sided inequalities. *)
Definition takes_both_sides (k : kind) : bool :=
  match k with QLD _ | Quadprog _ => false | LSSOL | LexLS => true end.
Definition rowsOf (k : kind) (c : cstr) : nat :=
  if negb (c_double c) || takes_both_sides k then c_size c else 2 * c_size c.

(* ---- C26 ---- *)

Definition ranges (m : cmap) : list (nat * nat) := map (fun a => (a_start a, a_dim a)) (asgs m).
Definition inside (r : nat) (p : nat * nat) : bool := (fst p <=? r) && (r <? fst p + snd p).
(* Every row below n is in exactly one of the ranges, and no other row is in any. *)
Definition exactly_fill (rs : list (nat * nat)) (n : nat) : Prop :=
  forall r, length (filter (inside r) rs) = if r <? n then 1 else 0.

(* The ranges of the constraints exactly fill their rows: separately for equalities and
   inequalities with QLD and Quadprog, jointly with LSSOL and LexLS. *)
Definition constraints_fill (k : kind) (st : state) : Prop :=
  match k with
  | QLD _ | Quadprog _ => exactly_fill (ranges (st_eq st)) (st_nEq st) /\
                          exactly_fill (ranges (st_ineq st)) (st_nIneq st)
  | LSSOL | LexLS => exactly_fill (ranges (st_eq st) ++ ranges (st_ineq st)) (st_nEq st + st_nIneq st)
  end.
Definition objectives_fill (st : state) : Prop := exactly_fill (ranges (st_obj st)) (st_nObj st).

(* Rows of the matrix of constraints beyond the constraints themselves. *)
Definition extra_rows (k : kind) (P : prob) : nat :=
  match k with
  | Quadprog _ => if isNil (q_bnds P) then 0 else 2 * totalSize (q_vars P)
  | _ => 0
  end.

(* ---- C27 ---- *)

(* The rows a user expects for constraint c: row i has the coefficients of c for the variables
   of c and nothing elsewhere, and the right-hand side of c in each of the nv vectors. *)
Definition columns (vs : list var) : list (nat * nat) :=
  flat_map (fun v => map (fun j => (v_id v, j)) (seq 0 (v_size v))) vs.
Definition involves (c : cstr) (v : nat) : bool := existsb (fun w => v_id w =? v) (c_vars c).
Definition idealRow (nv : nat) (vs : list var) (c : cstr) (i : nat) : row :=
  (map (fun vj => if involves c (fst vj) then [Coef (c_id c) i (fst vj) (snd vj)] else []) (columns vs),
   repeat [Rhs (c_id c) i] nv).
Definition idealRows (nv : nat) (vs : list var) (size : cstr -> nat) (cs : list cstr) : list row :=
  flat_map (fun c => map (idealRow nv vs c) (seq 0 (size c))) cs.
(* The bounds written for coordinate j of variable v. *)
Definition idealBnd (bs : list cstr) (vj : nat * nat) : list content :=
  map (fun b => Rhs (c_id b) (snd vj)) (filter (fun b => involves b (fst vj)) bs).

Definition nrhs (k : kind) : nat := match k with QLD _ | Quadprog _ => 1 | _ => 2 end.
Definition nrhsO (k : kind) : nat := match k with LexLS => 2 | _ => 1 end.
Definition uses_bounds (k : kind) (P : prob) : bool :=
  match k with Quadprog _ => negb (isNil (q_bnds P)) | _ => true end.

(* The problem handed to the solver is P, up to the order of the rows in each block (and of the
   bounds on a same coordinate, which are intersected). *)
Record is_problem (k : kind) (P : prob) (p : problem) : Prop := {
  ip_eq : Permutation (p_eq p)
            (idealRows (nrhs k) (q_vars P) (rowsOf k)
                       (match k with QLD _ | Quadprog _ => q_eqs P | _ => q_eqs P ++ q_ineqs P end));
  ip_ineq : Permutation (p_ineq p)
            (match k with
             | QLD _ | Quadprog _ => idealRows (nrhs k) (q_vars P) (rowsOf k) (q_ineqs P)
             | _ => [] end);
  ip_obj : exists o, p_obj p = Some o /\
            Permutation o (idealRows (nrhsO k) (q_vars P) c_size (q_objs P));
  ip_bnd : Forall2 (fun vj lu => if uses_bounds k P
                                 then exists l u, lu = [l; u] /\ Permutation l (idealBnd (q_bnds P) vj)
                                                            /\ Permutation u (idealBnd (q_bnds P) vj)
                                 else lu = [])
                   (columns (q_vars P)) (p_bnd p) }.

Definition same_problem (p q : problem) : Prop :=
  Permutation (p_eq p) (p_eq q) /\ Permutation (p_ineq p) (p_ineq q) /\
  (exists o o', p_obj p = Some o /\ p_obj q = Some o' /\ Permutation o o') /\
  Forall2 (Forall2 (@Permutation content)) (p_bnd p) (p_bnd q).

(* Rows of the matrix of constraints of QLD and Quadprog. *)
Definition arows (k : kind) (P : prob) : nat :=
  sumSizes (constraintSize k) (q_cstrs P) + extra_rows k P.

(* The case where process does not see that the matrix of constraints changed of shape: QLD or
   Quadprog, no constraint removed and no equality row added, the number of rows or of columns
   changed, but not the number of coefficients, and there are equalities, or inequalities and no
   inequality row is added. *)
Definition same_product (k : kind) (P : prob) (vs : list var) (ev : events) : Prop :=
  let P' := after P vs ev in
  match k with QLD _ | Quadprog _ => True | _ => False end /\
  ev_remC ev = [] /\
  sumSizes (constraintSize k) (filter c_eq (ev_addC ev)) = 0 /\
  (q_eqs P <> [] \/
   (q_ineqs P <> [] /\
    sumSizes (constraintSize k) (filter (fun c => negb (c_eq c)) (ev_addC ev)) = 0)) /\
  (arows k P', totalSize vs) <> (arows k P, totalSize (q_vars P)) /\
  arows k P' * totalSize vs = arows k P * totalSize (q_vars P).

(* Histories: any number of builds (the last one being for an actual least-square problem) and
   of batches of events. *)
Inductive history (k : kind) : prob -> state -> Prop :=
| h_build P st0 st : wf_prob P -> build k P st0 = Ok st -> history k P st
| h_process P st vs ev st' :
    history k P st -> wf_events P vs ev -> wf_prob (after P vs ev) ->
    process k vs ev st = Ok st' -> history k (after P vs ev) st'.

(* Histories in which same_product never happens. *)
Inductive history_safe (k : kind) : prob -> state -> Prop :=
| hs_build P st0 st : wf_prob P -> build k P st0 = Ok st -> history_safe k P st
| hs_process P st vs ev st' :
    history_safe k P st -> wf_events P vs ev -> wf_prob (after P vs ev) ->
    ~ same_product k P vs ev ->
    process k vs ev st = Ok st' -> history_safe k (after P vs ev) st'.
