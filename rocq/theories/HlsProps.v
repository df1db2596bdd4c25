(* C48: a hierarchical solver can be rebuilt. *)
From Coq Require Import List Bool Arith Lia.
Import ListNotations.
From Verif Require Import Base HlsModel HlsSpec HlsProofs HlsProofs2 HlsProofs3.

(* Three levels for five variables: an equality and an inequality in the first, two equalities in the second, the
   minimum norm in the third; bounds on two variables, of size 3 and 2. *)
Definition hcs : list cstr := [mkC 0 true 2; mkC 1 true 3; mkC 0 false 1; mkC 1 true 1].
Definition hbs : list (nat * nat) := [(0, 3); (3, 2)].
Definition hview (r : res solver) := match r with Ok s => Some (assignments s, identityAt s, solve false s) | _ => None end.
Example hls_run : hview (run false fresh (build 5 [2; 4; 5] [1; 0; 0] true hcs true hbs)) =
  Some ([mkA 0 0 2; mkA 1 0 3; mkA 0 2 1; mkA 1 3 1], Some 2,
        Ok (Some (5, [(8, false); (4, false); (5, false)]), [(8, 7, false); (4, 7, false); (5, 7, false)])).
Proof. reflexivity. Qed.
Example hls_hyp : announced 5 [2; 4; 5] [1; 0; 0] hcs true /\ boundsFit 5 true hbs.
Proof.
  split; [split; [reflexivity|]; split; [|split]|].
  - intros c [<-|[<-|[<-|[<-|[]]]]]; cbn; lia.
  - intros [|[|l]] H; cbn in *; try (split; reflexivity). lia.
  - intros _. split; [discriminate|]. split; reflexivity.
  - intros b [<-|[<-|[]]]; cbn; split; auto; lia.
Qed.

(* In the first build of a solver, the constraints of each level are assigned rows from zero on, one after the other,
   in the order of the calls, and fill the level; the library is given the rows announced to it, and the minimum norm
   is at the last level. Missing: that this holds of the following builds, which is false, see below. *)
Theorem C48_first_build_partial : forall ffl n ne ni ub cs mn bs,
  announced n ne ni cs mn -> boundsFit n ub bs -> (ub = true -> ffl = true \/ ne <> []) ->
  exists s c d, run ffl fresh (build n ne ni ub cs mn bs) = Ok s /\ stacked (fun _ => 0) cs s /\
  (forall l, l < length ne - (if mn then 1 else 0) -> tiled s l (nth l ne 0 + nth l ni 0)) /\
  nEq s = ne /\ nIneq s = ni /\ boundRanges s = bs /\ (ub = true -> ralias (xlu s) = false) /\
  identityAt s = (if mn then Some (length ne - 1) else None) /\
  solve ffl s = Ok (c, d) /\ d = expectedData ffl ub n ne ni /\
  ((exists l, l < length ne /\ 0 < nth l ne 0 + nth l ni 0) \/ ub = true /\ 0 < n -> accepts c d).
Proof. exact first_build. Qed.
Print Assumptions C48_first_build_partial.

(* In a following build, the rows of a level start after those the level had in the previous build... *)
Theorem C48_rebuild_offset : forall ffl h n0 ne0 ni0 ub0 cs0 mn0 bs0 n ne ni ub cs mn bs s,
  run ffl fresh (h ++ build n0 ne0 ni0 ub0 cs0 mn0 bs0 ++ build n ne ni ub cs mn bs) = Ok s ->
  stacked (fun l => nth l ne0 0 + nth l ni0 0) cs s.
Proof. exact rebuild_offset. Qed.
Print Assumptions C48_rebuild_offset.
Example offset_case : hview (run false fresh (build 1 [0; 2] [0; 0] false [mkC 1 true 2] false [] ++ build 1 [1; 3] [0; 0] false [mkC 0 true 1; mkC 1 true 1] false [])) =
  Some ([mkA 0 0 1; mkA 1 2 1], None, Ok (Some (1, [(1, false); (3, false)]), [(1, 3, false); (3, 3, false)])).
Proof. reflexivity. Qed.

(* ...so that a build with the right sizes works after another one exactly if the latter left all the levels empty. *)
Theorem C48_rebuild_iff : forall ffl h n0 ne0 ni0 ub0 cs0 mn0 bs0 s0 n ne ni ub cs bs,
  run ffl fresh (h ++ build n0 ne0 ni0 ub0 cs0 mn0 bs0) = Ok s0 ->
  announced n ne ni cs false -> boundsFit n ub bs -> (ub = true -> ffl = true \/ ne <> []) ->
  ((exists s, run ffl s0 (build n ne ni ub cs false bs) = Ok s) <-> forall l, l < length ne -> nth l ne0 0 + nth l ni0 0 = 0).
Proof. exact rebuild_iff. Qed.
Print Assumptions C48_rebuild_iff.

(* The statement of C48 is false: building the same problem twice is out of bounds. *)
Theorem C48_rebuild_refuted : exists n ne ni cs, announced n ne ni cs false /\
  is_ok (run false fresh (build n ne ni false cs false [])) = true /\
  run false fresh (build n ne ni false cs false [] ++ build n ne ni false cs false []) = UB.
Proof.
  exists 1, [1], [0], [mkC 0 true 1]. split; [|split; reflexivity]. split; [reflexivity|]. split; [|split].
  - intros c [<-|[]]. cbn. lia.
  - intros [|l] H; [split; reflexivity|cbn in H; lia].
  - discriminate.
Qed.
Print Assumptions C48_rebuild_refuted.

(* Other things kept from a previous build. With fewer levels, the minimum norm goes to a level that is not of the
   build, and the library is given the data of that level too... *)
Theorem C48_fewer_levels_refuted : exists s c d,
  run false fresh (build 1 [0; 0] [0; 0] false [] false [] ++ build 1 [1] [0] false [] true []) = Ok s /\
  announced 1 [1] [0] [] true /\ identityAt s = Some 1 /\ solve false s = Ok (c, d) /\ ~ accepts c d.
Proof.
  match eval vm_compute in (run false fresh (build 1 [0; 0] [0; 0] false [] false [] ++ build 1 [1] [0] false [] true [])) with Ok ?s => exists s end.
  exists (Some (1, [(1, false)])), [(1, 3, false); (0, 3, false)]. split; [reflexivity|]. split.
  { split; [reflexivity|]. split; [intros c []|]. split; [intros l H; cbn in H; lia|]. intros _. split; [discriminate|]. split; reflexivity. }
  split; [reflexivity|]. split; [reflexivity|]. intros (n & objs & A & B). injection A as <- <-. discriminate.
Qed.
Print Assumptions C48_fewer_levels_refuted.
(* ...when the number of coefficients is the same, the library is not told the new dimensions... *)
Theorem C48_same_area_refuted : exists s c d,
  run false fresh (build 4 [0] [0] true [] false [] ++ build 2 [6] [0] false [mkC 0 true 6] false []) = Ok s /\
  solve false s = Ok (c, d) /\ c = Some (4, [(4, false)]) /\ d = [(6, 4, false)] /\ ~ accepts c d.
Proof.
  match eval vm_compute in (run false fresh (build 4 [0] [0] true [] false [] ++ build 2 [6] [0] false [mkC 0 true 6] false [])) with Ok ?s => exists s end.
  exists (Some (4, [(4, false)])), [(6, 4, false)]. split; [reflexivity|]. split; [reflexivity|]. split; [reflexivity|]. split; [reflexivity|].
  intros (n & objs & A & B). injection A as <- <-. discriminate.
Qed.
Print Assumptions C48_same_area_refuted.
(* ...and without bounds after a build with bounds, solving writes bounds in freed memory. *)
Theorem C48_dangling_bounds_refuted : exists s,
  run false fresh (build 1 [0] [0] true [] false [(0, 1)] ++ build 1 [2] [0] false [mkC 0 true 2] false []) = Ok s /\ solve false s = UB.
Proof.
  match eval vm_compute in (run false fresh (build 1 [0] [0] true [] false [(0, 1)] ++ build 1 [2] [0] false [mkC 0 true 2] false [])) with Ok ?s => exists s end.
  split; reflexivity.
Qed.
Print Assumptions C48_dangling_bounds_refuted.

(* The hierarchical scheme takes a new solver for each build and its builds go as stated, for all problems... *)
Theorem C48_scheme : forall ffl n cs bs add (damping : bool),
  (forall b, In b bs -> fst b + snd b <= n) -> bs = [] \/ ffl = true \/ damping = true \/ cs <> [] \/ add <> [] ->
  let all := cs ++ map (mkC 0 true) add in
  exists s c d, processProblem ffl n cs bs add damping = Ok s /\ stacked (fun _ => 0) all s /\
  length (nEq s) = levels all + (if damping then 1 else 0) /\
  (forall l, l < levels all -> nth l (nEq s) 0 = wanted all l true /\ nth l (nIneq s) 0 = wanted all l false /\ tiled s l (taken all l)) /\
  boundRanges s = bs /\ (bs <> [] -> ralias (xlu s) = false) /\ identityAt s = (if damping then Some (levels all) else None) /\
  solve ffl s = Ok (c, d) /\ ((exists x, In x all /\ 0 < csize x) \/ (damping = true \/ bs <> []) /\ 0 < n -> accepts c d).
Proof. exact scheme_build. Qed.
Print Assumptions C48_scheme.
Example scheme_case : hview (processProblem false 5 [mkC 2 false 2; mkC 0 true 1; mkC 2 true 2] hbs [3; 1] true) =
  Some ([mkA 2 0 2; mkA 0 0 1; mkA 2 2 2; mkA 0 1 3; mkA 0 4 1], Some 3,
        Ok (Some (5, [(10, false); (0, false); (4, false); (5, false)]), [(10, 7, false); (0, 7, false); (4, 7, false); (5, 7, false)])).
Proof. reflexivity. Qed.
(* ...except those with bounds only, without automatic damping nor feasible first level: out of bounds as soon as
   a bound is not on the first row only, *)
Theorem C48_bounds_only_ub : forall n bs b, In b bs -> 1 < fst b + snd b -> processProblem false n [] bs [] false = UB.
Proof. intros n bs b. exact (bounds_only false n bs b eq_refl). Qed.
Print Assumptions C48_bounds_only_ub.
(* and with one variable of size 1 the lower and upper bounds are the same memory, and the library is not set up. *)
Theorem C48_bounds_only_refuted : exists s, processProblem false 1 [] [(0, 1)] [] false = Ok s /\ ralias (xlu s) = true /\ solve false s = Ok (None, []).
Proof. match eval vm_compute in (processProblem false 1 [] [(0, 1)] [] false) with Ok ?s => exists s end. repeat split. Qed.
Print Assumptions C48_bounds_only_refuted.
