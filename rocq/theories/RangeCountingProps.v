(* C01-C05: RangeCounting. A history is a list of calls ([op]) on a fresh counter;
   [spec_count h x] is the number of ranges covering x according to the
   specification (RangeCountingSpec.v). *)
Require Import ZArith List Bool Sorting Lia.
Require Import Verif.Base Verif.RangeModel Verif.RangeCountingModel Verif.RangeCountingSpec.
Require Import Verif.RangeCountingProofs5.
Import ListNotations.
Local Open Scope Z_scope.

(* A history with nested, duplicated, adjacent and empty ranges and a failing remove. *)
Definition h0 : list op :=
  [OAdd (mkRange 1 4); OAdd (mkRange 3 4); ORanges true; OAdd (mkRange 10 0);
   ORemove (mkRange 2 3); ORemove (mkRange 2 2); OAdd (mkRange 7 2); OMax; ORanges false].

(* C01. No call of a history is undefined, and ranges(false) lists the maximal
   intervals of the integers still counted. *)
Theorem C01_ranges_maximal_intervals : forall h, Forall valid_op h ->
  exists st outs st' l, run rc_init h = Ok (st, outs) /\ ranges st false = Ok (st', l) /\
    canonical l (fun x => 0 < spec_count h x).
Proof. exact c01. Qed.

(* The list of maximal intervals of a set is unique. *)
Theorem C01_canonical_unique : forall l l' P, canonical l P -> canonical l' P -> l = l'.
Proof. exact canonical_unique. Qed.

Example C01_example : Forall valid_op h0 /\
  exists st outs, run rc_init h0 = Ok (st, outs) /\
    outs = [OutBool true; OutBool true; OutRanges [mkRange 1 2; mkRange 3 2; mkRange 5 2]; OutBool false;
            OutBool true; OutThrow; OutBool true; OutMax 1; OutRanges [mkRange 1 1; mkRange 3 6]].
Proof.
  split; [repeat constructor; simpl; lia|]. eexists _, _. split; [vm_compute; reflexivity|reflexivity].
Qed.

(* C02. The returned flag tells whether ranges(false) changes. *)
Theorem C02_add_flag : forall h st outs r, Forall valid_op h -> run rc_init h = Ok (st, outs) -> 0 <= dim r ->
  exists st' b s1 l1 s2 l2, add st r = Ok (st', b) /\
    ranges st false = Ok (s1, l1) /\ ranges st' false = Ok (s2, l2) /\ (b = true <-> l1 <> l2).
Proof. exact c02_add. Qed.

Theorem C02_remove_flag : forall h st outs r st' b,
  Forall valid_op h -> run rc_init h = Ok (st, outs) -> 0 <= dim r -> remove st r = Ok (st', b) ->
  exists s1 l1 s2 l2,
    ranges st false = Ok (s1, l1) /\ ranges st' false = Ok (s2, l2) /\ (b = true <-> l1 <> l2).
Proof. exact c02_remove. Qed.

Example C02_example : exists st outs s1 s2,
  run rc_init h0 = Ok (st, outs) /\ add st (mkRange 3 4) = Ok (s1, false) /\ remove st (mkRange 3 4) = Ok (s2, true).
Proof. eexists _, _, _, _. split; [vm_compute; reflexivity|]. split; vm_compute; reflexivity. Qed.

(* RangeCounting.h:86-92 also claims that add and remove always change ranges(true):
   adding a range twice does not. *)
Theorem C02_split_always_changes_refuted : exists h st outs r st' b s1 s2 l,
  run rc_init h = Ok (st, outs) /\ 0 < dim r /\ add st r = Ok (st', b) /\
  ranges st true = Ok (s1, l) /\ ranges st' true = Ok (s2, l).
Proof.
  exists [OAdd (mkRange 0 2)]. eexists _, _. exists (mkRange 0 2). eexists _, _, _, _, _.
  split; [vm_compute; reflexivity|]. split; [simpl; lia|]. repeat split; vm_compute; reflexivity.
Qed.

(* C03. remove succeeds exactly when the whole range is counted; otherwise it throws and
   nothing observable changes. *)
Theorem C03_remove_rejects : forall h st outs r,
  Forall valid_op h -> run rc_init h = Ok (st, outs) -> 0 <= dim r ->
  ((exists st' b, remove st r = Ok (st', b)) <-> (forall x, In_range r x -> 1 <= spec_count h x)) /\
  (~ (forall x, In_range r x -> 1 <= spec_count h x) ->
    exists stf, step st (ORemove r) = Ok (stf, OutThrow) /\
      limits stf = limits st /\ maxCount stf = maxCount st /\
      forall split s l, ranges st split = Ok (s, l) -> exists s', ranges stf split = Ok (s', l)).
Proof. exact c03. Qed.

Example C03_example : exists st outs, run rc_init h0 = Ok (st, outs) /\
  remove st (mkRange 1 3) = Throw /\ is_ok (remove st (mkRange 4 5)) = true.
Proof. eexists _, _. split; [vm_compute; reflexivity|]. split; vm_compute; reflexivity. Qed.

(* C04. ranges(true) partitions the counted set in pieces of constant count, after any
   history mixing all the calls. *)
Theorem C04_split_pieces : forall h, Forall valid_op h ->
  exists st outs st' l, run rc_init h = Ok (st, outs) /\ ranges st true = Ok (st', l) /\
    pieces l (fun x => 0 < spec_count h x) /\
    (forall r, In r l -> forall x y, In_range r x -> In_range r y -> spec_count h x = spec_count h y).
Proof. exact c04. Qed.

(* The answer of ranges, in both modes, depends only on the limits, never on the cache. *)
Theorem C04_cache_never_stale : forall h1 h2 st1 st2 o1 o2,
  Forall valid_op h1 -> Forall valid_op h2 ->
  run rc_init h1 = Ok (st1, o1) -> run rc_init h2 = Ok (st2, o2) -> limits st1 = limits st2 ->
  forall split s l, ranges st1 split = Ok (s, l) -> exists s', ranges st2 split = Ok (s', l).
Proof. exact c04_cache. Qed.

Example C04_example : exists st1 o1 st2 o2,
  run rc_init [OAdd (mkRange 0 3); OAdd (mkRange 1 1); ORanges true; ORanges false] = Ok (st1, o1) /\
  run rc_init [ORanges true; OAdd (mkRange 1 1); OAdd (mkRange 0 3)] = Ok (st2, o2) /\
  limits st1 = limits st2 /\ intervals_ st1 <> intervals_ st2.
Proof. eexists _, _, _, _. split; [vm_compute; reflexivity|]. split; [vm_compute; reflexivity|].
  split; [reflexivity|discriminate]. Qed.

(* C05. *)
Theorem C05_maxCount : forall h, Forall valid_op h ->
  exists st outs, run rc_init h = Ok (st, outs) /\
    (forall x, spec_count h x <= maxCount st) /\ (exists x, spec_count h x = maxCount st) /\ isValid st = true.
Proof. exact c05. Qed.

Example C05_example : exists st outs,
  run rc_init [OAdd (mkRange 0 3); OAdd (mkRange 1 1); OAdd (mkRange 1 4)] = Ok (st, outs) /\ maxCount st = 3.
Proof. eexists _, _. split; vm_compute; reflexivity. Qed.

Print Assumptions C01_ranges_maximal_intervals.
Print Assumptions C01_canonical_unique.
Print Assumptions C02_add_flag.
Print Assumptions C02_remove_flag.
Print Assumptions C02_split_always_changes_refuted.
Print Assumptions C03_remove_rejects.
Print Assumptions C04_split_pieces.
Print Assumptions C04_cache_never_stale.
Print Assumptions C05_maxCount.
