(* C79: convex hulls stay attached to their frames. *)
Require Import Reals List Bool Arith Lia Lra.
Require Import Verif.Base Verif.ConeModel Verif.DfModel Verif.CtcModel Verif.CtcSpec Verif.PlSpec Verif.ChModel Verif.ChSpec Verif.ChProofs.
Import ListNotations.
Local Open Scope R_scope.

(* After any calls, an object placed is, by its last placement, attached to a frame as this frame was then: the point x of the
   object is the point of which the coordinates in the frame are those of x through X_f_o. *)
Theorem C79_position : forall junk P l s o, chrun junk (chinit P) l = Ok s ->
  (forall f X Pf, lastPlaced P l o f X Pf -> attached s o X Pf) /\
  ((exists m, cs_tr s o = Some m) <-> exists f X Pf, lastPlaced P l o f X Pf).
Proof. exact position. Qed.
Print Assumptions C79_position.
(* All calls are defined that update hulls made before. *)
Theorem C79_defined : forall junk P l, (exists s, chrun junk (chinit P) l = Ok s) <->
  forall l1 h l2, l = l1 ++ CUpdate h :: l2 -> (h < length (created l1))%nat.
Proof. exact defined. Qed.
Print Assumptions C79_defined.
(* The constructor places the object. *)
Theorem C79_constructed : forall junk P l s o f X, chrun junk (chinit P) (l ++ [CNew o f X]) = Ok s -> attached s o X (framesAfter P l f).
Proof.
  intros junk P l s o f X H. apply (proj1 (position junk P _ s o H) f X). apply last_snoc_here. left. reflexivity.
Qed.
Print Assumptions C79_constructed.
(* When the frames have moved and all hulls are updated, in any order, each hull is attached to its frame as it is now, if no
   two hulls have the same object. *)
Theorem C79_updated : forall junk P l P' hs s o f X, chrun junk (chinit P) (l ++ CMove P' :: map CUpdate hs) = Ok s ->
  (forall h, (h < length (created l))%nat -> In h hs) -> NoDup (map (fun t => fst (fst t)) (created l)) ->
  In (o, f, X) (created l) -> attached s o X (P' f).
Proof. exact all_updated. Qed.
Print Assumptions C79_updated.
(* The transformation of an object attached keeps the distances. *)
Theorem C79_rigid : forall s o X Pf m, attached s o X Pf -> cs_tr s o = Some m -> orthonormal (p_rot X) -> orthonormal (p_rot Pf) ->
  forall x y, distance (schPoint m x) (schPoint m y) = distance x y.
Proof. exact rigid. Qed.
Print Assumptions C79_rigid.

(* The pair made of two hulls is made of the objects they were made with, in this order. *)
Theorem C79_pair : forall junk P l s a b u v o1 f1 X1 o2 f2 X2, chrun junk (chinit P) l = Ok s ->
  nth_error (cs_hulls s) a = Some u -> nth_error (cs_hulls s) b = Some v ->
  nth_error (created l) a = Some (o1, f1, X1) -> nth_error (created l) b = Some (o2, f2, X2) -> makePair u v = (o1, o2).
Proof. exact pair_objects. Qed.
Print Assumptions C79_pair.

(* Frame 0 at the origin, then at (1, 2, 3) after a quarter of a turn about z; the object 7 is 1 above it, half a turn about z. *)
Definition axes0 : m3 := mkM3 (mkV3 1 0 0) (mkV3 0 1 0) (mkV3 0 0 1).
Definition quarter : m3 := mkM3 (mkV3 0 1 0) (mkV3 (-1) 0 0) (mkV3 0 0 1).
Definition half : m3 := mkM3 (mkV3 (-1) 0 0) (mkV3 0 (-1) 0) (mkV3 0 0 1).
Definition ch_P (f : nat) : ptr := mkPT axes0 (mkV3 0 0 0).
Definition ch_P' (f : nat) : ptr := mkPT quarter (mkV3 1 2 3).
Definition ch_above : ptr := mkPT half (mkV3 0 0 1).
Definition ch_calls : list chop := [CNew 7 0 ch_above; CNew 8 0 (ch_P 0)].
Example ch_orth : orthonormal half /\ orthonormal quarter.
Proof. split; intros [x y z]; unfold coordinates, place; cbn; split; f_equal; ring. Qed.
Example ch_run : exists s m, chrun (fun _ => 0) (chinit ch_P) (ch_calls ++ CMove ch_P' :: map CUpdate [1; 0]%nat) = Ok s /\
  NoDup (map (fun t => fst (fst t)) (created ch_calls)) /\ In (7%nat, 0%nat, ch_above) (created ch_calls) /\
  cs_tr s 7%nat = Some m /\ schPoint m (mkV3 10 20 30) = mkV3 (1 + 20) (2 - 10) (3 + 1 + 30).
Proof.
  eexists _, _. split; [reflexivity|]. split; [repeat constructor; cbn; lia|]. split; [cbn; auto|]. split; [reflexivity|].
  rewrite transform_point. unfold place. cbn. f_equal; ring.
Qed.
Example ch_pair : exists s u v, chrun (fun _ => 0) (chinit ch_P) ch_calls = Ok s /\ nth_error (cs_hulls s) 1 = Some u /\
  nth_error (cs_hulls s) 0 = Some v /\ nth_error (created ch_calls) 1 = Some (8%nat, 0%nat, ch_P 0) /\
  nth_error (created ch_calls) 0 = Some (7%nat, 0%nat, ch_above) /\ makePair u v = (8, 7)%nat.
Proof. eexists _, _, _. repeat (split; [reflexivity|]). reflexivity. Qed.
Example ch_last : lastPlaced ch_P (ch_calls ++ [CMove ch_P'; CUpdate 1]%nat) 7 0 ch_above (ch_P 0%nat).
Proof.
  exists [], (CNew 7 0 ch_above), [CNew 8 0 (ch_P 0); CMove ch_P'; CUpdate 1]%nat. split; [reflexivity|]. split; [left; reflexivity|]. split; [reflexivity|].
  intros l3 c' l4 f' X' E [->|(h & -> & N)].
  - destruct l3 as [|? [|? [|? l3]]]; cbn in E; try discriminate. injection E as _ _ _ E. destruct l3; discriminate.
  - destruct l3 as [|? [|? [|? l3]]]; cbn in E; try discriminate; [|injection E as _ _ _ E; destruct l3; discriminate].
    injection E as <- <- <- <-. cbn in N. discriminate.
Qed.

(* Two hulls made with the same object (the constructor takes a shared pointer): after the update of all, one of them is not
   attached to its frame. *)
Theorem C79_shared_refuted : exists P l P' hs s o f X, chrun (fun _ => 0) (chinit P) (l ++ CMove P' :: map CUpdate hs) = Ok s /\
  (forall h, (h < length (created l))%nat -> In h hs) /\ In (o, f, X) (created l) /\ ~ attached s o X (P' f).
Proof.
  exists ch_P, [CNew 7 0 ch_above; CNew 7 0 (ch_P 0)], ch_P', [0; 1]%nat. eexists. exists 7%nat, 0%nat, ch_above.
  split; [reflexivity|]. split; [cbn; intros h Hh; lia|]. split; [cbn; auto|].
  intros (m & E & A). cbn in E. injection E as <-. specialize (A (mkV3 0 0 0)). rewrite transform_point in A.
  unfold place in A. cbn in A. injection A as _ _ A. lra.
Qed.
Print Assumptions C79_shared_refuted.
