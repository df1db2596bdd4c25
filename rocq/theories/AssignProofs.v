(* The lists built by Assignment, and what running them does. *)
Require Import QArith Qminmax List Arith Bool Lia Lqa.
Require Import Verif.Base Verif.QSum Verif.AssignModel Verif.AssignSpec.
Import ListNotations.
Local Open Scope Q_scope.

Lemma sumTo_qsumn f n : sumTo f n == qsumn f n.
Proof.
  induction n as [|n IH]; simpl; [reflexivity|]. unfold qsumn in *. rewrite seq_S, qsum_app, IH. simpl. ring.
Qed.
Lemma existsb_In y l : existsb (Nat.eqb y) l = true <-> In y l.
Proof.
  rewrite existsb_exists. split.
  - intros [z [I E]]. apply Nat.eqb_eq in E. subst. exact I.
  - intros I. exists y. split; [exact I|apply Nat.eqb_refl].
Qed.

Lemma fold_add_in ys : forall l z,
  In z (fold_left (fun l y => if existsb (Nat.eqb y) l then l else l ++ [y]) ys l) <-> In z l \/ In z ys.
Proof.
  induction ys as [|y ys IH]; intros l z; simpl; [tauto|]. rewrite IH.
  destruct (existsb (Nat.eqb y) l) eqn:E.
  - apply existsb_In in E. split; [tauto|]. intros [A|[<-|A]]; auto.
  - rewrite in_app_iff. simpl. tauto.
Qed.
Lemma fold_add_nodup ys : forall l, NoDup l ->
  NoDup (fold_left (fun l y => if existsb (Nat.eqb y) l then l else l ++ [y]) ys l).
Proof.
  induction ys as [|y ys IH]; intros l N; simpl; [exact N|]. apply IH.
  destruct (existsb (Nat.eqb y) l) eqn:E; [exact N|].
  assert (~ In y l) by (rewrite <- existsb_In; congruence).
  clear IH E ys. induction N as [|a l Na N IHN]; simpl; [repeat constructor; simpl; tauto|].
  constructor; [rewrite in_app_iff; simpl in *; intuition congruence|]. apply IHN. simpl in H. tauto.
Qed.

Section Desc.
Variables (v_size : nat -> nat) (mapping : nat -> option nat) (src : source) (tgt : target) (sub : substs) (defS defA : bool).
Notation W := (weightOf defS defA).
Notation st := (col mapping).

Definition isSub (y : nat) : bool := match findSub y sub with Some _ => true | None => false end.
Definition svars (y : nat) : list nat := match findSub y sub with Some s => s_vars s | None => [] end.
Definition sbnz (y : nat) : bool := match findSub y sub with Some s => s_bnz s | None => false end.
Definition zs : list nat := filter (fun y => negb (existsb (Nat.eqb y) (c_vars src))) (substInto sub (c_vars src) []).
Definition us : list nat := filter (fun y => negb (Nat.eqb (v_size y) 0) && negb (isSub y)) (c_vars src).
Definition ss : list nat := filter (fun y => negb (Nat.eqb (v_size y) 0) && isSub y) (c_vars src).
Definition zeroA (M : mslot) (y : nat) : masg := mkMA COPY WNone MZero M (st y) (v_size y).
Definition jacA (M : mslot) (flip : bool) (y : nat) : masg := mkMA COPY (W flip) (MJac y) M (st y) (v_size y).
Definition subA (M : mslot) (flip : bool) (y z : nat) : masg :=
  match c_prop src y with
  | PId => mkMA (if flip then SUB else ADD) (W false) (MSub y z) M (st z) (v_size z)
  | PMinusId => mkMA (if flip then ADD else SUB) (W false) (MSub y z) M (st z) (v_size z)
  | PGen => mkMA (if flip then SUB else ADD) (W false) (MProd y z) M (st z) (v_size z)
  end.
Definition vsubA (v : vslot) (flip : bool) (y : nat) : list vasg :=
  if sbnz y then
    let f := if rhs_eqb (t_rhs tgt) AS_GIVEN then negb flip else flip in
    [match c_prop src y with
     | PId => mkVA (if f then SUB else ADD) (W false) (VSub y) v
     | PMinusId => mkVA (if f then ADD else SUB) (W false) (VSub y) v
     | PGen => mkVA (if f then SUB else ADD) (W false) (VProd y) v
     end]
  else [].
Definition vecA (f : rhsf) (v : vslot) (flip : bool) : list vasg :=
  if negb (rhs_eqb (c_rhs src) RZERO) then
    let flip1 := if rhs_eqb (c_rhs src) OPPOSITE then negb flip else flip in
    let flip2 := if rhs_eqb (t_rhs tgt) OPPOSITE then negb flip1 else flip1 in
    [mkVA COPY (W flip2) (VRhs f) v]
  else if negb (rhs_eqb (t_rhs tgt) RZERO) then [mkVA COPY WNone VZero v] else [].
Definition mlist (M : mslot) (flip : bool) : list masg := map (zeroA M) zs ++ map (jacA M flip) us.
Definition mslist (M : mslot) (flip : bool) : list masg := flat_map (fun y => map (subA M flip y) (svars y)) ss.
Definition vlist f1 v1 (fv2 : option (rhsf * vslot)) flip : list vasg :=
  vecA f1 v1 flip ++ match fv2 with Some (f2, v2) => vecA f2 v2 flip | None => [] end.
Definition vslist (v1 : vslot) (v2 : option vslot) (flip : bool) : list vasg :=
  flat_map (fun y => vsubA v1 flip y ++ match v2 with Some v => vsubA v flip y | None => [] end) ss.

Definition cat (x : acc) (m ms : list masg) (v vs : list vasg) : acc :=
  let '(a, b, c, d) := x in (a ++ m, b ++ ms, c ++ v, d ++ vs).
Lemma cat_cat x m ms v vs m' ms' v' vs' : cat (cat x m ms v vs) m' ms' v' vs' = cat x (m ++ m') (ms ++ ms') (v ++ v') (vs ++ vs').
Proof. destruct x as [[[a b] c] d]. simpl. rewrite <- !app_assoc. reflexivity. Qed.
Lemma cat_nil x : cat x [] [] [] [] = x.
Proof. destruct x as [[[a b] c] d]. simpl. rewrite !app_nil_r. reflexivity. Qed.
Lemma addVector_cat f v flip x : addVector src tgt defS defA f v flip x = cat x [] [] (vecA f v flip) [].
Proof.
  unfold addVector, vecA. destruct x as [[[a b] c] d]. destruct (c_rhs src), (t_rhs tgt); simpl; rewrite !app_nil_r; reflexivity.
Qed.
Lemma cols_ok y c n : cols v_size mapping y = Ok (c, n) -> mapping y <> None /\ c = st y /\ n = v_size y.
Proof. unfold cols, col. destruct (mapping y); intros H; inversion H; subst. split; [discriminate|auto]. Qed.
Lemma zeros_cat M l : forall x x', zeros v_size mapping src M l x = Ok x' ->
  let l' := filter (fun y => negb (existsb (Nat.eqb y) (c_vars src))) l in
  x' = cat x (map (zeroA M) l') [] [] [] /\ forall y, In y l' -> mapping y <> None.
Proof.
  induction l as [|y l IH]; intros x x' H; simpl in *.
  - inversion H. rewrite cat_nil. split; [reflexivity|intros y []].
  - destruct (existsb (Nat.eqb y) (c_vars src)); simpl; [apply (IH _ _ H)|].
    unfold addZero in H. destruct (cols v_size mapping y) as [[c n]| |] eqn:C; simpl in H; try discriminate.
    apply cols_ok in C. destruct C as [N [-> ->]]. destruct (IH _ _ H) as [-> A]. split.
    + destruct x as [[[a b] e] d]. simpl. rewrite <- ?app_assoc, ?app_nil_r. reflexivity.
    + intros z [<-|I]; auto.
Qed.
Lemma addMatrixSubs_cat y M flip ys : forall x x', addMatrixSubs v_size mapping src defS defA y M ys flip x = Ok x' ->
  x' = cat x [] (map (subA M flip y) ys) [] [] /\ forall z, In z ys -> mapping z <> None.
Proof.
  induction ys as [|z ys IH]; intros x x' H; simpl in *.
  - inversion H. rewrite cat_nil. split; [reflexivity|intros z []].
  - destruct (cols v_size mapping z) as [[c n]| |] eqn:C; simpl in H; try discriminate.
    apply cols_ok in C. destruct C as [N [-> ->]]. destruct (IH _ _ H) as [-> A]. split.
    + destruct x as [[[a b] e] d]. unfold addMS. simpl. rewrite <- ?app_assoc, ?app_nil_r. reflexivity.
    + intros w [<-|I]; auto.
Qed.
Lemma addVectorSub_cat y s v flip x : findSub y sub = Some s ->
  addVectorSub src tgt defS defA y s v flip x = cat x [] [] [] (vsubA v flip y).
Proof.
  intros F. unfold addVectorSub, vsubA, sbnz. rewrite F. destruct x as [[[a b] c] d].
  destruct (s_bnz s); simpl; rewrite !app_nil_r; reflexivity.
Qed.
Lemma perVar_cat M v1 v2 flip xs : forall x x', perVar v_size mapping src tgt sub defS defA M v1 v2 flip xs x = Ok x' ->
  let u := filter (fun y => negb (Nat.eqb (v_size y) 0) && negb (isSub y)) xs in
  let s := filter (fun y => negb (Nat.eqb (v_size y) 0) && isSub y) xs in
  x' = cat x (map (jacA M flip) u) (flat_map (fun y => map (subA M flip y) (svars y)) s) []
           (flat_map (fun y => vsubA v1 flip y ++ match v2 with Some v => vsubA v flip y | None => [] end) s) /\
  (forall y, In y u -> mapping y <> None) /\ (forall y z, In y s -> In z (svars y) -> mapping z <> None).
Proof.
  induction xs as [|y xs IH]; intros x x' H; simpl in *.
  - inversion H. rewrite cat_nil. split; [reflexivity|]. split; intros; contradiction.
  - destruct (Nat.eqb (v_size y) 0) eqn:Z; simpl; [apply (IH _ _ H)|].
    assert (IS : isSub y = match findSub y sub with Some _ => true | None => false end) by reflexivity.
    destruct (findSub y sub) as [s|] eqn:F; rewrite !IS; simpl.
    + destruct (addMatrixSubs v_size mapping src defS defA y M (s_vars s) flip x) as [x1| |] eqn:A; simpl in H; try discriminate.
      apply addMatrixSubs_cat in A. destruct A as [-> A].
      destruct (IH _ _ H) as [-> [B C]]. rewrite (addVectorSub_cat y s v1 flip _ F).
      split; [|split].
      * assert (SV : svars y = s_vars s) by (unfold svars; rewrite F; reflexivity). rewrite !SV. destruct v2 as [v|].
        -- rewrite (addVectorSub_cat y s v flip _ F), !cat_cat. simpl. rewrite <- ?app_assoc. reflexivity.
        -- rewrite !cat_cat. simpl. rewrite <- ?app_assoc. reflexivity.
      * exact B.
      * intros w z [<-|I] J; [|eauto]. apply A. unfold svars in J. rewrite F in J. exact J.
    + unfold addMatrix in H. destruct (cols v_size mapping y) as [[c n]| |] eqn:C; simpl in H; try discriminate.
      apply cols_ok in C. destruct C as [N [-> ->]]. destruct (IH _ _ H) as [-> [B D]]. split; [|split].
      * destruct x as [[[a b] e] d]. simpl. rewrite <- ?app_assoc. reflexivity.
      * intros w [<-|I]; auto.
      * exact D.
Qed.
Definition mapped : Prop :=
  (forall y, In y zs -> mapping y <> None) /\ (forall y, In y us -> mapping y <> None) /\
  (forall y z, In y ss -> In z (svars y) -> mapping z <> None).
Lemma addAssignments_cat M f1 v1 fv2 flip x x' :
  addAssignments v_size mapping src tgt sub defS defA M f1 v1 fv2 flip x = Ok x' ->
  x' = cat x (mlist M flip) (mslist M flip) (vlist f1 v1 fv2 flip)
           (vslist v1 (match fv2 with Some (_, v2) => Some v2 | None => None end) flip) /\ mapped.
Proof.
  unfold addAssignments. intros H. rewrite addVector_cat in H.
  set (x2 := match fv2 with Some (f2, v2) => _ | None => _ end) in H.
  assert (X2 : x2 = cat x [] [] (vlist f1 v1 fv2 flip) []).
  { unfold x2, vlist. destruct fv2 as [[f2 v2]|]; [rewrite addVector_cat, cat_cat|rewrite app_nil_r]; reflexivity. }
  rewrite X2 in H. clear x2 X2.
  destruct (zeros v_size mapping src M (substInto sub (c_vars src) []) _) as [x3| |] eqn:Z; simpl in H; try discriminate.
  apply zeros_cat in Z. destruct Z as [-> Z]. apply perVar_cat in H. destruct H as [-> [B C]]. split.
  - rewrite !cat_cat. simpl. rewrite !app_nil_r. reflexivity.
  - split; [exact Z|split; [exact B|exact C]].
Qed.
(* the variables substituted into *)
Lemma substInto_in xs : forall l z, In z (substInto sub xs l) <-> In z l \/ exists x, In x xs /\ In z (svars x).
Proof using Type. try clear mapping; try clear v_size; try clear src.
  induction xs as [|x xs IH]; intros l z; simpl.
  - split; [tauto|]. intros [A|[x [[] _]]]. exact A.
  - rewrite IH. unfold svars. destruct (findSub x sub) as [s|] eqn:F.
    + rewrite fold_add_in. split.
      * intros [[A|A]|[y [A B]]]; [auto| |right; exists y; auto]. right. exists x. rewrite F. auto.
      * intros [A|[y [[<-|A] B]]]; [auto| |right; exists y; auto]. rewrite F in B. auto.
    + split.
      * intros [A|[y [A B]]]; [auto|]. right. exists y. auto.
      * intros [A|[y [[<-|A] B]]]; [auto| |right; exists y; auto]. rewrite F in B. destruct B.
Qed.
Lemma substInto_nodup xs : forall l, NoDup l -> NoDup (substInto sub xs l).
Proof using Type. try clear mapping; try clear v_size; try clear src.
  induction xs as [|x xs IH]; intros l N; simpl; [exact N|]. apply IH.
  destruct (findSub x sub); [apply fold_add_nodup|]; exact N.
Qed.
Lemma zs_in z : In z zs <-> ~ In z (c_vars src) /\ exists x, In x (c_vars src) /\ In z (svars x).
Proof using Type. try clear mapping; try clear v_size; try clear src.
  unfold zs. rewrite filter_In, substInto_in, negb_true_iff. rewrite <- (existsb_In z (c_vars src)). simpl.
  destruct (existsb (Nat.eqb z) (c_vars src)); intuition congruence.
Qed.
Lemma zs_nodup : NoDup zs.
Proof using Type. try clear mapping; try clear v_size; try clear src. apply NoDup_filter, substInto_nodup. constructor. Qed.
Lemma isSub_false y : isSub y = false <-> findSub y sub = None.
Proof using Type. try clear mapping; try clear v_size; try clear src. unfold isSub. destruct (findSub y sub); split; congruence. Qed.
Lemma us_in y : In y us <-> In y (c_vars src) /\ v_size y <> 0%nat /\ findSub y sub = None.
Proof using Type. try clear mapping; try clear v_size; try clear src. unfold us. rewrite filter_In, andb_true_iff, !negb_true_iff, Nat.eqb_neq, isSub_false. tauto. Qed.
Lemma ss_in y : In y ss <-> In y (c_vars src) /\ v_size y <> 0%nat /\ findSub y sub <> None.
Proof using Type. try clear mapping; try clear v_size; try clear src.
  unfold ss. rewrite filter_In, andb_true_iff, negb_true_iff, Nat.eqb_neq. unfold isSub.
  destruct (findSub y sub); intuition congruence.
Qed.
End Desc.

(* ---------- running the lists ---------- *)
Definition sg (flip : bool) : Q := if flip then -(1) else 1.
Definition vget (v : vslot) (m : mem) : vec := match v with Sl => ml m | Su => mu m | _ => mb m end.
Definition sameobj (v w : vslot) : bool :=
  match v, w with
  | Sl, Sl | Su, Su => true
  | (Sb | SbFirst | SbSecond), (Sb | SbFirst | SbSecond) => true
  | _, _ => false
  end.

Section RunFacts.
Variable v_size : nat -> nat.
Variable V : values.
Variable d : wdata.
Variable t : target.
Notation rM := (runM v_size V d t).
Notation rV := (runV v_size V d t).

Definition touchM (r : nat) (a : masg) : bool := inRange r (fst (mrows t (ma_slot a))) (snd (mrows t (ma_slot a))).
Definition touchV (v : vslot) (r : nat) (a : vasg) : bool :=
  sameobj v (va_slot a) && inRange r (fst (vrows t (va_slot a))) (snd (vrows t (va_slot a))).
Definition stepV (v : vslot) (r : nat) (q : Q) (a : vasg) : Q :=
  if touchV v r a
  then applyA (va_kind a) q (applyW d (va_w a) (r - fst (vrows t (va_slot a))) (vsrcVal v_size V (va_src a) (r - fst (vrows t (va_slot a)))))
  else q.
Definition qf (v : vslot) (r : nat) (l : list vasg) (q : Q) : Q := fold_left (stepV v r) l q.

Lemma runV_vget v r a m : vget v (rV m a) r = stepV v r (vget v m r) a.
Proof.
  unfold runV, stepV, touchV. destruct (vrows t (va_slot a)) as [r0 rd] eqn:E. cbn [fst snd].
  destruct v, (va_slot a); cbn; reflexivity.
Qed.
Lemma fold_vget v r l : forall m, vget v (fold_left rV l m) r = qf v r l (vget v m r).
Proof. induction l as [|a l IH]; intros m; simpl; [reflexivity|]. rewrite IH, runV_vget. reflexivity. Qed.
Lemma fold_V_A l : forall m, mA (fold_left rV l m) = mA m.
Proof.
  induction l as [|a l IH]; intros m; simpl; [reflexivity|]. rewrite IH. unfold runV.
  destruct (vrows t (va_slot a)). destruct (va_slot a); reflexivity.
Qed.
Lemma fold_M_vget v l : forall m, vget v (fold_left rM l m) = vget v m.
Proof.
  induction l as [|a l IH]; intros m; simpl; [reflexivity|]. rewrite IH. unfold runM.
  destruct (mrows t (ma_slot a)). destruct v; reflexivity.
Qed.
Lemma runM_untouched r c a m : touchM r a = false -> mA (rM m a) r c = mA m r c.
Proof. unfold touchM, runM. destruct (mrows t (ma_slot a)) as [r0 rd]. simpl. intros ->. reflexivity. Qed.
Lemma fold_M_untouched r c l : forall m, (forall a, In a l -> touchM r a = false) -> mA (fold_left rM l m) r c = mA m r c.
Proof.
  induction l as [|a l IH]; intros m H; simpl; [reflexivity|].
  rewrite IH, runM_untouched; [reflexivity|apply H; simpl; auto|intros; apply H; simpl; auto].
Qed.
Lemma qf_untouched v r l : forall q, (forall a, In a l -> touchV v r a = false) -> qf v r l q = q.
Proof.
  unfold qf. induction l as [|a l IH]; intros q H; simpl; [reflexivity|].
  unfold stepV at 2. rewrite H by (simpl; auto). apply IH. intros; apply H; simpl; auto.
Qed.
Lemma qf_app v r l l' q : qf v r (l ++ l') q = qf v r l' (qf v r l q).
Proof. apply fold_left_app. Qed.
Lemma qf_flat {B} v r (ch : B -> list vasg) (g : B -> Q) l :
  (forall b, In b l -> forall q, qf v r (ch b) q == q + g b) -> forall q, qf v r (flat_map ch l) q == q + qsum g l.
Proof.
  induction l as [|b l IH]; intros H q; simpl; [unfold qf; simpl; ring|].
  rewrite qf_app, IH by (intros; apply H; simpl; auto). rewrite H by (simpl; auto). ring.
Qed.
End RunFacts.

Lemma inRange_spec i s n : inRange i s n = true <-> (s <= i < s + n)%nat.
Proof. unfold inRange. rewrite andb_true_iff, Nat.leb_le, Nat.ltb_lt. lia. Qed.
Lemma inRange_false i s n : ~ (s <= i < s + n)%nat -> inRange i s n = false.
Proof. intros H. destruct (inRange i s n) eqn:E; [|reflexivity]. apply inRange_spec in E. tauto. Qed.

(* ---------- columns ---------- *)
Section Columns.
Variable v_size : nat -> nat.
Variables (vars : list nat) (mapping : nat -> option nat).
Hypothesis L : layout v_size vars mapping.
Notation st := (col mapping).
Lemma col_disjoint y z k : In y vars -> In z vars -> (k < v_size y)%nat ->
  inRange (st y + k) (st z) (v_size z) = true -> y = z.
Proof.
  destruct L as [_ [M D]]. intros Y Z K R. apply inRange_spec in R. apply M in Y. apply M in Z. unfold col in R.
  destruct (mapping y) as [c|] eqn:My; [|congruence]. destruct (mapping z) as [c'|] eqn:Mz; [|congruence].
  destruct (Nat.eq_dec y z) as [E|E]; [exact E|]. exfalso.
  apply (D y z c c' E My Mz k (c + k - c')%nat); lia.
Qed.
Lemma rowval_add A A' x r z g : In z vars ->
  (forall c, A' r c == if inRange c (st z) (v_size z) then A r c + g (c - st z)%nat else A r c) ->
  rowval v_size mapping vars A' x r == rowval v_size mapping vars A x r + qsumn (fun k => g k * x z k) (v_size z).
Proof.
  intros I H. unfold rowval.
  pose proof (qsum_pick Nat.eq_dec (fun z => qsumn (fun k => g k * x z k) (v_size z)) vars z (proj1 L) I) as E.
  cbv beta in E. rewrite <- E. clear E.
  rewrite <- qsum_add. apply qsum_ext. intros y Iy. destruct (Nat.eq_dec y z) as [->|N].
  - rewrite <- qsumn_add. apply qsumn_ext. intros k K. rewrite H.
    replace (inRange (st z + k) (st z) (v_size z)) with true by (symmetry; apply inRange_spec; lia).
    replace (st z + k - st z)%nat with k by lia. ring.
  - rewrite Qplus_0_r. apply qsumn_ext. intros k K. rewrite H.
    destruct (inRange (st y + k) (st z) (v_size z)) eqn:E; [|reflexivity].
    apply (col_disjoint y z k Iy I K) in E. congruence.
Qed.
Lemma rowval_ext A A' x r : (forall c, A' r c == A r c) -> rowval v_size mapping vars A' x r == rowval v_size mapping vars A x r.
Proof. intros H. apply qsum_ext. intros y _. apply qsumn_ext. intros k _. rewrite H. reflexivity. Qed.
End Columns.
