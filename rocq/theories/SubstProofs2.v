(* Proofs for C33: one substitution, then the whole group. *)
From Coq Require Import List Bool Arith QArith Lia Lqa.
Import ListNotations.
From Verif Require Import Base QSum SubstModel SubstSpec SubstProofs.
From Verif Require DiagSpec.
Local Open Scope nat_scope.

Lemma seq_shift_add n m : forall o, map (fun i => n + i) (seq o m) = seq (n + o) m.
Proof. induction m as [|m IH]; intros o; simpl; [reflexivity|]. now rewrite IH, Nat.add_succ_r. Qed.
Lemma qsumn_split f n m : (qsumn f (n + m) == qsumn f n + qsumn (fun i => f (n + i)%nat) m)%Q.
Proof.
  unfold qsumn. rewrite seq_app, qsum_app. apply Qplus_comp; [reflexivity|].
  rewrite Nat.add_0_l. rewrite <- (qsum_map (fun i => n + i) f), seq_shift_add, Nat.add_0_r. reflexivity.
Qed.
Lemma qsum_filter {A} (p : A -> bool) (f : A -> Q) l : (qsum f (filter p l) == qsum (fun a => if p a then f a else 0%Q) l)%Q.
Proof. induction l as [|a l IH]; simpl; [reflexivity|]. destruct (p a); simpl; rewrite IH; ring. Qed.
Lemma qsum_inter (f : nat -> Q) l1 l2 : NoDup l1 -> NoDup l2 ->
  (qsum (fun v => if mem v l2 then f v else 0%Q) l1 == qsum (fun v => if mem v l1 then f v else 0%Q) l2)%Q.
Proof.
  intros N1 N2.
  rewrite (qsum_ext (fun v => if mem v l2 then f v else 0%Q) (fun v => qsum (fun w => if Nat.eq_dec w v then f v else 0%Q) l2)).
  - rewrite qsum_swap. apply qsum_ext. intros w Iw. destruct (mem w l1) eqn:E.
    + apply mem_In in E. rewrite (qsum_ext _ (fun v => if Nat.eq_dec v w then f v else 0%Q)).
      * apply (qsum_pick Nat.eq_dec f l1 w N1 E).
      * intros v _. destruct (Nat.eq_dec w v), (Nat.eq_dec v w); congruence || reflexivity.
    + apply mem_not in E. apply qsum_zero. intros v Iv. destruct (Nat.eq_dec w v); [congruence|reflexivity].
  - intros v Iv. destruct (mem v l2) eqn:E.
    + apply mem_In in E. symmetry. apply (qsum_pick Nat.eq_dec (fun _ => f v) l2 v N2 E).
    + apply mem_not in E. symmetry. apply qsum_zero. intros w Iw. destruct (Nat.eq_dec w v); [congruence|reflexivity].
Qed.

Section Step.
Variable sz : nat -> nat.
Variable jac : nat -> nat -> nat -> mat.
Variable e : nat -> nat -> vec.
Variable cal : nat -> calc.
Variable zz : nat -> nat.
Variable val : nat -> vec.

Fixpoint stackV (xs : list nat) : vec :=
  match xs with [] => fun _ => 0%Q | v :: xs' => fun b => if b <? sz v then val v b else stackV xs' (b - sz v) end.
Lemma mulv_stack (F : nat -> mat) xs a :
  (mulv (total sz xs) (stackCols (map (fun v => (sz v, F v)) xs)) (stackV xs) a == qsum (fun v => mulv (sz v) (F v) (val v) a) xs)%Q.
Proof.
  induction xs as [|v xs IH]; [reflexivity|]. cbn [map stackCols stackV total fold_right qsum]. fold (total sz xs).
  unfold mulv at 1. rewrite qsumn_split. apply Qplus_comp.
  - apply qsumn_ext. intros b Lb. rewrite (proj2 (Nat.ltb_lt _ _) Lb). reflexivity.
  - rewrite <- IH. apply qsumn_ext. intros b _. rewrite (proj2 (Nat.ltb_ge _ _)) by lia. replace (sz v + b - sz v) with b by lia. reflexivity.
Qed.
Lemma stackV_eq (X : vec) k Y Zl : forall xs idx row off,
  (forall b, b < total sz xs -> (stackV xs b == X (off + b)%nat)%Q) <->
  (forall x, In x (scanXs sz k xs idx row off Y Zl) -> forall t, t < sz (x_v x) -> (val (x_v x) t == X (x_off x + t)%nat)%Q).
Proof.
  induction xs as [|v xs IH]; intros idx row off.
  - simpl. split; [intros _ x []|intros _ b L; lia].
  - cbn [scanXs total fold_right stackV]. fold (total sz xs). split.
    + intros H x [<-|I] t Lt; cbn [x_v x_off] in *.
      * rewrite <- (H t) by lia. rewrite (proj2 (Nat.ltb_lt _ _) Lt). reflexivity.
      * apply (proj1 (IH (S idx) (row + sz v) (off + sz v))); [|exact I|exact Lt]. intros b Lb.
        specialize (H (sz v + b)). rewrite (proj2 (Nat.ltb_ge (sz v + b) (sz v))) in H by lia.
        replace (sz v + b - sz v) with b in H by lia. rewrite H by lia. replace (off + sz v + b) with (off + (sz v + b)) by lia. reflexivity.
    + intros H b Lb. destruct (Nat.ltb_spec b (sz v)) as [L|L].
      * apply (H (mkX v k idx row off Y Zl) (or_introl eq_refl) b L).
      * rewrite (proj2 (IH (S idx) (row + sz v) (off + sz v)) (fun x I => H x (or_intror I)) (b - sz v)) by lia.
        replace (off + sz v + (b - sz v)) with (off + b) by lia. reflexivity.
Qed.
Lemma scanXs_In k Y Zl : forall xs idx row off x, In x (scanXs sz k xs idx row off Y Zl) ->
  x_sub x = k /\ x_Y x = Y /\ x_Z x = Zl /\ off <= x_off x /\ x_row x + off = row + x_off x /\ x_off x + sz (x_v x) <= off + total sz xs /\ In (x_v x) xs.
Proof.
  induction xs as [|v xs IH]; intros idx row off x I; [destruct I|]. cbn [scanXs] in I. cbn [total fold_right]. fold (total sz xs).
  destruct I as [<-|I]; cbn [x_sub x_Y x_Z x_off x_row x_v].
  - repeat split; try lia. left; reflexivity.
  - destruct (IH _ _ _ _ I) as (H1 & H2 & H3 & H4 & H5 & H6 & H7). repeat split; auto; try lia. now right.
Qed.
Lemma scanXs_map k Y Zl : forall xs idx row off, map x_v (scanXs sz k xs idx row off Y Zl) = xs.
Proof. induction xs as [|v xs IH]; intros; simpl; [reflexivity|]. now rewrite IH. Qed.

(* lookup *)
Lemma lookup_Some v l x : lookup v l = Some x -> In x l /\ x_v x = v.
Proof.
  induction l as [|y l IH]; simpl; [discriminate|]. destruct (Nat.eqb_spec (x_v y) v) as [E|E].
  - intros H. injection H as <-. auto.
  - intros H. destruct (IH H). auto.
Qed.
Lemma lookup_mem v l : (lookup v l = None <-> mem v (map x_v l) = false).
Proof.
  rewrite mem_not. induction l as [|y l IH]; simpl; [tauto|]. destruct (Nat.eqb_spec (x_v y) v) as [E|E].
  - split; [discriminate|]. intros H. exfalso. apply H. auto.
  - rewrite IH. split; [intros H [K|K]; contradiction|tauto].
Qed.
Lemma collect_In vs l x : In x (collect vs l) -> In x l /\ In (x_v x) vs.
Proof.
  induction vs as [|v vs IH]; simpl; [intros []|]. destruct (lookup v l) as [y|] eqn:E.
  - intros [<-|I]; [destruct (lookup_Some _ _ _ E); subst; auto|destruct (IH I); auto].
  - intros I. destruct (IH I); auto.
Qed.
(* the variables of a constraint are its own, those substituted before, and the y *)
Lemma vars_split (f : nat -> Q) (g : xrec -> Q) prev own vs : (forall x, In x prev -> (g x == f (x_v x))%Q) ->
  (qsum f vs == qsum (fun v => if mem v own then f v else 0%Q) vs
     + qsum f (filter (fun v => negb (mem v (map x_v prev)) && negb (mem v own)) vs)
     + qsum g (collect (filter (fun v => negb (mem v own)) vs) prev))%Q.
Proof.
  intros H. induction vs as [|v vs IH]; [reflexivity|]. cbn [qsum filter]. rewrite IH. clear IH.
  destruct (mem v own); cbn [negb andb].
  - rewrite andb_false_r. ring.
  - rewrite andb_true_r. cbn [collect]. destruct (lookup v prev) as [x|] eqn:E.
    + assert (M : mem v (map x_v prev) = true).
      { destruct (mem v (map x_v prev)) eqn:D; [reflexivity|]. apply lookup_mem in D. congruence. }
      rewrite M. cbn [negb qsum]. destruct (lookup_Some _ _ _ E) as [I <-]. rewrite (H x I). ring.
    + apply lookup_mem in E. rewrite E. cbn [negb qsum]. ring.
Qed.

(* the constraints of a substitution, in both worlds *)
Definition cstEq (k i : nat) (cc : cst) (a : nat) : Prop :=
  (qsum (fun v => mulv (sz v) (jac k i v) (val v) a) (c_vars cc) == rhsValue (c_rhs cc) (e k i a))%Q.
Lemma scanCs_laid prev own : forall cs idx loc row, laid row (scanCs prev own cs idx loc row) /\ crows (scanCs prev own cs idx loc row) = rows cs.
Proof.
  induction cs as [|c cs IH]; intros idx loc row; simpl; [auto|]. destruct (IH (S idx) (S loc) (row + c_size c)) as [H1 H2].
  split; [split; [reflexivity|exact H1]|]. now rewrite H2.
Qed.
Lemma rows_link k prev own (xk bb : vec) zv s SY SZ : forall cs idx loc row,
  NoDup own -> (forall cc, In cc cs -> NoDup (c_vars cc)) -> xk = stackV own ->
  (forall x, In x prev -> forall t, t < sz (x_v x) -> (val (x_v x) t == valueOf sz cal zz s x val zv t)%Q) ->
  (forall r, In r (scanCs prev own cs idx loc row) -> rowFact sz jac e cal zz val zv k SY SZ s r) ->
  (forall a, (bb a == c s a - lhsY sz val s SY a - lhsZ zz zv s SZ a)%Q) ->
  ((forall i cc a, nth_error cs i = Some cc -> a < c_size cc -> cstEq k (loc + i) cc a) <->
   (forall a, a < rows cs -> (mulv (total sz own) (stackRows (fillRows sz (jac k) own cs loc)) xk a == bb (row + a)%nat)%Q)).
Proof.
  induction cs as [|cc cs IH]; intros idx loc row No Nv Ek Hp Hr Hb.
  - simpl. split; [intros _ a L; lia|intros _ i ? a E; destruct i; discriminate].
  - assert (P : forall a, a < c_size cc ->
      (mulv (total sz own) (stackCols (map (fun v => (sz v, if mem v (c_vars cc) then jac k loc v else fun _ _ => 0%Q)) own)) xk a - bb (row + a)%nat ==
       qsum (fun v => mulv (sz v) (jac k loc v) (val v) a) (c_vars cc) - rhsValue (c_rhs cc) (e k loc a))%Q).
    { intros a La. rewrite Ek, (mulv_stack (fun v => if mem v (c_vars cc) then jac k loc v else fun _ _ => 0%Q)).
      pose proof (Hr _ (or_introl eq_refl) a La) as R. cbn [k_row k_size k_loc k_Y k_X] in R. rewrite Hb.
      rewrite (vars_split (fun v => mulv (sz v) (jac k loc v) (val v) a)
         (fun l => mulv (sz (x_v l)) (jac k loc (x_v l)) (valueOf sz cal zz s l val zv) a) prev own (c_vars cc)).
      2:{ intros x Ix. apply mulv_ext; [reflexivity|]. intros t Lt. symmetry. now apply Hp. }
      rewrite (qsum_inter (fun v => mulv (sz v) (jac k loc v) (val v) a) (c_vars cc) own (Nv cc (or_introl eq_refl)) No).
      rewrite (qsum_ext (fun v => mulv (sz v) (if mem v (c_vars cc) then jac k loc v else fun _ _ => 0%Q) (val v) a)
                        (fun v => if mem v (c_vars cc) then mulv (sz v) (jac k loc v) (val v) a else 0%Q)).
      2:{ intros v _. destruct (mem v (c_vars cc)); [reflexivity|]. apply qsumn_zero. intros; ring. }
      unfold rhsOf in R. cbn [k_rhs k_loc] in R.
      assert (Er : (match c_rhs cc with ZERO => fun _ : nat => 0%Q | AS_GIVEN => e k loc | OPPOSITE => fun a => (- e k loc a)%Q end a == rhsValue (c_rhs cc) (e k loc a))%Q) by (destruct (c_rhs cc); reflexivity).
      rewrite Er in R. lra. }
    assert (Nv' : forall cc', In cc' cs -> NoDup (c_vars cc')) by (intros; apply Nv; simpl; auto).
    specialize (IH (S idx) (S loc) (row + c_size cc) No Nv' Ek Hp (fun r I => Hr r (or_intror I)) Hb).
    cbn [rows fold_right fillRows stackRows]. fold (rows cs). split.
    + intros H a La. unfold mulv. destruct (Nat.ltb_spec a (c_size cc)) as [L|L].
      * specialize (P a L). specialize (H 0 cc a eq_refl L). unfold cstEq in H. rewrite Nat.add_0_r in H. unfold mulv in P, H. lra.
      * assert (IH' := proj1 IH). assert (Hn : forall i cc0 a0, nth_error cs i = Some cc0 -> a0 < c_size cc0 -> cstEq k (S loc + i) cc0 a0).
        { intros i cc0 a0 E0 L0. replace (S loc + i) with (loc + S i) by lia. now apply (H (S i)). }
        specialize (IH' Hn (a - c_size cc) ltac:(lia)). unfold mulv in IH'. rewrite IH'. replace (row + c_size cc + (a - c_size cc)) with (row + a) by lia. reflexivity.
    + intros H i cc0 a Ei La. destruct i as [|i].
      * simpl in Ei. injection Ei as <-. specialize (P a La). specialize (H a ltac:(lia)). unfold mulv in H. rewrite (proj2 (Nat.ltb_lt _ _) La) in H.
        unfold cstEq. rewrite Nat.add_0_r. unfold mulv in P |- *. lra.
      * simpl in Ei. replace (loc + S i) with (S loc + i) by lia. apply (proj2 IH); [|exact Ei|exact La]. intros a0 L0.
        specialize (H (c_size cc + a0) ltac:(lia)). unfold mulv in H |- *. rewrite (proj2 (Nat.ltb_ge (c_size cc + a0) (c_size cc))) in H by lia.
        replace (c_size cc + a0 - c_size cc) with a0 in H by lia. rewrite H. replace (row + c_size cc + a0) with (row + (c_size cc + a0)) by lia. reflexivity.
Qed.

Definition ctxOk (t : ctx) : Prop :=
  NoDup (map x_v (t_x t)) /\
  forall x, In x (t_x t) -> x_row x + sz (x_v x) <= t_n t /\ x_sub x < t_k t /\ (forall j, In j (x_Z x) -> j < t_k t).
Definition zeroSub (r : urec) (s : ust) : Prop := forall cr, In cr (u_cs r) -> zeroFact (u_SY r) (u_SZ r) s cr.

Lemma scanCs_In prev own : forall cs idx loc row cr, In cr (scanCs prev own cs idx loc row) ->
  (forall x, In x (k_X cr) -> In x prev) /\ (exists cc, In cc cs /\ incl (k_Y cr) (c_vars cc) /\
     k_Y cr = filter (fun v => negb (mem v (map x_v prev)) && negb (mem v own)) (c_vars cc)) /\ row <= k_row cr /\ k_row cr + k_size cr <= row + rows cs.
Proof.
  intros cs idx loc row cr I. destruct (scanCs_laid prev own cs idx loc row) as [L E]. pose proof (laid_In _ _ _ L I) as R. rewrite E in R.
  split; [|split; [|lia]].
  - clear R E L. revert idx loc row I. induction cs as [|cc cs IH]; intros idx loc row I; [destruct I|]. destruct I as [<-|I]; [|eauto].
    cbn [k_X]. intros x Ix. now destruct (collect_In _ _ _ Ix).
  - clear R E L. revert idx loc row I. induction cs as [|cc cs IH]; intros idx loc row I; [destruct I|]. destruct I as [<-|I].
    + exists cc. simpl. repeat split; auto. intros v Iv. now apply filter_In in Iv.
    + destruct (IH _ _ _ I) as (cc' & H1 & H2). exists cc'. simpl. auto.
Qed.

Section One.
Variables (t : ctx) (s : sub).
Hypothesis T : ctxOk t.
Hypothesis Nv : forall cc, In cc (s_cs s) -> NoDup (c_vars cc).
Let r := scanOne sz t s.
Lemma uses_ok : forall cr, In cr (u_cs r) -> NoDup (k_Y cr) /\ (forall j, In j (usesY cr) -> In j (u_SY r)) /\ (forall j, In j (usesZ cr) -> In j (u_SZ r)).
Proof.
  intros cr I. split; [|split].
  - cbn [r u_cs scanOne] in I. destruct (scanCs_In _ _ _ _ _ _ _ I) as (_ & (cc & C1 & _ & C2) & _). rewrite C2. apply NoDup_filter. auto.
  - intros j J. cbn [r u_SY scanOne]. apply nodup_In, in_flat_map. exists cr. split; [exact I|exact J].
  - intros j J. cbn [r u_SZ scanOne]. apply nodup_In, in_flat_map. exists cr. split; [exact I|exact J].
Qed.
Lemma SZ_lt j : In j (u_SZ r) -> j < t_k t.
Proof.
  cbn [r u_SZ scanOne]. intros J. apply nodup_In, in_flat_map in J. destruct J as (cr & I & J). apply in_flat_map in J. destruct J as (x & Ix & J).
  destruct (scanCs_In _ _ _ _ _ _ _ I) as (H & _). exact (proj2 (proj2 (proj2 T x (H x Ix))) j J).
Qed.
Lemma updSub_frame s0 s1 zv : zeroSub r s0 -> updSub sz jac e cal s0 r = Ok s1 ->
  (exists s' z, updCsts sz jac e cal (t_k t) (u_cs r) s0 true = Ok (s', z) /\ M s' = M s0 /\ AsZ s' = AsZ s0 /\ u s' = u s0 /\
     StB s' = StB s0 /\ StZ s' = StZ s0 /\ Stc s' = Stc s0 /\ B s1 = B s' /\ Z s1 = Z s' /\ c s1 = c s' /\
     (forall cr, In cr (u_cs r) -> rowFact sz jac e cal zz val zv (t_k t) (u_SY r) (u_SZ r) s' cr)) /\
  zeroSub r s1 /\
  (forall a, a < t_m t \/ t_m t + u_m r <= a ->
     (forall j b, (B s1 j a b == B s0 j a b)%Q /\ (Z s1 j a b == Z s0 j a b)%Q)) /\
  (forall a, a < t_n t -> (forall j b, M s1 j a b = M s0 j a b /\ AsZ s1 j a b = AsZ s0 j a b) /\ u s1 a = u s0 a) /\
  (forall k', k' <> t_k t -> StB s1 k' = StB s0 k' /\ StZ s1 k' = StZ s0 k' /\ Stc s1 k' = Stc s0 k').
Proof.
  intros Z0 E. unfold updSub in E. cbn [r u_k scanOne] in E. fold r in E.
  change (scanCs (t_x t) (s_xs s) (s_cs s) (t_c t) 0 (t_m t)) with (u_cs r) in E.
  destruct (updCsts sz jac e cal (t_k t) (u_cs r) s0 true) as [[s' z]| |] eqn:E1; try discriminate. cbn [bind] in E.
  destruct (setFlag (uIsZero s') (t_k t) z) as [uz| |]; try discriminate. cbn [bind] in E. injection E as <-.
  destruct (scanCs_laid (t_x t) (s_xs s) (s_cs s) (t_c t) 0 (t_m t)) as [L Er].
  destruct (updCsts_spec sz jac e cal zz val zv (t_k t) (u_SY r) (u_SZ r) (u_cs r) (t_m t) s0 true s' z (NoDup_nodup _ _) (NoDup_nodup _ _) L uses_ok Z0 E1)
    as (H1 & H2 & H3 & H4 & H5 & H6 & H7 & H8 & H9).
  split; [|split; [|split; [|split]]].
  - exists s', z. repeat (split; [first [reflexivity|assumption]|]). intros cr I. apply H1, I.
  - intros cr I. destruct (H1 cr I) as [_ H]. exact H.
  - intros a Ha j b. cbn [B Z]. apply H9. change (u_cs r) with (scanCs (t_x t) (s_xs s) (s_cs s) (t_c t) 0 (t_m t)). rewrite Er. exact Ha.
  - intros a La. cbn [M AsZ u]. rewrite H2, H3, H4.
    assert (IR : inRows (u_n0 r) (u_n r) a = false).
    { unfold inRows. cbn [r u_n0 scanOne]. rewrite (proj2 (Nat.leb_gt _ _) La). reflexivity. }
    split; [|unfold setSeg; match goal with |- context [inRows ?x ?y a] => replace (inRows x y a) with false by (symmetry; exact IR) end; reflexivity].
    intros j b. split; destruct (mem j _); unfold setBlock; try (match goal with |- context [inRows ?x ?y a] => replace (inRows x y a) with false by (symmetry; exact IR) end); reflexivity.
  - intros k' D. cbn [StB StZ Stc]. unfold fupd. apply Nat.eqb_neq in D. rewrite D, H5, H6, H7. auto.
Qed.

Lemma step s0 s1 zv : NoDup (s_xs s) -> zz (t_k t) = u_nz r ->
  contract (rows (s_cs s)) (total sz (s_xs s)) (s_rank s) (fillA sz (jac (t_k t)) s) (cal (t_k t)) ->
  zeroSub r s0 -> updSub sz jac e cal s0 r = Ok s1 ->
  (forall x, In x (t_x t) -> forall b, b < sz (x_v x) -> (val (x_v x) b == valueOf sz cal zz s0 x val zv b)%Q) ->
  ((forall i cc a, nth_error (s_cs s) i = Some cc -> a < c_size cc -> cstEq (t_k t) i cc a) <->
   (exists z, forall x, In x (u_xs r) -> forall b, b < sz (x_v x) -> (val (x_v x) b == valueOf sz cal zz s1 x val (fupd zv (t_k t) z) b)%Q) /\
   (forall a, a < u_m r - u_r r ->
      (qsum (fun j => mulv (sz j) (StB s1 (t_k t) j) (val j) a) (u_SY r)
       + qsum (fun j => mulv (zz j) (StZ s1 (t_k t) j) (zv j) a) (u_SZ r) - Stc s1 (t_k t) a == 0)%Q)).
Proof.
  intros Nx Ez C Z0 E Hp. destruct (updSub_frame s0 s1 zv Z0 E) as ((s' & z' & E1 & H1 & H2 & H3 & _ & _ & _ & HB & HZ & Hc & HR) & _ & _ & F2 & _).
  assert (Hp' : forall x, In x (t_x t) -> forall b, b < sz (x_v x) -> (val (x_v x) b == valueOf sz cal zz s' x val zv b)%Q).
  { intros x Ix b Lb. rewrite (Hp x Ix b Lb). unfold valueOf. rewrite H1, H2, H3. reflexivity. }
  set (bb := fun a => (c s' a - lhsY sz val s' (u_SY r) a - lhsZ zz zv s' (u_SZ r) a)%Q).
  rewrite (rows_link (t_k t) (t_x t) (s_xs s) (stackV (s_xs s)) bb zv s' (u_SY r) (u_SZ r) (s_cs s) (t_c t) 0 (t_m t) Nx Nv eq_refl Hp' HR)
    by (intros; reflexivity).
  fold (fillA sz (jac (t_k t)) s).
  rewrite (solve_linear _ _ _ _ _ (fun a => bb (t_m t + a)%nat) (stackV (s_xs s)) C).
  set (m := rows (s_cs s)) in *. set (n := total sz (s_xs s)) in *. set (K := cal (t_k t)) in *.
  (* the values computed for the variables of this substitution *)
  assert (V : forall z x b, In x (u_xs r) -> b < sz (x_v x) ->
    (valueOf sz cal zz s1 x val (fupd zv (t_k t) z) b ==
     mulv m (k_Ash K) (fun a => bb (t_m t + a)%nat) (x_off x + b)%nat + mulv (n - s_rank s) (k_N K) z (x_off x + b)%nat)%Q).
  { intros z x b Ix Lb. cbn [r u_xs scanOne] in Ix. destruct (scanXs_In _ _ _ _ _ _ _ _ Ix) as (X1 & X2 & X3 & X4 & X5 & X6 & _).
    assert (XR : x_row x + b = t_n t + (x_off x + b)) by lia. assert (XL : x_off x + b < n) by (unfold n; lia).
    assert (IR : inRows (t_n t) n (t_n t + (x_off x + b)) = true).
    { unfold inRows. apply andb_true_iff. split; [apply Nat.leb_le|apply Nat.ltb_lt]; lia. }
    unfold updSub in E. cbn [r u_k scanOne] in E. fold r in E.
    change (scanCs (t_x t) (s_xs s) (s_cs s) (t_c t) 0 (t_m t)) with (u_cs r) in E. rewrite E1 in E. cbn [bind] in E.
    destruct (setFlag (uIsZero s') (t_k t) z') as [uz| |]; try discriminate. cbn [bind] in E. injection E as <-.
    unfold valueOf. cbn [M AsZ u]. rewrite X2. fold r in X3. change (nodup Nat.eq_dec (flat_map (fun c => k_Y c ++ flat_map x_Y (k_X c)) (scanCs (t_x t) (s_xs s) (s_cs s) (t_c t) 0 (t_m t)))) with (u_SY r).
    assert (P1 : (qsum (fun j => mulv (sz j) (block (if mem j (u_SY r) then setBlock (M s' j) (u_n0 r) (u_n r) (opp (mmul (u_m r) (k_Ash K) (block (B s' j) (u_m0 r)))) else M s' j) (x_row x)) (val j) b) (u_SY r)
       == - mulv m (k_Ash K) (fun a => lhsY sz val s' (u_SY r) (t_m t + a)%nat) (x_off x + b)%nat)%Q).
    { unfold lhsY. rewrite (mulv_qsum m (k_Ash K) (fun j a => mulv (sz j) (B s' j) (val j) (t_m t + a)%nat)).
      setoid_replace (- qsum (fun j => mulv m (k_Ash K) (fun a => mulv (sz j) (B s' j) (val j) (t_m t + a)%nat) (x_off x + b)%nat) (u_SY r))%Q
        with ((-1) * qsum (fun j => mulv m (k_Ash K) (fun a => mulv (sz j) (B s' j) (val j) (t_m t + a)%nat) (x_off x + b)%nat) (u_SY r))%Q by ring.
      rewrite <- qsum_scale. apply qsum_ext. intros j Ij. rewrite (proj2 (mem_In _ _) Ij).
      transitivity (mulv (sz j) (opp (mmul m (k_Ash K) (block (B s' j) (t_m t)))) (val j) (x_off x + b)%nat).
      - apply qsumn_ext. intros q _. unfold block at 1. unfold setBlock. rewrite XR. cbn [r u_n0 u_n u_m0 u_m scanOne]. fold n. rewrite IR.
        replace (t_n t + (x_off x + b) - t_n t) with (x_off x + b) by lia. reflexivity.
      - rewrite mulv_mopp, mulv_mmul. unfold mulv, block. ring. }
    assert (P2 : (qsum (fun j => mulv (zz j) (zBlock cal (fun j => if mem j (u_SZ r) then setBlock (AsZ s' j) (u_n0 r) (u_n r) (opp (mmul (u_m r) (k_Ash K) (block (Z s' j) (u_m0 r)))) else AsZ s' j) x j) (fupd zv (t_k t) z j) b) (u_SZ r)
       == - mulv m (k_Ash K) (fun a => lhsZ zz zv s' (u_SZ r) (t_m t + a)%nat) (x_off x + b)%nat)%Q).
    { unfold lhsZ. rewrite (mulv_qsum m (k_Ash K) (fun j a => mulv (zz j) (Z s' j) (zv j) (t_m t + a)%nat)).
      setoid_replace (- qsum (fun j => mulv m (k_Ash K) (fun a => mulv (zz j) (Z s' j) (zv j) (t_m t + a)%nat) (x_off x + b)%nat) (u_SZ r))%Q
        with ((-1) * qsum (fun j => mulv m (k_Ash K) (fun a => mulv (zz j) (Z s' j) (zv j) (t_m t + a)%nat) (x_off x + b)%nat) (u_SZ r))%Q by ring.
      rewrite <- qsum_scale. apply qsum_ext. intros j Ij. pose proof (SZ_lt j Ij) as Lj. unfold zBlock, fupd. rewrite X1.
      replace (j =? t_k t) with false by (symmetry; apply Nat.eqb_neq; lia). rewrite (proj2 (mem_In _ _) Ij).
      transitivity (mulv (zz j) (opp (mmul m (k_Ash K) (block (Z s' j) (t_m t)))) (zv j) (x_off x + b)%nat).
      - apply qsumn_ext. intros q _. unfold block at 1. unfold setBlock. rewrite XR. cbn [r u_n0 u_n u_m0 u_m scanOne]. fold n. rewrite IR.
        replace (t_n t + (x_off x + b) - t_n t) with (x_off x + b) by lia. reflexivity.
      - rewrite mulv_mopp, mulv_mmul. unfold mulv, block. ring. }
    assert (P3 : (qsum (fun j => mulv (zz j) (zBlock cal (fun j => if mem j (u_SZ r) then setBlock (AsZ s' j) (u_n0 r) (u_n r) (opp (mmul (u_m r) (k_Ash K) (block (Z s' j) (u_m0 r)))) else AsZ s' j) x j) (fupd zv (t_k t) z j) b) (x_Z x)
       == - mulv m (k_Ash K) (fun a => lhsZ zz zv s' (u_SZ r) (t_m t + a)%nat) (x_off x + b)%nat + mulv (n - s_rank s) (k_N K) z (x_off x + b)%nat)%Q).
    { rewrite X3. fold n. destruct (Nat.ltb_spec 0 (n - s_rank s)) as [L0|L0].
      - rewrite qsum_app. change (nodup Nat.eq_dec (flat_map (fun c => flat_map x_Z (k_X c)) (scanCs (t_x t) (s_xs s) (s_cs s) (t_c t) 0 (t_m t)))) with (u_SZ r).
        rewrite P2. cbn [qsum].
        assert (P5 : forall As, (mulv (zz (t_k t)) (zBlock cal As x (t_k t)) (fupd zv (t_k t) z (t_k t)) b == mulv (n - s_rank s) (k_N K) z (x_off x + b)%nat)%Q).
        { intros As. unfold zBlock, fupd. rewrite X1, Nat.eqb_refl, Ez. reflexivity. }
        rewrite P5. ring.
      - change (nodup Nat.eq_dec (flat_map (fun c => flat_map x_Z (k_X c)) (scanCs (t_x t) (s_xs s) (s_cs s) (t_c t) 0 (t_m t)))) with (u_SZ r).
        rewrite P2. replace (n - s_rank s) with 0 by lia. unfold mulv at 3. unfold qsumn at 1. cbn [seq qsum]. ring. }
    assert (P4 : (mulv m (k_Ash K) (fun a => bb (t_m t + a)%nat) (x_off x + b)%nat ==
       mulv m (k_Ash K) (fun a => c s' (t_m t + a)%nat) (x_off x + b)%nat
       - mulv m (k_Ash K) (fun a => lhsY sz val s' (u_SY r) (t_m t + a)%nat) (x_off x + b)%nat
       - mulv m (k_Ash K) (fun a => lhsZ zz zv s' (u_SZ r) (t_m t + a)%nat) (x_off x + b)%nat)%Q).
    { unfold bb. rewrite (mulv_ext m (k_Ash K) (k_Ash K) _ (fun a => (c s' (t_m t + a)%nat + - lhsY sz val s' (u_SY r) (t_m t + a)%nat) + - lhsZ zz zv s' (u_SZ r) (t_m t + a)%nat)%Q) by (intros; ring).
      rewrite !mulv_add, !mulv_opp. ring. }
    transitivity (- mulv m (k_Ash K) (fun a => lhsY sz val s' (u_SY r) (t_m t + a)%nat) (x_off x + b)%nat
      + (- mulv m (k_Ash K) (fun a => lhsZ zz zv s' (u_SZ r) (t_m t + a)%nat) (x_off x + b)%nat + mulv (n - s_rank s) (k_N K) z (x_off x + b)%nat)
      + mulv m (k_Ash K) (fun a => c s' (t_m t + a)%nat) (x_off x + b)%nat)%Q; [|rewrite P4; ring].
    apply Qplus_comp; [apply Qplus_comp; [exact P1|exact P3]|].
    unfold setSeg. rewrite XR. match goal with |- context [inRows ?x1 ?y1 ?a1] => replace (inRows x1 y1 a1) with true by (symmetry; exact IR) end.
    match goal with |- context [t_n t + ?w - ?v] => replace (t_n t + w - v) with w by (cbn [r u_n0 scanOne]; lia) end. reflexivity. }
  (* the remaining rows *)
  assert (W : forall a, (qsum (fun j => mulv (sz j) (StB s1 (t_k t) j) (val j) a) (u_SY r)
       + qsum (fun j => mulv (zz j) (StZ s1 (t_k t) j) (zv j) a) (u_SZ r) - Stc s1 (t_k t) a
     == - mulv m (tr (k_S K)) (fun a => bb (t_m t + a)%nat) a)%Q).
  { intros a.
    assert (P4 : (mulv m (tr (k_S K)) (fun a => bb (t_m t + a)%nat) a ==
       mulv m (tr (k_S K)) (fun a => c s' (t_m t + a)%nat) a
       - mulv m (tr (k_S K)) (fun a => lhsY sz val s' (u_SY r) (t_m t + a)%nat) a
       - mulv m (tr (k_S K)) (fun a => lhsZ zz zv s' (u_SZ r) (t_m t + a)%nat) a)%Q).
    { unfold bb. rewrite (mulv_ext m (tr (k_S K)) (tr (k_S K)) _ (fun a => (c s' (t_m t + a)%nat + - lhsY sz val s' (u_SY r) (t_m t + a)%nat) + - lhsZ zz zv s' (u_SZ r) (t_m t + a)%nat)%Q) by (intros; ring).
      rewrite !mulv_add, !mulv_opp. ring. }
    unfold updSub in E. cbn [r u_k scanOne] in E. fold r in E.
    change (scanCs (t_x t) (s_xs s) (s_cs s) (t_c t) 0 (t_m t)) with (u_cs r) in E. rewrite E1 in E. cbn [bind] in E.
    destruct (setFlag (uIsZero s') (t_k t) z') as [uz| |]; try discriminate. cbn [bind] in E. injection E as <-.
    cbn [StB StZ Stc]. unfold fupd. rewrite Nat.eqb_refl. fold K.
    transitivity (mulv m (tr (k_S K)) (fun a => lhsY sz val s' (u_SY r) (t_m t + a)%nat) a
      + mulv m (tr (k_S K)) (fun a => lhsZ zz zv s' (u_SZ r) (t_m t + a)%nat) a - mulv m (tr (k_S K)) (fun a => c s' (t_m t + a)%nat) a)%Q; [|rewrite P4; ring].
    unfold Qminus. apply Qplus_comp; [apply Qplus_comp|reflexivity].
    - unfold lhsY. rewrite (mulv_qsum m (tr (k_S K)) (fun j a => mulv (sz j) (B s' j) (val j) (t_m t + a)%nat)). apply qsum_ext. intros j Ij.
      match goal with |- context [mem j ?l] => replace (mem j l) with true by (symmetry; apply mem_In; exact Ij) end. rewrite mulv_mmul. reflexivity.
    - unfold lhsZ. rewrite (mulv_qsum m (tr (k_S K)) (fun j a => mulv (zz j) (Z s' j) (zv j) (t_m t + a)%nat)). apply qsum_ext. intros j Ij.
      match goal with |- context [mem j ?l] => replace (mem j l) with true by (symmetry; apply mem_In; exact Ij) end. rewrite mulv_mmul. reflexivity. }
  change (u_m r) with m. change (u_r r) with (s_rank s).
  split; intros [(z & Hz) HS]; split.
  - exists z. intros x Ix b Lb. rewrite (V z x b Ix Lb).
    apply (proj1 (stackV_eq (fun i => mulv m (k_Ash K) (fun a => bb (t_m t + a)%nat) i + mulv (n - s_rank s) (k_N K) z i)%Q _ _ _ (s_xs s) _ _ 0) Hz x Ix b Lb).
  - intros a La. rewrite W, (HS a La). reflexivity.
  - exists z. apply (proj2 (stackV_eq (fun i => mulv m (k_Ash K) (fun a => bb (t_m t + a)%nat) i + mulv (n - s_rank s) (k_N K) z i)%Q (t_k t) (u_SY r)
      (if 0 <? n - s_rank s then u_SZ r ++ [t_k t] else u_SZ r) (s_xs s) (length (t_x t)) (t_n t) 0)).
    intros x Ix b Lb. rewrite (Hz x Ix b Lb). now apply V.
  - intros a La. specialize (HS a La). rewrite W in HS. lra.
Qed.
End One.
End Step.
