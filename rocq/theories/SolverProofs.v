(* C26: the ranges exactly fill the rows. *)
From Coq Require Import List Bool Arith Permutation Lia.
Import ListNotations.
From Verif Require Import Base SolverModel SolverSpec.

(* ---- generic ---- *)
Lemma bind_ok {A B} (x : res A) (f : A -> res B) y :
  bind x f = Ok y -> exists a, x = Ok a /\ f a = Ok y.
Proof. destruct x; simpl; intros; try discriminate; eauto. Qed.

Ltac inv_bind H :=
  let a := fresh "x" in let E := fresh "E" in
  apply bind_ok in H; destruct H as (a & E & H).

Lemma list_sum_perm l l' : Permutation l l' -> list_sum l = list_sum l'.
Proof. induction 1; simpl in *; lia. Qed.
Lemma sumSizes_perm f l l' : Permutation l l' -> sumSizes f l = sumSizes f l'.
Proof. intros. unfold sumSizes. apply list_sum_perm. now apply Permutation_map. Qed.
Lemma sumSizes_app f l l' : sumSizes f (l ++ l') = sumSizes f l + sumSizes f l'.
Proof. unfold sumSizes. now rewrite map_app, list_sum_app. Qed.
Lemma sumSizes_cons f c l : sumSizes f (c :: l) = f c + sumSizes f l.
Proof. reflexivity. Qed.
Lemma traverse_ok {A B} (f : A -> res B) l r :
  traverse f l = Ok r -> Forall2 (fun a b => f a = Ok b) l r.
Proof.
  revert r; induction l; simpl; intros r H.
  - inversion H; constructor.
  - inv_bind H. inv_bind H. inversion H; subst. constructor; auto.
Qed.
Lemma traverse_all {A B} (f : A -> res B) l r :
  Forall2 (fun a b => f a = Ok b) l r -> traverse f l = Ok r.
Proof. induction 1; simpl; auto. now rewrite H, IHForall2. Qed.
Lemma filter_perm {A} (f : A -> bool) l l' : Permutation l l' -> Permutation (filter f l) (filter f l').
Proof.
  induction 1; simpl; auto.
  - destruct (f x); auto.
  - destruct (f x), (f y); auto using perm_swap.
  - eauto using perm_trans.
Qed.

(* ---- maps ---- *)
Definition ids (l : list cstr) := map c_id l.

Definition okEntry (dim : cstr -> nat) (p : cstr * list asg) : Prop :=
  exists a, snd p = [a] /\ a_c a = fst p /\ a_dim a = dim (fst p).
Definition good (dim : cstr -> nat) (m : cmap) (cs : list cstr) : Prop :=
  Permutation (map fst m) cs /\ Forall (okEntry dim) m.

Lemma minsert_fresh c a m :
  ~ In (c_id c) (ids (map fst m)) -> Permutation (minsert c a m) ((c, [a]) :: m).
Proof.
  induction m as [|[d l] m IH]; simpl; intros N; auto.
  destruct (Nat.eqb_spec (c_id c) (c_id d)); [exfalso; apply N; auto|].
  destruct (c_id c <? c_id d); auto.
  eapply perm_trans; [apply perm_skip, IH; tauto|apply perm_swap].
Qed.

Lemma good_insert dim m cs c a :
  good dim m cs -> ~ In (c_id c) (ids cs) -> a_c a = c -> a_dim a = dim c ->
  good dim (minsert c a m) (cs ++ [c]) /\ Permutation (asgs (minsert c a m)) (asgs m ++ [a]).
Proof.
  intros [P F] N Hc Hd.
  assert (N' : ~ In (c_id c) (ids (map fst m))).
  { intros H. apply N. unfold ids in *. eapply Permutation_in; [|exact H]. now apply Permutation_map. }
  pose proof (minsert_fresh c a m N') as Q. split; [split|].
  - eapply perm_trans; [apply Permutation_map, Q|]. simpl.
    eapply perm_trans; [apply perm_skip, P|]. apply Permutation_cons_append.
  - eapply Permutation_Forall; [apply Permutation_sym, Q|]. constructor; auto.
    exists a; auto.
  - unfold asgs. eapply perm_trans; [apply Permutation_flat_map, Q|]. simpl.
    apply Permutation_cons_append.
Qed.

Arguments without : simpl never.
Lemma without_nil l : without l [] = l.
Proof. unfold without. induction l; simpl; auto. f_equal; auto. Qed.
Lemma without_cons l c r : without l (c :: r) = without (without l [c]) r.
Proof.
  unfold without. induction l as [|d l IH]; simpl; auto.
  rewrite orb_false_r.
  destruct (c_id c =? c_id d) eqn:E; simpl; auto.
  destruct (existsb (fun d0 => c_id d0 =? c_id d) r); simpl; auto. f_equal; auto.
Qed.
Lemma filter_filter {A} (f g : A -> bool) l : filter f (filter g l) = filter g (filter f l).
Proof.
  induction l; simpl; auto. destruct (g a) eqn:G, (f a) eqn:F; simpl; rewrite ?G, ?F; auto; f_equal; auto.
Qed.
Lemma filter_without f l r : filter f (without l r) = without (filter f l) r.
Proof. apply filter_filter. Qed.
Lemma without_step d l c :
  without (d :: l) [c] = if c_id c =? c_id d then without l [c] else d :: without l [c].
Proof. unfold without; simpl. rewrite orb_false_r. destruct (c_id c =? c_id d); reflexivity. Qed.
Lemma without_absent l c : ~ In (c_id c) (ids l) -> without l [c] = l.
Proof.
  induction l as [|d l IH]; simpl; auto; intros N. rewrite without_step.
  destruct (Nat.eqb_spec (c_id c) (c_id d)); [exfalso; apply N; auto|].
  f_equal. auto.
Qed.
Lemma without_perm l c : NoDup (ids l) -> In c l -> Permutation l (c :: without l [c]).
Proof.
  induction l as [|d l IH]; simpl; [tauto|]. rewrite without_step. intros N [->|I].
  - inversion N; subst. rewrite Nat.eqb_refl. rewrite without_absent; auto.
  - inversion N; subst.
    destruct (Nat.eqb_spec (c_id c) (c_id d)).
    + exfalso. apply H1. rewrite <- e. apply in_map; auto.
    + eapply perm_trans; [apply perm_skip, IH; auto|apply perm_swap].
Qed.
Lemma without_nodup l r : NoDup (ids l) -> NoDup (ids (without l r)).
Proof.
  unfold without, ids. induction l as [|d l IH]; simpl; auto; intros N. inversion N; subst.
  destruct (existsb _ r); simpl; auto. constructor; auto.
  intros H. apply H1. apply in_map_iff in H. destruct H as (x & E & I).
  apply filter_In in I. apply in_map_iff. exists x; tauto.
Qed.
Lemma without_incl l r : incl (without l r) l.
Proof. intros x H. apply filter_In in H. tauto. Qed.

Lemma merase_ids c m : Permutation (map fst m) (map fst m) ->
  NoDup (ids (map fst m)) -> map fst (merase c m) = without (map fst m) [c].
Proof.
  intros _. induction m as [|[d l] m IH]; simpl; auto. intros N. inversion N; subst.
  rewrite without_step.
  destruct (Nat.eqb_spec (c_id c) (c_id d)); simpl.
  - rewrite without_absent; auto. now rewrite e.
  - f_equal. auto.
Qed.
Lemma merase_forall (Q : cstr * list asg -> Prop) c m : Forall Q m -> Forall Q (merase c m).
Proof.
  induction 1 as [|[d l] m H F IH]; simpl; auto. destruct (c_id c =? c_id d); auto.
Qed.
Lemma without_perm_l l l' r : Permutation l l' -> Permutation (without l r) (without l' r).
Proof. apply filter_perm. Qed.
Lemma nodup_perm_ids l l' : Permutation l l' -> NoDup (ids l) -> NoDup (ids l').
Proof. intros P N. eapply Permutation_NoDup; [|exact N]. now apply Permutation_map. Qed.

Lemma good_erase dim m cs c :
  good dim m cs -> NoDup (ids cs) -> good dim (merase c m) (without cs [c]).
Proof.
  intros [P F] N. split.
  - rewrite merase_ids; auto. now apply without_perm_l.
    eapply nodup_perm_ids; [apply Permutation_sym, P|auto].
  - now apply merase_forall.
Qed.
Lemma good_erase_list dim l : forall m cs,
  good dim m cs -> NoDup (ids cs) ->
  good dim (fold_left (fun m b => merase b m) l m) (without cs l).
Proof.
  induction l as [|c l IH]; simpl; intros m cs G N.
  - now rewrite without_nil.
  - rewrite without_cons. apply IH; [now apply good_erase|now apply without_nodup].
Qed.
Lemma good_perm dim m cs cs' : good dim m cs -> Permutation cs cs' -> good dim m cs'.
Proof. intros [P F] Q. split; auto. now apply perm_trans with cs. Qed.
Lemma good_map dim f m cs : good dim m cs ->
  (forall a, a_c (f a) = a_c a /\ a_dim (f a) = a_dim a) -> good dim (mmap f m) cs.
Proof.
  intros [P F] Hf. split.
  - unfold mmap. rewrite map_map. simpl. auto.
  - unfold mmap. apply Forall_forall. intros p I. apply in_map_iff in I. destruct I as (q & <- & I).
    rewrite Forall_forall in F. destruct (F q I) as (a & E1 & E2 & E3). exists (f a). simpl.
    rewrite E1. destruct (Hf a). repeat split; congruence.
Qed.
Lemma good_mapR dim f m m' cs : good dim m cs -> mmapR f m = Ok m' ->
  (forall a b, f a = Ok b -> a_c b = a_c a /\ a_dim b = a_dim a) -> good dim m' cs.
Proof.
  intros [P F] H Hf. apply traverse_ok in H.
  assert (map fst m' = map fst m /\ Forall (okEntry dim) m') as [E1 E2].
  { clear P. revert F. induction H as [|p q m m' Hpq H IH]; intros F; auto.
    inversion F; subst. destruct (IH H3). inv_bind Hpq. inversion Hpq; subst. split.
    - simpl. congruence.
    - constructor; auto. destruct H2 as (a & E1 & E2 & E3). rewrite E1 in E. simpl in E.
      inv_bind E. inversion E; subst. destruct (Hf _ _ E0). exists x0; simpl. repeat split; congruence. }
  split; auto. now rewrite E1.
Qed.
Lemma good_asgs dim m cs : good dim m cs -> Permutation (map a_c (asgs m)) cs.
Proof.
  intros [P F]. eapply perm_trans; [|exact P]. clear P.
  induction F as [|p m H F IH]; simpl; auto. destruct H as (a & E1 & E2 & E3).
  rewrite E1; simpl. rewrite E2. now apply perm_skip.
Qed.
Lemma good_dims dim m cs : good dim m cs -> Forall (fun a => a_dim a = dim (a_c a)) (asgs m).
Proof.
  intros [P F]. clear P. induction F as [|p m H F IH]; simpl; auto.
  destruct H as (a & E1 & E2 & E3). rewrite E1; simpl. constructor; auto. congruence.
Qed.
Lemma good_nil dim : good dim [] [].
Proof. split; simpl; auto. Qed.

(* ---- tilings ---- *)
Fixpoint chain (s : nat) (l : list (nat * nat)) (e : nat) : Prop :=
  match l with [] => s = e | p :: l' => fst p = s /\ chain (s + snd p) l' e end.
Definition tiling (l : list (nat * nat)) (n : nat) : Prop :=
  exists l', Permutation l l' /\ chain 0 l' n.

Lemma chain_app s l l' m e : chain s l m -> chain m l' e -> chain s (l ++ l') e.
Proof. revert s. induction l; simpl; intros s H H'; [now subst|]. destruct H; eauto. Qed.
Lemma chain_le s l e : chain s l e -> s <= e.
Proof. revert s; induction l; simpl; intros s H; [lia|]. destruct H. apply IHl in H0. lia. Qed.
Lemma chain_fill s l e : chain s l e ->
  forall r, length (filter (inside r) l) = if (s <=? r) && (r <? e) then 1 else 0.
Proof.
  revert s. induction l as [|p l IH]; simpl; intros s H r.
  - subst. destruct (Nat.leb_spec e r), (Nat.ltb_spec r e); simpl; auto; lia.
  - destruct H as [H H']. pose proof (chain_le _ _ _ H').
    specialize (IH _ H' r). unfold inside at 1. rewrite H.
    destruct (Nat.leb_spec s r), (Nat.ltb_spec r (s + snd p)), (Nat.leb_spec (s + snd p) r), (Nat.ltb_spec r e);
      simpl in *; try lia.
Qed.
Lemma filter_length_perm {A} (f : A -> bool) l l' : Permutation l l' ->
  length (filter f l) = length (filter f l').
Proof. intros. apply Permutation_length. now apply filter_perm. Qed.
Lemma tiling_fill l n : tiling l n -> exactly_fill l n.
Proof.
  intros (l' & P & C) r. rewrite (filter_length_perm _ _ _ P). rewrite (chain_fill _ _ _ C).
  reflexivity.
Qed.
Lemma tiling_snoc l l2 n d : tiling l n -> Permutation l2 (l ++ [(n, d)]) -> tiling l2 (n + d).
Proof.
  intros (l' & P & C) Q. exists (l' ++ [(n, d)]). split.
  - eapply perm_trans; [exact Q|]. now apply Permutation_app_tail.
  - eapply chain_app; [exact C|]. simpl. auto.
Qed.
Lemma tiling_nil : tiling [] 0.
Proof. exists []; simpl; auto. Qed.

(* ---- the layout ---- *)
Definition separate (k : kind) : bool := match k with QLD _ | Quadprog _ => true | _ => false end.
Definition bdim (b : cstr) : nat := match c_vars b with v :: _ => v_size v | [] => 0 end.

Record Lay (k : kind) (E I B O : list cstr) (st : state) : Prop := {
  l_eq : good (constraintSize k) (st_eq st) E;
  l_ineq : good (constraintSize k) (st_ineq st) I;
  l_bnd : good bdim (st_bnd st) B;
  l_obj : good c_size (st_obj st) O;
  l_eqSize : st_eqSize st = sumSizes (constraintSize k) E;
  l_ineqSize : st_ineqSize st = sumSizes (constraintSize k) I;
  l_objSize : st_objSize st = sumSizes c_size O;
  l_tc : if separate k
         then tiling (ranges (st_eq st)) (st_eqSize st) /\ tiling (ranges (st_ineq st)) (st_ineqSize st)
         else tiling (ranges (st_eq st) ++ ranges (st_ineq st)) (st_eqSize st + st_ineqSize st);
  l_to : tiling (ranges (st_obj st)) (st_objSize st) }.

Lemma mkAssign_ok c s d D vs a : mkAssign c s d D vs = Ok a ->
  a_c a = c /\ a_start a = s /\ a_dim a = d /\ a_data a = D /\ mappings (c_vars c) vs = Ok (a_cols a) /\
  g_start a = s /\ g_data a = D /\ g_cols a = a_cols a.
Proof. unfold mkAssign. intros H. inv_bind H. inversion H; subst; simpl. repeat split; auto. Qed.

Lemma ranges_insert dim m cs c a :
  good dim m cs -> ~ In (c_id c) (ids cs) -> a_c a = c -> a_dim a = dim c ->
  Permutation (ranges (minsert c a m)) (ranges m ++ [(a_start a, a_dim a)]).
Proof.
  intros. unfold ranges. destruct (good_insert dim m cs c a) as [_ P]; auto.
  eapply perm_trans; [apply Permutation_map, P|]. rewrite map_app. auto.
Qed.

Lemma csize_eq k c : c_double c = false -> constraintSize k c = c_size c.
Proof. intros H. unfold constraintSize. now rewrite H. Qed.
Lemma csize_native k c : separate k = false -> constraintSize k c = c_size c.
Proof. destruct k; simpl; try discriminate; intros _; unfold constraintSize; simpl; now rewrite orb_true_r. Qed.

Lemma Lay_addConstraint k E I B O st c st' :
  Lay k E I B O st -> addConstraint k c st = Ok st' ->
  (c_eq c = true -> c_double c = false) ->
  ~ In (c_id c) (ids (if c_eq c then E else I)) ->
  Lay k (if c_eq c then E ++ [c] else E) (if c_eq c then I else I ++ [c]) B O st' /\
  (st_nEq st' = st_nEq st /\ st_nIneq st' = st_nIneq st /\ st_nObj st' = st_nObj st) /\
  (st_vars st' = st_vars st /\ st_store st' = st_store st /\ st_build st' = st_build st /\
   st_minNorm st' = st_minNorm st).
Proof.
  intros L H Hd N. unfold addConstraint in H.
  destruct (st_build st); simpl in H; [|discriminate].
  destruct (c_eq c) eqn:Q.
  - specialize (Hd eq_refl).
    destruct (nextEq k (st_eqSize st) (st_ineqSize st) c) as [s d] eqn:NX.
    inv_bind H. inversion H; subst; clear H; simpl.
    split; [|repeat split; reflexivity].
    destruct (mkAssign_ok _ _ _ _ _ _ E0) as (A1 & A2 & A3 & _).
    assert (Ed : a_dim x = constraintSize k c).
    { rewrite csize_eq by auto. destruct k; simpl in NX; inversion NX; subst; congruence. }
    destruct L. destruct (good_insert _ _ _ c x l_eq0 N A1 Ed) as [G PA].
    pose proof (ranges_insert _ _ _ c x l_eq0 N A1 Ed) as PR.
    constructor; simpl; auto.
    + rewrite l_eqSize0, sumSizes_app. unfold sumSizes at 3; simpl. lia.
    + destruct (separate k) eqn:SK.
      * destruct l_tc0 as [T1 T2]. split; auto. rewrite <- Ed. eapply tiling_snoc; [exact T1|].
        assert (a_start x = st_eqSize st) as <-; auto.
        { destruct k; simpl in NX, SK; inversion NX; subst; try discriminate; congruence. }
      * replace (st_eqSize st + constraintSize k c + st_ineqSize st)
          with (st_eqSize st + st_ineqSize st + a_dim x) by lia.
        eapply tiling_snoc; [exact l_tc0|].
        assert (a_start x = st_eqSize st + st_ineqSize st) as <-.
        { destruct k; simpl in NX, SK; inversion NX; subst; try discriminate; congruence. }
        eapply perm_trans; [apply Permutation_app_tail, PR|].
        rewrite <- !app_assoc. apply Permutation_app_head. apply Permutation_app_comm.
  - destruct (nextIneq k (st_eqSize st) (st_ineqSize st) c) as [s d] eqn:NX.
    inv_bind H. inversion H; subst; clear H; simpl.
    split; [|repeat split; reflexivity].
    destruct (mkAssign_ok _ _ _ _ _ _ E0) as (A1 & A2 & A3 & _).
    assert (Ed : a_dim x = constraintSize k c).
    { destruct (separate k) eqn:SK.
      - destruct k; simpl in NX, SK; inversion NX; subst; try discriminate; congruence.
      - rewrite csize_native by auto. destruct k; simpl in NX, SK; inversion NX; subst; try discriminate; congruence. }
    destruct L. destruct (good_insert _ _ _ c x l_ineq0 N A1 Ed) as [G PA].
    pose proof (ranges_insert _ _ _ c x l_ineq0 N A1 Ed) as PR.
    constructor; simpl; auto.
    + rewrite l_ineqSize0, sumSizes_app. unfold sumSizes at 3; simpl. lia.
    + destruct (separate k) eqn:SK.
      * destruct l_tc0 as [T1 T2]. split; auto. rewrite <- Ed. eapply tiling_snoc; [exact T2|].
        assert (a_start x = st_ineqSize st) as <-; auto.
        { destruct k; simpl in NX, SK; inversion NX; subst; try discriminate; congruence. }
      * replace (st_eqSize st + (st_ineqSize st + constraintSize k c))
          with (st_eqSize st + st_ineqSize st + a_dim x) by lia.
        eapply tiling_snoc; [exact l_tc0|].
        assert (a_start x = st_eqSize st + st_ineqSize st) as <-.
        { destruct k; simpl in NX, SK; inversion NX; subst; try discriminate; congruence. }
        rewrite <- app_assoc. apply Permutation_app_head. exact PR.
Qed.

Lemma Lay_addBound k E I B O st b st' :
  Lay k E I B O st -> addBound k b st = Ok st' -> ~ In (c_id b) (ids B) ->
  Lay k E I (B ++ [b]) O st' /\
  (st_nEq st' = st_nEq st /\ st_nIneq st' = st_nIneq st /\ st_nObj st' = st_nObj st) /\
  (st_vars st' = st_vars st /\ st_store st' = st_store st /\ st_build st' = st_build st /\
   st_minNorm st' = st_minNorm st).
Proof.
  intros L H N. unfold addBound in H. destruct (st_build st); simpl in H; [|discriminate].
  destruct (c_vars b) as [|v [|w l]] eqn:V; try discriminate. inv_bind H. inversion H; subst; clear H.
  simpl. split; [|repeat split; reflexivity]. destruct L. constructor; simpl; auto.
  apply good_insert; auto. simpl. unfold bdim. now rewrite V.
Qed.

Lemma Lay_addObjective k E I B O st o st' :
  Lay k E I B O st -> addObjective k o st = Ok st' -> ~ In (c_id o) (ids O) ->
  Lay k E I B (O ++ [o]) st' /\
  (st_nEq st' = st_nEq st /\ st_nIneq st' = st_nIneq st /\ st_nObj st' = st_nObj st) /\
  (st_vars st' = st_vars st /\ st_store st' = st_store st /\ st_build st' = st_build st /\
   st_minNorm st' = st_minNorm st).
Proof.
  intros L H N. unfold addObjective in H. destruct (st_build st); simpl in H; [|discriminate].
  destruct (c_l2 o); simpl in H; [|discriminate]. inv_bind H. inversion H; subst; clear H.
  simpl. split; [|repeat split; reflexivity]. destruct (mkAssign_ok _ _ _ _ _ _ E0) as (A1 & A2 & A3 & _).
  destruct L. constructor; simpl; auto.
  - apply good_insert; auto.
  - rewrite l_objSize0, sumSizes_app. unfold sumSizes at 3; simpl. lia.
  - eapply tiling_snoc; [exact l_to0|]. rewrite <- A2, <- A3. eapply ranges_insert; eauto.
Qed.

Definition kept (st st' : state) : Prop :=
  (st_nEq st' = st_nEq st /\ st_nIneq st' = st_nIneq st /\ st_nObj st' = st_nObj st) /\
  (st_vars st' = st_vars st /\ st_store st' = st_store st /\ st_build st' = st_build st /\
   st_minNorm st' = st_minNorm st).
Lemma kept_refl st : kept st st. Proof. repeat split. Qed.
Lemma kept_trans a b c : kept a b -> kept b c -> kept a c.
Proof. unfold kept. intuition congruence. Qed.

Lemma nodup_app_notin (l r : list nat) x : NoDup (l ++ x :: r) -> ~ In x l.
Proof.
  intros N H. apply NoDup_remove_2 in N. apply N. apply in_or_app; auto.
Qed.

Lemma Lay_addConstraints k cs : forall E I B O st st',
  Lay k E I B O st -> foldR (addConstraint k) cs st = Ok st' ->
  Forall (fun c => c_eq c = true -> c_double c = false) cs ->
  NoDup (ids (E ++ filter c_eq cs)) -> NoDup (ids (I ++ filter (fun c => negb (c_eq c)) cs)) ->
  Lay k (E ++ filter c_eq cs) (I ++ filter (fun c => negb (c_eq c)) cs) B O st' /\ kept st st'.
Proof.
  induction cs as [|c cs IH]; simpl; intros E I B O st st' L H F N1 N2.
  - inversion H; subst. rewrite !app_nil_r. split; auto. apply kept_refl.
  - inversion F; subst. inv_bind H.
    destruct (c_eq c) eqn:Q; simpl in *.
    + destruct (Lay_addConstraint _ _ _ _ _ _ _ _ L E0) as [L' K']; rewrite ?Q; auto.
      { unfold ids in *. rewrite map_app in N1. simpl in N1. eapply nodup_app_notin; eauto. }
      rewrite Q in L'.
      assert (A1 : E ++ c :: filter c_eq cs = (E ++ [c]) ++ filter c_eq cs) by now rewrite <- app_assoc.
      rewrite A1 in *.
      destruct (IH _ _ _ _ _ _ L' H H3 N1 N2) as [L2 K2].
      split; auto. eapply kept_trans; eauto.
    + destruct (Lay_addConstraint _ _ _ _ _ _ _ _ L E0) as [L' K']; rewrite ?Q; auto.
      { unfold ids in *. rewrite map_app in N2. simpl in N2. eapply nodup_app_notin; eauto. }
      rewrite Q in L'.
      match goal with |- context [I ++ c :: ?X] =>
        assert (A1 : I ++ c :: X = (I ++ [c]) ++ X) by now rewrite <- app_assoc end.
      rewrite A1 in *.
      destruct (IH _ _ _ _ _ _ L' H H3 N1 N2) as [L2 K2].
      split; auto. eapply kept_trans; eauto.
Qed.

Lemma Lay_addBounds k bs : forall E I B O st st',
  Lay k E I B O st -> foldR (addBound k) bs st = Ok st' -> NoDup (ids (B ++ bs)) ->
  Lay k E I (B ++ bs) O st' /\ kept st st'.
Proof.
  induction bs as [|c cs IH]; simpl; intros E I B O st st' L H N1.
  - inversion H; subst. rewrite !app_nil_r. split; auto. apply kept_refl.
  - inv_bind H. destruct (Lay_addBound _ _ _ _ _ _ _ _ L E0) as [L' K'].
    { unfold ids in *. rewrite map_app in N1. simpl in N1. eapply nodup_app_notin; eauto. }
    assert (A1 : B ++ c :: cs = (B ++ [c]) ++ cs) by now rewrite <- app_assoc.
    rewrite A1 in *. destruct (IH _ _ _ _ _ _ L' H N1) as [L2 K2]. split; auto.
    eapply kept_trans; eauto.
Qed.
Lemma Lay_addObjectives k bs : forall E I B O st st',
  Lay k E I B O st -> foldR (addObjective k) bs st = Ok st' -> NoDup (ids (O ++ bs)) ->
  Lay k E I B (O ++ bs) st' /\ kept st st'.
Proof.
  induction bs as [|c cs IH]; simpl; intros E I B O st st' L H N1.
  - inversion H; subst. rewrite !app_nil_r. split; auto. apply kept_refl.
  - inv_bind H. destruct (Lay_addObjective _ _ _ _ _ _ _ _ L E0) as [L' K'].
    { unfold ids in *. rewrite map_app in N1. simpl in N1. eapply nodup_app_notin; eauto. }
    assert (A1 : O ++ c :: cs = (O ++ [c]) ++ cs) by now rewrite <- app_assoc.
    rewrite A1 in *. destruct (IH _ _ _ _ _ _ L' H N1) as [L2 K2]. split; auto.
    eapply kept_trans; eauto.
Qed.

Lemma Lay_startBuild k x nO nE nI ub st : Lay k [] [] [] [] (startBuild k x nO nE nI ub st).
Proof.
  constructor; simpl; auto using good_nil, tiling_nil.
  destruct (separate k); simpl; auto using tiling_nil.
Qed.
Lemma Lay_setBuild k E I B O st b : Lay k E I B O st -> Lay k E I B O (setBuild b st).
Proof. intros []. constructor; auto. Qed.
Lemma Lay_finalize k E I B O st : Lay k E I B O st -> Lay k E I B O (finalizeBuild st).
Proof. intros []. constructor; auto. Qed.

Lemma nodup_filter_ids f l : NoDup (ids l) -> NoDup (ids (filter f l)).
Proof.
  unfold ids. induction l as [|d l IH]; simpl; auto; intros N. inversion N; subst.
  destruct (f d); simpl; auto. constructor; auto.
  intros H. apply H1. apply in_map_iff in H. destruct H as (x & E & I).
  apply filter_In in I. apply in_map_iff. exists x; tauto.
Qed.

(* The invariant at rest: layout of P, with the counters nX_ equal to the sums. *)
Record Rest (k : kind) (P : prob) (st : state) : Prop := {
  r_lay : Lay k (q_eqs P) (q_ineqs P) (q_bnds P) (q_objs P) st;
  r_vars : st_vars st = q_vars P;
  r_nEq : st_nEq st = st_eqSize st; r_nIneq : st_nIneq st = st_ineqSize st;
  r_build : st_build st = false }.

Lemma build_Rest k P st0 st : wf_prob P -> build k P st0 = Ok st ->
  Rest k P st /\ st_nObj st = st_objSize st /\ st_minNorm st = false /\
  st_store st = fst (resize_ k (totalSize (q_vars P)) (sumSizes c_size (q_objs P))
                         (sumSizes (constraintSize k) (q_eqs P))
                         (sumSizes (constraintSize k) (q_ineqs P))
                         (negb (isNil (q_bnds P))) (st_store st0)).
Proof.
  intros W H. unfold build in H. inv_bind H. inv_bind H. inv_bind H. inversion H; subst; clear H.
  destruct W.
  destruct (Lay_addConstraints _ _ _ _ _ _ _ _ (Lay_startBuild _ _ _ _ _ _ _) E) as [L1 K1]; auto.
  { simpl. now apply nodup_filter_ids. } { simpl. now apply nodup_filter_ids. }
  destruct (Lay_addBounds _ _ _ _ _ _ _ _ L1 E0) as [L2 K2]; auto.
  destruct (Lay_addObjectives _ _ _ _ _ _ _ _ L2 E1) as [L3 K3]; auto.
  pose proof (kept_trans _ _ _ (kept_trans _ _ _ K1 K2) K3) as ((N1 & N2 & N3) & V & S & Bd & M).
  simpl in *. apply Lay_finalize in L3. pose proof L3 as L4. destruct L4; simpl in *.
  unfold q_eqs, q_ineqs in *. split; [constructor; simpl; auto; congruence|]. split; [congruence|]. split; auto.
Qed.

(* ---- process: removals ---- *)
Record Pre (k : kind) (E I B O : list cstr) (st : state) : Prop := {
  p_eqg : good (constraintSize k) (st_eq st) E;
  p_ineqg : good (constraintSize k) (st_ineq st) I;
  p_bndg : good bdim (st_bnd st) B;
  p_objg : good c_size (st_obj st) O;
  p_nEq : st_nEq st = sumSizes (constraintSize k) E;
  p_nIneq : st_nIneq st = sumSizes (constraintSize k) I }.

Lemma sum_without f cs c : NoDup (ids cs) -> In c cs ->
  sumSizes f cs = f c + sumSizes f (without cs [c]).
Proof. intros N I. now rewrite (sumSizes_perm f _ _ (without_perm cs c N I)). Qed.

Lemma incl_without_tail cs c l : NoDup (ids (c :: l)) -> incl (c :: l) cs ->
  incl l (without cs [c]).
Proof.
  intros N I x Hx. apply filter_In. split; [apply I; right; auto|]. simpl. rewrite orb_false_r.
  destruct (Nat.eqb_spec (c_id c) (c_id x)); auto. exfalso. inversion N; subst. apply H1.
  rewrite e. now apply in_map.
Qed.

Definition sameRest (st st' : state) : Prop :=
  st_vars st' = st_vars st /\ st_nObj st' = st_nObj st /\ st_bnd st' = st_bnd st /\
  st_obj st' = st_obj st /\ st_objSize st' = st_objSize st /\
  st_build st' = st_build st /\ st_minNorm st' = st_minNorm st /\ st_store st' = st_store st.

Lemma asgs_merase_incl c m : incl (asgs (merase c m)) (asgs m).
Proof.
  unfold asgs. induction m as [|[d l] m IH]; simpl; [intros x []|].
  destruct (c_id c =? c_id d).
  - intros x H. apply in_or_app; auto.
  - simpl. intros x H. apply in_app_or in H. apply in_or_app. destruct H; auto.
Qed.

Lemma remCs_Pre k l : forall cs B O st st',
  Pre k (filter c_eq cs) (filter (fun c => negb (c_eq c)) cs) B O st ->
  NoDup (ids cs) -> incl l cs -> NoDup (ids l) ->
  remCs k l st = Ok st' ->
  Pre k (filter c_eq (without cs l)) (filter (fun c => negb (c_eq c)) (without cs l)) B O st' /\
  sameRest st st' /\ incl (asgs (st_eq st')) (asgs (st_eq st)) /\
  incl (asgs (st_ineq st')) (asgs (st_ineq st)) /\
  (l = [] -> st' = st).
Proof.
  induction l as [|c l IH]; simpl; intros cs B O st st' Pr N I Nl H.
  - inversion H; subst. rewrite without_nil. split; [auto|split; [repeat split|]]. split; [|split]; auto; intros x; auto.
  - inv_bind H. rewrite without_cons.
    assert (Ic : In c cs) by (apply I; left; auto).
    assert (S1 : Pre k (filter c_eq (without cs [c])) (filter (fun d => negb (c_eq d)) (without cs [c])) B O x
                 /\ sameRest st x /\ incl (asgs (st_eq x)) (asgs (st_eq st)) /\
                 incl (asgs (st_ineq x)) (asgs (st_ineq st))).
    { destruct Pr. destruct (c_eq c) eqn:Q; inv_bind E; inversion E; subst; clear E; unfold dec in E0;
        match type of E0 with (if ?b then _ else _) = _ => destruct b eqn:LT end; try discriminate;
        inversion E0; subst; clear E0; (split; [|split; [repeat split|]]); simpl.
      - constructor; simpl; auto.
        + rewrite filter_without. apply good_erase; auto. now apply nodup_filter_ids.
        + rewrite filter_without, without_absent; auto.
          intros Hi. apply in_map_iff in Hi. destruct Hi as (d & Ed & Id).
          apply filter_In in Id. destruct Id as [Id Qd].
          assert (d = c).
          { pose proof (without_perm cs c N Ic) as PW.
            pose proof (Permutation_in _ PW Id) as [|Id']; auto.
            apply filter_In in Id'. simpl in Id'. rewrite Ed, Nat.eqb_refl in Id'. simpl in Id'. intuition discriminate. }
          subst d. rewrite Q in Qd. discriminate.
        + rewrite p_nEq0. rewrite (sum_without _ (filter c_eq cs) c); try now apply nodup_filter_ids.
          rewrite filter_without. lia. apply filter_In; auto.
        + rewrite p_nIneq0. f_equal. rewrite filter_without, without_absent; auto.
          intros Hi. apply in_map_iff in Hi. destruct Hi as (d & Ed & Id).
          apply filter_In in Id. destruct Id as [Id Qd].
          assert (d = c).
          { pose proof (without_perm cs c N Ic) as PW.
            pose proof (Permutation_in _ PW Id) as [|Id']; auto.
            apply filter_In in Id'. simpl in Id'. rewrite Ed, Nat.eqb_refl in Id'. simpl in Id'. intuition discriminate. }
          subst d. rewrite Q in Qd. discriminate.
      - split; [apply asgs_merase_incl|intros x; auto].
      - constructor; simpl; auto.
        + rewrite filter_without, without_absent; auto.
          intros Hi. apply in_map_iff in Hi. destruct Hi as (d & Ed & Id).
          apply filter_In in Id. destruct Id as [Id Qd].
          assert (d = c).
          { pose proof (without_perm cs c N Ic) as PW.
            pose proof (Permutation_in _ PW Id) as [|Id']; auto.
            apply filter_In in Id'. simpl in Id'. rewrite Ed, Nat.eqb_refl in Id'. simpl in Id'. intuition discriminate. }
          subst d. rewrite Q in Qd. discriminate.
        + rewrite filter_without. apply good_erase; auto. now apply nodup_filter_ids.
        + rewrite p_nEq0. f_equal. rewrite filter_without, without_absent; auto.
          intros Hi. apply in_map_iff in Hi. destruct Hi as (d & Ed & Id).
          apply filter_In in Id. destruct Id as [Id Qd].
          assert (d = c).
          { pose proof (without_perm cs c N Ic) as PW.
            pose proof (Permutation_in _ PW Id) as [|Id']; auto.
            apply filter_In in Id'. simpl in Id'. rewrite Ed, Nat.eqb_refl in Id'. simpl in Id'. intuition discriminate. }
          subst d. rewrite Q in Qd. discriminate.
        + rewrite p_nIneq0. rewrite (sum_without _ (filter (fun d => negb (c_eq d)) cs) c); try now apply nodup_filter_ids.
          rewrite filter_without. lia. apply filter_In. split; auto. now rewrite Q.
      - split; [intros x; auto|apply asgs_merase_incl]. }
    destruct S1 as (S1 & R1 & I1 & I2).
    assert (Nl' : NoDup (ids l)) by now inversion Nl.
    destruct (IH _ _ _ _ st' S1 (without_nodup _ _ N) (incl_without_tail _ _ _ Nl I) Nl' H) as (S2 & R2 & J1 & J2 & _).
    split; auto. split.
    { unfold sameRest in *. intuition congruence. }
    split; [eapply incl_tran; eauto|]. split; [eapply incl_tran; eauto|]. discriminate.
Qed.

Lemma remOs_Pre k l : forall E I B O st st',
  Pre k E I B O st -> NoDup (ids O) -> incl l O -> NoDup (ids l) -> remOs l st = Ok st' ->
  Pre k E I B (without O l) st' /\
  (st_nEq st' = st_nEq st /\ st_nIneq st' = st_nIneq st /\
   st_vars st' = st_vars st /\ st_eq st' = st_eq st /\ st_ineq st' = st_ineq st /\ st_bnd st' = st_bnd st /\
   st_build st' = st_build st /\ st_minNorm st' = st_minNorm st /\ st_store st' = st_store st) /\
  st_nObj st = st_nObj st' + (sumSizes c_size O - sumSizes c_size (without O l)) /\
  sumSizes c_size (without O l) <= sumSizes c_size O /\
  incl (asgs (st_obj st')) (asgs (st_obj st)) /\ (l = [] -> st' = st).
Proof.
  induction l as [|c l IH]; simpl; intros E I B O st st' Pr N Inc Nl H.
  - inversion H; subst. rewrite without_nil. split; [auto|]. split; [repeat split|]. split; [lia|]. split; [lia|]. split; [intros x; auto|auto].
  - inv_bind H. rewrite without_cons.
    assert (Ic : In c O) by (apply Inc; left; auto).
    unfold dec in E0. destruct (Nat.ltb_spec (st_nObj st) (c_size c)); [discriminate|]. inversion E0; subst; clear E0.
    assert (Nl' : NoDup (ids l)) by now inversion Nl.
    assert (Pr' : Pre k E I B (without O [c])
      (mkSt (st_vars st) (st_nEq st) (st_nIneq st) (st_nObj st - c_size c)
            (st_eqSize st) (st_ineqSize st) (st_objSize st) (st_build st) (st_minNorm st)
            (st_eq st) (st_ineq st) (st_bnd st) (merase c (st_obj st)) (st_store st))).
    { destruct Pr. constructor; simpl; auto. now apply good_erase. }
    destruct (IH _ _ _ _ _ _ Pr' (without_nodup _ _ N) (incl_without_tail _ _ _ Nl Inc) Nl' H)
      as (S2 & R2 & C2 & C3 & J & _).
    pose proof (sum_without c_size O c N Ic). simpl in *.
    split; auto. split; [intuition congruence|]. split; [lia|]. split; [lia|]. split.
    + eapply incl_tran; [exact J|]. apply asgs_merase_incl.
    + discriminate.
Qed.
