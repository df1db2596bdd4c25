From Coq Require Import List Arith Bool Lia.
From Verif Require Import Base MalModel MalSpec.
Import ListNotations.

Lemma exec_spec c : forall m, mal_exec true c m = MalUB \/
  match mal_depth c with
  | None => mal_exec true c m = MalOk m
  | Some n => mal_exec true c m = MalExc (mal_open n m)
  end.
Proof.
  induction c as [| | |a IHa b IHb|a IHa]; intro m; simpl; auto.
  - destruct (mal_flag m); auto.
  - destruct (IHa m) as [E|E]; [rewrite E; auto|].
    destruct (mal_depth a) as [n|]; rewrite E; simpl; auto.
  - destruct (IHa {| mal_flag := true; mal_stack := mal_flag m :: mal_stack m |}) as [E|E].
    + rewrite E; auto.
    + destruct (mal_depth a) as [n|]; rewrite E; simpl; auto. destruct m; auto.
Qed.

Lemma exec_unchecked c : forall m,
  mal_exec false c m = match mal_depth c with None => MalOk m | Some _ => MalExc m end.
Proof.
  induction c as [| | |a IHa b IHb|a IHa]; intro m; simpl; auto.
  - rewrite IHa. destruct (mal_depth a); simpl; auto.
  - rewrite IHa. destruct (mal_depth a); simpl; auto.
Qed.

Lemma exec_allowed c : forall m, mal_flag m = true -> mal_exec true c m <> MalUB.
Proof.
  induction c as [| | |a IHa b IHb|a IHa]; intros m F; simpl; try discriminate.
  - rewrite F. discriminate.
  - specialize (IHa m F). destruct (exec_spec a m) as [E|E]; [congruence|].
    destruct (mal_depth a); rewrite E; simpl; [discriminate|auto].
  - specialize (IHa {| mal_flag := true; mal_stack := mal_flag m :: mal_stack m |} eq_refl).
    destruct (exec_spec a {| mal_flag := true; mal_stack := mal_flag m :: mal_stack m |}) as [E|E]; [congruence|].
    destruct (mal_depth a); rewrite E; simpl; discriminate.
Qed.

(* The outcome of a solve, as far as the permission is concerned. *)
Definition mem_of (o : mal_wout) : mal_out :=
  match o with WOk w => MalOk (mw_mem w) | WExc w => MalExc (mw_mem w) | WUB => MalUB end.

Lemma mem_then o k : mem_of (mal_wthen o k) =
  match o with WOk w => mem_of (k w) | WExc w => MalExc (mw_mem w) | WUB => MalUB end.
Proof. destruct o; reflexivity. Qed.

Lemma mem_lift w o : mem_of (mal_lift w o) = o.
Proof. destruct o; reflexivity. Qed.

Lemma mem_then' o k f : (forall w, o = WOk w -> mem_of (k w) = f (mw_mem w)) ->
  mem_of (mal_wthen o k) = mal_then (mem_of o) f.
Proof. intro H. destruct o; simpl; auto. Qed.

Lemma mem_stage ch e c w : mem_of (mal_stage ch e c w) = mal_exec ch c (mw_mem w).
Proof. unfold mal_stage. rewrite mem_lift. reflexivity. Qed.

Lemma mem_finalize ch p c w : mem_of (mal_finalize ch p c w) =
  mal_exec ch (if existsb (Nat.eqb p) (mw_final w) then MSkip else c) (mw_mem w).
Proof.
  unfold mal_finalize. destruct (existsb _ _); [reflexivity|].
  rewrite (mem_then' _ _ MalOk) by reflexivity. rewrite mem_stage.
  destruct (mal_exec ch c (mw_mem w)); reflexivity.
Qed.

Lemma finalize_final ch p c w w' : mal_finalize ch p c w = WOk w' ->
  existsb (Nat.eqb p) (mw_final w') = true.
Proof.
  unfold mal_finalize. destruct (existsb _ _) eqn:E.
  - intro H. injection H as <-. auto.
  - destruct (mal_stage ch (EFinal p) c w); simpl; intro H; try discriminate.
    injection H as <-. simpl. rewrite Nat.eqb_refl. auto.
Qed.

Lemma then_assoc o f g : mal_then (mal_then o f) g = mal_then o (fun m => mal_then (f m) g).
Proof. destruct o; reflexivity. Qed.

Lemma mem_tail ch p s d sc w :
  mem_of (mal_wthen (mal_stage ch (EUpdate p) (ms_update sc) w) (fun w3 =>
  mal_wthen (mal_stage ch (EUpdata p s d) (MTemp (ms_updata sc)) w3) (fun w4 =>
  mal_wthen (mal_stage ch (ESolve p s d (ms_result sc)) (ms_solve sc) w4) (fun w5 =>
  mal_wthen (mal_stage ch (ESetVars d) (ms_setvars sc) w5) (fun w6 =>
  mal_stage ch (ESubst p) (ms_subst sc) w6))))) = mal_exec ch (mal_rest sc) (mw_mem w).
Proof.
  unfold mal_rest.
  rewrite (mem_then' _ _ (mal_exec ch (MSeq (MTemp (ms_updata sc)) (MSeq (ms_solve sc) (MSeq (ms_setvars sc) (ms_subst sc)))))).
  { rewrite mem_stage. reflexivity. }
  intros w3 _. rewrite (mem_then' _ _ (mal_exec ch (MSeq (ms_solve sc) (MSeq (ms_setvars sc) (ms_subst sc))))).
  { rewrite mem_stage. reflexivity. }
  intros w4 _. rewrite (mem_then' _ _ (mal_exec ch (MSeq (ms_setvars sc) (ms_subst sc)))).
  { rewrite mem_stage. reflexivity. }
  intros w5 _. rewrite (mem_then' _ _ (mal_exec ch (ms_subst sc))).
  { rewrite mem_stage. reflexivity. }
  intros w6 _. apply mem_stage.
Qed.

Lemma mem_again ch p s sc w d : mal_find p s (mw_data w) = Some d ->
  mem_of (mal_solve ch p s sc w) = mal_exec ch (mal_again w p sc) (mw_mem w).
Proof.
  intro H. unfold mal_solve, mal_get_data. rewrite H.
  rewrite (mem_then' _ _ (mal_exec ch (mal_rest sc))).
  - rewrite mem_finalize. reflexivity.
  - intros w2 _. apply mem_tail.
Qed.

Lemma mem_first ch p s sc w : mal_find p s (mw_data w) = None ->
  mem_of (mal_solve ch p s sc w) =
  mal_then (mal_exec ch (mal_final_code w p sc) (mw_mem w)) (fun m =>
  mal_exec ch (MSeq (ms_create sc) (mal_rest sc)) (mal_override ch true m)).
Proof.
  intro H. unfold mal_solve, mal_get_data. rewrite H.
  rewrite (mem_then' _ _ (fun m => mal_exec ch (MSeq (ms_create sc) (mal_rest sc)) (mal_override ch true m))).
  - rewrite mem_finalize. reflexivity.
  - intros w1 E. rewrite (mem_then' _ _ (mal_exec ch (mal_rest sc))).
    + rewrite mem_lift. unfold mal_create. reflexivity.
    + intros w2 E2. set (w3 := {| mw_mem := mw_mem w2 |}).
      assert (F : mal_finalize ch p (ms_final sc) w3 = WOk w3).
      { unfold mal_finalize. simpl. pose proof (finalize_final _ _ _ _ _ E) as F.
        assert (X : mw_final w2 = mw_final w1).
        { destruct (mal_create ch (ms_create sc) (mw_mem w1)); simpl in E2; try discriminate.
          injection E2 as <-. reflexivity. }
        rewrite X, F. reflexivity. }
      simpl. rewrite F. simpl. rewrite mem_tail. reflexivity.
Qed.

Lemma find_fresh p s l : mal_find p s l = None <-> forall d, ~ In (p, s, d) l.
Proof.
  induction l as [|[[p' s'] d] l IH]; simpl; [split; auto|].
  destruct (Nat.eqb p p' && Nat.eqb s s') eqn:E.
  - apply andb_true_iff in E as [E1 E2]. apply Nat.eqb_eq in E1, E2. subst.
    split; [discriminate|]. intro H. exfalso. apply (H d). auto.
  - rewrite IH. split; intros H x.
    + intros [X|X]; [|exact (H x X)]. injection X as -> -> ->. rewrite !Nat.eqb_refl in E. discriminate.
    + intro X. apply (H x). auto.
Qed.

Lemma find_in p s l d : mal_find p s l = Some d -> In (p, s, d) l.
Proof.
  induction l as [|[[p' s'] e] l IH]; simpl; [discriminate|].
  destruct (Nat.eqb p p' && Nat.eqb s s') eqn:E; auto.
  apply andb_true_iff in E as [E1 E2]. apply Nat.eqb_eq in E1, E2. subst.
  intro H. injection H as ->. auto.
Qed.

Lemma fresh_find w p s : mal_fresh w p s <-> mal_find p s (mw_data w) = None.
Proof. symmetry. apply find_fresh. Qed.

(* Exact effect of a later resolution. *)
Theorem again_exact p s sc w : ~ mal_fresh w p s ->
  match mal_solve true p s sc w with
  | WOk w' => mal_depth (mal_again w p sc) = None /\ mw_mem w' = mw_mem w
  | WExc w' => exists n, mal_depth (mal_again w p sc) = Some n /\ mw_mem w' = mal_open n (mw_mem w)
  | WUB => mal_flag (mw_mem w) = false
  end.
Proof.
  intro F. destruct (mal_find p s (mw_data w)) as [d|] eqn:E; [|exfalso; apply F; apply fresh_find; auto].
  pose proof (mem_again true p s sc w d E) as M. clear F E. revert M.
  generalize (mal_again w p sc) as c. intros c M.
  pose proof (exec_spec c (mw_mem w)) as X.
  pose proof (exec_allowed c (mw_mem w)) as A.
  destruct (mal_solve true p s sc w); cbn [mem_of] in M; rewrite <- M in X, A.
  - destruct X as [X|X]; [discriminate|]. destruct (mal_depth c); [discriminate|].
    injection X as X. auto.
  - destruct X as [X|X]; [discriminate|]. destruct (mal_depth c) as [n|]; [|discriminate].
    injection X as X. eauto.
  - destruct (mal_flag (mw_mem w)); auto. exfalso. apply A; auto.
Qed.

(* Exact effect of the first one. *)
Theorem first_exact p s sc w : mal_fresh w p s ->
  match mal_solve true p s sc w with
  | WOk w' => mal_depth (mal_first w p sc) = None /\
              mw_mem w' = {| mal_flag := true; mal_stack := mal_flag (mw_mem w) :: mal_stack (mw_mem w) |}
  | WExc w' => exists n, mal_depth (mal_first w p sc) = Some n /\ mw_mem w' = mal_open n (mw_mem w)
  | WUB => mal_flag (mw_mem w) = false
  end.
Proof.
  intro F. apply fresh_find in F.
  pose proof (mem_first true p s sc w F) as M. unfold mal_first.
  revert M. generalize (MSeq (ms_create sc) (mal_rest sc)) as c2.
  generalize (mal_final_code w p sc) as c1. intros c1 c2 M.
  pose proof (exec_spec c1 (mw_mem w)) as X.
  pose proof (exec_allowed c1 (mw_mem w)) as A.
  set (m1 := mal_override true true (mw_mem w)) in *.
  pose proof (exec_spec c2 m1) as Y.
  pose proof (exec_allowed c2 m1 eq_refl) as B.
  cbn [mal_depth] in *.
  destruct X as [X|X].
  - rewrite X in M. cbn [mal_then] in M. destruct (mal_solve true p s sc w); try discriminate.
    destruct (mal_flag (mw_mem w)); auto. exfalso. apply A; auto.
  - destruct (mal_depth c1) as [n|].
    + rewrite X in M. cbn [mal_then] in M. destruct (mal_solve true p s sc w); try discriminate.
      injection M as M. eauto.
    + rewrite X in M. unfold mal_then at 1 in M. fold m1 in M.
      destruct Y as [Y|Y]; [congruence|].
      destruct (mal_depth c2) as [n|];
        rewrite Y in M; cbn [mal_then] in M; destruct (mal_solve true p s sc w); try discriminate; injection M as M.
      * exists (S n). split; auto.
      * split; auto.
Qed.

(* Without the checks nothing changes and nothing is undefined. *)
Theorem unchecked_step w o :
  fst (mal_step false w o) <> BUndef /\ mw_mem (snd (mal_step false w o)) = mw_mem w /\
  (o = OIs -> fst (mal_step false w o) = BBool true).
Proof.
  destruct o as [b|b| | | |p|p s sc]; simpl; try (repeat split; auto; discriminate).
  assert (M : exists c, mem_of (mal_solve false p s sc w) = mal_exec false c (mw_mem w)).
  { destruct (mal_find p s (mw_data w)) as [d|] eqn:E.
    - eexists. apply (mem_again false p s sc w d E).
    - exists (MSeq (mal_final_code w p sc) (MSeq (ms_create sc) (mal_rest sc))).
      rewrite (mem_first false p s sc w E). reflexivity. }
  destruct M as (c & M). rewrite exec_unchecked in M.
  destruct (mal_depth c); destruct (mal_solve false p s sc w); simpl in *; try discriminate;
    injection M as M; repeat split; auto; discriminate.
Qed.

(* Balance of the stack. *)
Lemma stage_ext ch e c w w' : mal_stage ch e c w = WOk w' \/ mal_stage ch e c w = WExc w' ->
  mw_final w' = mw_final w /\ mw_data w' = mw_data w /\ mw_next w' = mw_next w /\ mw_log w' = mw_log w ++ [e].
Proof.
  unfold mal_stage, mal_lift. intro H.
  destruct (mal_exec ch c (mw_mem (mal_logged w e))); destruct H as [H|H]; try discriminate;
    injection H as <-; simpl; auto.
Qed.

(* A postcondition on all outcomes with a state. *)
Definition wpost (P : mal_world -> Prop) (o : mal_wout) : Prop :=
  match o with WOk w => P w | WExc w => P w | WUB => True end.

Lemma wpost_then (P : mal_world -> Prop) o k :
  wpost P o -> (forall w, P w -> wpost P (k w)) -> wpost P (mal_wthen o k).
Proof. destruct o; simpl; auto. Qed.

Lemma wpost_impl (P Q : mal_world -> Prop) o : (forall w, P w -> Q w) -> wpost P o -> wpost Q o.
Proof. destruct o; simpl; auto. Qed.

(* The log and the data. *)
Definition justified (l : list mal_event) (e : mal_event) : Prop :=
  match e with
  | EUpdata p s d => In (ECreate p s d) l
  | ESolve p s d _ => In (ECreate p s d) l
  | _ => True
  end.

Record inv (w : mal_world) : Prop := {
  i_log : forall l1 e l2, mw_log w = l1 ++ e :: l2 -> justified l1 e;
  i_data : forall p s d, In (ECreate p s d) (mw_log w) <-> In (p, s, d) (mw_data w);
  i_next : forall p s d, In (p, s, d) (mw_data w) -> d < mw_next w;
  i_inj : forall p s d p' s' d', In (p, s, d) (mw_data w) -> In (p', s', d') (mw_data w) ->
          ((p = p' /\ s = s') <-> d = d');
  i_count : creations w = length (mw_data w) }.

Lemma snoc_split {A} (l : list A) a l1 e l2 : l ++ [a] = l1 ++ e :: l2 ->
  (l1 = l /\ e = a /\ l2 = []) \/ exists l2', l = l1 ++ e :: l2' .
Proof.
  destruct l2 as [|x l2] using rev_ind.
  - intro H. apply app_inj_tail in H as [-> ->]. auto.
  - clear IHl2. intro H. right. exists l2.
    change (l1 ++ e :: l2 ++ [x]) with (l1 ++ (e :: l2) ++ [x]) in H. rewrite app_assoc in H.
    apply app_inj_tail in H as [-> ->]. auto.
Qed.

Lemma inv_log w e m f : inv w -> justified (mw_log w) e -> is_create e = false ->
  inv {| mw_mem := m; mw_final := f; mw_data := mw_data w; mw_next := mw_next w; mw_log := mw_log w ++ [e] |}.
Proof.
  intros I J N. constructor; simpl.
  - intros l1 x l2 H. apply snoc_split in H as [(-> & -> & _)|(l2' & H)]; auto. exact (i_log _ I _ _ _ H).
  - intros p s d. rewrite in_app_iff. rewrite <- (i_data _ I p s d). simpl. split; [|auto].
    intros [H|[H|[]]]; auto. subst e. discriminate.
  - apply (i_next _ I).
  - apply (i_inj _ I).
  - unfold creations. simpl. rewrite filter_app, app_length. simpl. rewrite N. simpl.
    pose proof (i_count _ I) as C. unfold creations in C. lia.
Qed.

Lemma inv_same w m f : inv w ->
  inv {| mw_mem := m; mw_final := f; mw_data := mw_data w; mw_next := mw_next w; mw_log := mw_log w |}.
Proof.
  intro I. constructor; simpl; try apply I.
Qed.

Lemma inv_create w m f p s : inv w -> mal_fresh w p s ->
  inv {| mw_mem := m; mw_final := f; mw_data := (p, s, mw_next w) :: mw_data w;
         mw_next := S (mw_next w); mw_log := mw_log w ++ [ECreate p s (mw_next w)] |}.
Proof.
  intros I F. constructor; simpl.
  - intros l1 x l2 H. apply snoc_split in H as [(-> & -> & _)|(l2' & H)]; simpl; auto. exact (i_log _ I _ _ _ H).
  - intros p' s' d. rewrite in_app_iff, (i_data _ I p' s' d). simpl. split.
    + intros [H|[H|[]]]; auto. injection H as -> -> ->. auto.
    + intros [H|H]; auto. injection H as -> -> ->. auto.
  - intros p' s' d [H|H]; [injection H as <- <- <-; lia|]. pose proof (i_next _ I _ _ _ H). lia.
  - intros p1 s1 d1 p2 s2 d2 [H1|H1] [H2|H2].
    + injection H1 as <- <- <-. injection H2 as <- <- <-. tauto.
    + injection H1 as <- <- <-. split.
      * intros [-> ->]. exfalso. exact (F _ H2).
      * intros <-. pose proof (i_next _ I _ _ _ H2). lia.
    + injection H2 as <- <- <-. split.
      * intros [-> ->]. exfalso. exact (F _ H1).
      * intros ->. pose proof (i_next _ I _ _ _ H1). lia.
    + apply (i_inj _ I); auto.
  - unfold creations. simpl. rewrite filter_app, app_length. simpl.
    pose proof (i_count _ I) as C. unfold creations in C. lia.
Qed.

Lemma inv_stage ch e c w (P : mal_world -> Prop) :
  inv w -> justified (mw_log w) e -> is_create e = false ->
  (forall m f l, P w -> P {| mw_mem := m; mw_final := f; mw_data := mw_data w; mw_next := mw_next w; mw_log := l |}) ->
  P w -> wpost (fun w' => inv w' /\ P w') (mal_stage ch e c w).
Proof.
  intros I J N HP Hw. unfold mal_stage, mal_lift.
  destruct (mal_exec ch c (mw_mem (mal_logged w e))); simpl; auto;
    (split; [apply (inv_log w e); auto|apply (HP m); auto]).
Qed.

Lemma inv_finalize ch p c w (P : mal_world -> Prop) : inv w ->
  (forall w m f l, P w -> P {| mw_mem := m; mw_final := f; mw_data := mw_data w; mw_next := mw_next w; mw_log := l |}) ->
  P w -> wpost (fun w' => inv w' /\ P w') (mal_finalize ch p c w).
Proof.
  intros I HP Hw. unfold mal_finalize. destruct (existsb _ _); [simpl; auto|].
  apply wpost_then.
  - apply inv_stage; simpl; auto.
  - intros w' [I' P']. simpl. split; [apply inv_same; auto|apply HP; auto].
Qed.

Lemma inv_tail ch p s d sc w : inv w -> In (p, s, d) (mw_data w) ->
  wpost inv
  (mal_wthen (mal_finalize ch p (ms_final sc) w) (fun w2 =>
  mal_wthen (mal_stage ch (EUpdate p) (ms_update sc) w2) (fun w3 =>
  mal_wthen (mal_stage ch (EUpdata p s d) (MTemp (ms_updata sc)) w3) (fun w4 =>
  mal_wthen (mal_stage ch (ESolve p s d (ms_result sc)) (ms_solve sc) w4) (fun w5 =>
  mal_wthen (mal_stage ch (ESetVars d) (ms_setvars sc) w5) (fun w6 =>
  mal_stage ch (ESubst p) (ms_subst sc) w6)))))).
Proof.
  intros I D. apply (wpost_impl (fun w' => inv w' /\ In (p, s, d) (mw_data w'))); [tauto|].
  apply wpost_then; [apply inv_finalize; simpl; auto|]. intros w2 [I2 D2].
  apply wpost_then; [apply inv_stage; simpl; auto|]. intros w3 [I3 D3].
  apply wpost_then; [apply inv_stage; simpl; auto; apply (i_data _ I3); auto|]. intros w4 [I4 D4].
  apply wpost_then; [apply inv_stage; simpl; auto; apply (i_data _ I4); auto|]. intros w5 [I5 D5].
  apply wpost_then; [apply inv_stage; simpl; auto|]. intros w6 [I6 D6].
  apply inv_stage; simpl; auto.
Qed.

Lemma inv_solve ch p s sc w : inv w -> wpost inv (mal_solve ch p s sc w).
Proof.
  intro I. unfold mal_solve, mal_get_data. destruct (mal_find p s (mw_data w)) as [d|] eqn:E.
  - apply inv_tail; auto. apply find_in; auto.
  - apply (wpost_impl (fun w' => inv w' /\ True)); [tauto|].
    assert (X : wpost (fun w' => inv w' /\ mal_fresh w' p s) (mal_finalize ch p (ms_final sc) w)).
    { apply inv_finalize; auto. apply fresh_find; auto. }
    destruct (mal_finalize ch p (ms_final sc) w) as [w1|w1|]; simpl in X |- *; auto; [|tauto].
    destruct X as [I1 F1].
    destruct (mal_create ch (ms_create sc) (mw_mem w1)) as [m|m|]; simpl; auto.
    + set (w2 := {| mw_mem := m |}).
      apply (wpost_impl inv); [auto|]. apply inv_tail; simpl; auto.
      apply (inv_create w1); auto.
    + split; auto. apply inv_same; auto.
Qed.

Lemma inv_step ch w o : inv w -> inv (snd (mal_step ch w o)).
Proof.
  intro I. destruct o as [b|b| | | |p|p s sc]; simpl; auto.
  - apply inv_same; auto.
  - apply inv_same; auto.
  - destruct (mal_restore ch (mw_mem w)); simpl; auto. apply inv_same; auto.
  - destruct (mal_is ch (mw_mem w)); simpl; auto.
  - apply inv_same; auto.
  - pose proof (inv_solve ch p s sc w I) as X. destruct (mal_solve ch p s sc w); simpl in *; auto.
Qed.

Lemma run_cons ch w o l : mal_run ch w (o :: l) =
  match fst (mal_step ch w o) with
  | BUndef => ([BUndef], snd (mal_step ch w o))
  | b => (b :: fst (mal_run ch (snd (mal_step ch w o)) l), snd (mal_run ch (snd (mal_step ch w o)) l))
  end.
Proof.
  simpl. destruct (mal_step ch w o) as [b w']. simpl.
  destruct b; auto; destruct (mal_run ch w' l); auto.
Qed.

Lemma inv_run ch l : forall w, inv w -> inv (snd (mal_run ch w l)).
Proof.
  induction l as [|o l IH]; intros w I; [auto|]. rewrite run_cons.
  pose proof (inv_step ch w o I) as I'. destruct (fst (mal_step ch w o)); simpl; auto.
Qed.

Lemma inv0 : inv mal_world0.
Proof.
  constructor; simpl; auto; try tauto. intros l1 e l2 H. destruct l1; discriminate.
Qed.

(* The guarantee of ResolutionScheme.h:33-35. *)
Theorem own_data ch l p s d b l1 l2 :
  mw_log (snd (mal_run ch mal_world0 l)) = l1 ++ ESolve p s d b :: l2 -> In (ECreate p s d) l1.
Proof.
  intro H. pose proof (inv_run ch l mal_world0 inv0) as I. exact (i_log _ I _ _ _ H).
Qed.

Theorem data_unique ch l p s d p' s' d' :
  In (ECreate p s d) (mw_log (snd (mal_run ch mal_world0 l))) ->
  In (ECreate p' s' d') (mw_log (snd (mal_run ch mal_world0 l))) ->
  ((p = p' /\ s = s') <-> d = d').
Proof.
  pose proof (inv_run ch l mal_world0 inv0) as I. rewrite !(i_data _ I). apply (i_inj _ I).
Qed.

(* What a resolution that returns does, in order. *)
Lemma stage_log ch e c w w' : mal_stage ch e c w = WOk w' -> mw_log w' = mw_log w ++ [e].
Proof. intro H. apply (stage_ext ch e c w w'). auto. Qed.

Lemma then_ok o k w' : mal_wthen o k = WOk w' -> exists w, o = WOk w /\ k w = WOk w'.
Proof. destruct o; simpl; intro H; try discriminate. eauto. Qed.

Lemma finalize_log ch p c w w' : mal_finalize ch p c w = WOk w' ->
  mw_log w' = mw_log w ++ (if existsb (Nat.eqb p) (mw_final w) then [] else [EFinal p]) /\
  mw_data w' = mw_data w /\ mw_next w' = mw_next w /\ existsb (Nat.eqb p) (mw_final w') = true.
Proof.
  intro H. pose proof (finalize_final _ _ _ _ _ H) as F. unfold mal_finalize in H.
  destruct (existsb _ (mw_final w)) eqn:E.
  - injection H as <-. rewrite app_nil_r. auto.
  - apply then_ok in H as (w1 & H & H1). injection H1 as <-.
    destruct (stage_ext ch (EFinal p) c w w1) as (_ & X1 & X2 & X3); auto. 
Qed.

Lemma tail_log ch p s d sc w w' :
  mal_wthen (mal_stage ch (EUpdate p) (ms_update sc) w) (fun w3 =>
  mal_wthen (mal_stage ch (EUpdata p s d) (MTemp (ms_updata sc)) w3) (fun w4 =>
  mal_wthen (mal_stage ch (ESolve p s d (ms_result sc)) (ms_solve sc) w4) (fun w5 =>
  mal_wthen (mal_stage ch (ESetVars d) (ms_setvars sc) w5) (fun w6 =>
  mal_stage ch (ESubst p) (ms_subst sc) w6)))) = WOk w' ->
  mw_log w' = mw_log w ++ [EUpdate p; EUpdata p s d; ESolve p s d (ms_result sc); ESetVars d; ESubst p] /\
  mw_data w' = mw_data w.
Proof.
  intro H. apply then_ok in H as (w3 & H3 & H). apply then_ok in H as (w4 & H4 & H).
  apply then_ok in H as (w5 & H5 & H). apply then_ok in H as (w6 & H6 & H).
  apply or_introl with (B := mal_stage ch (EUpdate p) (ms_update sc) w = WExc w3) in H3.
  destruct (stage_ext _ _ _ _ _ H3) as (_ & D3 & _ & L3).
  destruct (stage_ext _ _ _ _ _ (or_introl H4)) as (_ & D4 & _ & L4).
  destruct (stage_ext _ _ _ _ _ (or_introl H5)) as (_ & D5 & _ & L5).
  destruct (stage_ext _ _ _ _ _ (or_introl H6)) as (_ & D6 & _ & L6).
  destruct (stage_ext _ _ _ _ _ (or_introl H)) as (_ & D & _ & L).
  split; [|congruence]. rewrite L, L6, L5, L4, L3. rewrite <- !app_assoc. reflexivity.
Qed.

Theorem solve_order ch w p s sc w' : mal_solve ch p s sc w = WOk w' ->
  exists d, In (p, s, d) (mw_data w') /\
    mw_log w' = mw_log w ++
      (if existsb (Nat.eqb p) (mw_final w) then [] else [EFinal p]) ++
      (match mal_find p s (mw_data w) with Some _ => [] | None => [ECreate p s d] end) ++
      [EUpdate p; EUpdata p s d; ESolve p s d (ms_result sc); ESetVars d; ESubst p].
Proof.
  intro H. unfold mal_solve, mal_get_data in H. destruct (mal_find p s (mw_data w)) as [d|] eqn:E.
  - exists d. apply then_ok in H as (w1 & H1 & H). apply finalize_log in H1 as (L1 & D1 & _ & _).
    apply tail_log in H as (L & D). rewrite D, D1, L, L1. rewrite <- !app_assoc. split; auto. apply find_in; auto.
  - apply then_ok in H as (w1 & H1 & H). apply finalize_log in H1 as (L1 & D1 & N1 & F1).
    apply then_ok in H as (w2 & H2 & H).
    assert (X : mw_log w2 = mw_log w1 /\ mw_data w2 = mw_data w1 /\ mw_final w2 = mw_final w1).
    { destruct (mal_create ch (ms_create sc) (mw_mem w1)); simpl in H2; try discriminate.
      injection H2 as <-. auto. }
    destruct X as (L2 & D2 & F2). cbv zeta in H.
    apply then_ok in H as (w3 & H3 & H). apply finalize_log in H3 as (L3 & D3 & _ & _).
    cbn [mw_final mw_log mw_data] in L3, D3. rewrite F2, F1 in L3. rewrite app_nil_r in L3.
    apply tail_log in H as (L & D). exists (mw_next w2). rewrite D, D3, L, L3, L2, L1, <- !app_assoc.
    simpl. auto.
Qed.

Lemma again_data ch p s sc w w' d : mal_find p s (mw_data w) = Some d ->
  mal_solve ch p s sc w = WOk w' -> mw_data w' = mw_data w.
Proof.
  intros E H. unfold mal_solve, mal_get_data in H. rewrite E in H.
  apply then_ok in H as (w1 & H1 & H). apply finalize_log in H1 as (L1 & D1 & _ & _).
  apply tail_log in H as (L & D). congruence.
Qed.

Lemma creations_solve ch p s sc w w' : mal_solve ch p s sc w = WOk w' ->
  creations w' = creations w + (if mal_find p s (mw_data w) then 0 else 1).
Proof.
  intro H. apply solve_order in H as (d & _ & L). unfold creations. rewrite L, !filter_app, !app_length.
  destruct (existsb _ _); destruct (mal_find p s (mw_data w)); simpl; lia.
Qed.

Definition balance_step w o : fst (mal_step true w o) <> BThrew -> fst (mal_step true w o) <> BUndef ->
  length (mal_stack (mw_mem (snd (mal_step true w o)))) + (if is_restore o then 1 else 0) + creations w =
  length (mal_stack (mw_mem w)) + (if is_override o then 1 else 0) + creations (snd (mal_step true w o)).
Proof.
  destruct o as [b|b| | | |p|p s sc]; cbn [mal_step is_restore is_override]; intros T U.
  - cbn. unfold creations, mal_with_mem. cbn. lia.
  - cbn. unfold creations, mal_with_mem. cbn. lia.
  - unfold mal_restore in *. destruct (mal_stack (mw_mem w)) eqn:E; cbn in *; [congruence|].
    unfold creations. cbn. lia.
  - cbn. lia.
  - cbn in *. destruct (mal_flag (mw_mem w)); cbn in *; [lia|congruence].
  - cbn. unfold creations. cbn. lia.
  - destruct (mal_solve true p s sc w) as [w'|w'|] eqn:H; cbn in *; try congruence.
    pose proof (creations_solve _ _ _ _ _ _ H) as C. rewrite C.
    destruct (mal_find p s (mw_data w)) as [d|] eqn:E.
    + pose proof (again_exact p s sc w) as X. rewrite H in X.
      destruct X as [_ X]; [rewrite fresh_find; congruence|]. rewrite X. lia.
    + pose proof (first_exact p s sc w) as X. rewrite H in X.
      destruct X as [_ X]; [apply fresh_find; auto|]. rewrite X. cbn. lia.
Qed.

Theorem balance l : forall w, all_return (fst (mal_run true w l)) ->
  length (mal_stack (mw_mem (snd (mal_run true w l)))) + restores l + creations w =
  length (mal_stack (mw_mem w)) + overrides l + creations (snd (mal_run true w l)).
Proof.
  unfold restores, overrides. induction l as [|o l IH]; intros w [T U].
  - cbn. lia.
  - rewrite run_cons in T, U |- *. pose proof (balance_step w o) as B.
    specialize (IH (snd (mal_step true w o))). cbn [filter].
    assert (Y : fst (mal_step true w o) <> BThrew /\ fst (mal_step true w o) <> BUndef /\
                all_return (fst (mal_run true (snd (mal_step true w o)) l))).
    { unfold all_return. destruct (fst (mal_step true w o)); simpl in *; repeat split; try discriminate; tauto. }
    destruct Y as (Y1 & Y2 & Y3). specialize (B Y1 Y2). specialize (IH Y3).
    assert (Z : snd (match fst (mal_step true w o) with
      | BUndef => ([BUndef], snd (mal_step true w o))
      | b => (b :: fst (mal_run true (snd (mal_step true w o)) l), snd (mal_run true (snd (mal_step true w o)) l))
      end) = snd (mal_run true (snd (mal_step true w o)) l)).
    { destruct (fst (mal_step true w o)); auto. congruence. }
    rewrite Z. destruct (is_restore o); destruct (is_override o); simpl in *; lia.
Qed.

(* From the start, without overrides by the program: one entry per scheme and
   problem. *)
Theorem leaked l : all_return (fst (mal_run true mal_world0 l)) -> overrides l = 0 -> restores l = 0 ->
  length (mal_stack (mw_mem (snd (mal_run true mal_world0 l)))) =
  length (mw_data (snd (mal_run true mal_world0 l))).
Proof.
  intros A O R. pose proof (balance l mal_world0 A) as B. rewrite O, R in B. cbn in B.
  rewrite (i_count _ (inv_run true l mal_world0 inv0)) in B. lia.
Qed.

Lemma run_app ch l1 : forall w l2, ~ In BUndef (fst (mal_run ch w l1)) ->
  mal_run ch w (l1 ++ l2) =
  (fst (mal_run ch w l1) ++ fst (mal_run ch (snd (mal_run ch w l1)) l2),
   snd (mal_run ch (snd (mal_run ch w l1)) l2)).
Proof.
  induction l1 as [|o l1 IH]; intros w l2 N.
  - simpl. destruct (mal_run ch w l2); auto.
  - rewrite <- app_comm_cons. rewrite !run_cons in *.
    destruct (fst (mal_step ch w o)) eqn:E; simpl in *;
      try (rewrite IH by tauto; reflexivity).
    exfalso. auto.
Qed.

Lemma prefix_return ch l1 : forall w l2, all_return (fst (mal_run ch w (l1 ++ l2))) ->
  all_return (fst (mal_run ch w l1)) /\ all_return (fst (mal_run ch (snd (mal_run ch w l1)) l2)).
Proof.
  induction l1 as [|o l1 IH]; intros w l2 A; [split; [split; intros []|auto]|].
  rewrite <- app_comm_cons in A. rewrite run_cons in *.
  unfold all_return in *. destruct (fst (mal_step ch w o)) eqn:E; cbn [fst snd] in *.
  1-3: assert (P : ~ In BThrew (fst (mal_run ch (snd (mal_step ch w o)) (l1 ++ l2))) /\
                   ~ In BUndef (fst (mal_run ch (snd (mal_step ch w o)) (l1 ++ l2))))
    by (destruct A as [A1 A2]; split; intro X; [apply A1|apply A2]; right; exact X);
    destruct (IH _ l2 P) as [[P1 P2] P3]; split; [split|exact P3]; destruct A as [A1 A2];
    (intros [Y|Y]; [first [discriminate | exfalso; apply A1; left; reflexivity | exfalso; apply A1; left; exact Y]|auto]).
  exfalso. apply A. left. auto.
Qed.

Lemma cons_return ch w o l : all_return (fst (mal_run ch w (o :: l))) ->
  fst (mal_step ch w o) <> BThrew /\ fst (mal_step ch w o) <> BUndef /\
  all_return (fst (mal_run ch (snd (mal_step ch w o)) l)) /\
  snd (mal_run ch w (o :: l)) = snd (mal_run ch (snd (mal_step ch w o)) l).
Proof.
  rewrite run_cons. unfold all_return. intros [T U].
  destruct (fst (mal_step ch w o)); simpl in *; repeat split; try discriminate; tauto.
Qed.

Definition knows (w0 w : mal_world) : Prop := forall p s, ~ mal_fresh w0 p s -> ~ mal_fresh w p s.

Lemma knows_same w0 w w' : mw_data w' = mw_data w -> knows w0 w -> knows w0 w'.
Proof. intros E K p s F G. apply (K p s F). intros d X. apply (G d). rewrite E. auto. Qed.

Lemma solve_known w0 w p s sc : knows w0 w -> ~ mal_fresh w0 p s ->
  fst (mal_step true w (OSolve p s sc)) <> BThrew -> fst (mal_step true w (OSolve p s sc)) <> BUndef ->
  mw_mem (snd (mal_step true w (OSolve p s sc))) = mw_mem w /\
  mw_data (snd (mal_step true w (OSolve p s sc))) = mw_data w.
Proof.
  intros K F T U. specialize (K _ _ F). cbn [mal_step] in *.
  pose proof (again_exact p s sc w K) as X.
  destruct (mal_solve true p s sc w) as [w'|w'|] eqn:H; cbn in *; try congruence.
  destruct X as [_ X]. split; auto.
  destruct (mal_find p s (mw_data w)) as [d|] eqn:E; [|exfalso; apply K; apply fresh_find; auto].
  exact (again_data true p s sc w w' d E H).
Qed.

Lemma mirrored_stack w0 l : mirrored w0 l -> forall w, knows w0 w -> all_return (fst (mal_run true w l)) ->
  mal_stack (mw_mem (snd (mal_run true w l))) = mal_stack (mw_mem w) /\ knows w0 (snd (mal_run true w l)).
Proof.
  induction 1 as [|b l M IH|l M IH|l M IH|p l M IH|p s sc l F M IH|b l1 l2 M1 IH1 M2 IH2]; intros w K A.
  - auto.
  - apply cons_return in A as (_ & _ & A & ->). destruct (IH (snd (mal_step true w (OSet b))) (knows_same w0 w (snd (mal_step true w (OSet b))) eq_refl K) A) as [-> Y].
    auto.
  - apply cons_return in A as (_ & _ & A & ->). apply IH; auto.
  - apply cons_return in A as (_ & U & A & ->). cbn [mal_step] in *.
    destruct (mal_exec true MAlloc (mw_mem w)); cbn in *; try congruence. apply IH; auto.
  - apply cons_return in A as (_ & _ & A & ->). destruct (IH (snd (mal_step true w (OChange p))) (knows_same w0 w (snd (mal_step true w (OChange p))) eq_refl K) A) as [-> Y].
    auto.
  - apply cons_return in A as (T & U & A & ->). destruct (solve_known w0 w p s sc K F T U) as [E1 E2].
    destruct (IH _ (knows_same w0 w (snd (mal_step true w (OSolve p s sc))) E2 K) A) as [-> Y]. rewrite E1. auto.
  - apply cons_return in A as (_ & _ & A & ->).
    destruct (prefix_return true l1 _ (ORestore :: l2) A) as [A1 A2].
    destruct (IH1 _ (knows_same w0 w (snd (mal_step true w (OOverride b))) eq_refl K) A1) as [E1 K1].
    rewrite (run_app true l1) by (destruct A1; auto). cbn [snd].
    set (w1 := snd (mal_run true (snd (mal_step true w (OOverride b))) l1)) in *.
    apply cons_return in A2 as (_ & U & A2 & ->).
    assert (R : mal_step true w1 ORestore = (BDone, mal_with_mem w1 (mw_mem w)))
      by (cbn [mal_step mal_restore]; rewrite E1; cbn; destruct (mw_mem w); reflexivity).
    rewrite R in A2 |- *. cbn [snd] in A2 |- *.
    match type of A2 with all_return (fst (mal_run true ?x l2)) =>
      destruct (IH2 x (knows_same w0 _ x eq_refl K1) A2) as [-> Y] end. auto.
Qed.

Theorem stable_mem w0 l : stable w0 l -> forall w, knows w0 w -> all_return (fst (mal_run true w l)) ->
  mw_mem (snd (mal_run true w l)) = mw_mem w.
Proof.
  induction 1 as [|l M IH|l M IH|p l M IH|p s sc l F M IH|b l1 l2 M1 M2 IH2]; intros w K A.
  - auto.
  - apply cons_return in A as (_ & _ & A & ->). apply IH; auto.
  - apply cons_return in A as (_ & U & A & ->). cbn [mal_step] in *.
    destruct (mal_exec true MAlloc (mw_mem w)); cbn in *; try congruence. apply IH; auto.
  - apply cons_return in A as (_ & _ & A & ->). rewrite IH; auto.
  - apply cons_return in A as (T & U & A & ->). destruct (solve_known w0 w p s sc K F T U) as [E1 E2].
    rewrite IH; auto. eapply knows_same; eauto.
  - apply cons_return in A as (_ & _ & A & ->).
    destruct (prefix_return true l1 _ (ORestore :: l2) A) as [A1 A2].
    destruct (mirrored_stack w0 l1 M1 _ (knows_same w0 w (snd (mal_step true w (OOverride b))) eq_refl K) A1) as [E1 K1].
    rewrite (run_app true l1) by (destruct A1; auto). cbn [snd].
    set (w1 := snd (mal_run true (snd (mal_step true w (OOverride b))) l1)) in *.
    apply cons_return in A2 as (_ & U & A2 & ->).
    assert (R : mal_step true w1 ORestore = (BDone, mal_with_mem w1 (mw_mem w)))
      by (cbn [mal_step mal_restore]; rewrite E1; cbn; destruct (mw_mem w); reflexivity).
    rewrite R in A2 |- *. cbn [snd] in A2 |- *.
    rewrite IH2; [reflexivity| |auto].
    exact (knows_same w0 w1 (mal_with_mem w1 (mw_mem w)) eq_refl K1).
Qed.

Theorem stable_preserves w l : stable w l -> all_return (fst (mal_run true w l)) ->
  mw_mem (snd (mal_run true w l)) = mw_mem w.
Proof. intros S A. apply (stable_mem w); auto. intros p s F. exact F. Qed.

(* Finalizations. *)
Lemma solve_final ch w p s sc w' q : mal_solve ch p s sc w = WOk w' ->
  existsb (Nat.eqb q) (mw_final w') = (Nat.eqb q p || existsb (Nat.eqb q) (mw_final w))%bool.
Proof.
  assert (Fin : forall c w w', mal_finalize ch p c w = WOk w' ->
    existsb (Nat.eqb q) (mw_final w') = (Nat.eqb q p || existsb (Nat.eqb q) (mw_final w))%bool).
  { intros c v v' H. unfold mal_finalize in H. destruct (existsb (Nat.eqb p) (mw_final v)) eqn:E.
    - injection H as <-. destruct (Nat.eqb_spec q p); [subst; auto|auto].
    - apply then_ok in H as (w1 & H & H1). injection H1 as <-. destruct (stage_ext ch (EFinal p) c v w1) as (X0 & _); auto.
      cbn [mw_final existsb]. rewrite X0. reflexivity. }
  assert (St : forall e c w w', mal_stage ch e c w = WOk w' -> mw_final w' = mw_final w).
  { intros e c v v' H. apply (stage_ext ch e c v v'). auto. }
  intro H. unfold mal_solve, mal_get_data in H. destruct (mal_find p s (mw_data w)) as [d|] eqn:E.
  - apply then_ok in H as (w1 & H1 & H). apply Fin in H1.
    apply then_ok in H as (w3 & H3 & H). apply then_ok in H as (w4 & H4 & H). apply then_ok in H as (w5 & H5 & H). apply then_ok in H as (w6 & H6 & H).
    apply St in H3, H4, H5, H6, H. rewrite H, H6, H5, H4, H3. exact H1.
  - apply then_ok in H as (w1 & H1 & H). apply Fin in H1. apply then_ok in H as (w2 & H2 & H).
    assert (F2 : mw_final w2 = mw_final w1).
    { destruct (mal_create ch (ms_create sc) (mw_mem w1)); simpl in H2; try discriminate. injection H2 as <-. auto. }
    cbv zeta in H. apply then_ok in H as (w7 & H7 & H). apply Fin in H7. cbn [mw_final] in H7.
    apply then_ok in H as (w3 & H3 & H). apply then_ok in H as (w4 & H4 & H). apply then_ok in H as (w5 & H5 & H). apply then_ok in H as (w6 & H6 & H).
    apply St in H3, H4, H5, H6, H. rewrite H, H6, H5, H4, H3, H7, F2, H1. destruct (Nat.eqb q p); reflexivity.
Qed.
Theorem finalized ch p l : forall w, all_return (fst (mal_run ch w l)) ->
  finals p (snd (mal_run ch w l)) = finals p w + mal_needed p (existsb (Nat.eqb p) (mw_final w)) l.
Proof.
  induction l as [|o l IH]; intros w A; [cbn; lia|]. destruct (cons_return ch w o l A) as (N1 & N2 & A' & Z). specialize (IH _ A').
  rewrite Z, IH. clear Z IH A A'. destruct o as [b|b| | | |q|q s sc]; cbn [mal_needed].
  - reflexivity.
  - reflexivity.
  - cbn [mal_step]. destruct (mal_restore ch (mw_mem w)); reflexivity.
  - reflexivity.
  - cbn [mal_step]. destruct (mal_exec ch MAlloc (mw_mem w)); reflexivity.
  - cbn [mal_step snd]. unfold finals. cbn [mw_log mw_final]. f_equal. f_equal.
    destruct (Nat.eqb_spec p q) as [->|D].
    + induction (mw_final w) as [|x t IHt]; [reflexivity|]. cbn [filter]. destruct (Nat.eqb_spec x q); cbn [negb]; [exact IHt|]. cbn [existsb].
      destruct (Nat.eqb_spec q x); [congruence|exact IHt].
    + induction (mw_final w) as [|x t IHt]; [reflexivity|]. cbn [filter existsb]. destruct (Nat.eqb_spec x q); cbn [negb].
      * destruct (Nat.eqb_spec p x); [congruence|exact IHt].
      * cbn [existsb]. rewrite IHt. reflexivity.
  - cbn [mal_step] in *. destruct (mal_solve ch q s sc w) as [w'|w'|] eqn:H; cbn [fst snd] in *; try congruence.
    rewrite (solve_final _ _ _ _ _ _ p H). apply solve_order in H as (d & _ & L). unfold finals. rewrite L, !filter_app, !app_length.
    replace (length (filter (is_final p) (match mal_find q s (mw_data w) with Some _ => [] | None => [ECreate q s d] end))) with 0 by (destruct (mal_find q s (mw_data w)); reflexivity).
    cbn [filter is_final length]. destruct (Nat.eqb_spec p q) as [->|D]; cbn [orb].
    + destruct (existsb (Nat.eqb q) (mw_final w)); cbn [filter is_final length]; [lia|]. rewrite Nat.eqb_refl. cbn [length]. lia.
    + destruct (existsb (Nat.eqb q) (mw_final w)); cbn [filter is_final length]; [lia|]. destruct (Nat.eqb_spec p q); [congruence|]. cbn [length]. lia.
Qed.
