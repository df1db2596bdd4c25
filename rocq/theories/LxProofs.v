(* Proofs for C85. *)
From Coq Require Import List Bool Arith QArith Lia.
Import ListNotations.
From Verif Require Import Base LxModel LxSpec.
Local Open Scope nat_scope.

(* the states reached *)
Definition linv (s : lexls) : Prop :=
  (lx_built s = false /\ fst (lx_data0 s) * snd (lx_data0 s) = 1 /\ lx_varIndex s = []) \/
  (lx_built s = true /\ exists n m k, lx_data0 s = (n, 2) /\ lx_data1 s = (m, n + 2) /\ lx_data2 s = (k, n + 2) /\
     lx_conf s = Some (n, [(n, true); (m, false); (k, false)]) /\ lx_varIndex s = seq 0 n).
Lemma resize_inv n o e i s : linv s -> let s' := resize_ n o e i s in
  lx_built s' = true /\ lx_data0 s' = (n, 2) /\ lx_data1 s' = (e + i, n + 2) /\ lx_data2 s' = (o, n + 2) /\
  lx_conf s' = Some (n, [(n, true); (e + i, false); (o, false)]) /\ lx_varIndex s' = seq 0 n /\
  lx_act0 s' = [] /\ lx_act1 s' = [] /\ lx_x0 s' = repeat 0%Q n /\ lx_warm s' = lx_warm s.
Proof.
  intros H. cbn. repeat (split; [reflexivity|]). split; [|split].
  - destruct H as [(B & D & V)|(B & n' & m & k & D0 & D1 & D2 & C & V)].
    + unfold willReallocate at 3. rewrite D. destruct (Nat.eqb_spec 1 (n * 2)) as [E|E]; [lia|]. rewrite orb_true_r. reflexivity.
    + unfold willReallocate. rewrite D0, D1, D2. cbn [fst snd].
      destruct (Nat.eqb_spec (n' * 2) (n * 2)) as [E|E]; [|rewrite orb_true_r; reflexivity]. assert (n' = n) by lia. subst n'.
      destruct (Nat.eqb_spec (m * (n + 2)) ((e + i) * (n + 2))) as [E1|E1]; [|rewrite orb_true_r; reflexivity].
      apply Nat.mul_cancel_r in E1; [|lia]. destruct (Nat.eqb_spec (k * (n + 2)) (o * (n + 2))) as [E2|E2]; [|reflexivity].
      apply Nat.mul_cancel_r in E2; [|lia]. subst. exact C.
  - destruct H as [(B & D & V)|(B & n' & m & k & D0 & D1 & D2 & C & V)]; rewrite V.
    + destruct n; reflexivity.
    + rewrite seq_length. destruct (Nat.eqb_spec n' n) as [->|E]; reflexivity.
  - repeat split.
Qed.
Lemma linv_resize n o e i s : linv s -> linv (resize_ n o e i s).
Proof.
  intros H. destruct (resize_inv n o e i s H) as (B & D0 & D1 & D2 & C & V & _). right. split; [exact B|]. exists n, (e + i), o. auto.
Qed.
Lemma linv_solve a s s' g b : linv s -> solve a s = Ok (s', g, b) -> linv s' /\ lx_built s = true.
Proof.
  intros H E. unfold solve in E. destruct (lx_built s) eqn:B; [|discriminate]. cbn in E. injection E as <- <- <-. split; [|reflexivity].
  destruct (lx_warm s); [|exact H]. destruct H as [(B' & _)|(_ & n & m & k & H)]; [congruence|]. right. cbn. split; [exact B|]. exists n, m, k. exact H.
Qed.
Lemma run_app l1 : forall s l2, lxrun s (l1 ++ l2) = bind (lxrun s l1) (fun s' => lxrun s' l2).
Proof. induction l1 as [|[n o e i|a] l1 IH]; intros s l2; cbn [app lxrun]; [reflexivity|apply IH|]. destruct (solve a s) as [[[s1 g] b]| |]; cbn; auto. Qed.
Lemma linv_new warm : linv (newLexls warm).
Proof. left. cbn. auto. Qed.
Lemma run_inv l : forall s s', linv s -> lxrun s l = Ok s' -> linv s' /\ lx_warm s' = lx_warm s.
Proof.
  induction l as [|[n o e i|a] l IH]; intros s s' H E; cbn [lxrun] in E.
  - injection E as <-. auto.
  - destruct (IH _ _ (linv_resize n o e i s H) E) as [X Y]. split; [exact X|]. rewrite Y. reflexivity.
  - destruct (solve a s) as [[[s1 g] b]| |] eqn:SE; cbn in E; try discriminate. destruct (linv_solve _ _ _ _ _ H SE) as [H1 B].
    destruct (IH _ _ H1 E) as [X Y]. split; [exact X|]. rewrite Y. unfold solve in SE. rewrite B in SE. cbn in SE. injection SE as <- _ _. destruct (lx_warm s) eqn:W; [reflexivity|exact W].
Qed.
(* after the last sizes and answers *)
Lemma answers_state l : forall s s', lxrun s (map LSolve l) = Ok s' -> lx_built s = true ->
  lx_built s' = true /\ lx_data0 s' = lx_data0 s /\ lx_data1 s' = lx_data1 s /\ lx_data2 s' = lx_data2 s /\ lx_conf s' = lx_conf s /\ lx_varIndex s' = lx_varIndex s /\
  lx_warm s' = lx_warm s /\
  (lx_warm s = true -> match rev l with
     | [] => lx_act0 s' = lx_act0 s /\ lx_act1 s' = lx_act1 s /\ lx_x0 s' = lx_x0 s
     | a :: _ => lx_act0 s' = a_act0 a /\ lx_act1 s' = a_act1 a /\ lx_x0 s' = a_x a end).
Proof.
  induction l as [|a l IH] using rev_ind; intros s s' E B.
  - cbn in E. injection E as <-. cbn. repeat split; auto.
  - rewrite map_app, run_app in E. destruct (lxrun s (map LSolve l)) as [s1| |] eqn:E1; cbn in E; try discriminate.
    destruct (IH s s1 E1 B) as (B1 & D0 & D1 & D2 & C & V & W & _). unfold solve in E. rewrite B1 in E. cbn in E. injection E as <-.
    rewrite rev_app_distr. cbn [rev app]. destruct (lx_warm s1) eqn:W1; cbn; rewrite ?W1; repeat split; auto; intros; congruence.
Qed.
Lemma build_state warm ops s n o e i l : lxrun (newLexls warm) ops = Ok s -> lastSize ops n o e i l ->
  lx_built s = true /\ lx_data0 s = (n, 2) /\ lx_data1 s = (e + i, n + 2) /\ lx_data2 s = (o, n + 2) /\
  lx_conf s = Some (n, [(n, true); (e + i, false); (o, false)]) /\ lx_varIndex s = seq 0 n /\ lx_warm s = warm /\
  (warm = true -> match rev l with
     | [] => lx_act0 s = [] /\ lx_act1 s = [] /\ lx_x0 s = repeat 0%Q n
     | a :: _ => lx_act0 s = a_act0 a /\ lx_act1 s = a_act1 a /\ lx_x0 s = a_x a end).
Proof.
  intros E (before & ->). rewrite run_app in E. destruct (lxrun (newLexls warm) before) as [s0| |] eqn:E0; cbn [bind] in E; try discriminate.
  destruct (run_inv before _ s0 (linv_new warm) E0) as [I0 W0]. cbn [lxrun] in E.
  destruct (resize_inv n o e i s0 I0) as (B & D0 & D1 & D2 & C & V & A0 & A1 & X0 & W).
  destruct (answers_state l _ s E B) as (B' & D0' & D1' & D2' & C' & V' & W' & H). rewrite D0', D1', D2', C', V', W'.
  rewrite W, W0 in *. cbn [lx_warm newLexls] in *. repeat (split; [assumption|]). split; [reflexivity|]. intros Wt. specialize (H Wt).
  destruct (rev l); [|exact H]. rewrite A0, A1, X0 in H. exact H.
Qed.
Lemma dimensions_ok warm ops s n o e i l a : lxrun (newLexls warm) ops = Ok s -> lastSize ops n o e i l ->
  exists s' g b, solve a s = Ok (s', g, b) /\ g_conf g = Some (n, [(n, true); (e + i, false); (o, false)]) /\ g_data g = [(n, 2); (e + i, n + 2); (o, n + 2)] /\
    g_vars g = seq 0 n /\ (b = true <-> a_status a = Solved \/ a_status a = SolvedCycling).
Proof.
  intros E L. destruct (build_state _ _ _ _ _ _ _ _ E L) as (B & D0 & D1 & D2 & C & V & _ & _). unfold solve. rewrite B. cbn. do 3 eexists. split; [reflexivity|].
  cbn. rewrite D0, D1, D2. repeat (split; [assumption || reflexivity|]). destruct (a_status a); cbn; split; intros H; auto; try discriminate; destruct H; discriminate.
Qed.
Lemma activations_in lv : forall act i l k t, In (l, k, t) (activations lv i act) <-> l = lv /\ (t = ActiveLB \/ t = ActiveUB) /\ i <= k /\ nth_error act (k - i) = Some t.
Proof.
  induction act as [|u act IH]; intros i l k t.
  - cbn. split; [tauto|]. intros (_ & _ & _ & N). destruct (k - i); discriminate.
  - assert (Step : i <= k /\ nth_error (u :: act) (k - i) = Some t <-> (k = i /\ u = t) \/ (S i <= k /\ nth_error act (k - S i) = Some t)).
    { destruct (Nat.eq_dec k i) as [->|D].
      - rewrite Nat.sub_diag. cbn. split; [intros [_ H]; injection H as ->; auto|]. intros [[_ ->]|[H _]]; [auto|lia].
      - split.
        + intros [H N]. right. split; [lia|]. replace (k - i) with (S (k - S i)) in N by lia. exact N.
        + intros [[H _]|[H N]]; [lia|]. split; [lia|]. replace (k - i) with (S (k - S i)) by lia. exact N. }
    destruct u as [| |z]; cbn [activations In]; rewrite IH, Step; clear Step IH.
    + split; [intros [H|H]; [injection H as <- <- <-|]; tauto|]. intros (-> & T & [[-> <-]|H]); [auto|tauto].
    + split; [intros [H|H]; [injection H as <- <- <-|]; tauto|]. intros (-> & T & [[-> <-]|H]); [auto|tauto].
    + split; [tauto|]. intros (-> & T & [[_ <-]|H]); [destruct T; discriminate|tauto].
Qed.
Lemma given_warm s : lx_warm s = true -> forall l k t, In (l, k, t) (g_activate (postAssignmentProcess_ s)) <->
  (t = ActiveLB \/ t = ActiveUB) /\ ((l = 0 /\ nth_error (lx_act0 s) k = Some t) \/ (l = 1 /\ nth_error (lx_act1 s) k = Some t)).
Proof.
  intros W l k t. cbn. rewrite W, in_app_iff, !activations_in, !Nat.sub_0_r. split.
  - intros [(-> & T & _ & N)|(-> & T & _ & N)]; auto.
  - intros (T & [[-> N]|[-> N]]); [left|right]; repeat split; auto; lia.
Qed.
Lemma warm_ok ops s n o e i l p a s' g b : lxrun (newLexls true) ops = Ok s -> lastSize ops n o e i (l ++ [p]) -> solve a s = Ok (s', g, b) ->
  g_x0 g = Some (a_x p) /\
  (forall lv k t, In (lv, k, t) (g_activate g) <-> (t = ActiveLB \/ t = ActiveUB) /\ ((lv = 0 /\ nth_error (a_act0 p) k = Some t) \/ (lv = 1 /\ nth_error (a_act1 p) k = Some t))).
Proof.
  intros E L S. destruct (build_state _ _ _ _ _ _ _ _ E L) as (B & _ & _ & _ & _ & _ & W & H). specialize (H eq_refl). rewrite rev_app_distr in H. destruct H as (A0 & A1 & X).
  unfold solve in S. rewrite B in S. cbn [solve_] in S. injection S as _ <- _. split; [cbn; rewrite W, X; reflexivity|]. intros lv k t. rewrite given_warm by exact W. rewrite A0, A1. reflexivity.
Qed.
Lemma cold_ok ops s n o e i a s' g b : lxrun (newLexls true) ops = Ok s -> lastSize ops n o e i [] -> solve a s = Ok (s', g, b) ->
  g_x0 g = Some (repeat 0%Q n) /\ g_activate g = [].
Proof.
  intros E L S. destruct (build_state _ _ _ _ _ _ _ _ E L) as (B & _ & _ & _ & _ & _ & W & H). destruct (H eq_refl) as (A0 & A1 & X).
  unfold solve in S. rewrite B in S. cbn [solve_] in S. injection S as _ <- _. cbn. rewrite W, A0, A1, X. auto.
Qed.
Lemma off_ok ops s a s' g b : lxrun (newLexls false) ops = Ok s -> solve a s = Ok (s', g, b) -> g_x0 g = None /\ g_activate g = [].
Proof.
  intros E S. destruct (run_inv ops _ s (linv_new false) E) as [_ W]. cbn in W. unfold solve in S. destruct (lx_built s); [|discriminate]. cbn [solve_] in S. injection S as _ <- _. cbn. rewrite W. auto.
Qed.
Lemma valid_ok warm ops s n o e i l a s' g b : lxrun (newLexls warm) ops = Ok s -> lastSize ops n o e i l -> (forall p, In p l -> fits n e i p) -> solve a s = Ok (s', g, b) ->
  (forall lv k t, In (lv, k, t) (g_activate g) -> exists m c, nth_error (g_data g) lv = Some (m, c) /\ k < m) /\ (forall x, g_x0 g = Some x -> length x = n).
Proof.
  intros E L F S. destruct (dimensions_ok warm ops s n o e i l a E L) as (s1 & g1 & b1 & S1 & _ & D & _). rewrite S in S1. injection S1 as <- <- <-.
  destruct warm.
  - destruct l as [|p l _] using rev_ind.
    + destruct (cold_ok _ _ _ _ _ _ _ _ _ _ E L S) as [X A]. rewrite A, X. split; [intros lv k t []|]. intros x H. injection H as <-. apply repeat_length.
    + destruct (warm_ok _ _ _ _ _ _ _ _ _ _ _ _ E L S) as [X A]. destruct (F p) as (F0 & F1 & FX); [apply in_or_app; right; left; reflexivity|]. rewrite X, D. split.
      * intros lv k t I. apply A in I as (_ & [[-> N]|[-> N]]); (do 2 eexists; split; [reflexivity|]); [rewrite <- F0|rewrite <- F1]; apply nth_error_Some; congruence.
      * intros x H. injection H as <-. exact FX.
  - destruct (off_ok _ _ _ _ _ _ E S) as [X A]. rewrite A, X. split; [intros lv k t []|discriminate].
Qed.
Lemma defined_ok warm ops : (exists s, lxrun (newLexls warm) ops = Ok s) <-> match ops with LSolve _ :: _ => False | _ => True end.
Proof.
  assert (G : forall l s, lx_built s = true -> exists s', lxrun s l = Ok s').
  { induction l as [|[n o e i|a] l IH]; intros s B; cbn [lxrun]; [eauto|apply IH; reflexivity|]. unfold solve. rewrite B. cbn. apply IH. destruct (lx_warm s); exact B. }
  destruct ops as [|[n o e i|a] l]; cbn [lxrun].
  - split; eauto.
  - split; [auto|]. intros _. apply G. reflexivity.
  - cbn. split; [intros [s H]; discriminate|tauto].
Qed.
Lemma unbuilt_ok warm a l : lxrun (newLexls warm) (LSolve a :: l) = UB.
Proof. reflexivity. Qed.
