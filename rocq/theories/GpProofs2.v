(* Proofs about the exploration of computed values: the recursion, the roots and the lists. *)
From Coq Require Import List Bool Arith Lia Relations.
Import ListNotations.
From Verif Require Import Base CallGraphModel NdModel LgModel LgSpec LgProofs LgProofs2 GpModel GpSpec GpProofs.
Local Open Scope nat_scope.

Section Run.
Variable M V : Type.
Variables (ptype ptypeUp : nat -> nat).
Variables (acc : nat -> nat -> option (nat -> M)) (vacc : nat -> nat -> option (nat -> list (V * M))).
Variable select : M -> bool.
Notation vals := (outputVal M V ptype ptypeUp acc vacc).
Notation follow := (followUp M V ptype ptypeUp acc vacc select).
Definition passing (n o : nat) : Prop := exists v, In v (vals (n, o)) /\ select (snd v) = true.

Lemma any_passing o : any M V select (vals o) = true <-> passing (fst o) (snd o).
Proof. unfold any, passing. rewrite existsb_exists. destruct o; reflexivity. Qed.
Lemma none_any l : none M V select l = negb (any M V select l).
Proof. unfold none, any. induction l as [|x l IH]; [reflexivity|]. cbn [forallb existsb]. rewrite IH, negb_orb. reflexivity. Qed.

Section From.
Variable L : log.
Variable start : out_.
Notation okv := (okv L start).
Notation rem := (rem L start).
Notation gf := (gf L passing start).
Notation badFrom := (badFrom L passing).
Lemma pushes {D} (x : pval) (k : nat) P (p1 : D -> bool) f1 kd1 l1 {D2} (p2 : D2 -> bool) f2 kd2 l2 go :
  okv x -> open passing (key x) -> ~ In x P -> rem P < S k -> goSpec L passing start go k ->
  (forall d, In d l1 -> p1 d = true -> match f1 d with Ok v => okv v /\ key v = kd1 d | Throw => True | UB => False end) ->
  (forall d, In d l2 -> p2 d = true -> match f2 d with Ok v => okv v /\ key v = kd2 d | Throw => True | UB => False end) ->
  (forall d, In d l1 -> p1 d = true -> f1 d = Throw -> dangling L (key x)) ->
  (forall d, In d l2 -> p2 d = true -> f2 d = Throw -> dangling L (key x)) ->
  ((forall d, In d l1 -> p1 d = true -> f1 d <> Throw) -> (forall d, In d l2 -> p2 d = true -> f2 d <> Throw) -> ~ dangling L (key x)) ->
  map kd1 (filter p1 l1) ++ map kd2 (filter p2 l2) = uses1 L (key x) ->
  match (do s1 <- childrenFor p1 f1 go l1 ([], x :: P) ; do s2 <- childrenFor p2 f2 go l2 s1 ; Ok (PNode x (fst s2), snd s2)) with
  | Ok (t, P') => root t = x /\ gf [t] P P' | Throw => badFrom (key x) | UB => False end.
Proof.
  intros Ox Op NP R G F1 F2 T1 T2 ND UU. pose proof (rem_lt L start x P Ox NP) as RL.
  assert (Uin : forall y, In y (map kd1 (filter p1 l1) ++ map kd2 (filter p2 l2)) -> uses L (key x) y) by (intros y J; rewrite UU in J; apply uses1_In; exact J).
  pose proof (children_spec L passing start p1 f1 kd1 go k l1 G F1 [] (x :: P) ltac:(lia)) as C1.
  destruct (childrenFor p1 f1 go l1 ([], x :: P)) as [[ts1 P1]| |]; cbn [bind]; [| |exact C1].
  2:{ destruct C1 as [[d [J [Q E]]]|[d [J [Q B]]]].
      - exists (key x). split; [apply rt_refl|]. split; [exact Op|exact (T1 d J Q E)].
      - apply (badFrom_step L passing (key x) (kd1 d) Op); [|exact B]. apply Uin. apply in_or_app. left. apply in_map. apply filter_In. auto. }
  destruct C1 as [[ts [E1 [G1 K1]]] N1]. cbn [app] in E1. subst ts1. pose proof (rem_le L start _ _ (gf_incl _ _ _ _ _ _ G1)) as RL1.
  pose proof (children_spec L passing start p2 f2 kd2 go k l2 G F2 ts P1 ltac:(lia)) as C2.
  destruct (childrenFor p2 f2 go l2 (ts, P1)) as [[ts2 P2]| |]; cbn [bind]; [| |exact C2].
  2:{ destruct C2 as [[d [J [Q E]]]|[d [J [Q B]]]].
      - exists (key x). split; [apply rt_refl|]. split; [exact Op|exact (T2 d J Q E)].
      - apply (badFrom_step L passing (key x) (kd2 d) Op); [|exact B]. apply Uin. apply in_or_app. right. apply in_map. apply filter_In. auto. }
  destruct C2 as [[tsb [E2 [G2 K2]]] N2]. subst ts2. cbn [fst snd]. split; [reflexivity|].
  apply gf_node; [exact Ox|exact Op|exact NP|exact (ND N1 N2)|exact (gf_app _ _ _ _ _ _ _ _ G1 G2)|]. rewrite map_app, K1, K2. exact UU.
Qed.
Lemma follow_ok fuel : goSpec L passing start (follow fuel L) fuel.
Proof.
  induction fuel as [|k IH]; intros x P Ox R; [lia|]. cbn [followUp]. destruct x as [o|u].
  - destruct (existsb (pval_eqb (PO o)) P) eqn:EX.
    { cbn [orb]. apply existsb_pval in EX. split; [reflexivity|]. apply gf_leaf; [exact Ox|left; exact EX]. }
    cbn [orb]. rewrite none_any. destruct (any M V select (vals o)) eqn:AN; cbn [negb].
    2:{ split; [reflexivity|]. apply gf_leaf; [exact Ox|]. right. cbn [key open]. intros Q. apply any_passing in Q. congruence. }
    assert (NP : ~ In (PO o) P) by (intros J; apply existsb_pval in J; congruence).
    eapply (pushes (PO o) k P) with (kd1 := fun d => AnOutput (snd (fst d)) (snd d)) (kd2 := fun d => AnUpdate (fst o) (snd d)).
    + exact Ox.
    + cbn [key open]. apply any_passing. exact AN.
    + exact NP.
    + exact R.
    + exact IH.
    + intros [[[n' o'] s] i] J _. cbn [fst snd]. pose proof (find_out L start n' s i) as K. destruct (asPO _); [exact K|exact I|exact K].
    + intros [[n' o'] u] J E. cbn [fst snd] in *. apply andb_true_iff in E. destruct E as [E1 _]. apply Nat.eqb_eq in E1. subst n'.
      pose proof (find_upd L start (fst o) u) as K. destruct (asPU _); [exact K|exact I|exact K].
    + intros [[[n' o'] s] i] J E T. cbn [fst snd] in *. apply andb_true_iff in E. destruct E as [E1 E2]. apply Nat.eqb_eq in E1, E2. subst n' o'.
      apply (dg_dir L (fst o) (snd o) s i J). pose proof (find_out L start (fst o) s i) as K. rewrite T in K. exact K.
    + intros [[n' o'] u] J E T. cbn [fst snd] in *. apply andb_true_iff in E. destruct E as [E1 E2]. apply Nat.eqb_eq in E1, E2. subst n' o'.
      apply (dg_out L (fst o) (snd o) u J). pose proof (find_upd L start (fst o) u) as K. rewrite T in K. exact K.
    + intros N1 N2 D. cbn [key] in D. inversion D as [n0 o0 u J K|n0 o0 s i J K| |]; subst.
      * apply (find_upd_nT L (fst o) u); [|exact K]. apply (N2 _ J). cbn [fst snd]. rewrite !Nat.eqb_refl. reflexivity.
      * apply K. apply (find_out_nT L (fst o) s i). apply (N1 _ J). cbn [fst snd]. rewrite !Nat.eqb_refl. reflexivity.
    + reflexivity.
  - destruct (existsb (pval_eqb (PU u)) P) eqn:EX.
    { apply existsb_pval in EX. split; [reflexivity|]. apply gf_leaf; [exact Ox|left; exact EX]. }
    assert (NP : ~ In (PU u) P) by (intros J; apply existsb_pval in J; congruence).
    eapply (pushes (PU u) k P) with (kd1 := fun d => AnOutput (snd (fst d)) (snd d)) (kd2 := fun d => AnUpdate (fst (fst u)) (snd d)).
    + exact Ox.
    + exact I.
    + exact NP.
    + exact R.
    + exact IH.
    + intros [[[n' o'] s] i] J _. cbn [fst snd]. pose proof (find_out L start n' s i) as K. destruct (asPO _); [exact K|exact I|exact K].
    + intros [[n' o'] v] J E. cbn [fst snd] in *. apply andb_true_iff in E. destruct E as [E1 _]. apply Nat.eqb_eq in E1. subst n'.
      pose proof (find_upd L start (fst (fst u)) v) as K. destruct (asPU _); [exact K|exact I|exact K].
    + intros [[[n' o'] s] i] J E T. cbn [fst snd] in *. apply andb_true_iff in E. destruct E as [E1 E2]. apply Nat.eqb_eq in E1, E2. subst n' o'.
      apply (dg_in L (fst (fst u)) (snd (fst u)) s i J). pose proof (find_out L start (fst (fst u)) s i) as K. rewrite T in K. exact K.
    + intros [[n' o'] v] J E T. cbn [fst snd] in *. apply andb_true_iff in E. destruct E as [E1 E2]. apply Nat.eqb_eq in E1, E2. subst n' o'.
      apply (dg_int L (fst (fst u)) (snd (fst u)) v J). pose proof (find_upd L start (fst (fst u)) v) as K. rewrite T in K. exact K.
    + intros N1 N2 D. cbn [key] in D. inversion D as [| |n0 o0 v J K|n0 o0 s i J K]; subst.
      * apply (find_upd_nT L (fst (fst u)) v); [|exact K]. apply (N2 _ J). cbn [fst snd]. rewrite !Nat.eqb_refl. reflexivity.
      * apply K. apply (find_out_nT L (fst (fst u)) s i). apply (N1 _ J). cbn [fst snd]. rewrite !Nat.eqb_refl. reflexivity.
    + reflexivity.
Qed.
End From.
Lemma okv_key L start v w : okv L start v -> okv L start w -> key v = key w -> v = w.
Proof.
  destruct v as [[n o]|[[n u] f]], w as [[m p]|[[m v] g]]; cbn [okv key fst snd]; intros O1 O2 E; try discriminate; injection E as <- <-; [reflexivity|].
  rewrite (firstFunction_fun L n u f g O1 O2). reflexivity.
Qed.
Lemma tree_spec L o fuel : depth L <= fuel ->
  match follow fuel L (PO o) [] with Ok (t, _) => rightTree L passing (AnOutput (fst o) (snd o)) t /\ ~ badFrom L passing (AnOutput (fst o) (snd o))
  | Throw => badFrom L passing (AnOutput (fst o) (snd o)) | UB => False end.
Proof.
  intros B. pose proof (follow_ok L o fuel (PO o) [] (or_introl eq_refl)) as S. rewrite rem_nil in S. unfold depth in B. specialize (S ltac:(lia)).
  destruct (follow fuel L (PO o) []) as [[t P]| |]; [|exact S|exact S]. destruct S as [Rt [B1 B2 B3 B4 B5 B6 B7 B8]].
  assert (FM : flat_map nodes [t] = nodes t) by (cbn; apply app_nil_r).
  assert (W : forall y, inF [t] y <-> within t y) by (intros y; unfold inF, within; rewrite FM; reflexivity).
  assert (NEW : forall y, within t y -> open passing (key y) -> open passing (key y) /\ In (y, uses1 L (key y)) (nodes t) /\ ~ dangling L (key y) /\ forall z, uses L (key y) z -> exists v, within t v /\ key v = z).
  { intros y J Op. apply W in J. destruct (B4 y (B3 y J Op)) as [[]|[K1 [K2 [K3 [K4 K5]]]]]. rewrite FM in K3. split; [exact K2|]. split; [exact K3|]. split; [exact K4|].
    intros z Uz. destruct (K5 z Uz) as [v [Q E]]. exists v. split; [apply W; exact Q|exact E]. }
  assert (ALL : forall y, seenFrom L passing (AnOutput (fst o) (snd o)) y -> exists v, within t v /\ key v = y).
  { assert (H : forall x y, seenFrom L passing x y -> (exists v, within t v /\ key v = x) -> exists v, within t v /\ key v = y).
    { intros x y R. apply clos_rt_rt1n in R. induction R as [x|x y z [Op Us] R IH]; [auto|]. intros [v [J <-]]. apply IH. exact (proj2 (proj2 (proj2 (NEW v J Op))) y Us). }
    intros y S. apply (H _ y S). exists (PO o). split; [|reflexivity]. apply W. rewrite <- Rt. apply root_within. left. reflexivity. }
  split.
  - constructor.
    + rewrite Rt. reflexivity.
    + intros y. split; [|exact (ALL y)]. intros [v [J <-]]. apply W in J. destruct (B8 v J) as [r [[<-|[]] S]]. rewrite Rt in S. exact S.
    + intros n u f J. apply W in J. exact (B2 _ J).
    + intros v cs J. apply B7. rewrite FM. exact J.
    + intros v J Op. exact (proj1 (proj2 (NEW v J Op))).
    + cbn [flat_map] in B5. rewrite app_nil_r in B5. exact B5.
  - intros [y [S [Op D]]]. destruct (ALL y S) as [v [J <-]]. exact (proj1 (proj2 (proj2 (NEW v J Op))) D).
Qed.

Lemma all_spec L fuel : depth L <= fuel -> forall os ret,
  match followAll M V ptype ptypeUp acc vacc select fuel L os ret with
  | Ok r => exists ts, r = ret ++ ts /\ Forall2 (fun o t => rightTree L passing (AnOutput (fst o) (snd o)) t) (filter (fun o => any M V select (vals o)) os) ts /\
              forall o, In o os -> passing (fst o) (snd o) -> ~ badFrom L passing (AnOutput (fst o) (snd o))
  | Throw => exists o, In o os /\ passing (fst o) (snd o) /\ badFrom L passing (AnOutput (fst o) (snd o))
  | UB => False
  end.
Proof.
  intros B. induction os as [|o os IH]; intros ret; cbn [followAll filter].
  - exists []. split; [rewrite app_nil_r; reflexivity|]. split; [constructor|]. intros o [].
  - destruct (any M V select (vals o)) eqn:A.
    + pose proof (tree_spec L o fuel B) as T. destruct (follow fuel L (PO o) []) as [[t P]| |]; cbn [bind]; [| |exact T].
      * cbn [fst]. specialize (IH (ret ++ [t])). destruct (followAll M V ptype ptypeUp acc vacc select fuel L os (ret ++ [t])) as [r| |]; [| |exact IH].
        -- destruct IH as [ts [E [F N]]]. exists (t :: ts). split; [rewrite E, <- app_assoc; reflexivity|]. split; [constructor; [exact (proj1 T)|exact F]|].
           intros o' [<-|J] Q; [exact (proj2 T)|exact (N o' J Q)].
        -- destruct IH as [o' [J Q]]. exists o'. split; [right; exact J|exact Q].
      * exists o. split; [left; reflexivity|]. split; [apply any_passing; exact A|exact T].
    + specialize (IH ret). destruct (followAll M V ptype ptypeUp acc vacc select fuel L os ret) as [r| |]; [| |exact IH].
      * destruct IH as [ts [E [F N]]]. exists ts. split; [exact E|]. split; [exact F|]. intros o' [<-|J] Q; [apply any_passing in Q; congruence|exact (N o' J Q)].
      * destruct IH as [o' [J Q]]. exists o'. split; [right; exact J|exact Q].
Qed.
Lemma graph_tree_spec L g fuel : depth L <= fuel ->
  match followUpG M V ptype ptypeUp acc vacc select fuel L g with
  | Ok ts => (exists p, In (g, p) (lgGraph L)) /\
      (exists os, Forall2 (fun o t => rightTree L passing (AnOutput (fst o) (snd o)) t) os ts /\ forall n o, In (n, o) os <-> isGraphOutput L g n o /\ passing n o) /\
      (forall n o, isGraphOutput L g n o -> passing n o -> ~ badFrom L passing (AnOutput n o))
  | Throw => (forall p, ~ In (g, p) (lgGraph L)) \/ exists n o, isGraphOutput L g n o /\ passing n o /\ badFrom L passing (AnOutput n o)
  | UB => False
  end.
Proof.
  intros B. unfold followUpG. destruct (filter (fun p => fst p =? g) (lgGraph L)) as [|q l] eqn:E.
  - left. intros p J. assert (K : In (g, p) (filter (fun p => fst p =? g) (lgGraph L))) by (apply filter_In; split; [exact J|apply Nat.eqb_refl]). rewrite E in K. exact K.
  - rewrite <- E, startingPoints_spec. cbn [bind]. pose proof (all_spec L fuel B (inputsOfGraph L g) []) as A.
    destruct (followAll M V ptype ptypeUp acc vacc select fuel L (inputsOfGraph L g) []) as [r| |]; [| |exact A].
    + destruct A as [ts [-> [F N]]]. cbn [app]. split; [|split].
      * destruct q as [g' p]. assert (K : In (g', p) (filter (fun p => fst p =? g) (lgGraph L))) by (rewrite E; left; reflexivity).
        apply filter_In in K. destruct K as [K Q]. cbn [fst] in Q. apply Nat.eqb_eq in Q. subst g'. exists p. exact K.
      * eexists. split; [exact F|]. intros n o. rewrite filter_In, inputsOfGraph_In, any_passing. reflexivity.
      * intros n o J Q. apply (N (n, o)); [apply inputsOfGraph_In; exact J|exact Q].
    + destruct A as [[n o] [J [Q D]]]. right. exists n, o. split; [apply inputsOfGraph_In; exact J|]. split; [exact Q|exact D].
Qed.

(* ---- the lists of values ---- *)
Lemma addOutputVal_app ov o : fst (addOutputVal M V ptype ptypeUp acc vacc ov o) = ov ++ vals o.
Proof.
  unfold outputVal, addOutputVal. destruct (acc (ptypeUp (fst o)) (snd o)); [reflexivity|]. destruct (acc (ptype (fst o)) (snd o)); [reflexivity|].
  destruct (vacc (ptypeUp (fst o)) (snd o)); [reflexivity|]. destruct (vacc (ptype (fst o)) (snd o)); [reflexivity|]. cbn [fst]. rewrite app_nil_r. reflexivity.
Qed.
Lemma listOutputs_flat outs : listOutputs M V ptype ptypeUp acc vacc outs = flat_map vals outs.
Proof.
  unfold listOutputs. assert (G : forall l r, fold_left (fun ret o => fst (addOutputVal M V ptype ptypeUp acc vacc ret o)) l r = r ++ flat_map vals l).
  { induction l as [|o l IH]; intros r; cbn [fold_left flat_map]; [rewrite app_nil_r; reflexivity|]. rewrite IH, addOutputVal_app, <- app_assoc. reflexivity. }
  rewrite G. reflexivity.
Qed.
Lemma vals_owner o x : In x (vals o) -> fst (fst x) = o.
Proof.
  unfold outputVal, addOutputVal. destruct (acc (ptypeUp (fst o)) (snd o)); [intros [<-|[]]; reflexivity|]. destruct (acc (ptype (fst o)) (snd o)); [intros [<-|[]]; reflexivity|].
  destruct (vacc (ptypeUp (fst o)) (snd o)); [intros J; apply in_map_iff in J; destruct J as [p [<- _]]; reflexivity|].
  destruct (vacc (ptype (fst o)) (snd o)); [intros J; apply in_map_iff in J; destruct J as [p [<- _]]; reflexivity|]. intros [].
Qed.
Lemma list_spec L (start : list out_) outs upds : rightWalk L start outs upds ->
  forall n o v m, In (n, o, v, m) (listOutputs M V ptype ptypeUp acc vacc outs) <-> usedBy L start (AnOutput n o) /\ In (n, o, v, m) (vals (n, o)).
Proof.
  intros [_ [_ [R _]]] n o v m. rewrite listOutputs_flat, in_flat_map. split.
  - intros [p [J K]]. pose proof (vals_owner p _ K) as E. cbn [fst] in E. subst p. split; [apply R; exact J|exact K].
  - intros [U K]. exists (n, o). split; [apply R; exact U|exact K].
Qed.
End Run.
