(* Proofs for WsProps.v *)
From Coq Require Import List Bool Arith QArith Lia.
Import ListNotations.
From Verif Require Import Base HlsModel WsModel WsSpec.
Local Open Scope nat_scope.

Lemma run_app warm ffl l1 : forall w l2, wrun warm ffl w (l1 ++ l2) = bind (wrun warm ffl w l1) (fun w' => wrun warm ffl w' l2).
Proof.
  induction l1 as [|[c|a] l1 IH]; intros w l2; cbn; [reflexivity| |].
  - destruct (wcall ffl w c); cbn; auto.
  - destruct (wsolve warm ffl a w); cbn; auto.
Qed.
Lemma call_inv ffl w c w' : wcall ffl w c = Ok w' ->
  exists s, step ffl (base w) c = Ok s /\ base w' = s /\
  (match c with StartBuild n _ _ _ => started w' = true /\ act w' = [] /\ x0 w' = repeat (0 # 1)%Q n
   | _ => started w' = started w /\ act w' = act w /\ x0 w' = x0 w end).
Proof.
  unfold wcall. destruct (step ffl (base w) c) as [s| |]; cbn [bind]; [|discriminate|discriminate].
  intros [= <-]. exists s. destruct c; cbn; auto.
Qed.
Lemma solve_inv warm ffl a w w' g b : wsolve warm ffl a w = Ok (w', g, b) ->
  started w = true /\ (exists cd, solve ffl (base w) = Ok cd /\ g = post warm w cd) /\
  base w' = base w /\ started w' = true /\
  act w' = (if warm then a_act a else act w) /\ x0 w' = (if warm then a_x a else x0 w) /\
  (b = true <-> a_status a = Solved \/ a_status a = SolvedCycling).
Proof.
  unfold wsolve. destruct (started w) eqn:St; cbn; [|discriminate].
  destruct (solve ffl (base w)) as [cd| |]; cbn; [|discriminate|discriminate].
  intros [= <- <- <-]. repeat split; eauto; destruct warm; cbn; auto;
    destruct (a_status a); auto; try discriminate; intros [?|?]; discriminate.
Qed.
Lemma last_cons a l : lastAnswer (a :: l) = match lastAnswer l with None => Some a | s => s end.
Proof. unfold lastAnswer. cbn. destruct (rev l); reflexivity. Qed.

Lemma since_run warm ffl after : Forall (fun o => ~ isStart o) after -> forall w w', wrun warm ffl w after = Ok w' ->
  (warm = true ->
   act w' = match lastAnswer (answers after) with None => act w | Some a => a_act a end /\
   x0 w' = match lastAnswer (answers after) with None => x0 w | Some a => a_x a end).
Proof.
  intros F. induction F as [|o l No F IH]; intros w w'.
  - cbn. intros [= <-] _. auto.
  - destruct o as [c|a]; cbn [wrun answers].
    + destruct (wcall ffl w c) as [w1| |] eqn:C; cbn [bind]; [|discriminate|discriminate].
      intros R W. destruct (IH _ _ R W) as [-> ->].
      apply call_inv in C. destruct C as (s & _ & _ & C).
      destruct c; cbn in No; [contradiction No; exact I| | | |]; destruct C as (_ & -> & ->); auto.
    + destruct (wsolve warm ffl a w) as [[[w1 g] b]| |] eqn:S; cbn [bind fst]; [|discriminate|discriminate].
      intros R W. destruct (IH _ _ R W) as [-> ->]. rewrite last_cons.
      apply solve_inv in S. destruct S as (_ & _ & _ & _ & A & X & _). rewrite W in A, X.
      destruct (lastAnswer (answers l)); rewrite ?A, ?X; auto.
Qed.
Lemma given_ok warm ffl ops n l w a w' g b :
  wrun warm ffl newWs ops = Ok w -> sinceBuild ops n l -> wsolve warm ffl a w = Ok (w', g, b) ->
  Ok (g_conf g, g_data g) = solve ffl (base w) /\
  (g_act g, g_x0 g) =
    (if warm then
       match lastAnswer l with
       | None => ([], Some (repeat (0 # 1)%Q n))
       | Some p => (filter isActive (a_act p), Some (a_x p))
       end
     else ([], None)) /\
  (b = true <-> a_status a = Solved \/ a_status a = SolvedCycling).
Proof.
  intros R (before & ne & ni & ub & after & -> & F & ->) S.
  apply solve_inv in S. destruct S as (_ & (cd & E & ->) & _ & _ & _ & _ & B).
  split; [rewrite E; destruct cd; reflexivity|]. split; [|exact B].
  rewrite run_app in R. destruct (wrun warm ffl newWs before) as [w0| |]; cbn [bind] in R; [|discriminate|discriminate].
  cbn [wrun] in R. destruct (wcall ffl w0 (StartBuild n ne ni ub)) as [w1| |] eqn:C; cbn [bind] in R; [|discriminate|discriminate].
  apply call_inv in C. destruct C as (s & _ & _ & _ & A & X).
  pose proof (since_run warm ffl after F _ _ R) as H. unfold post; cbn.
  destruct warm; [|reflexivity]. destruct (H eq_refl) as [-> ->]. destruct (lastAnswer (answers after)); rewrite ?A, ?X; reflexivity.
Qed.

(* unbuilt *)
Lemma unstarted warm ffl ops : Forall (fun o => ~ isStart o) ops -> forall w, wrun warm ffl newWs ops = Ok w ->
  forall a, wsolve warm ffl a w = UB.
Proof.
  intros F w R a. assert (H : forall l w1, Forall (fun o => ~ isStart o) l -> started w1 = false -> wrun warm ffl w1 l = Ok w -> started w = false).
  { induction l as [|o l IH]; intros w1 Fl St; cbn; [intros [= <-]; exact St|].
    inversion Fl as [|? ? No Fl']; subst. destruct o as [c|a1].
    - destruct (wcall ffl w1 c) as [w2| |] eqn:C; cbn [bind]; [|discriminate|discriminate]. apply IH; [exact Fl'|].
      apply call_inv in C. destruct C as (s & _ & _ & C). destruct c; cbn in No; [contradiction No; exact I| | | |]; destruct C as (-> & _); exact St.
    - unfold wsolve. rewrite St. cbn. discriminate. }
  unfold wsolve. rewrite (H ops newWs F eq_refl R). reflexivity.
Qed.

(* what the solver does for the rest does not depend on the answers *)
Lemma same_run warm ffl ops ops' : Forall2 sameCall ops ops' -> forall v v', base v = base v' -> started v = started v' ->
  (warm = false -> act v = act v' /\ x0 v = x0 v') ->
  match wrun warm ffl v ops, wrun warm ffl v' ops' with
  | Ok w, Ok w' => base w = base w' /\ started w = started w' /\ (warm = false -> act w = act w' /\ x0 w = x0 w')
  | Throw, Throw | UB, UB => True
  | _, _ => False
  end.
Proof.
  intros F. induction F as [|o o' l l' S F IH]; intros v v' B St Cold; [cbn; auto|].
  destruct o as [c|a], o' as [c'|a']; cbn in S; try contradiction; cbn [wrun].
  - subst c'. unfold wcall. rewrite <- B. destruct (step ffl (base v) c) as [s| |]; cbn [bind]; [|exact I|exact I].
    apply IH; destruct c; cbn; auto.
  - unfold wsolve. rewrite <- St. destruct (started v) eqn:Q; cbn [negb]; [|exact I].
    rewrite <- B. destruct (solve ffl (base v)) as [cd| |]; cbn [bind]; [|exact I|exact I].
    unfold solve_. cbn [fst]. apply IH; destruct warm; cbn; auto; try congruence.
Qed.
Lemma cold_ok warm ffl ops ops' w a a' w1 g b : Forall2 sameCall ops ops' -> wrun warm ffl newWs ops = Ok w ->
  wsolve warm ffl a w = Ok (w1, g, b) ->
  exists w' w1' g' b', wrun warm ffl newWs ops' = Ok w' /\ wsolve warm ffl a' w' = Ok (w1', g', b') /\
    g_conf g' = g_conf g /\ g_data g' = g_data g /\ (warm = false -> g' = g).
Proof.
  intros F R S. pose proof (same_run warm ffl ops ops' F newWs newWs eq_refl eq_refl (fun _ => conj eq_refl eq_refl)) as H.
  rewrite R in H. destruct (wrun warm ffl newWs ops') as [w'| |]; [|contradiction|contradiction].
  destruct H as (B & St & _). exists w'. unfold wsolve in *. rewrite <- St, <- B.
  destruct (started w); cbn [negb] in *; [|discriminate].
  destruct (solve ffl (base w)) as [cd| |]; cbn [bind] in *; [|discriminate|discriminate].
  unfold solve_ in *. injection S as <- <- <-. do 3 eexists. split; [reflexivity|]. split; [reflexivity|].
  cbn. split; [reflexivity|]. split; [reflexivity|]. intros ->. reflexivity.
Qed.

(* the activations exist *)
Lemma step_conf ffl s c s' : step ffl s c = Ok s' -> (forall n ne ni ub, c <> StartBuild n ne ni ub) -> conf s' = conf s.
Proof.
  destruct c as [n ne ni ub|c|a d| |]; cbn; intros H N; [destruct (N n ne ni ub); reflexivity| | | |].
  - unfold addConstraint in H. destruct (negb (building s)); [discriminate|]. destruct (_ <=? _); [discriminate|].
    cbn zeta in H. destruct (_ <? _); [discriminate|]. injection H as <-. reflexivity.
  - unfold addBound in H. destruct (negb (building s)); [discriminate|]. destruct (_ || _); [discriminate|]. injection H as <-. reflexivity.
  - unfold setMinimumNorm in H. destruct (length (nEq s)); [discriminate|]. destruct (_ || _); [discriminate|].
    destruct (negb (building s)); [discriminate|]. injection H as <-. reflexivity.
  - unfold finalizeBuild in H. destruct (_ || _); [discriminate|]. injection H as <-. reflexivity.
Qed.
Lemma proper_run warm ffl ops : forall v w, properRun warm ffl v ops -> (forall x, In x (act v) -> exists_in (conf (base v)) x) ->
  wrun warm ffl v ops = Ok w -> forall x, In x (act w) -> exists_in (conf (base w)) x.
Proof.
  induction ops as [|[c|a] l IH]; intros v w P A; cbn [wrun]; [intros [= <-]; exact A| |].
  - destruct (wcall ffl v c) as [v1| |] eqn:C; cbn [bind]; [|discriminate|discriminate].
    cbn in P. apply IH; [apply P; exact C|].
    apply call_inv in C. destruct C as (s & S & -> & C).
    destruct c as [n ne ni ub|?|? ?| |].
    + destruct C as (_ & -> & _). intros x [].
    + destruct C as (_ & -> & _). rewrite (step_conf _ _ _ _ S) by discriminate. exact A.
    + destruct C as (_ & -> & _). rewrite (step_conf _ _ _ _ S) by discriminate. exact A.
    + destruct C as (_ & -> & _). rewrite (step_conf _ _ _ _ S) by discriminate. exact A.
    + destruct C as (_ & -> & _). rewrite (step_conf _ _ _ _ S) by discriminate. exact A.
  - cbn in P. destruct P as [Pa P].
    destruct (wsolve warm ffl a v) as [[[v1 g] b]| |] eqn:S; cbn [bind fst]; [|discriminate|discriminate].
    apply IH; [eapply P; reflexivity|].
    apply solve_inv in S. destruct S as (_ & _ & -> & _ & -> & _). destruct warm; [exact Pa|exact A].
Qed.
Lemma valid_ok warm ffl ops w a w' g b : properRun warm ffl newWs ops -> wrun warm ffl newWs ops = Ok w ->
  wsolve warm ffl a w = Ok (w', g, b) -> forall x, In x (g_act g) -> exists_in (g_conf g) x.
Proof.
  intros P R S. apply solve_inv in S. destruct S as (_ & (cd & E & ->) & _).
  unfold solve in E. destruct (building (base w)); [discriminate|]. destruct (negb (validBounds (base w))); [discriminate|].
  injection E as <-. cbn. intros x H. destruct warm; [|contradiction]. apply filter_In in H. destruct H as [H _].
  eapply proper_run; eauto. intros ? [].
Qed.

(* a rebuild which leaves the library as it was *)
Definition twoBuilds : list wop :=
  map Call [StartBuild 4 [0] [0] true; FinalizeBuild; StartBuild 2 [6] [0] false; AddConstraint (mkC 0 true 6); FinalizeBuild].
Lemma proper_calls warm ffl cs : forall w, properRun warm ffl w (map Call cs).
Proof. induction cs as [|c cs IH]; intros w; cbn; [exact I|]. intros w' _. apply IH. Qed.
Lemma start_size_wrong : exists ops w a w' g b n objs v,
  wrun true false newWs ops = Ok w /\ properRun true false newWs ops /\ wsolve true false a w = Ok (w', g, b) /\
  g_conf g = Some (n, objs) /\ g_x0 g = Some v /\ length v <> n.
Proof.
  exists twoBuilds.
  match eval vm_compute in (wrun true false newWs twoBuilds) with Ok ?w => exists w; exists (mkAns Solved [] []);
    match eval vm_compute in (wsolve true false (mkAns Solved [] []) w) with Ok (?w', ?g, ?b) =>
      exists w', g, b, 4, [(4, false)], [0 # 1; 0 # 1]%Q end end.
  split; [vm_compute; reflexivity|]. split; [apply proper_calls|].
  split; [vm_compute; reflexivity|]. split; [reflexivity|]. split; [reflexivity|discriminate].
Qed.
