From Coq Require Import List Bool Arith Lia.
Import ListNotations.
From Verif Require Import Base OutSelModel OutSelSpec.
Local Open Scope nat_scope.

Lemma snoc_split {A} (h h1 h2 : list A) o o' : h ++ [o] = h1 ++ o' :: h2 ->
  (h2 = [] /\ h = h1 /\ o = o') \/ (exists h2', h2 = h2' ++ [o] /\ h = h1 ++ o' :: h2').
Proof.
  destruct h2 as [|x h2 _] using rev_ind; intros H.
  - left. apply app_inj_tail in H. tauto.
  - right. exists h2. change (h1 ++ o' :: h2 ++ [x]) with (h1 ++ (o' :: h2) ++ [x]) in H. rewrite app_assoc in H.
    apply app_inj_tail in H. destruct H as [H E]. subst x. split; [reflexivity|exact H].
Qed.

Lemma setAt_length l i b : length (setAt l i b) = length l.
Proof. revert i. induction l as [|x l IH]; intros [|i]; cbn; auto. Qed.
Lemma setAt_nth l i b j : i < length l -> nth j (setAt l i b) false = if j =? i then b else nth j l false.
Proof.
  revert i j. induction l as [|x l IH]; intros i j H; cbn in H; [lia|]. destruct i as [|i], j as [|j]; cbn; auto. apply IH. lia.
Qed.
Lemma resize_length l n : length l <= n -> length (resize l n) = n.
Proof. intros H. unfold resize. rewrite app_length, firstn_length, repeat_length. lia. Qed.
Lemma nth_repeat_true k j : j < k -> nth j (repeat true k) false = true.
Proof. revert j. induction k as [|k IH]; intros j H; [lia|]. destruct j; cbn; [reflexivity|apply IH; lia]. Qed.
Lemma resize_nth l n j : length l <= n -> j < n -> nth j (resize l n) false = if j <? length l then nth j l false else true.
Proof.
  intros H J. unfold resize. rewrite firstn_all2 by exact H. destruct (j <? length l) eqn:E.
  - apply Nat.ltb_lt in E. apply app_nth1. exact E.
  - apply Nat.ltb_ge in E. rewrite app_nth2 by exact E. apply nth_repeat_true. lia.
Qed.

Lemma disabledBy_app h h' acc : disabledBy (h ++ h') acc = disabledBy h' (disabledBy h acc).
Proof. revert acc. induction h as [|v h IH]; intros acc; [reflexivity|]. destruct v as [n [l|] s| | | |]; cbn; apply IH. Qed.
Lemma lockedBy_app h h' acc : lockedBy (h ++ h') acc = lockedBy h' (lockedBy h acc).
Proof. revert acc. induction h as [|v h IH]; intros acc; [reflexivity|]. destruct v as [n [l|] s| | | |]; cbn; apply IH. Qed.
Lemma coveredBy_app h h' n c : coveredBy (h ++ h') n c = coveredBy h' (n + total h) (coveredBy h n c).
Proof.
  revert n c. induction h as [|v h IH]; intros n c; [cbn; rewrite Nat.add_0_r; reflexivity|].
  assert (T : total (v :: h) = added v + total h) by reflexivity. rewrite T.
  destruct v as [k d [| |]|e|e| |]; cbn [app coveredBy added]; rewrite IH; f_equal; lia.
Qed.
Lemma total_snoc h v : total (h ++ [v]) = total h + added v.
Proof. unfold total. rewrite map_app, list_sum_app. cbn. lia. Qed.
Lemma covered_snoc h v : covered (h ++ [v]) = match v with Derive k _ SelBase => total h | Derive k _ SelSelf => total h + k | _ => covered h end.
Proof. unfold covered. rewrite coveredBy_app. destruct v as [k d [| |]|e|e| |]; reflexivity. Qed.
Lemma coveredBy_total h : forall n c, c <= n -> coveredBy h n c <= n + total h.
Proof.
  induction h as [|v h IH]; intros n c H; [cbn; lia|].
  assert (T : total (v :: h) = added v + total h) by reflexivity. rewrite T.
  destruct v as [k d [| |]|e|e| |]; cbn [coveredBy added].
  all: eapply Nat.le_trans; [apply IH; lia|lia].
Qed.
Lemma covered_total h : covered h <= total h.
Proof. apply (coveredBy_total h 0 0). lia. Qed.

Lemma program_app h h' s : program (h ++ h') s = program h s && program h' (s || existsb (fun v => match v with Derive _ _ NoSel => false | Derive _ _ _ => true | _ => false end) h).
Proof.
  revert s. induction h as [|v h IH]; intros s; [cbn; rewrite orb_false_r; reflexivity|].
  destruct v as [k d [| |]|e|e| |]; cbn; rewrite IH; destruct s; cbn; try reflexivity.
Qed.
Definition sel (h : list event) : bool := existsb (fun v => match v with Derive _ _ NoSel => false | Derive _ _ _ => true | _ => false end) h.
Lemma sel_has h : sel h = true <-> hasSelector h.
Proof.
  unfold sel, hasSelector. rewrite existsb_exists. split.
  - intros [v [K E]]. destruct v as [k d [| |]|e|e| |]; try discriminate; exists k, d; eexists; (split; [exact K|discriminate]).
  - intros [n [d [s [K N]]]]. exists (Derive n d s). split; [exact K|]. destruct s; [contradiction| |]; reflexivity.
Qed.

Lemma lastDisabled_snoc h v e : lastDisabled (h ++ [v]) e <->
  (v = Disable (Own e) /\ acceptedDisable h e) \/ (lastDisabled h e /\ ~ (v = Enable (Own e) /\ acceptedEnable h e)).
Proof.
  split.
  - intros [h1 [h2 [E [A N]]]]. apply snoc_split in E. destruct E as [[-> [-> ->]]|[h3 [-> ->]]]; [left; split; [reflexivity|exact A]|].
    right. split.
    + exists h1, h3. split; [reflexivity|]. split; [exact A|]. intros h4 h5 ->. apply (N h4 (h5 ++ [v])). rewrite <- app_assoc. reflexivity.
    + intros [-> B]. apply (N h3 []); [reflexivity|exact B].
  - intros [[-> A]|[[h1 [h2 [-> [A N]]]] B]].
    + exists h, []. split; [reflexivity|]. split; [exact A|]. intros h3 h4 E. destruct h3; discriminate.
    + exists h1, (h2 ++ [v]). split; [rewrite <- app_assoc; reflexivity|]. split; [exact A|]. intros h3 h4 E C.
      apply snoc_split in E. destruct E as [[_ [E1 E2]]|[h5 [_ E2]]].
      * subst. apply B. split; [reflexivity|exact C].
      * apply (N h3 h5 E2 C).
Qed.

Lemma run_app h h' : forall o, run o (h ++ h') = match run o h with Ok o' => run o' h' | Throw => Throw | UB => UB end.
Proof. induction h as [|v h IH]; intros o; [reflexivity|]. cbn. destruct (step o v); auto. Qed.

Definition reps (h : list event) (o : obj) : Prop :=
  osize o = total h /\ off o = disabledBy h [] /\ locked o = lockedBy h false /\ prov o = covered h /\
  match dyn o with
  | None => sel h = false /\ covered h = 0
  | Some d => sel h = true /\ length d = covered h /\ (forall e, e < covered h -> (nth e d false = true <-> ~ lastDisabled h e))
  end.

Lemma not_last_uncovered h e : covered h <= e -> ~ lastDisabled h e.
Proof.
  induction h as [|v h IH] using rev_ind.
  - intros _ [h1 [h2 [E _]]]. destruct h1; discriminate.
  - rewrite covered_snoc, lastDisabled_snoc. pose proof (covered_total h) as CT. intros C [[-> [A _]]|[L _]].
    + lia.
    + apply IH; [|exact L]. destruct v as [k d [| |]|x|x| |]; try exact C; lia.
Qed.

Lemma static_iff h o e : reps h o -> (static o e = true <-> ~ staticallyOff h e).
Proof.
  intros [_ [O _]]. unfold static, staticallyOff. rewrite <- O, negb_true_iff. rewrite <- not_true_iff_false, existsb_exists.
  split; intros N K; apply N; [exists e; split; [exact K|apply Nat.eqb_refl]|]. destruct K as [x [K E]]. apply Nat.eqb_eq in E. subst. exact K.
Qed.

(* a request *)
Lemma request_spec h o x b : reps h o -> sel h = true ->
  match x with
  | Foreign => request o x b = Throw
  | Own e =>
      (request o x b = Throw /\ ~ (if b then acceptedEnable h e else acceptedDisable h e)) \/
      (exists d, dyn o = Some d /\ (if b then acceptedEnable h e else acceptedDisable h e) /\
        request o x b = Ok (mkO (osize o) (off o) (Some (setAt d e b)) (prov o) (locked o)))
  end.
Proof.
  intros R S. pose proof (fun e => static_iff h o e R) as SI. destruct R as [R1 [R2 [R3 [R4 R5]]]]. unfold request.
  destruct (dyn o) as [d|]; [|destruct R5; congruence]. destruct R5 as [R5 [R6 R7]].
  destruct x as [e|]; cbn [valid]; [|reflexivity]. rewrite R4. unfold acceptedEnable, acceptedDisable. rewrite <- R3. destruct (e <? covered h) eqn:V; cbn [negb].
  2: { left. split; [reflexivity|]. apply Nat.ltb_ge in V. destruct b; lia. }
  pose proof V as V'. apply Nat.ltb_lt in V'. rewrite R6, V. destruct b; cbn [andb].
  - destruct (static o e) eqn:T; cbn [negb].
    + apply SI in T. destruct (locked o) eqn:L; [left; split; [reflexivity|]; intros [_ [K _]]; discriminate|].
      right. exists d. repeat split; auto.
    + left. split; [reflexivity|]. intros [_ [_ K]]. apply SI in K. congruence.
  - destruct (locked o) eqn:L; [left; split; [reflexivity|]; intros [_ K]; discriminate|].
    right. exists d. repeat split; auto.
Qed.

Lemma reps_request h o x (b : bool) : reps h o -> sel h = true ->
  exists o', (request o x b = Ok o' \/ (request o x b = Throw /\ o' = o)) /\ reps (h ++ [if b then Enable x else Disable x]) o'.
Proof.
  intros R S. pose proof (request_spec h o x b R S) as Q. destruct R as [R1 [R2 [R3 [R4 R5]]]].
  set (v := if b then Enable x else Disable x).
  assert (A1 : total (h ++ [v]) = total h) by (rewrite total_snoc; destruct b; cbn; lia).
  assert (A2 : disabledBy (h ++ [v]) [] = disabledBy h []) by (rewrite disabledBy_app; destruct b; reflexivity).
  assert (A3 : lockedBy (h ++ [v]) false = lockedBy h false) by (rewrite lockedBy_app; destruct b; reflexivity).
  assert (A4 : covered (h ++ [v]) = covered h) by (rewrite covered_snoc; destruct b; reflexivity).
  assert (A5 : sel (h ++ [v]) = sel h) by (unfold sel; rewrite existsb_app; destruct b; cbn; rewrite orb_false_r; reflexivity).
  assert (Keep : (forall e, x = Own e -> ~ (if b then acceptedEnable h e else acceptedDisable h e)) -> reps (h ++ [v]) o).
  { intros N. unfold reps. rewrite A1, A2, A3, A4, A5. split; [exact R1|]. split; [exact R2|]. split; [exact R3|]. split; [exact R4|].
    destruct (dyn o) as [d|]; [|exact R5]. destruct R5 as [R5 [R6 R7]]. split; [exact R5|]. split; [exact R6|]. intros e V. rewrite (R7 e V), lastDisabled_snoc.
    assert (B1 : ~ (v = Disable (Own e) /\ acceptedDisable h e)).
    { intros [E A]. destruct b; [discriminate|]. injection E as E. apply (N e E A). }
    assert (B2 : ~ (v = Enable (Own e) /\ acceptedEnable h e)).
    { intros [E A]. destruct b; [|discriminate]. injection E as E. apply (N e E A). }
    tauto. }
  destruct x as [e|].
  - destruct Q as [[Q N]|[d [D [A Q]]]].
    + exists o. split; [right; split; [exact Q|reflexivity]|]. apply Keep. intros e' E. injection E as <-. exact N.
    + eexists. split; [left; exact Q|]. unfold reps. cbn [osize off locked prov dyn]. rewrite A1, A2, A3, A4, A5. rewrite D in R5. destruct R5 as [R5 [R6 R7]].
      split; [exact R1|]. split; [exact R2|]. split; [exact R3|]. split; [exact R4|]. split; [exact R5|]. split; [rewrite setAt_length; exact R6|].
      assert (V0 : e < covered h) by (destruct b; apply A).
      intros e' V. rewrite setAt_nth by lia. rewrite lastDisabled_snoc. destruct (e' =? e) eqn:E.
      * apply Nat.eqb_eq in E. subst e'. destruct b; subst v.
        -- split; [|reflexivity]. intros _ [[K _]|[_ K]]; [discriminate|]. apply K. split; [reflexivity|exact A].
        -- split; [discriminate|]. intros K. exfalso. apply K. left. split; [reflexivity|exact A].
      * apply Nat.eqb_neq in E. rewrite (R7 e' V).
        assert (B1 : ~ (v = Disable (Own e') /\ acceptedDisable h e')) by (intros [K _]; destruct b; [discriminate|]; injection K as K; congruence).
        assert (B2 : ~ (v = Enable (Own e') /\ acceptedEnable h e')) by (intros [K _]; destruct b; [|discriminate]; injection K as K; congruence).
        tauto.
  - exists o. split; [right; split; [exact Q|reflexivity]|]. apply Keep. intros e E. discriminate.
Qed.

Lemma reps_reached h : program h false = true -> exists o, run outputs h = Ok o /\ reps h o.
Proof.
  induction h as [|v h IH] using rev_ind; intros P.
  - exists outputs. split; [reflexivity|]. repeat split; reflexivity.
  - rewrite program_app in P. apply andb_true_iff in P. destruct P as [P Pv]. destruct (IH P) as [o [E R]].
    fold (sel h) in Pv. cbn [orb] in Pv. rewrite run_app, E. cbn [run].
    assert (Sr : forall x b, v = (if b : bool then Enable x else Disable x) -> sel h = true -> exists o', (match step o v with Ok o' => Ok o' | Throw => Ok o | UB => UB end) = Ok o' /\ reps (h ++ [v]) o').
    { intros x b -> S. destruct (reps_request h o x b R S) as [o' [Q R']]. exists o'. split; [|exact R'].
      assert (W : step o (if b then Enable x else Disable x) = request o x b) by (destruct b; reflexivity). rewrite W.
      destruct Q as [Q|[Q ->]]; rewrite Q; reflexivity. }
    destruct v as [k d s|x|x| |]; cbn [program] in Pv.
    + assert (TS := total_snoc h (Derive k d s)). cbn [added] in TS.
      assert (DS : disabledBy (h ++ [Derive k d s]) [] = match d with Some l => l | None => disabledBy h [] end) by (rewrite disabledBy_app; destruct d; reflexivity).
      assert (LS : lockedBy (h ++ [Derive k d s]) false = lockedBy h false) by (rewrite lockedBy_app; reflexivity).
      assert (SS : sel (h ++ [Derive k d s]) = match s with NoSel => sel h | _ => true end) by (unfold sel; rewrite existsb_app; destruct s; cbn; rewrite ?orb_false_r, ?orb_true_r; reflexivity).
      assert (CS := covered_snoc h (Derive k d s)). pose proof (covered_total h) as CT.
      assert (ND : forall e, lastDisabled (h ++ [Derive k d s]) e <-> lastDisabled h e).
      { intros e. rewrite lastDisabled_snoc. split; [intros [[K _]|[K _]]; [discriminate|exact K]|]. intros K. right. split; [exact K|]. intros [Q _]. discriminate. }
      destruct R as [R1 [R2 [R3 [R4 R5]]]].
      assert (Gs : forall p, p = covered (h ++ [Derive k d s]) -> s <> NoSel -> covered h <= p ->
        reps (h ++ [Derive k d s]) (mkO (osize o + k) (match d with Some l => l | None => off o end) (Some (resize (match dyn o with Some d => d | None => [] end) p)) p (locked o))).
      { intros p Ep Ns Le. unfold reps. cbn [osize off locked prov dyn]. rewrite TS, DS, LS, SS, <- Ep. split; [lia|]. split; [destruct d; [reflexivity|exact R2]|].
        split; [exact R3|]. split; [reflexivity|]. split; [destruct s; [contradiction|reflexivity|reflexivity]|].
        assert (LL : length (match dyn o with Some d => d | None => [] end) = covered h) by (destruct (dyn o); [apply R5|cbn; destruct R5; lia]).
        split; [apply resize_length; lia|]. intros e V. rewrite resize_nth by lia. rewrite LL, ND. destruct (e <? covered h) eqn:X.
        - apply Nat.ltb_lt in X. destruct (dyn o) as [d0|]; [apply R5; exact X|destruct R5; lia].
        - apply Nat.ltb_ge in X. split; [intros _; apply not_last_uncovered; exact X|reflexivity]. }
      destruct s; cbn [step osize].
      * eexists. split; [reflexivity|]. unfold reps. cbn [osize off locked prov dyn]. rewrite TS, DS, LS, SS, CS. split; [lia|]. split; [destruct d; [reflexivity|exact R2]|].
        split; [exact R3|]. split; [exact R4|]. destruct (dyn o) as [d0|]; [|exact R5]. destruct R5 as [R5 [R6 R7]]. split; [exact R5|]. split; [exact R6|].
        intros e V. rewrite (R7 e V), ND. tauto.
      * eexists. split; [reflexivity|]. apply Gs; [rewrite CS; exact R1|discriminate|lia].
      * eexists. split; [reflexivity|]. cbn [off]. apply Gs; [rewrite CS; lia|discriminate|lia].
    + apply andb_true_iff in Pv. destruct Pv as [S _]. destruct (Sr x false eq_refl S) as [o' [Q R']]. exists o'. split; [|exact R'].
      destruct (step o (Disable x)); [exact Q|exact Q|discriminate].
    + apply andb_true_iff in Pv. destruct Pv as [S _]. destruct (Sr x true eq_refl S) as [o' [Q R']]. exists o'. split; [|exact R'].
      destruct (step o (Enable x)); [exact Q|exact Q|discriminate].
    + apply andb_true_iff in Pv. destruct Pv as [S _]. destruct R as [R1 [R2 [R3 [R4 R5]]]]. cbn [step].
      destruct (dyn o) as [d|] eqn:D; [|destruct R5; congruence]. eexists. split; [reflexivity|]. unfold reps. cbn [osize off locked prov dyn].
      rewrite total_snoc, disabledBy_app, lockedBy_app, covered_snoc. cbn [added disabledBy lockedBy]. rewrite Nat.add_0_r.
      split; [exact R1|]. split; [exact R2|]. split; [reflexivity|]. split; [exact R4|]. destruct R5 as [R5 [R6 R7]].
      split; [unfold sel in *; rewrite existsb_app, R5; reflexivity|]. split; [exact R6|]. intros e V. rewrite (R7 e V), lastDisabled_snoc.
      split; [intros K [[Q _]|[Q _]]; [discriminate|exact (K Q)]|]. intros K Q. apply K. right. split; [exact Q|]. intros [Z _]. discriminate.
    + apply andb_true_iff in Pv. destruct Pv as [S _]. destruct R as [R1 [R2 [R3 [R4 R5]]]]. cbn [step].
      destruct (dyn o) as [d|] eqn:D; [|destruct R5; congruence]. eexists. split; [reflexivity|]. unfold reps. cbn [osize off locked prov dyn].
      rewrite total_snoc, disabledBy_app, lockedBy_app, covered_snoc. cbn [added disabledBy lockedBy]. rewrite Nat.add_0_r.
      split; [exact R1|]. split; [exact R2|]. split; [reflexivity|]. split; [exact R4|]. destruct R5 as [R5 [R6 R7]].
      split; [unfold sel in *; rewrite existsb_app, R5; reflexivity|]. split; [exact R6|]. intros e V. rewrite (R7 e V), lastDisabled_snoc.
      split; [intros K [[Q _]|[Q _]]; [discriminate|exact (K Q)]|]. intros K Q. apply K. right. split; [exact Q|]. intros [Z _]. discriminate.
Qed.

Lemma enabled_spec h e : program h false = true -> exists o, run outputs h = Ok o /\
  (staticallyOff h e -> isEnabled o e = Ok false) /\
  (~ staticallyOff h e -> hasSelector h -> e < covered h -> exists b, isEnabled o e = Ok b /\ (b = true <-> ~ lastDisabled h e)) /\
  (~ staticallyOff h e -> hasSelector h -> covered h <= e -> isEnabled o e = Throw) /\
  (~ staticallyOff h e -> ~ hasSelector h -> isEnabled o e = Ok true).
Proof.
  intros P. destruct (reps_reached h P) as [o [E R]]. exists o. split; [exact E|]. pose proof (static_iff h o e R) as SI.
  destruct R as [R1 [R2 [R3 [R4 R5]]]]. unfold isEnabled. rewrite <- sel_has. split; [|split; [|split]].
  - intros S. destruct (static o e); [exfalso; apply SI in S; [exact S|reflexivity]|reflexivity].
  - intros N S V. apply SI in N. rewrite N. destruct (dyn o) as [d|]; [|destruct R5; congruence]. destruct R5 as [R5 [R6 R7]].
    rewrite R6. destruct (covered h <=? e) eqn:X; [apply Nat.leb_le in X; lia|]. eexists. split; [reflexivity|]. apply R7. exact V.
  - intros N S V. apply SI in N. rewrite N. destruct (dyn o) as [d|]; [|destruct R5; congruence]. destruct R5 as [R5 [R6 R7]].
    rewrite R6. apply Nat.leb_le in V. rewrite V. reflexivity.
  - intros N S. apply SI in N. rewrite N. destruct (dyn o) as [d|]; [|reflexivity]. destruct R5 as [R5 _]. contradiction.
Qed.

Lemma enabled_all h e : program h false = true -> covered h = total h -> e < total h -> exists o b, run outputs h = Ok o /\ isEnabled o e = Ok b /\
  (b = true <-> ~ staticallyOff h e /\ ~ lastDisabled h e).
Proof.
  intros P C V. destruct (enabled_spec h e P) as [o [E [A [B _]]]]. exists o.
  assert (S : hasSelector h).
  { destruct (reps_reached h P) as [o' [E' R]]. rewrite E in E'. injection E' as <-. apply sel_has. destruct R as [_ [_ [_ [_ R]]]]. destruct (dyn o); [apply R|lia]. }
  destruct (in_dec Nat.eq_dec e (disabledBy h [])) as [I|I].
  - exists false. split; [exact E|]. split; [apply A; exact I|]. split; [discriminate|]. intros [K _]. contradiction.
  - destruct (B I S) as [b [Q W]]; [lia|]. exists b. split; [exact E|]. split; [exact Q|]. rewrite W. unfold staticallyOff. tauto.
Qed.

Lemma requests_throw h o x : program h false = true -> hasSelector h -> run outputs h = Ok o ->
  (step o (Disable x) = Throw <-> match x with Foreign => True | Own e => ~ acceptedDisable h e end) /\
  (step o (Enable x) = Throw <-> match x with Foreign => True | Own e => ~ acceptedEnable h e end) /\
  step o (Disable x) <> UB /\ step o (Enable x) <> UB.
Proof.
  intros P S E. destruct (reps_reached h P) as [o' [E' R]]. rewrite E in E'. injection E' as <-. apply sel_has in S.
  pose proof (request_spec h o x false R S) as Qd. pose proof (request_spec h o x true R S) as Qe. cbn [step].
  destruct x as [e|]; [|rewrite Qd, Qe; repeat split; auto; discriminate].
  destruct Qd as [[Q1 Q2]|[d [_ [Q1 Q2]]]]; destruct Qe as [[Q3 Q4]|[d' [_ [Q3 Q4]]]]; rewrite ?Q1, ?Q2, ?Q3, ?Q4;
    repeat split; auto; try discriminate; intros; contradiction.
Qed.

Lemma request_locked h o x b : program h false = true -> run outputs h = Ok o -> lockedBy h false = true -> hasSelector h -> request o x b = Throw.
Proof.
  intros P E L S. destruct (requests_throw h o x P S E) as [D [En _]]. destruct b; cbn [step] in *.
  - apply En. destruct x as [e|]; [|exact Logic.I]. intros [_ [K _]]. congruence.
  - apply D. destruct x as [e|]; [|exact Logic.I]. intros [_ K]. congruence.
Qed.
Lemma requests_locked h o es b : program h false = true -> run outputs h = Ok o -> lockedBy h false = true -> hasSelector h -> es <> [] ->
  requests o es b = (o, Throw).
Proof.
  intros P E L S N. destruct es as [|x es]; [contradiction|]. cbn. rewrite (request_locked h o x b P E L S). reflexivity.
Qed.

(* several requests: the ones before the first that throws *)
Lemma requests_run o es b : match requests o es b with
  | (o', Ok _) => run o (map (fun x => if b : bool then Enable x else Disable x) es) = Ok o'
  | (o', Throw) => exists es1 x es2, es = es1 ++ x :: es2 /\ run o (map (fun x => if b then Enable x else Disable x) es1) = Ok o' /\ request o' x b = Throw
  | (_, UB) => True
  end.
Proof.
  revert o. induction es as [|x es IH]; intros o; [reflexivity|]. cbn [requests map]. destruct (request o x b) as [o1| |] eqn:Q; [| |exact Logic.I].
  - specialize (IH o1). assert (W : step o (if b then Enable x else Disable x) = Ok o1) by (destruct b; exact Q).
    destruct (requests o1 es b) as [o' [u| |]]; [|destruct IH as [es1 [y [es2 [-> [R T]]]]]|exact Logic.I].
    + cbn [run]. rewrite W. exact IH.
    + exists (x :: es1), y, es2. split; [reflexivity|]. split; [cbn [map run]; rewrite W; exact R|exact T].
  - exists [], x, es. split; [reflexivity|]. split; [reflexivity|exact Q].
Qed.
