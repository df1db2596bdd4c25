From Coq Require Import List Bool Arith Lia.
Import ListNotations.
From Verif Require Import Base EventModel EventSpec.
Local Open Scope nat_scope.

Lemma upd_eq {A} (f : nat -> A) i a : upd f i a i = a.
Proof. unfold upd. rewrite Nat.eqb_refl. reflexivity. Qed.
Lemma upd_ne {A} (f : nat -> A) i j a : j <> i -> upd f i a j = f j.
Proof. intros H. unfold upd. apply Nat.eqb_neq in H. rewrite H. reflexivity. Qed.

Section P.
Variable process : nat -> nat -> list action.
Notation run := (run process).
Notation deliver := (deliver process).

Lemma run_nil f s : run (S f) s [] = Ok (s, []).
Proof. reflexivity. Qed.
Lemma run_regist f s l e h : run (S f) s (Regist l e :: h) = do s' <- regist s l e; run (S f) s' h.
Proof. reflexivity. Qed.
Lemma run_destroy f s l h : run (S f) s (Destroy l :: h) = run (S f) (mkS (regs s) (upd (alive s) l false) (iter s)) h.
Proof. reflexivity. Qed.
Lemma run_notify f s e h : run (S f) s (Notify e :: h) =
  do r <- deliver (run f) (mkS (regs s) (alive s) (e :: iter s)) e (regs s e);
  do r' <- run (S f) (mkS (regs (fst r)) (alive (fst r)) (iter s)) h;
  Ok (fst r', snd r ++ snd r').
Proof. reflexivity. Qed.

Lemma deliver_receivers go e ls : forall s s' tr, deliver go s e ls = Ok (s', tr) -> map receiver tr = ls /\ Forall (fun d => about d = e) tr.
Proof.
  induction ls as [|l ls IH]; intros s s' tr H; cbn in H.
  - injection H as <- <-. split; [reflexivity|constructor].
  - destruct (alive s l); [|discriminate]. destruct (go s (process l e)) as [[s1 t1]| |]; cbn in H; try discriminate.
    destruct (deliver go s1 e ls) as [[s2 t2]| |] eqn:D; cbn in H; try discriminate. injection H as <- <-.
    destruct (IH _ _ _ D) as [I1 I2]. split; [cbn; rewrite I1; reflexivity|constructor; [reflexivity|exact I2]].
Qed.

(* The vectors being iterated upon are not changed; the listeners do not come back to life. *)
Definition grows (s s' : state) : Prop :=
  iter s' = iter s /\ (forall e, In e (iter s) -> regs s' e = regs s e) /\
  (forall e, exists l, regs s' e = regs s e ++ l) /\ (forall l, alive s' l = true -> alive s l = true).
Lemma grows_refl s : grows s s.
Proof. split; [reflexivity|]. split; [reflexivity|]. split; [intros e; exists []; rewrite app_nil_r; reflexivity|auto]. Qed.
Lemma grows_trans s1 s2 s3 : grows s1 s2 -> grows s2 s3 -> grows s1 s3.
Proof.
  intros [A1 [A2 [A3 A4]]] [B1 [B2 [B3 B4]]]. split; [congruence|]. split; [|split].
  - intros e K. rewrite B2 by (rewrite A1; exact K). apply A2. exact K.
  - intros e. destruct (A3 e) as [l1 E1], (B3 e) as [l2 E2]. exists (l1 ++ l2). rewrite E2, E1, app_assoc. reflexivity.
  - auto.
Qed.

Lemma deliver_grows go e ls : (forall s h s' tr, go s h = Ok (s', tr) -> grows s s') ->
  forall s s' tr, deliver go s e ls = Ok (s', tr) -> grows s s'.
Proof.
  intros G. induction ls as [|l ls IH]; intros s s' tr H; cbn in H.
  - injection H as <- <-. apply grows_refl.
  - destruct (alive s l); [|discriminate]. destruct (go s (process l e)) as [[s1 t1]| |] eqn:X; cbn in H; try discriminate.
    destruct (deliver go s1 e ls) as [[s2 t2]| |] eqn:D; cbn in H; try discriminate. injection H as <- <-.
    apply (grows_trans s s1); [apply (G _ _ _ _ X)|apply (IH _ _ _ D)].
Qed.

Lemma run_grows f : forall s h s' tr, run f s h = Ok (s', tr) -> grows s s'.
Proof.
  induction f as [|f IHf]; [intros; discriminate|]. intros s h. revert s. induction h as [|a h IH]; intros s s' tr H.
  - rewrite run_nil in H. injection H as <- <-. apply grows_refl.
  - destruct a as [l e|l|e].
    + rewrite run_regist in H. unfold regist in H. destruct (existsb (Nat.eqb e) (iter s)) eqn:X; cbn [bind fst snd] in H; [discriminate|].
      apply IH in H. apply (grows_trans s (mkS (upd (regs s) e (regs s e ++ [l])) (alive s) (iter s))); [|exact H].
      split; [reflexivity|]. cbn. split; [|split; [|auto]].
      * intros e' K. apply upd_ne. intros ->. assert (existsb (Nat.eqb e) (iter s) = true) by (apply existsb_exists; exists e; split; [exact K|apply Nat.eqb_refl]). congruence.
      * intros e'. destruct (Nat.eq_dec e' e) as [->|N]; [exists [l]; apply upd_eq|exists []; rewrite app_nil_r; apply upd_ne; exact N].
    + rewrite run_destroy in H. apply IH in H. apply (grows_trans s (mkS (regs s) (upd (alive s) l false) (iter s))); [|exact H].
      split; [reflexivity|]. split; [reflexivity|]. split; [intros e; exists []; rewrite app_nil_r; reflexivity|]. cbn. intros x K.
      destruct (Nat.eq_dec x l) as [->|N]; [rewrite upd_eq in K; discriminate|rewrite upd_ne in K by exact N; exact K].
    + rewrite run_notify in H.
      destruct (deliver (run f) (mkS (regs s) (alive s) (e :: iter s)) e (regs s e)) as [[s1 t1]| |] eqn:D; cbn [bind fst snd] in H; try discriminate.
      destruct (run (S f) (mkS (regs s1) (alive s1) (iter s)) h) as [[s2 t2]| |] eqn:R; cbn [bind fst snd] in H; try discriminate. injection H as <- <-.
      apply deliver_grows in D; [|exact IHf]. destruct D as [D1 [D2 [D3 D4]]]. cbn in *.
      apply IH in R. apply (grows_trans s (mkS (regs s1) (alive s1) (iter s))); [|exact R].
      split; [reflexivity|]. cbn. split; [intros e' K; apply D2; right; exact K|]. split; [exact D3|exact D4].
Qed.

Lemma notify_order f s e s' tr : run f s [Notify e] = Ok (s', tr) ->
  map receiver tr = regs s e /\ Forall (fun d => about d = e) tr /\ regs s' e = regs s e.
Proof.
  destruct f as [|f]; [discriminate|]. rewrite run_notify.
  destruct (deliver (run f) (mkS (regs s) (alive s) (e :: iter s)) e (regs s e)) as [[s1 t1]| |] eqn:D; cbn [bind fst snd]; try discriminate.
  intros H. injection H as <- <-. rewrite app_nil_r. destruct (deliver_receivers _ _ _ _ _ _ D) as [A B]. split; [exact A|]. split; [exact B|].
  apply deliver_grows in D; [|apply run_grows]. destruct D as [_ [D _]]. cbn in *. apply D. left. reflexivity.
Qed.

(* Each listener is alive when its turn comes, given the actions before. *)
Lemma notify_dead f s e ls1 l ls2 : regs s e = ls1 ++ l :: ls2 -> alive s l = false -> run f s [Notify e] = UB.
Proof.
  intros E N. destruct (run f s [Notify e]) as [[s' tr]| |] eqn:R; [| |reflexivity]; exfalso.
  - destruct f as [|f]; [discriminate|]. rewrite run_notify, E in R.
    assert (G : forall ls s0 r, alive s0 l = false -> deliver (run f) s0 e (ls ++ l :: ls2) = Ok r -> False).
    { induction ls as [|x ls IH]; intros s0 r A D; cbn [deliver app] in D.
      - rewrite A in D. discriminate.
      - destruct (alive s0 x); [|discriminate]. destruct (run f s0 (process x e)) as [[s1 t1]| |] eqn:X; cbn [bind fst snd] in D; try discriminate.
        destruct (deliver (run f) s1 e (ls ++ l :: ls2)) as [r2| |] eqn:D2; cbn [bind fst snd] in D; try discriminate.
        apply (IH s1 r2); [|exact D2]. apply run_grows in X. destruct X as [_ [_ [_ X]]]. destruct (alive s1 l) eqn:L; [|reflexivity]. apply X in L. congruence. }
    destruct (deliver (run f) (mkS (regs s) (alive s) (e :: iter s)) e (ls1 ++ l :: ls2)) as [r| |] eqn:D; cbn [bind fst snd] in R; try discriminate.
    exact (G ls1 (mkS (regs s) (alive s) (e :: iter s)) r N D).
  - clear E N. revert s R. destruct f as [|f]; [discriminate|]. 
    assert (NT : forall f s h, run f s h <> Throw).
    { clear. induction f as [|f IHf]; [discriminate|]. intros s h. revert s. induction h as [|a h IH]; intros s; [discriminate|]. destruct a as [l e|l|e].
      - rewrite run_regist. unfold regist. destruct (existsb (Nat.eqb e) (iter s)); cbn [bind fst snd]; [discriminate|apply IH].
      - rewrite run_destroy. apply IH.
      - rewrite run_notify. assert (DN : forall ls s0, deliver (run f) s0 e ls <> Throw).
        { induction ls as [|x ls IHl]; intros s0; cbn [deliver]; [discriminate|]. destruct (alive s0 x); [|discriminate].
          specialize (IHf s0 (process x e)). destruct (run f s0 (process x e)) as [[s1 t1]| |]; cbn [bind fst snd]; [|congruence|discriminate].
          specialize (IHl s1). destruct (deliver (run f) s1 e ls) as [[s2 t2]| |]; cbn [bind fst snd]; [discriminate|congruence|discriminate]. }
        specialize (DN (regs s e) (mkS (regs s) (alive s) (e :: iter s))).
        destruct (deliver (run f) (mkS (regs s) (alive s) (e :: iter s)) e (regs s e)) as [[s1 t1]| |]; cbn [bind fst snd]; [|congruence|discriminate].
        specialize (IH (mkS (regs s1) (alive s1) (iter s))). destruct (run (S f) (mkS (regs s1) (alive s1) (iter s)) h) as [[s2 t2]| |]; cbn [bind fst snd]; [discriminate|congruence|discriminate]. }
    intros s. apply NT.
Qed.
End P.

(* Listeners that do nothing. *)
Definition quiet : nat -> nat -> list action := fun _ _ => [].
Lemma deliver_quiet f s e ls : deliver quiet (run quiet (S f)) s e ls =
  if forallb (alive s) ls then Ok (s, map (fun l => Receive l e []) ls) else UB.
Proof.
  induction ls as [|l ls IH]; cbn [deliver forallb map]; [reflexivity|]. destruct (alive s l); [|reflexivity].
  unfold quiet at 2. rewrite run_nil. cbn [bind fst snd andb]. rewrite IH. destruct (forallb (alive s) ls); reflexivity.
Qed.

Definition reps (d : list action) (s : state) : Prop :=
  (forall e, regs s e = registered d e) /\ (forall l, alive s l = true <-> ~ destroyed d l) /\ iter s = [].

Lemma registered_app d d' e : registered (d ++ d') e = registered d e ++ registered d' e.
Proof. unfold registered. rewrite flat_map_app. reflexivity. Qed.

Lemma quiet_run f h : forall d s, reps d s ->
  ((forall h1 e h2, h = h1 ++ Notify e :: h2 -> forall l, In l (registered (d ++ h1) e) -> ~ destroyed (d ++ h1) l) /\
     exists s', run quiet (S (S f)) s h = Ok (s', expected d h) /\ reps (d ++ h) s') \/
  ((exists h1 e h2 l, h = h1 ++ Notify e :: h2 /\ In l (registered (d ++ h1) e) /\ destroyed (d ++ h1) l) /\ run quiet (S (S f)) s h = UB).
Proof.
  induction h as [|a h IH]; intros d s R.
  - left. split; [intros h1 e h2 E; destruct h1; discriminate|]. exists s. split; [apply run_nil|rewrite app_nil_r; exact R].
  - assert (Cases : forall s1, reps (d ++ [a]) s1 -> (forall e, a <> Notify e) -> run quiet (S (S f)) s (a :: h) = run quiet (S (S f)) s1 h ->
      expected d (a :: h) = expected (d ++ [a]) h ->
      ((forall h1 e h2, a :: h = h1 ++ Notify e :: h2 -> forall l, In l (registered (d ++ h1) e) -> ~ destroyed (d ++ h1) l) /\
         exists s', run quiet (S (S f)) s (a :: h) = Ok (s', expected d (a :: h)) /\ reps (d ++ a :: h) s') \/
      ((exists h1 e h2 l, a :: h = h1 ++ Notify e :: h2 /\ In l (registered (d ++ h1) e) /\ destroyed (d ++ h1) l) /\ run quiet (S (S f)) s (a :: h) = UB)).
    { intros s1 R1 Na E1 E2. destruct (IH (d ++ [a]) s1 R1) as [[A [s' [B C]]]|[[h1 [e [h2 [l [A1 [A2 A3]]]]]] B]].
      - left. split.
        + intros h1 e h2 E. destruct h1 as [|x h1]; cbn in E; [injection E as E _; exfalso; apply (Na e E)|]. injection E as <- E.
          specialize (A h1 e h2 E). rewrite <- app_assoc in A. exact A.
        + exists s'. rewrite E1, E2. split; [exact B|]. rewrite <- app_assoc in C. exact C.
      - right. split; [|rewrite E1; exact B]. exists (a :: h1), e, h2, l. split; [rewrite A1; reflexivity|]. rewrite <- app_assoc in A2, A3. split; [exact A2|exact A3]. }
    destruct R as [R1 [R2 R3]]. destruct a as [l e|l|e].
    + apply (Cases (mkS (upd (regs s) e (regs s e ++ [l])) (alive s) (iter s))).
      * split; [|split; [|exact R3]]; cbn.
        -- intros e'. rewrite registered_app. cbn. destruct (Nat.eq_dec e' e) as [->|N].
           ++ rewrite upd_eq, Nat.eqb_refl, R1. reflexivity.
           ++ rewrite upd_ne by exact N. apply not_eq_sym, Nat.eqb_neq in N. rewrite N. rewrite app_nil_r. apply R1.
        -- intros x. rewrite R2. unfold destroyed. rewrite in_app_iff. cbn. split; [intros K [Q|[Q|[]]]; [exact (K Q)|discriminate]|tauto].
      * discriminate.
      * rewrite run_regist. unfold regist. rewrite R3. reflexivity.
      * reflexivity.
    + apply (Cases (mkS (regs s) (upd (alive s) l false) (iter s))).
      * split; [|split; [|exact R3]]; cbn.
        -- intros e'. rewrite registered_app. cbn. rewrite app_nil_r. apply R1.
        -- intros x. unfold destroyed. rewrite in_app_iff. cbn. destruct (Nat.eq_dec x l) as [->|N].
           ++ rewrite upd_eq. split; [discriminate|]. intros K. exfalso. apply K. right. left. reflexivity.
           ++ rewrite upd_ne by exact N. rewrite R2. unfold destroyed. split; [intros K [Q|[Q|[]]]; [exact (K Q)|congruence]|tauto].
      * discriminate.
      * apply run_destroy.
      * reflexivity.
    + destruct (forallb (alive s) (regs s e)) eqn:AL.
      * assert (Rn : reps (d ++ [Notify e]) s).
        { split; [|split; [|exact R3]].
          - intros e'. rewrite registered_app. cbn. rewrite app_nil_r. apply R1.
          - intros x. rewrite R2. unfold destroyed. rewrite in_app_iff. cbn. split; [intros K [Q|[Q|[]]]; [exact (K Q)|discriminate]|tauto]. }
        assert (W : run quiet (S (S f)) s (Notify e :: h) = do r' <- run quiet (S (S f)) s h; Ok (fst r', map (fun l => Receive l e []) (registered d e) ++ snd r')).
        { rewrite run_notify, deliver_quiet. cbn [alive]. rewrite AL. cbn [bind fst snd regs alive]. rewrite R1. destruct s; reflexivity. }
        destruct (IH (d ++ [Notify e]) s Rn) as [[A [s' [B C]]]|[[h1 [e' [h2 [l [A1 [A2 A3]]]]]] B]].
        -- left. split.
           ++ intros h1 e' h2 E. destruct h1 as [|x h1]; cbn in E.
              ** injection E as <- <-. rewrite app_nil_r. intros l K. rewrite <- R1 in K. apply R2. rewrite forallb_forall in AL. apply AL. exact K.
              ** injection E as <- E. specialize (A h1 e' h2 E). rewrite <- app_assoc in A. exact A.
           ++ exists s'. rewrite W, B. split; [reflexivity|]. rewrite <- app_assoc in C. exact C.
        -- right. split; [|rewrite W, B; reflexivity]. exists (Notify e :: h1), e', h2, l. split; [rewrite A1; reflexivity|]. rewrite <- app_assoc in A2, A3. split; [exact A2|exact A3].
      * right. split.
        -- exists [], e, h. rewrite app_nil_r.
           assert (X : exists l, In l (regs s e) /\ alive s l = false).
           { clear - AL. induction (regs s e) as [|x ls IHl]; [discriminate|]. cbn in AL. destruct (alive s x) eqn:Ax.
             - destruct (IHl AL) as [l [K1 K2]]. exists l. split; [right; exact K1|exact K2].
             - exists x. split; [left; reflexivity|exact Ax]. }
           destruct X as [l [K1 K2]]. exists l. split; [reflexivity|]. split; [rewrite <- R1; exact K1|].
           destruct (in_dec (fun a b : action => ltac:(decide equality; apply Nat.eq_dec) : {a = b} + {a <> b}) (Destroy l) d) as [I|I]; [exact I|].
           exfalso. apply R2 in I. congruence.
        -- rewrite run_notify, deliver_quiet. cbn [alive]. rewrite AL. reflexivity.
Qed.

Lemma reps_init : reps [] init.
Proof. split; [reflexivity|]. split; [|reflexivity]. intros l. cbn. split; [intros _ []|reflexivity]. Qed.

Lemma delivers f h : allAlive h -> exists s, run quiet (S (S f)) init h = Ok (s, expected [] h).
Proof.
  intros A. destruct (quiet_run f h [] init reps_init) as [[_ [s [B _]]]|[[h1 [e [h2 [l [A1 [A2 A3]]]]]] _]]; [exists s; exact B|].
  exfalso. apply (A h1 e h2 A1 l A2 A3).
Qed.
Lemma undefined f h h1 e h2 l : h = h1 ++ Notify e :: h2 -> In l (registered h1 e) -> destroyed h1 l -> run quiet (S (S f)) init h = UB.
Proof.
  intros E I D. destruct (quiet_run f h [] init reps_init) as [[A _]|[_ B]]; [|exact B]. exfalso. apply (A h1 e h2 E l I D).
Qed.
