(* Proofs about the walks through the log. *)
From Coq Require Import List Bool Arith Lia Relations.
Import ListNotations.
From Verif Require Import Base CallGraphModel CallGraphSpec InputsModel InputsSpec NdModel NdSpec LgModel LgSpec.
Local Open Scope nat_scope.

Lemma pair_eqb_spec (a b : nat * nat) : pair_eqb a b = true <-> a = b.
Proof.
  unfold pair_eqb. destruct a as [a1 a2], b as [b1 b2]. cbn [fst snd]. rewrite andb_true_iff, !Nat.eqb_eq. split; [intros [-> ->]; reflexivity|].
  intros E. injection E as -> ->. auto.
Qed.
Lemma upd_eqb_spec (a b : upd_) : upd_eqb a b = true <-> a = b.
Proof.
  unfold upd_eqb. destruct a as [a1 a2], b as [b1 b2]. cbn [fst snd]. rewrite andb_true_iff, pair_eqb_spec, Nat.eqb_eq. split; [intros [-> ->]; reflexivity|].
  intros E. injection E as -> ->. auto.
Qed.
Lemma existsb_pair x l : existsb (pair_eqb x) l = true <-> In x l.
Proof. rewrite existsb_exists. split; [intros [y [J E]]; apply pair_eqb_spec in E; subst; exact J|]. intros J. exists x. split; [exact J|]. apply pair_eqb_spec. reflexivity. Qed.
Lemma existsb_upd x l : existsb (upd_eqb x) l = true <-> In x l.
Proof. rewrite existsb_exists. split; [intros [y [J E]]; apply upd_eqb_spec in E; subst; exact J|]. intros J. exists x. split; [exact J|]. apply upd_eqb_spec. reflexivity. Qed.

Lemma pushFor_spec {D X} (p : D -> bool) (f : D -> res X) (F : forall d, f d <> UB) l : forall st,
  match pushFor p f l st with
  | Ok st' => (forall x, In x st' <-> In x st \/ exists d, In d l /\ p d = true /\ f d = Ok x) /\ length st' <= length l + length st /\
              (forall d, In d l -> p d = true -> exists x, f d = Ok x)
  | Throw => exists d, In d l /\ p d = true /\ f d = Throw
  | UB => False
  end.
Proof.
  induction l as [|d l IH]; intros st; cbn [pushFor].
  - split; [|split; [cbn; lia|intros d []]]. intros x. split; [auto|]. intros [J|[d [[] _]]]. exact J.
  - destruct (p d) eqn:P.
    + destruct (f d) as [x| |] eqn:E; cbn [bind].
      * specialize (IH (x :: st)). destruct (pushFor p f l (x :: st)) as [st'| |].
        -- destruct IH as [A [B C]]. split; [|split].
           ++ intros y. rewrite A. cbn [In]. split.
              ** intros [[<-|J]|[d' [J [K1 K2]]]]; [right; exists d; auto|left; exact J|right; exists d'; auto].
              ** intros [J|[d' [[<-|J] [K1 K2]]]]; [left; right; exact J| |right; exists d'; auto]. left. left. congruence.
           ++ cbn [length] in *. lia.
           ++ intros d' [<-|J] K; [exists x; exact E|exact (C d' J K)].
        -- destruct IH as [d' [J K]]. exists d'. split; [right; exact J|exact K].
        -- exact IH.
      * exists d. split; [left; reflexivity|auto].
      * exact (F d E).
    + specialize (IH st). destruct (pushFor p f l st) as [st'| |].
      * destruct IH as [A [B C]]. split; [|split].
        -- intros y. rewrite A. cbn [In]. split.
           ++ intros [J|[d' [J K]]]; [left; exact J|right; exists d'; auto].
           ++ intros [J|[d' [[<-|J] [K1 K2]]]]; [left; exact J|congruence|right; exists d'; auto].
        -- cbn [length]. lia.
        -- intros d' [<-|J] K; [congruence|exact (C d' J K)].
      * destruct IH as [d' [J K]]. exists d'. split; [right; exact J|exact K].
      * exact IH.
Qed.
Lemma find_first {A} (p : A -> bool) l x : find p l = Some x -> exists l1 l2, l = l1 ++ x :: l2 /\ p x = true /\ forall y, In y l1 -> p y = false.
Proof.
  induction l as [|y l IH]; cbn [find]; [discriminate|]. destruct (p y) eqn:P.
  - intros E. injection E as <-. exists [], l. split; [reflexivity|]. split; [exact P|]. intros z [].
  - intros E. destruct (IH E) as [l1 [l2 [-> [A1 B]]]]. exists (y :: l1), l2. split; [reflexivity|]. split; [exact A1|]. intros z [<-|J]; [exact P|exact (B z J)].
Qed.
Lemma findUpdate_spec L n u : match findUpdate (lgUpd L) n u with
  | Ok x => exists f, x = (n, u, f) /\ firstFunction L n u f
  | Throw => forall f, ~ In (n, u, f) (lgUpd L)
  | UB => False
  end.
Proof.
  unfold findUpdate, findR. destruct (find _ (lgUpd L)) as [[[n' u'] f]|] eqn:E.
  - destruct (find_first _ _ _ E) as [l1 [l2 [A [B C]]]]. cbn [fst snd] in B. apply andb_true_iff in B. destruct B as [B1 B2].
    apply Nat.eqb_eq in B1, B2. subst n' u'. exists f. split; [reflexivity|]. exists l1, l2. split; [exact A|].
    intros g J. apply C in J. cbn [fst snd] in J. rewrite !Nat.eqb_refl in J. discriminate.
  - intros f J. pose proof (find_none _ _ E _ J) as K. cbn [fst snd] in K. rewrite !Nat.eqb_refl in K. discriminate.
Qed.
Lemma firstFunction_In L n u f : firstFunction L n u f -> In (n, u, f) (lgUpd L).
Proof. intros [l1 [l2 [E _]]]. rewrite E. apply in_or_app. right. left. reflexivity. Qed.
Lemma firstFunction_fun L n u f g : firstFunction L n u f -> firstFunction L n u g -> f = g.
Proof.
  intros [l1 [l2 [E N]]] [m1 [m2 [F M]]]. rewrite E in F. clear E. revert m1 F M. induction l1 as [|x l1 IH]; intros m1 F M.
  - destruct m1 as [|y m1]; cbn in F; [congruence|]. injection F as <- _. destruct (M f). left. reflexivity.
  - destruct m1 as [|y m1]; cbn in F.
    + injection F as -> _. destruct (N g). left. reflexivity.
    + injection F as <- F. apply (IH (fun h J => N h (or_intror J)) m1 F). intros h J. apply (M h). right. exact J.
Qed.
Lemma firstFunction_ex L n u f : In (n, u, f) (lgUpd L) -> exists g, firstFunction L n u g.
Proof.
  intros J. pose proof (findUpdate_spec L n u) as K. destruct (findUpdate (lgUpd L) n u) as [x| |]; [|destruct (K f J)|destruct K].
  destruct K as [g [_ K]]. exists g. exact K.
Qed.
Definition inputTo (L : log) (n s i : nat) : res out_ := do x <- findInput (lgInp L) n s i ; findOutput (allOutputs L) x.
Lemma findOutput_In L n s i : In (n, s, i) (lgInp L) -> findOutput (allOutputs L) (n, s, i) = Ok (s, i).
Proof.
  intros J. unfold findOutput, findR. cbn [fst snd]. match goal with |- context [find ?p ?l] => destruct (find p l) as [[s' i']|] eqn:E end.
  - apply find_some in E. destruct E as [_ E]. cbn [fst snd] in E. apply andb_true_iff in E. destruct E as [E1 E2]. apply Nat.eqb_eq in E1, E2. subst. reflexivity.
  - exfalso. assert (K : In (s, i) (allOutputs L)).
    { unfold allOutputs. apply in_or_app. right. apply in_map_iff. exists (n, s, i). auto. }
    pose proof (find_none _ _ E _ K) as M. cbn [fst snd] in M. rewrite !Nat.eqb_refl in M. discriminate.
Qed.
Lemma inputTo_spec L n s i : match inputTo L n s i with Ok x => x = (s, i) /\ In (n, s, i) (lgInp L) | Throw => ~ In (n, s, i) (lgInp L) | UB => False end.
Proof.
  unfold inputTo, findInput, findR. destruct (find _ (lgInp L)) as [[[n' s'] i']|] eqn:E; cbn [bind].
  - apply find_some in E. destruct E as [J E]. cbn [fst snd] in E. apply andb_true_iff in E. destruct E as [E E3]. apply andb_true_iff in E.
    destruct E as [E1 E2]. apply Nat.eqb_eq in E1, E2, E3. subst. rewrite (findOutput_In L n s i J). auto.
  - intros J. pose proof (find_none _ _ E _ J) as K. cbn [fst snd] in K. rewrite !Nat.eqb_refl in K. discriminate.
Qed.

Section Walk.
Variable L : log.
Variable start : list out_.

Definition universe : list out_ := start ++ map (fun i => (snd (fst i), snd i)) (lgInp L).
Definition pending (w : walk) (x : item) : Prop :=
  match x with AnOutput n o => In (n, o) (wPO w) \/ In (n, o) (wOS w) | AnUpdate n u => exists f, In (n, u, f) (wPU w) \/ In (n, u, f) (wUS w) end.
Record winv (w : walk) : Prop := {
  wi_os : forall n o, In (n, o) (wPO w) \/ In (n, o) (wOS w) -> usedBy L start (AnOutput n o) /\ In (n, o) universe;
  wi_us : forall n u f, In (n, u, f) (wPU w) \/ In (n, u, f) (wUS w) -> usedBy L start (AnUpdate n u) /\ firstFunction L n u f;
  wi_po : forall x, In x (wOuts w) <-> In x (wPO w);
  wi_pu : forall x, In x (wUpds w) <-> In x (wPU w);
  wi_no : NoDup (wOuts w);
  wi_nu : NoDup (wUpds w);
  wi_closed_o : forall n o, In (n, o) (wPO w) -> ~ dangling L (AnOutput n o) /\ forall y, uses L (AnOutput n o) y -> pending w y;
  wi_closed_u : forall n u f, In (n, u, f) (wPU w) -> ~ dangling L (AnUpdate n u) /\ forall y, uses L (AnUpdate n u) y -> pending w y;
  wi_start : forall n o, In (n, o) start -> pending w (AnOutput n o) }.

Lemma usedBy_step x y : usedBy L start x -> uses L x y -> usedBy L start y.
Proof. intros [n [o [J R]]] U. exists n, o. split; [exact J|]. eapply rt_trans; [exact R|apply rt_step; exact U]. Qed.
Lemma NoDup_snoc {A} (l : list A) x : NoDup l -> ~ In x l -> NoDup (l ++ [x]).
Proof.
  intros N J. rewrite <- (rev_involutive (l ++ [x])). apply NoDup_rev. rewrite rev_app_distr. cbn [rev app].
  constructor; [|apply NoDup_rev; exact N]. intros K. apply in_rev in K. contradiction.
Qed.
Definition bad : Prop := exists x, usedBy L start x /\ dangling L x.

Lemma in_snoc' {A} (l : list A) x y : In y (l ++ [x]) <-> y = x \/ In y l.
Proof. rewrite in_app_iff. cbn. intuition congruence. Qed.
Lemma stepOut_inv w : winv w -> match stepOut L (allOutputs L) w with Ok w' => winv w' | Throw => bad | UB => False end.
Proof.
  intros W. unfold stepOut. destruct (wOS w) as [|[n o] os] eqn:EO; [exact W|].
  destruct W as [Ios Ius Ipo Ipu Ino Inu Ico Icu Ist].
  assert (Uno : usedBy L start (AnOutput n o) /\ In (n, o) universe) by (apply Ios; right; rewrite EO; left; reflexivity).
  destruct (existsb (pair_eqb (n, o)) (wPO w)) eqn:EX.
  - apply existsb_pair in EX.
    assert (PP : forall y, pending w y -> pending (mkW (wOuts w) (wUpds w) (wPO w) (wPU w) os (wUS w)) y).
    { intros [m p|m v] P; [|exact P]. cbn [pending wPO wOS] in *. rewrite EO in P. destruct P as [P|[P|P]]; [left; exact P| |right; exact P].
      injection P as <- <-. left. exact EX. }
    constructor; cbn [wOuts wUpds wPO wPU wOS wUS].
    + intros m p J. apply Ios. rewrite EO. destruct J as [J|J]; [left; exact J|right; right; exact J].
    + exact Ius.
    + exact Ipo.
    + exact Ipu.
    + exact Ino.
    + exact Inu.
    + intros m p J. destruct (Ico m p J) as [A B]. split; [exact A|]. intros y U. apply PP, B, U.
    + intros m v f J. destruct (Icu m v f J) as [A B]. split; [exact A|]. intros y U. apply PP, B, U.
    + intros m p J. exact (PP _ (Ist m p J)).
  - assert (NX : ~ In (n, o) (wPO w)) by (intros J; apply existsb_pair in J; congruence). cbn [fst snd].
    set (p1 := fun d : nat * nat * nat => (fst (fst d) =? n) && (snd (fst d) =? o)).
    set (f1 := fun d : nat * nat * nat => findUpdate (lgUpd L) (fst (fst d)) (snd d)).
    assert (F1 : forall d, f1 d <> UB) by (intros d E; pose proof (findUpdate_spec L (fst (fst d)) (snd d)) as K; unfold f1 in E; rewrite E in K; exact K).
    pose proof (pushFor_spec p1 f1 F1 (lgOutDep L) (wUS w)) as P1. destruct (pushFor p1 f1 (lgOutDep L) (wUS w)) as [us| |]; cbn [bind]; [| |exact P1].
    2:{ destruct P1 as [[[n' o'] u] [J [K1 K2]]]. unfold p1 in K1. cbn [fst snd] in K1. apply andb_true_iff in K1. destruct K1 as [K1 K1'].
        apply Nat.eqb_eq in K1, K1'. subst n' o'. exists (AnOutput n o). split; [exact (proj1 Uno)|]. apply (dg_out L n o u J).
        unfold f1 in K2. cbn [fst snd] in K2. pose proof (findUpdate_spec L n u) as K. rewrite K2 in K. exact K. }
    destruct P1 as [P1 [_ P1']].
    set (p2 := fun d : nat * nat * nat * nat => (fst (fst (fst d)) =? n) && (snd (fst (fst d)) =? o)).
    change (fun d : nat * nat * nat * nat => do i <- findInput (lgInp L) (fst (fst (fst d))) (snd (fst d)) (snd d) ; findOutput (allOutputs L) i)
      with (fun d : nat * nat * nat * nat => inputTo L (fst (fst (fst d))) (snd (fst d)) (snd d)).
    set (f2 := fun d : nat * nat * nat * nat => inputTo L (fst (fst (fst d))) (snd (fst d)) (snd d)).
    assert (F2 : forall d, f2 d <> UB) by (intros d E; pose proof (inputTo_spec L (fst (fst (fst d))) (snd (fst d)) (snd d)) as K; unfold f2 in E; rewrite E in K; exact K).
    pose proof (pushFor_spec p2 f2 F2 (lgDir L) os) as P2. destruct (pushFor p2 f2 (lgDir L) os) as [os'| |]; cbn [bind]; [| |exact P2].
    2:{ destruct P2 as [[[[n' o'] s] i] [J [K1 K2]]]. unfold p2 in K1. cbn [fst snd] in K1. apply andb_true_iff in K1. destruct K1 as [K1 K1'].
        apply Nat.eqb_eq in K1, K1'. subst n' o'. exists (AnOutput n o). split; [exact (proj1 Uno)|]. apply (dg_dir L n o s i J).
        unfold f2 in K2. cbn [fst snd] in K2. pose proof (inputTo_spec L n s i) as K. rewrite K2 in K. exact K. }
    destruct P2 as [P2 [_ P2']].
    assert (PP : forall y, pending w y -> pending (mkW (wOuts w ++ [(n, o)]) (wUpds w) ((n, o) :: wPO w) (wPU w) os' us) y).
    { intros [m p|m v] P; cbn [pending wPO wOS wPU wUS] in *.
      - rewrite EO in P. destruct P as [P|[P|P]]; [left; right; exact P|left; left; exact P|]. right. apply P2. left. exact P.
      - destruct P as [f [P|P]]; exists f; [left; exact P|right; apply P1; left; exact P]. }
    constructor; cbn [wOuts wUpds wPO wPU wOS wUS].
    + intros m p [[E|J]|J].
      * injection E as <- <-. exact Uno.
      * apply Ios. left. exact J.
      * apply P2 in J. destruct J as [J|[[[[n' o'] s] i] [J [K1 K2]]]]; [apply Ios; right; rewrite EO; right; exact J|].
        unfold p2 in K1. cbn [fst snd] in K1. apply andb_true_iff in K1. destruct K1 as [K1 K1']. apply Nat.eqb_eq in K1, K1'. subst n' o'.
        unfold f2 in K2. cbn [fst snd] in K2. pose proof (inputTo_spec L n s i) as K. rewrite K2 in K. destruct K as [K KI]. injection K as -> ->.
        split; [apply (usedBy_step (AnOutput n o)); [exact (proj1 Uno)|constructor; exact J]|].
        unfold universe. apply in_or_app. right. apply in_map_iff. exists (n, s, i). auto.
    + intros m v f [J|J]; [apply Ius; left; exact J|]. apply P1 in J. destruct J as [J|[[[n' o'] u] [J [K1 K2]]]]; [apply Ius; right; exact J|].
      unfold p1 in K1. cbn [fst snd] in K1. apply andb_true_iff in K1. destruct K1 as [K1 K1']. apply Nat.eqb_eq in K1, K1'. subst n' o'.
      unfold f1 in K2. cbn [fst snd] in K2. pose proof (findUpdate_spec L n u) as K. rewrite K2 in K. destruct K as [g [K KF]]. injection K as -> -> ->.
      split; [|exact KF]. apply (usedBy_step (AnOutput n o)); [exact (proj1 Uno)|constructor; exact J].
    + intros x. rewrite in_snoc'. cbn [In]. rewrite Ipo. intuition congruence.
    + exact Ipu.
    + apply NoDup_snoc; [exact Ino|]. rewrite Ipo. exact NX.
    + exact Inu.
    + intros m p [E|J].
      * injection E as <- <-. split.
        -- intros D. inversion D as [n0 o0 u J NU|n0 o0 s i J NI| |]; subst.
           ++ destruct (P1' _ J) as [x K]; [unfold p1; cbn [fst snd]; rewrite !Nat.eqb_refl; reflexivity|]. unfold f1 in K. cbn [fst snd] in K.
              pose proof (findUpdate_spec L n u) as Q. rewrite K in Q. destruct Q as [f [_ Q]]. exact (NU f (firstFunction_In _ _ _ _ Q)).
           ++ destruct (P2' _ J) as [x K]; [unfold p2; cbn [fst snd]; rewrite !Nat.eqb_refl; reflexivity|]. unfold f2 in K. cbn [fst snd] in K.
              pose proof (inputTo_spec L n s i) as Q. rewrite K in Q. exact (NI (proj2 Q)).
        -- intros y U. inversion U as [n0 o0 u J|n0 o0 s i J| |]; subst; cbn [pending wPU wUS wPO wOS].
           ++ destruct (P1' _ J) as [x K]; [unfold p1; cbn [fst snd]; rewrite !Nat.eqb_refl; reflexivity|].
              pose proof (findUpdate_spec L n u) as Q. unfold f1 in K. cbn [fst snd] in K. rewrite K in Q. destruct Q as [f [-> Q]]. exists f. right.
              apply P1. right. exists (n, o, u). split; [exact J|]. split; [unfold p1; cbn [fst snd]; rewrite !Nat.eqb_refl; reflexivity|exact K].
           ++ destruct (P2' _ J) as [x K]; [unfold p2; cbn [fst snd]; rewrite !Nat.eqb_refl; reflexivity|].
              pose proof (inputTo_spec L n s i) as Q. unfold f2 in K. cbn [fst snd] in K. rewrite K in Q. destruct Q as [-> Q]. right.
              apply P2. right. exists (n, o, s, i). split; [exact J|]. split; [unfold p2; cbn [fst snd]; rewrite !Nat.eqb_refl; reflexivity|exact K].
      * destruct (Ico m p J) as [A B]. split; [exact A|]. intros y U. apply PP, B, U.
    + intros m v f J. destruct (Icu m v f J) as [A B]. split; [exact A|]. intros y U. apply PP, B, U.
    + intros m p J. exact (PP _ (Ist m p J)).
Qed.
Lemma stepUpd_inv w : winv w -> match stepUpd L (allOutputs L) w with Ok w' => winv w' | Throw => bad | UB => False end.
Proof.
  intros W. unfold stepUpd. destruct (wUS w) as [|[[n u] f0] us0] eqn:EO; [exact W|].
  destruct W as [Ios Ius Ipo Ipu Ino Inu Ico Icu Ist].
  assert (Uno : usedBy L start (AnUpdate n u) /\ firstFunction L n u f0) by (apply Ius; right; rewrite EO; left; reflexivity).
  destruct (existsb (upd_eqb (n, u, f0)) (wPU w)) eqn:EX.
  - apply existsb_upd in EX.
    assert (PP : forall y, pending w y -> pending (mkW (wOuts w) (wUpds w) (wPO w) (wPU w) (wOS w) us0) y).
    { intros [m p|m v] P; [exact P|]. cbn [pending wPU wUS] in *. rewrite EO in P. destruct P as [f [P|[P|P]]]; [exists f; left; exact P| |exists f; right; exact P].
      injection P as <- <- <-. exists f0. left. exact EX. }
    constructor; cbn [wOuts wUpds wPO wPU wOS wUS].
    + exact Ios.
    + intros m p f J. apply Ius. rewrite EO. destruct J as [J|J]; [left; exact J|right; right; exact J].
    + exact Ipo.
    + exact Ipu.
    + exact Ino.
    + exact Inu.
    + intros m p J. destruct (Ico m p J) as [A B]. split; [exact A|]. intros y U. apply PP, B, U.
    + intros m v f J. destruct (Icu m v f J) as [A B]. split; [exact A|]. intros y U. apply PP, B, U.
    + intros m p J. exact (PP _ (Ist m p J)).
  - assert (NX : ~ In (n, u, f0) (wPU w)) by (intros J; apply existsb_upd in J; congruence). cbn [fst snd].
    set (p2 := fun d : nat * nat * nat * nat => (fst (fst (fst d)) =? n) && (snd (fst (fst d)) =? u)).
    change (fun d : nat * nat * nat * nat => do i <- findInput (lgInp L) (fst (fst (fst d))) (snd (fst d)) (snd d) ; findOutput (allOutputs L) i)
      with (fun d : nat * nat * nat * nat => inputTo L (fst (fst (fst d))) (snd (fst d)) (snd d)).
    set (f2 := fun d : nat * nat * nat * nat => inputTo L (fst (fst (fst d))) (snd (fst d)) (snd d)).
    assert (F2 : forall d, f2 d <> UB) by (intros d E; pose proof (inputTo_spec L (fst (fst (fst d))) (snd (fst d)) (snd d)) as K; unfold f2 in E; rewrite E in K; exact K).
    pose proof (pushFor_spec p2 f2 F2 (lgInDep L) (wOS w)) as P2. destruct (pushFor p2 f2 (lgInDep L) (wOS w)) as [os'| |]; cbn [bind]; [| |exact P2].
    2:{ destruct P2 as [[[[n' o'] s] i] [J [K1 K2]]]. unfold p2 in K1. cbn [fst snd] in K1. apply andb_true_iff in K1. destruct K1 as [K1 K1'].
        apply Nat.eqb_eq in K1, K1'. subst n' o'. exists (AnUpdate n u). split; [exact (proj1 Uno)|]. apply (dg_in L n u s i J).
        unfold f2 in K2. cbn [fst snd] in K2. pose proof (inputTo_spec L n s i) as K. rewrite K2 in K. exact K. }
    destruct P2 as [P2 [_ P2']].
    set (p1 := fun d : nat * nat * nat => (fst (fst d) =? n) && (snd (fst d) =? u)).
    set (f1 := fun d : nat * nat * nat => findUpdate (lgUpd L) (fst (fst d)) (snd d)).
    assert (F1 : forall d, f1 d <> UB) by (intros d E; pose proof (findUpdate_spec L (fst (fst d)) (snd d)) as K; unfold f1 in E; rewrite E in K; exact K).
    pose proof (pushFor_spec p1 f1 F1 (lgIntDep L) us0) as P1. destruct (pushFor p1 f1 (lgIntDep L) us0) as [us| |]; cbn [bind]; [| |exact P1].
    2:{ destruct P1 as [[[n' o'] v] [J [K1 K2]]]. unfold p1 in K1. cbn [fst snd] in K1. apply andb_true_iff in K1. destruct K1 as [K1 K1'].
        apply Nat.eqb_eq in K1, K1'. subst n' o'. exists (AnUpdate n u). split; [exact (proj1 Uno)|]. apply (dg_int L n u v J).
        unfold f1 in K2. cbn [fst snd] in K2. pose proof (findUpdate_spec L n v) as K. rewrite K2 in K. exact K. }
    destruct P1 as [P1 [_ P1']].
    assert (PP : forall y, pending w y -> pending (mkW (wOuts w) (wUpds w ++ [(n, u, f0)]) (wPO w) ((n, u, f0) :: wPU w) os' us) y).
    { intros [m p|m v] P; cbn [pending wPO wOS wPU wUS] in *.
      - destruct P as [P|P]; [left; exact P|]. right. apply P2. left. exact P.
      - rewrite EO in P. destruct P as [f [P|[P|P]]]; exists f; [left; right; exact P|left; left; exact P|right; apply P1; left; exact P]. }
    constructor; cbn [wOuts wUpds wPO wPU wOS wUS].
    + intros m p [J|J]; [apply Ios; left; exact J|].
      apply P2 in J. destruct J as [J|[[[[n' o'] s] i] [J [K1 K2]]]]; [apply Ios; right; exact J|].
      unfold p2 in K1. cbn [fst snd] in K1. apply andb_true_iff in K1. destruct K1 as [K1 K1']. apply Nat.eqb_eq in K1, K1'. subst n' o'.
      unfold f2 in K2. cbn [fst snd] in K2. pose proof (inputTo_spec L n s i) as K. rewrite K2 in K. destruct K as [K KI]. injection K as -> ->.
      split; [apply (usedBy_step (AnUpdate n u)); [exact (proj1 Uno)|constructor; exact J]|].
      unfold universe. apply in_or_app. right. apply in_map_iff. exists (n, s, i). auto.
    + intros m v f [[E|J]|J].
      * injection E as <- <- <-. exact Uno.
      * apply Ius. left. exact J.
      * apply P1 in J. destruct J as [J|[[[n' o'] v'] [J [K1 K2]]]]; [apply Ius; right; rewrite EO; right; exact J|].
        unfold p1 in K1. cbn [fst snd] in K1. apply andb_true_iff in K1. destruct K1 as [K1 K1']. apply Nat.eqb_eq in K1, K1'. subst n' o'.
        unfold f1 in K2. cbn [fst snd] in K2. pose proof (findUpdate_spec L n v') as K. rewrite K2 in K. destruct K as [g [K KF]]. injection K as -> -> ->.
        split; [|exact KF]. apply (usedBy_step (AnUpdate n u)); [exact (proj1 Uno)|constructor; exact J].
    + exact Ipo.
    + intros x. rewrite in_snoc'. cbn [In]. rewrite Ipu. intuition congruence.
    + exact Ino.
    + apply NoDup_snoc; [exact Inu|]. rewrite Ipu. exact NX.
    + intros m p J. destruct (Ico m p J) as [A B]. split; [exact A|]. intros y U. apply PP, B, U.
    + intros m v f [E|J].
      * injection E as <- <- <-. split.
        -- intros D. inversion D as [| |n0 o0 v J NU|n0 o0 s i J NI]; subst.
           ++ destruct (P1' _ J) as [x K]; [unfold p1; cbn [fst snd]; rewrite !Nat.eqb_refl; reflexivity|]. unfold f1 in K. cbn [fst snd] in K.
              pose proof (findUpdate_spec L n v) as Q. rewrite K in Q. destruct Q as [f [_ Q]]. exact (NU f (firstFunction_In _ _ _ _ Q)).
           ++ destruct (P2' _ J) as [x K]; [unfold p2; cbn [fst snd]; rewrite !Nat.eqb_refl; reflexivity|]. unfold f2 in K. cbn [fst snd] in K.
              pose proof (inputTo_spec L n s i) as Q. rewrite K in Q. exact (NI (proj2 Q)).
        -- intros y U. inversion U as [| |n0 o0 v J|n0 o0 s i J]; subst; cbn [pending wPU wUS wPO wOS].
           ++ destruct (P1' _ J) as [x K]; [unfold p1; cbn [fst snd]; rewrite !Nat.eqb_refl; reflexivity|].
              pose proof (findUpdate_spec L n v) as Q. unfold f1 in K. cbn [fst snd] in K. rewrite K in Q. destruct Q as [f [-> Q]]. exists f. right.
              apply P1. right. exists (n, u, v). split; [exact J|]. split; [unfold p1; cbn [fst snd]; rewrite !Nat.eqb_refl; reflexivity|exact K].
           ++ destruct (P2' _ J) as [x K]; [unfold p2; cbn [fst snd]; rewrite !Nat.eqb_refl; reflexivity|].
              pose proof (inputTo_spec L n s i) as Q. unfold f2 in K. cbn [fst snd] in K. rewrite K in Q. destruct Q as [-> Q]. right.
              apply P2. right. exists (n, u, s, i). split; [exact J|]. split; [unfold p2; cbn [fst snd]; rewrite !Nat.eqb_refl; reflexivity|exact K].
      * destruct (Icu m v f J) as [A B]. split; [exact A|]. intros y U. apply PP, B, U.
    + intros m p J. exact (PP _ (Ist m p J)).
Qed.

(* ---- the loop ends ---- *)
Definition remO (w : walk) : nat := length (filter (fun x => negb (existsb (pair_eqb x) (wPO w))) universe).
Definition remU (w : walk) : nat := length (filter (fun x => negb (existsb (upd_eqb x) (wPU w))) (lgUpd L)).
Definition edges : nat := length (lgOutDep L) + length (lgDir L) + length (lgInDep L) + length (lgIntDep L).
Definition mu (w : walk) : nat := (remO w + remU w) * S edges + length (wOS w) + length (wUS w).
Lemma filter_le {A} (p q : A -> bool) l : (forall x, p x = true -> q x = true) -> length (filter p l) <= length (filter q l).
Proof.
  intros H. induction l as [|x l IH]; [cbn; lia|]. cbn [filter]. destruct (p x) eqn:P.
  - rewrite (H x P). cbn [length]. lia.
  - destruct (q x); cbn [length]; lia.
Qed.
Lemma filter_lt {A} (p q : A -> bool) l x : (forall x, p x = true -> q x = true) -> In x l -> p x = false -> q x = true -> length (filter p l) < length (filter q l).
Proof.
  intros H J P Q. induction l as [|y l IH]; [destruct J|]. cbn [filter]. destruct J as [->|J].
  - rewrite P, Q. cbn [length]. pose proof (filter_le p q l H). lia.
  - specialize (IH J). destruct (p y) eqn:Py.
    + rewrite (H y Py). cbn [length]. lia.
    + destruct (q y); cbn [length]; lia.
Qed.
Lemma stepOut_mu w w' : winv w -> stepOut L (allOutputs L) w = Ok w' -> (wOS w = [] -> w' = w) /\ (wOS w <> [] -> mu w' < mu w).
Proof.
  intros W. unfold stepOut. destruct (wOS w) as [|[n o] os] eqn:EO; [intros E; injection E as <-; split; [auto|congruence]|].
  intros E. split; [discriminate|]. intros _. destruct (existsb (pair_eqb (n, o)) (wPO w)) eqn:EX.
  - injection E as <-. unfold mu, remO, remU. cbn [wPO wPU wOS wUS]. rewrite EO. cbn [length]. lia.
  - cbn [fst snd] in E. match type of E with bind (pushFor ?p ?f ?l ?s) _ = _ => pose proof (pushFor_spec p f) as P1; specialize (P1 ltac:(intros d K; pose proof (findUpdate_spec L (fst (fst d)) (snd d)) as Q; rewrite K in Q; exact Q) l s); destruct (pushFor p f l s) as [us| |]; cbn [bind] in E; try discriminate end.
    match type of E with bind (pushFor ?p ?f ?l ?s) _ = _ => pose proof (pushFor_spec p f) as P2; specialize (P2 ltac:(intros d K; pose proof (inputTo_spec L (fst (fst (fst d))) (snd (fst d)) (snd d)) as Q; unfold inputTo in Q; rewrite K in Q; exact Q) l s); destruct (pushFor p f l s) as [os'| |]; cbn [bind] in E; try discriminate end.
    destruct P1 as [_ [P1 _]]. destruct P2 as [_ [P2 _]].
    assert (Q : wPO w' = (n, o) :: wPO w /\ wPU w' = wPU w /\ wOS w' = os' /\ wUS w' = us) by (injection E as <-; auto).
    destruct Q as [Q1 [Q2 [Q3 Q4]]]. clear E.
    assert (R0 : remU w' = remU w) by (unfold remU; rewrite Q2; reflexivity).
    assert (R : remO w' < remO w).
    { unfold remO. rewrite Q1. apply filter_lt with (x := (n, o)).
      - intros x. cbn [existsb]. rewrite negb_orb. intros K. apply andb_true_iff in K. exact (proj2 K).
      - apply (wi_os _ W). right. rewrite EO. left. reflexivity.
      - cbn [existsb]. rewrite (proj2 (pair_eqb_spec (n, o) (n, o)) eq_refl). reflexivity.
      - rewrite EX. reflexivity. }
    unfold mu. rewrite R0, Q3, Q4, EO. cbn [length]. pose proof (Nat.mul_le_mono_r (S (remO w' + remU w)) (remO w + remU w) (S edges) ltac:(lia)) as M.
    rewrite Nat.mul_succ_l in M. assert (HE : edges = length (lgOutDep L) + length (lgDir L) + length (lgInDep L) + length (lgIntDep L)) by reflexivity.
    set (e := S edges) in *. assert (He : e = S edges) by reflexivity. clearbody e. unfold upd_, out_ in *. lia.
Qed.
Lemma stepUpd_mu w w' : winv w -> stepUpd L (allOutputs L) w = Ok w' -> (wUS w = [] -> w' = w) /\ (wUS w <> [] -> mu w' < mu w).
Proof.
  intros W. unfold stepUpd. destruct (wUS w) as [|[[n u] f0] us0] eqn:EO; [intros E; injection E as <-; split; [auto|congruence]|].
  intros E. split; [discriminate|]. intros _. destruct (existsb (upd_eqb (n, u, f0)) (wPU w)) eqn:EX.
  - injection E as <-. unfold mu, remO, remU. cbn [wPO wPU wOS wUS]. rewrite EO. cbn [length]. lia.
  - cbn [fst snd] in E. match type of E with bind (pushFor ?p ?f ?l ?s) _ = _ => pose proof (pushFor_spec p f) as P2; specialize (P2 ltac:(intros d K; pose proof (inputTo_spec L (fst (fst (fst d))) (snd (fst d)) (snd d)) as Q; unfold inputTo in Q; rewrite K in Q; exact Q) l s); destruct (pushFor p f l s) as [os'| |]; cbn [bind] in E; try discriminate end.
    match type of E with bind (pushFor ?p ?f ?l ?s) _ = _ => pose proof (pushFor_spec p f) as P1; specialize (P1 ltac:(intros d K; pose proof (findUpdate_spec L (fst (fst d)) (snd d)) as Q; rewrite K in Q; exact Q) l s); destruct (pushFor p f l s) as [us| |]; cbn [bind] in E; try discriminate end.
    destruct P1 as [_ [P1 _]]. destruct P2 as [_ [P2 _]].
    assert (Q : wPO w' = wPO w /\ wPU w' = (n, u, f0) :: wPU w /\ wOS w' = os' /\ wUS w' = us) by (injection E as <-; auto).
    destruct Q as [Q1 [Q2 [Q3 Q4]]]. clear E.
    assert (R0 : remO w' = remO w) by (unfold remO; rewrite Q1; reflexivity).
    assert (R : remU w' < remU w).
    { unfold remU. rewrite Q2. apply filter_lt with (x := (n, u, f0)).
      - intros x. cbn [existsb]. rewrite negb_orb. intros K. apply andb_true_iff in K. exact (proj2 K).
      - apply firstFunction_In. apply (wi_us _ W). right. rewrite EO. left. reflexivity.
      - cbn [existsb]. rewrite (proj2 (upd_eqb_spec (n, u, f0) (n, u, f0)) eq_refl). reflexivity.
      - rewrite EX. reflexivity. }
    unfold mu. rewrite R0, Q3, Q4, EO. cbn [length]. pose proof (Nat.mul_le_mono_r (S (remO w + remU w')) (remO w + remU w) (S edges) ltac:(lia)) as M.
    rewrite Nat.mul_succ_l in M. assert (HE : edges = length (lgOutDep L) + length (lgDir L) + length (lgInDep L) + length (lgIntDep L)) by reflexivity.
    set (e := S edges) in *. assert (He : e = S edges) by reflexivity. clearbody e. unfold upd_, out_ in *. lia.
Qed.

Lemma final w : winv w -> wOS w = [] -> wUS w = [] -> rightWalk L start (wOuts w) (wUpds w) /\ ~ bad.
Proof.
  intros W EO EU.
  assert (CL : forall x y, clos_refl_trans item (uses L) x y -> pending w x -> pending w y).
  { intros x y R. apply clos_rt_rt1n in R. induction R as [x|x y z U R IH]; [auto|]. intros P. apply IH. destruct x as [n o|n u]; cbn [pending] in P.
    - rewrite EO in P. destruct P as [P|[]]. exact (proj2 (wi_closed_o _ W n o P) y U).
    - rewrite EU in P. destruct P as [f [P|[]]]. exact (proj2 (wi_closed_u _ W n u f P) y U). }
  assert (CP : forall x, usedBy L start x -> pending w x).
  { intros x [n [o [J R]]]. apply (CL _ _ R). exact (wi_start _ W n o J). }
  split; [split; [|split; [|split]]|].
  - exact (wi_no _ W).
  - exact (wi_nu _ W).
  - intros n o. rewrite (wi_po _ W). split.
    + intros J. apply (wi_os _ W). left. exact J.
    + intros U. apply CP in U. cbn [pending] in U. rewrite EO in U. destruct U as [U|[]]. exact U.
  - intros n u f. rewrite (wi_pu _ W). split.
    + intros J. apply (wi_us _ W). left. exact J.
    + intros [U F]. apply CP in U. cbn [pending] in U. rewrite EU in U. destruct U as [g [U|[]]].
      rewrite (firstFunction_fun L n u f g F (proj2 (wi_us _ W n u g (or_introl U)))). exact U.
  - intros [x [U D]]. apply CP in U. destruct x as [n o|n u]; cbn [pending] in U.
    + rewrite EO in U. destruct U as [U|[]]. exact (proj1 (wi_closed_o _ W n o U) D).
    + rewrite EU in U. destruct U as [f [U|[]]]. exact (proj1 (wi_closed_u _ W n u f U) D).
Qed.
Lemma loop_spec fuel : forall w, winv w -> mu w <= fuel ->
  match walkLoop fuel L (allOutputs L) w with Ok (outs, upds) => rightWalk L start outs upds /\ ~ bad | Throw => bad | UB => False end.
Proof.
  assert (GO : forall fuel w, (forall w2, winv w2 -> mu w2 < mu w -> match walkLoop fuel L (allOutputs L) w2 with Ok (outs, upds) => rightWalk L start outs upds /\ ~ bad | Throw => bad | UB => False end) ->
     winv w -> (wOS w <> [] \/ wUS w <> []) ->
     match (do w1 <- stepOut L (allOutputs L) w ; do w2 <- stepUpd L (allOutputs L) w1 ; walkLoop fuel L (allOutputs L) w2) with Ok (outs, upds) => rightWalk L start outs upds /\ ~ bad | Throw => bad | UB => False end).
  { clear fuel. intros fuel w IH W NE. pose proof (stepOut_inv w W) as S1. destruct (stepOut L (allOutputs L) w) as [w1| |] eqn:E1; cbn [bind]; [|exact S1|exact S1].
    destruct (stepOut_mu w w1 W E1) as [A1 A2]. pose proof (stepUpd_inv w1 S1) as S2. destruct (stepUpd L (allOutputs L) w1) as [w2| |] eqn:E2; cbn [bind]; [|exact S2|exact S2].
    destruct (stepUpd_mu w1 w2 S1 E2) as [B1 B2]. apply IH; [exact S2|].
    assert (C1 : mu w2 <= mu w1). { destruct (wUS w1) eqn:Q; [rewrite B1 by reflexivity; lia|]. assert (mu w2 < mu w1) by (apply B2; discriminate). lia. }
    destruct (wOS w) eqn:Q1.
    - rewrite (A1 eq_refl) in *. destruct NE as [NE|NE]; [congruence|]. exact (B2 NE).
    - assert (mu w1 < mu w) by (apply A2; discriminate). lia. }
  induction fuel as [|fuel IH]; intros w W M; cbn [walkLoop].
  - assert (EO : wOS w = []). { destruct (wOS w) eqn:E; [reflexivity|]. unfold mu in M. rewrite E in M. cbn [length] in M. lia. }
    assert (EU : wUS w = []). { destruct (wUS w) eqn:E; [reflexivity|]. unfold mu in M. rewrite E in M. cbn [length] in M. lia. }
    rewrite EO, EU. exact (final w W EO EU).
  - assert (IH' : forall w2, winv w2 -> mu w2 < mu w -> match walkLoop fuel L (allOutputs L) w2 with Ok (outs, upds) => rightWalk L start outs upds /\ ~ bad | Throw => bad | UB => False end) by (intros w2 W2 M2; apply IH; [exact W2|lia]).
    pose proof (GO fuel w IH' W) as K. destruct (wOS w) eqn:EO; destruct (wUS w) eqn:EU.
    + exact (final w W EO EU).
    + apply K. right. discriminate.
    + apply K. left. discriminate.
    + apply K. left. discriminate.
Qed.
Lemma init_inv : winv (mkW [] [] [] [] (rev start) []).
Proof.
  constructor; cbn [wOuts wUpds wPO wPU wOS wUS].
  - intros n o [[]|J]. apply in_rev in J. split; [exists n, o; split; [exact J|apply rt_refl]|]. unfold universe. apply in_or_app. left. exact J.
  - intros n u f [[]|[]].
  - intros x. tauto.
  - intros x. tauto.
  - constructor.
  - constructor.
  - intros n o [].
  - intros n u f [].
  - intros n o J. right. cbn [wOS]. apply -> in_rev. exact J.
Qed.
Lemma follow_spec fuel : turns L start <= fuel ->
  match followUpDependency fuel L (allOutputs L) start with Ok (outs, upds) => rightWalk L start outs upds /\ ~ bad | Throw => bad | UB => False end.
Proof.
  intros F. apply loop_spec; [exact init_inv|]. unfold mu. cbn [wOS wUS length]. rewrite rev_length, Nat.add_0_r.
  unfold remO, remU. cbn [wPO wPU existsb negb].
  assert (A : forall (X : Type) (l : list X), length (filter (fun _ => true) l) = length l) by (intros X l; induction l as [|x l IH]; [reflexivity|cbn [filter length]; rewrite IH; reflexivity]).
  rewrite !A. unfold universe. rewrite app_length, map_length. unfold turns in F. unfold edges, upd_, out_ in *. exact F.
Qed.
End Walk.
