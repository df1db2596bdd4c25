(* Proofs for C35. *)
From Coq Require Import List Bool Arith Lia.
Import ListNotations.
From Verif Require Import Base TokenModel TokenSpec TokenProofs CallbackModel CallbackSpec.
Local Open Scope nat_scope.

Lemma app_len_inj {A} (l1 l2 l1' l2' : list A) : length l1 = length l1' -> l1 ++ l2 = l1' ++ l2' -> l1 = l1' /\ l2 = l2'.
Proof.
  revert l1'. induction l1 as [|x l1 IH]; intros [|y l1'] H E; simpl in *; try discriminate; auto.
  injection E as <- E. destruct (IH l1') as [-> ->]; auto.
Qed.
Lemma Forall2_length {A B} (P : A -> B -> Prop) l l' : Forall2 P l l' -> length l = length l'.
Proof. induction 1; simpl; congruence. Qed.

Section S.
Variable U : nat -> bool.

Record Rm (m : mem) (vec : list nat) (ow : list (option nat)) (cl : nat -> bool) (junk : list nat) : Prop := mkRm {
  r_good : good m;
  r_nd : NoDup vec;
  r_own : Forall2 (fun v r => m v = Some r) vec ow;
  r_live : forall a, m a <> None <-> In a vec \/ cl a = true \/ In a junk;
  r_vecU : forall a, In a vec -> U a = false;
  r_clU : forall a, cl a = true -> U a = true;
  r_jU : forall a, In a junk -> U a = false /\ m a = Some None;
  r_kind : forall x y, m x = Some (Some y) -> U x = negb (U y) }.

Lemma mem_eq (m : mem) x o : m x <> None -> (forall y, m x = Some (Some y) <-> o = Some y) -> m x = Some o.
Proof.
  intros L H. destruct (m x) as [[y|]|]; [| |congruence].
  - now rewrite (proj1 (H y) eq_refl).
  - destruct o as [y|]; [|reflexivity]. destruct (H y) as [_ H']. specialize (H' eq_refl). discriminate.
Qed.
Lemma own_ext (m m' : mem) f vec ow : Forall2 (fun v r => m v = Some r) vec ow ->
  (forall v r, In v vec -> m v = Some r -> m' v = Some (f r)) -> Forall2 (fun v r => m' v = Some r) vec (map f ow).
Proof.
  intros F. induction F as [|v r vec ow H F IH]; intros H'; simpl; constructor.
  - apply H'; [now left|exact H].
  - apply IH. intros; apply H'; [now right|assumption].
Qed.
Lemma own_same (m m' : mem) vec ow : Forall2 (fun v r => m v = Some r) vec ow ->
  (forall v r, In v vec -> m v = Some r -> m' v = Some r) -> Forall2 (fun v r => m' v = Some r) vec ow.
Proof. intros F H. rewrite <- (map_id ow). now apply (own_ext m m' (fun r => r)). Qed.
Lemma moved_kind (m m' : mem) a b : good m -> a <> b -> U a = U b ->
  (forall x y, m x = Some (Some y) -> U x = negb (U y)) ->
  (forall x y, m' x = Some (Some y) <-> moved (fun x y => m x = Some (Some y)) a b x y) ->
  forall x y, m' x = Some (Some y) -> U x = negb (U y).
Proof.
  intros G D E K P x y H. apply P in H. apply moved_iff in H; auto.
  destruct H as [(-> & _ & _ & H)|[(-> & _ & _ & H)|(_ & _ & _ & _ & H)]]; apply K in H; congruence.
Qed.

(* ---- clients ---- *)
Lemma c_new m vec ow cl a : Rm m vec ow cl [] -> U a = true -> cl a = false ->
  exists m', newToken m a = Ok m' /\ Rm m' vec ow (upd cl a true) [].
Proof.
  intros [G ND OW L VU CU JU K] Ua Ca.
  assert (F : m a = None). { destruct (m a) eqn:E; [|reflexivity]. destruct (proj1 (L a)) as [H|[H|H]]; [congruence| | |destruct H]; [apply VU in H|]; congruence. }
  destruct (new_ok m a G F) as (m' & E & G' & A & P). simpl in A, P. exists m'. split; [exact E|]. constructor; auto.
  - apply (own_same m); auto. intros v r I H. apply mem_eq; [apply A; left; congruence|]. intros y. rewrite P, H. split; congruence.
  - intros x. rewrite A, L. unfold upd. destruct (Nat.eqb_spec x a) as [->|]; split; intuition congruence.
  - intros x. unfold upd. destruct (Nat.eqb_spec x a) as [->|]; auto.
  - intros x [].
  - intros x y H. apply P in H. now apply K.
Qed.
Lemma c_delete m vec ow cl a : Rm m vec ow cl [] -> cl a = true ->
  exists m', delete m a = Ok m' /\ Rm m' vec (map (forget a) ow) (upd cl a false) [].
Proof.
  intros [G ND OW L VU CU JU K] Ca. pose proof (CU a Ca) as Ua.
  destruct (delete_ok m a G) as (m' & E & G' & A & P); [apply L; auto|]. simpl in A, P. exists m'. split; [exact E|]. constructor; auto.
  - apply (own_ext m); auto. intros v r I H. pose proof (VU v I). assert (v <> a) by congruence.
    apply mem_eq; [apply A; split; congruence|]. intros y. rewrite P. unfold without. rewrite H. destruct r as [x|]; simpl.
    + destruct (Nat.eqb_spec x a) as [->|]; split; intros; destruct_conjs_; try congruence. all: repeat split; congruence.
    + split; intros; destruct_conjs_; congruence.
  - intros x. rewrite A, L. unfold upd. destruct (Nat.eqb_spec x a) as [->|]; split; try tauto.
    intros [H|[H|H]]; [apply VU in H; congruence|discriminate|destruct H].
  - intros x. unfold upd. destruct (Nat.eqb_spec x a) as [->|]; [discriminate|auto].
  - intros x [].
  - intros x y H. apply P in H. destruct H as [H _]. now apply K.
Qed.
Lemma c_moveNew m vec ow cl a b : Rm m vec ow cl [] -> U a = true -> cl a = false -> cl b = true ->
  exists m', moveNew m a b = Ok m' /\ Rm m' vec (map (follow a b) ow) (upd cl a true) [].
Proof.
  intros [G ND OW L VU CU JU K] Ua Ca Cb. pose proof (CU b Cb) as Ub. assert (D : a <> b) by congruence.
  assert (F : m a = None). { destruct (m a) eqn:E; [|reflexivity]. destruct (proj1 (L a)) as [H|[H|H]]; [congruence| | |destruct H]; [apply VU in H|]; congruence. }
  destruct (moveNew_ok m a b G F) as (m' & E & G' & A & P); [apply L; auto|]. simpl in A, P. exists m'. split; [exact E|]. constructor; auto.
  - apply (own_ext m); auto. intros v r I H. pose proof (VU v I). assert (v <> a) by congruence. assert (v <> b) by congruence.
    apply mem_eq; [apply A; left; congruence|]. intros y. rewrite P, moved_iff, H by auto. destruct r as [x|]; simpl.
    + assert (x <> a) by (intros ->; destruct (G _ _ H); congruence).
      destruct (Nat.eqb_spec x b) as [->|]; split; intros Q.
      * destruct Q as [Q|[Q|Q]]; destruct_conjs_; congruence.
      * right; left. injection Q as <-. repeat split; congruence.
      * destruct Q as [Q|[Q|Q]]; destruct_conjs_; congruence.
      * injection Q as <-. right; right. repeat split; congruence.
    + split; [|discriminate]. intros [Q|[Q|Q]]; destruct_conjs_; congruence.
  - intros x. rewrite A, L. unfold upd. destruct (Nat.eqb_spec x a) as [->|]; split; intuition congruence.
  - intros x. unfold upd. destruct (Nat.eqb_spec x a) as [->|]; auto.
  - intros x [].
  - eapply moved_kind; [exact G|exact D| |exact K|exact P]. congruence.
Qed.
Lemma c_moveAssign m vec ow cl a b : Rm m vec ow cl [] -> cl a = true -> cl b = true ->
  exists m', moveAssign m a b = Ok m' /\ Rm m' vec (map (fun o => follow a b (forget a o)) ow) cl [].
Proof.
  intros [G ND OW L VU CU JU K] Ca Cb. pose proof (CU b Cb) as Ub. pose proof (CU a Ca) as Ua. destruct (Nat.eq_dec a b) as [<-|D].
  - destruct (selfMove_ok m a G) as (m' & E & G' & A & P); [apply L; auto|]. simpl in A, P. exists m'. split; [exact E|].
    assert (Q : forall x y, m' x = Some (Some y) <-> m x = Some (Some y) /\ x <> a /\ y <> a).
    { intros x y. rewrite P. assert (R : forall z, rename a a z = z) by (intros z; unfold rename; destruct (Nat.eqb_spec z a); congruence).
      unfold moved, without. split; [intros (u & v & H & -> & ->); now rewrite !R|]. intros H. exists x, y. now rewrite !R. }
    constructor; auto.
    + apply (own_ext m); auto. intros v r I H. pose proof (VU v I). assert (v <> a) by congruence.
      apply mem_eq; [apply A; congruence|]. intros y. rewrite Q, H. destruct r as [x|]; simpl.
      * destruct (Nat.eqb_spec x a) as [->|]; simpl; [split; intros; destruct_conjs_; congruence|].
        destruct (Nat.eqb_spec x a); [congruence|]. split; intros; destruct_conjs_; try congruence. repeat split; congruence.
      * split; intros; destruct_conjs_; congruence.
    + intros x. now rewrite A, L.
    + intros x [].
    + intros x y H. apply Q in H. destruct H as [H _]. now apply K.
  - destruct (moveAssign_ok m a b G) as (m' & E & G' & A & P); [apply L; auto|apply L; auto|exact D|]. simpl in A, P. exists m'. split; [exact E|]. constructor; auto.
    + apply (own_ext m); auto. intros v r I H. pose proof (VU v I). assert (v <> a) by congruence. assert (v <> b) by congruence.
      apply mem_eq; [apply A; congruence|]. intros y. rewrite P, moved_iff, H by auto. destruct r as [x|]; simpl.
      * destruct (Nat.eqb_spec x a) as [->|]; simpl.
        -- split; [|discriminate]. intros [Q|[Q|Q]]; destruct_conjs_; congruence.
        -- destruct (Nat.eqb_spec x b) as [->|]; split; intros Q.
           ++ destruct Q as [Q|[Q|Q]]; destruct_conjs_; congruence.
           ++ right; left. injection Q as <-. repeat split; congruence.
           ++ destruct Q as [Q|[Q|Q]]; destruct_conjs_; congruence.
           ++ injection Q as <-. right; right. repeat split; congruence.
      * split; [|discriminate]. intros [Q|[Q|Q]]; destruct_conjs_; congruence.
    + intros x. now rewrite A, L.
    + intros x [].
    + eapply moved_kind; [exact G|exact D| |exact K|exact P]. congruence.
Qed.

(* ---- the vector ---- *)
Lemma v_assign m pre a b post po ra rb qo cl : length pre = length po -> Rm m (pre ++ a :: b :: post) (po ++ ra :: rb :: qo) cl [] ->
  exists m', moveAssign m a b = Ok m' /\ Rm m' (pre ++ a :: b :: post) (po ++ rb :: None :: qo) cl [].
Proof.
  intros Le [G ND OW L VU CU JU K].
  assert (Ia : In a (pre ++ a :: b :: post)) by (apply in_or_app; right; now left).
  assert (Ib : In b (pre ++ a :: b :: post)) by (apply in_or_app; right; right; now left).
  pose proof (VU a Ia) as Ua. pose proof (VU b Ib) as Ub.
  pose proof (NoDup_remove_2 _ _ _ ND) as Na.
  assert (D : a <> b) by (intros ->; apply Na, in_or_app; right; now left).
  assert (ND' : NoDup ((pre ++ [a]) ++ b :: post)) by (rewrite <- app_assoc; exact ND).
  pose proof (NoDup_remove_2 _ _ _ ND') as Nb.
  apply Forall2_app_inv_l in OW. destruct OW as (o1 & o2 & F1 & F2 & Eo).
  apply app_len_inj in Eo; [|apply Forall2_length in F1; congruence]. destruct Eo as [<- <-].
  inversion F2 as [|? ? ? ? Ma F3]; subst. inversion F3 as [|? ? ? ? Mb F4]; subst.
  destruct (moveAssign_ok m a b G) as (m' & E & G' & A & P); [congruence|congruence|exact D|]. simpl in A, P. exists m'. split; [exact E|].
  assert (Oth : forall v r, v <> a -> v <> b -> U v = false -> m v = Some r -> m' v = Some r).
  { intros v r N1 N2 Uv H. apply mem_eq; [apply A; congruence|]. intros y. rewrite P, moved_iff, H by auto. split.
    - intros [Q|[Q|Q]]; destruct_conjs_; try congruence. subst. match goal with Q : Some r = Some (Some b) |- _ => injection Q as -> end. apply K in H. rewrite Uv, Ub in H. discriminate.
    - intros ->. right; right. repeat split; try assumption; intros ->; apply K in H; rewrite Uv in H; [rewrite Ua in H|rewrite Ub in H]; discriminate. }
  constructor; auto.
  - apply Forall2_app; [|constructor; [|constructor]].
    + apply (own_same m); auto. intros v r I. apply Oth; [intros ->; apply Na, in_or_app; now left|intros ->; apply Nb, in_or_app; left; apply in_or_app; now left|apply VU, in_or_app; now left].
    + apply mem_eq; [apply A; congruence|]. intros y. rewrite P, moved_iff, Mb by auto. split.
      * intros [Q|[Q|Q]]; destruct_conjs_; congruence.
      * intros ->. left. repeat split; try reflexivity; intros ->; apply K in Mb; rewrite ?Ua, ?Ub in Mb; discriminate.
    + apply mem_eq; [apply A; congruence|]. intros y. rewrite P, moved_iff by auto. split; [|discriminate]. intros [Q|[Q|Q]]; destruct_conjs_; congruence.
    + apply (own_same m); auto. intros v r I. apply Oth; [intros ->; apply Na, in_or_app; right; now right|intros ->; apply Nb, in_or_app; right; exact I|apply VU, in_or_app; right; right; now right].
  - intros x. now rewrite A, L.
  - intros x [].
  - eapply moved_kind; [exact G|exact D| |exact K|exact P]. congruence.
Qed.
Lemma v_delete m pre a po ra cl j : length pre = length po -> ~ In a j -> Rm m (pre ++ [a]) (po ++ [ra]) cl j ->
  exists m', delete m a = Ok m' /\ Rm m' pre po cl j.
Proof.
  intros Le Nj [G ND OW L VU CU JU K].
  assert (Ia : In a (pre ++ [a])) by (apply in_or_app; right; now left). pose proof (VU a Ia) as Ua.
  pose proof (NoDup_remove_2 _ _ _ ND) as Na. rewrite app_nil_r in Na.
  destruct (delete_ok m a G) as (m' & E & G' & A & P); [apply L; auto|]. simpl in A, P. exists m'. split; [exact E|].
  apply Forall2_app_inv_l in OW. destruct OW as (o1 & o2 & F1 & F2 & Eo).
  apply app_len_inj in Eo; [|apply Forall2_length in F1; congruence]. destruct Eo as [<- <-].
  assert (Oth : forall v r, v <> a -> U v = false -> m v = Some r -> m' v = Some r).
  { intros v r N Uv H. apply mem_eq; [apply A; split; congruence|]. intros y. rewrite P. unfold without. rewrite H. split.
    - intros Q; destruct_conjs_; congruence.
    - intros ->. repeat split; try assumption. intros ->. apply K in H. rewrite Uv, Ua in H. discriminate. }
  constructor; auto.
  - apply (NoDup_remove_1 _ _ _) in ND. now rewrite app_nil_r in ND.
  - apply (own_same m); auto. intros v r I. apply Oth; [congruence|]. apply VU, in_or_app. now left.
  - intros x. rewrite A, L, in_app_iff. simpl. split; [intuition congruence|]. intros H. split; [tauto|]. intros ->.
    destruct H as [H|[H|H]]; [tauto|apply CU in H; congruence|tauto].
  - intros x I. apply VU, in_or_app. now left.
  - intros x I. destruct (JU x I) as [Ux Mx]. split; [exact Ux|]. apply Oth; auto. congruence.
  - intros x y H. apply P in H. destruct H as [H _]. now apply K.
Qed.
Lemma v_shift l : forall m pre po a ra ol cl, length pre = length po -> Rm m (pre ++ a :: l) (po ++ ra :: ol) cl [] ->
  exists m', shift m (a :: l) = Ok m' /\ Rm m' (pre ++ removelast (a :: l)) (po ++ ol) cl [].
Proof.
  induction l as [|b l IH]; intros m pre po a ra ol cl Le H.
  - assert (ol = []) as ->. { pose proof (Forall2_length _ _ _ (r_own _ _ _ _ _ H)) as E. rewrite !app_length in E. simpl in E. destruct ol; [reflexivity|simpl in E; lia]. }
    destruct (v_delete m pre a po ra cl [] Le) as (m' & E & R); [easy|exact H|]. exists m'. split; [exact E|]. simpl. now rewrite !app_nil_r.
  - destruct ol as [|rb ol]. { pose proof (Forall2_length _ _ _ (r_own _ _ _ _ _ H)) as E. rewrite !app_length in E. simpl in E. lia. }
    destruct (v_assign m pre a b l po ra rb ol cl Le H) as (m1 & E1 & R1).
    change (shift m (a :: b :: l)) with (do m1 <- moveAssign m a b; shift m1 (b :: l)). rewrite E1. cbn [bind].
    replace (pre ++ a :: b :: l) with ((pre ++ [a]) ++ b :: l) in R1 by now rewrite <- app_assoc.
    replace (po ++ rb :: None :: ol) with ((po ++ [rb]) ++ None :: ol) in R1 by now rewrite <- app_assoc.
    destruct (IH m1 (pre ++ [a]) (po ++ [rb]) b None ol cl) as (m' & E & R); [rewrite !app_length; simpl; lia|exact R1|].
    exists m'. split; [exact E|]. change (removelast (a :: b :: l)) with (a :: removelast (b :: l)).
    rewrite <- !app_assoc in R. exact R.
Qed.

(* ---- the whole ---- *)
Definition R (s : spec) (i : imp) : Prop :=
  cbs i = map fst (regs s) /\ Rm (mm i) (addrs i) (map snd (regs s)) (clients s) [].
Lemma split_at {A} i (l : list A) x : nth_error l i = Some x -> l = firstn i l ++ x :: skipn (S i) l /\ skipn i l = x :: skipn (S i) l /\ length (firstn i l) = i.
Proof.
  revert l. induction i as [|i IH]; intros [|y l] H; simpl in *; try discriminate.
  - injection H as <-. auto.
  - destruct (IH l H) as (E & E' & E''). simpl in *. split; [now rewrite <- E|]. split; [exact E'|]. now rewrite E''.
Qed.
Lemma map_removeAt {A B} (f : A -> B) i l : map f (removeAt i l) = removeAt i (map f l).
Proof. unfold removeAt. now rewrite map_app, firstn_map, skipn_map. Qed.
Lemma removelast_split {A} (l1 : list A) x l2 : removelast (l1 ++ x :: l2) = l1 ++ removelast (x :: l2).
Proof. apply removelast_app. discriminate. Qed.
Lemma erase_ok s i k c o : R s i -> nth_error (regs s) k = Some (c, o) ->
  exists i', erase i k = Ok i' /\ R (mkS (removeAt k (regs s)) (clients s)) i'.
Proof.
  intros [C M] H. unfold erase. pose proof (Forall2_length _ _ _ (r_own _ _ _ _ _ M)) as Le. rewrite map_length in Le.
  assert (exists v, nth_error (addrs i) k = Some v) as [v Hv].
  { destruct (nth_error (addrs i) k) eqn:E; [eauto|]. apply nth_error_None in E. assert (k < length (regs s)) by (apply nth_error_Some; congruence). lia. }
  destruct (split_at _ _ _ Hv) as (E1 & E2 & E3). pose proof (map_nth_error snd _ _ H) as Ho. simpl in Ho.
  destruct (split_at _ _ _ Ho) as (E4 & E5 & E6). rewrite E2.
  pose proof M as M'. rewrite E1, E4 in M'.
  destruct (v_shift _ _ _ _ _ _ _ _ (eq_trans E3 (eq_sym E6)) M') as (m' & E & RR). rewrite E. cbn [bind]. eexists. split; [reflexivity|].
  split; cbn [mm addrs cbs regs clients].
  - now rewrite C, map_removeAt.
  - rewrite map_removeAt. unfold removeAt at 1. rewrite E1 at 1. rewrite removelast_split. exact RR.
Qed.
Lemma find_ok (m : mem) vec (l : list (cb * option nat)) a : Forall2 (fun v r => m v = Some r) vec (map snd l) -> findPaired m vec a = Ok (ownerIndex a l).
Proof.
  revert vec. induction l as [|[c o] l IH]; intros vec F; inversion F as [|v r vec' ol H F']; subst; [reflexivity|]. simpl in H.
  cbn [findPaired ownerIndex]. unfold get. rewrite H. cbn [bind]. rewrite (IH _ F'). destruct o as [p|]; [destruct (p =? a)|]; reflexivity.
Qed.
Lemma ownerIndex_nth a l k : ownerIndex a l = Some k -> exists c, nth_error l k = Some (c, Some a).
Proof.
  revert k. induction l as [|[c [x|]] l IH]; intros k H; simpl in H; [discriminate| |].
  - destruct (Nat.eqb_spec x a) as [->|]; [injection H as <-; simpl; eauto|]. destruct (ownerIndex a l) as [k'|]; [|discriminate]. injection H as <-. simpl. auto.
  - destruct (ownerIndex a l) as [k'|]; [|discriminate]. injection H as <-. simpl. auto.
Qed.
Notation copU := (copIn U).
Lemma map_onOwners f l : map fst (onOwners f l) = map fst l /\ map snd (onOwners f l) = map f (map snd l).
Proof. unfold onOwners. rewrite !map_map. split; apply map_ext; reflexivity. Qed.
Lemma icop_ok busy s i c : R s i -> copU c ->
  match scop busy s c with
  | Ok s' => exists i', icop busy i c = Ok i' /\ R s' i'
  | Throw => icop busy i c = Throw
  | UB => True
  end.
Proof.
  intros [C M] W. destruct c as [a|a b|a b|a|a]; cbn [scop icop copIn] in *.
  - destruct (clients s a) eqn:Ca; [exact I|]. destruct (c_new _ _ _ _ a M W Ca) as (m' & E & R'). rewrite E. cbn [bind]. eexists. split; [reflexivity|]. now split.
  - destruct (clients s a) eqn:Ca; [exact I|]. destruct (clients s b) eqn:Cb; [|exact I]. simpl.
    destruct (c_moveNew _ _ _ _ a b M W Ca Cb) as (m' & E & R'). rewrite E. cbn [bind]. eexists. split; [reflexivity|]. split; cbn [cbs mm addrs regs clients]; destruct (map_onOwners (follow a b) (regs s)) as [Q1 Q2]; [rewrite Q1|rewrite Q2]; assumption.
  - destruct (clients s a) eqn:Ca; [|exact I]. destruct (clients s b) eqn:Cb; [|exact I]. simpl.
    destruct (c_moveAssign _ _ _ _ a b M Ca Cb) as (m' & E & R'). rewrite E. cbn [bind]. eexists. split; [reflexivity|]. split; cbn [cbs mm addrs regs clients]; destruct (map_onOwners (fun o => follow a b (forget a o)) (regs s)) as [Q1 Q2]; [rewrite Q1|rewrite Q2]; assumption.
  - destruct (clients s a) eqn:Ca; [|exact I]. destruct (c_delete _ _ _ _ a M Ca) as (m' & E & R'). rewrite E. cbn [bind]. eexists. split; [reflexivity|]. split; cbn [cbs mm addrs regs clients]; destruct (map_onOwners (forget a) (regs s)) as [Q1 Q2]; [rewrite Q1|rewrite Q2]; assumption.
  - destruct (clients s a) eqn:Ca; [|exact I]. destruct (mm i a) as [oa|] eqn:Ea; [|exfalso; apply (proj2 (r_live _ _ _ _ _ M a)); auto].
    replace (get (mm i) a) with (Ok oa) by (unfold get; now rewrite Ea). cbn [bind].
    unfold unregister. rewrite (find_ok _ _ (regs s) a (r_own _ _ _ _ _ M)). cbn [bind].
    destruct (ownerIndex a (regs s)) as [k|] eqn:Ek; [|reflexivity]. destruct (ownerIndex_nth _ _ _ Ek) as [c Hk].
    destruct (erase_ok s i k c (Some a) (conj C M) Hk) as (i' & E & R').
    destruct busy as [j|]; [destruct (k <=? j); [exact I|]|]; eauto.
Qed.
Lemma icops_ok busy l : forall s i s', R s i -> Forall copU l -> scops busy s l = Ok s' -> exists i', icops busy i l = Ok i' /\ R s' i'.
Proof.
  induction l as [|c l IH]; intros s i s' H W E; cbn [scops icops] in *.
  - injection E as <-. eauto.
  - inversion W as [|? ? W1 W2]; subst. pose proof (icop_ok busy s i c H W1) as K. destruct (scop busy s c) as [s1| |]; cbn [bind] in E; try discriminate.
    destruct K as (i1 & E1 & R1). rewrite E1. cbn [bind]. eauto.
Qed.
Definition cbU (c : cb) : Prop := Forall copU (script c).
Lemma scop_cbs busy s c s' : scop busy s c = Ok s' -> incl (map fst (regs s')) (map fst (regs s)) /\ length (regs s') <= length (regs s).
Proof.
  destruct c as [a|a b|a b|a|a]; cbn [scop]; intros H.
  - destruct (clients s a); [discriminate|]. injection H as <-. cbn. split; [apply incl_refl|lia].
  - destruct (clients s a || negb (clients s b)); [discriminate|]. injection H as <-. cbn. destruct (map_onOwners (follow a b) (regs s)) as [-> _]. unfold onOwners. rewrite map_length. split; [apply incl_refl|lia].
  - destruct (clients s a && clients s b); [|discriminate]. injection H as <-. cbn. destruct (map_onOwners (fun o => follow a b (forget a o)) (regs s)) as [-> _]. unfold onOwners. rewrite map_length. split; [apply incl_refl|lia].
  - destruct (clients s a); [|discriminate]. injection H as <-. cbn. destruct (map_onOwners (forget a) (regs s)) as [-> _]. unfold onOwners. rewrite map_length. split; [apply incl_refl|lia].
  - destruct (clients s a); [|discriminate]. destruct (ownerIndex a (regs s)) as [k|]; [|discriminate].
    assert (Q : incl (map fst (removeAt k (regs s))) (map fst (regs s)) /\ length (removeAt k (regs s)) <= length (regs s)).
    { unfold removeAt. split.
      - intros x I. rewrite map_app in I. apply in_map_iff. apply in_app_or in I. destruct I as [I|I]; apply in_map_iff in I; destruct I as (p & <- & I); exists p; (split; [reflexivity|]).
        + rewrite <- (firstn_skipn k (regs s)). apply in_or_app. now left.
        + rewrite <- (firstn_skipn (S k) (regs s)). apply in_or_app. now right.
      - rewrite app_length, firstn_length, skipn_length. lia. }
    destruct busy as [j|]; [destruct (k <=? j); [discriminate|]|]; injection H as <-; exact Q.
Qed.
Lemma scops_cbs busy l : forall s s', scops busy s l = Ok s' -> incl (map fst (regs s')) (map fst (regs s)) /\ length (regs s') <= length (regs s).
Proof.
  induction l as [|c l IH]; intros s s' H; cbn [scops] in H; [injection H as <-; split; [apply incl_refl|lia]|].
  destruct (scop busy s c) as [s1| |] eqn:E; cbn [bind] in H; try discriminate. destruct (IH _ _ H), (scop_cbs _ _ _ _ E). split; [eapply incl_tran; eassumption|lia].
Qed.
Definition specU (s : spec) : Prop := forall c, In c (map fst (regs s)) -> cbU c.
Lemma specU_removeAt s k : specU s -> specU (mkS (removeAt k (regs s)) (clients s)).
Proof.
  intros H c I. apply H. cbn in I. unfold removeAt in I. rewrite map_app in I. apply in_map_iff. apply in_app_or in I. destruct I as [I|I]; apply in_map_iff in I; destruct I as (p & <- & I); exists p; (split; [reflexivity|]).
  + rewrite <- (firstn_skipn k (regs s)). apply in_or_app. now left.
  + rewrite <- (firstn_skipn (S k) (regs s)). apply in_or_app. now right.
Qed.
Lemma run_ok k s out s' : runs k s out s' -> forall i fuel, R s i -> specU s -> length (regs s) - k <= fuel ->
  exists i', irun fuel k i = Ok (out, i') /\ R s' i' /\ specU s'.
Proof.
  induction 1 as [k s H|k s c a s1 out s2 H Hs H' IH|k s c out s2 H H' IH]; intros i fuel RR W Fu;
    pose proof RR as [C M]; pose proof (Forall2_length _ _ _ (r_own _ _ _ _ _ M)) as Le; rewrite map_length in Le.
  - exists i. split; [|auto]. destruct fuel; simpl; rewrite (proj2 (Nat.leb_le _ _)) by lia; reflexivity.
  - assert (Hk : k < length (regs s)) by (apply nth_error_Some; congruence). destruct fuel as [|f]; [lia|]. cbn [irun]. rewrite (proj2 (Nat.leb_gt _ _)) by lia.
    pose proof (map_nth_error fst _ _ H) as Hc. rewrite <- C in Hc. cbn [fst] in Hc. rewrite Hc.
    destruct (nth_error (addrs i) k) as [v|] eqn:Hv; [|apply nth_error_None in Hv; lia].
    assert (Mv : mm i v = Some (Some a)).
    { pose proof (map_nth_error snd _ _ H) as Ho. cbn [snd] in Ho. pose proof (r_own _ _ _ _ _ M) as OW.
      clear -OW Hv Ho. revert k Hv Ho. induction OW; intros [|k] Hv Ho; simpl in *; try discriminate; [congruence|eauto]. }
    unfold get. rewrite Mv. cbn [bind].
    destruct (icops_ok (Some k) (script c) s i s1 RR) as (i1 & E1 & R1); [apply W, in_map_iff; exists (c, Some a); split; [reflexivity|eapply nth_error_In; eassumption]|exact Hs|].
    rewrite E1. cbn [bind]. destruct (scops_cbs _ _ _ _ Hs) as [Ic Il].
    destruct (IH i1 f R1) as (i' & E & R' & W'); [intros x Ix; apply W, Ic, Ix|lia|]. rewrite E. cbn [bind fst snd]. eauto.
  - assert (Hk : k < length (regs s)) by (apply nth_error_Some; congruence). destruct fuel as [|f]; [lia|]. cbn [irun]. rewrite (proj2 (Nat.leb_gt _ _)) by lia.
    pose proof (map_nth_error fst _ _ H) as Hc. rewrite <- C in Hc. cbn [fst] in Hc. rewrite Hc.
    destruct (nth_error (addrs i) k) as [v|] eqn:Hv; [|apply nth_error_None in Hv; lia].
    assert (Mv : mm i v = Some None).
    { pose proof (map_nth_error snd _ _ H) as Ho. cbn [snd] in Ho. pose proof (r_own _ _ _ _ _ M) as OW.
      clear -OW Hv Ho. revert k Hv Ho. induction OW; intros [|k] Hv Ho; simpl in *; try discriminate; [congruence|eauto]. }
    unfold get. rewrite Mv. cbn [bind]. destruct (erase_ok s i k c None RR H) as (i1 & E1 & R1). rewrite E1. cbn [bind].
    apply IH; [exact R1|now apply specU_removeAt|]. cbn [regs]. unfold removeAt. rewrite app_length, firstn_length, skipn_length. lia.
Qed.

(* ---- registration ---- *)
Lemma j_new m vec ow cl j x : Rm m vec ow cl j -> m x = None -> U x = false -> exists m', newToken m x = Ok m' /\ Rm m' vec ow cl (x :: j) /\ (forall y, y <> x -> m' y = m y).
Proof.
  intros [G ND OW L VU CU JU K] F Ux. destruct (new_ok m x G F) as (m' & E & G' & A & P). simpl in A, P. exists m'. split; [exact E|].
  assert (Q : forall v r, m v = Some r -> m' v = Some r).
  { intros v r H. apply mem_eq; [apply A; left; congruence|]. intros y. rewrite P, H. split; congruence. }
  split.
  - constructor; auto.
    + apply (own_same m); auto.
    + intros y. rewrite A, L. simpl. intuition congruence.
    + intros y [<-|I]; [|destruct (JU y I); auto]. split; [exact Ux|]. apply mem_eq; [apply A; auto|]. intros z. rewrite P, F. split; discriminate.
    + intros u v H. apply P in H. now apply K.
  - intros y N. unfold newToken, place in E. rewrite F in E. injection E as <-. unfold upd. destruct (Nat.eqb_spec y x); congruence.
Qed.
Lemma moveNew_free m a b m' y : moveNew m a b = Ok m' -> m y = None -> y <> a -> m' y = None.
Proof.
  unfold moveNew, get, place, set, notify. intros H F N. destruct (m b) as [o|] eqn:Eb; cbn [bind] in H; [|discriminate]. destruct (m a); cbn [bind] in H; [discriminate|].
  destruct (upd m a (Some o) b) eqn:E1; cbn [bind] in H; [|discriminate]. destruct o as [p|].
  - unfold set in H. destruct (upd (upd m a (Some (Some p))) b (Some None) p) eqn:E2; [|discriminate]. injection H as <-. revert E2. unfold upd. eqs; try congruence; auto.
  - injection H as <-. unfold upd. eqs; congruence.
Qed.
Lemma delete_free m a m' y : delete m a = Ok m' -> m y = None -> m' y = None.
Proof.
  unfold delete, get, notify, set. intros H F. destruct (m a) as [[p|]|] eqn:Ea; cbn [bind] in H; try discriminate.
  - destruct (m p) eqn:E; cbn [bind] in H; [|discriminate]. injection H as <-. unfold upd. eqs; congruence.
  - injection H as <-. unfold upd. eqs; congruence.
Qed.
Lemma j_move m vec ow cl j x t : Rm m vec ow cl j -> m x = None -> U x = false -> In t j -> exists m', moveNew m x t = Ok m' /\ Rm m' vec ow cl (x :: j).
Proof.
  intros [G ND OW L VU CU JU K] F Ux It. destruct (JU t It) as [Ut Mt].
  destruct (moveNew_ok m x t G F) as (m' & E & G' & A & P); [congruence|]. simpl in A, P. exists m'. split; [exact E|].
  assert (Dx : x <> t) by congruence.
  assert (P' : forall u v, m' u = Some (Some v) <-> m u = Some (Some v)).
  { intros u v. rewrite P, moved_iff by auto. split.
    - intros [Q|[Q|Q]]; destruct_conjs_; try congruence. exfalso. destruct (G _ _ H2). congruence.
    - intros H. destruct (G _ _ H). right; right. repeat split; congruence. }
  assert (Q : forall v r, m v = Some r -> m' v = Some r).
  { intros v r H. apply mem_eq; [apply A; left; congruence|]. intros y. rewrite P', H. split; congruence. }
  constructor; auto.
  - apply (own_same m); auto.
  - intros y. rewrite A, L. simpl. intuition congruence.
  - intros y [<-|I]; [|destruct (JU y I); auto]. split; [exact Ux|]. apply mem_eq; [apply A; auto|]. intros z. rewrite P', F. split; discriminate.
  - intros u v H. apply P' in H. now apply K.
Qed.
Lemma j_delete m vec ow cl j t : Rm m vec ow cl (t :: j) -> ~ In t j -> ~ In t vec -> exists m', delete m t = Ok m' /\ Rm m' vec ow cl j.
Proof.
  intros [G ND OW L VU CU JU K] Nj Nv. destruct (JU t (or_introl eq_refl)) as [Ut Mt].
  destruct (delete_ok m t G) as (m' & E & G' & A & P); [congruence|]. simpl in A, P. exists m'. split; [exact E|].
  assert (Q : forall v r, v <> t -> m v = Some r -> m' v = Some r).
  { intros v r N H. apply mem_eq; [apply A; split; congruence|]. intros y. rewrite P. unfold without. rewrite H. split; [intros X; destruct_conjs_; congruence|].
    intros ->. repeat split; auto. destruct (G _ _ H). congruence. }
  constructor; auto.
  - apply (own_same m); auto. intros v r I. apply Q. congruence.
  - intros y. rewrite A, L. simpl. split; [intuition congruence|]. intros H. split; [tauto|]. intros ->. destruct H as [H|[H|H]]; [tauto|apply CU in H; congruence|tauto].
  - intros y I. destruct (JU y (or_intror I)) as [Uy My]. split; [exact Uy|]. apply Q; [congruence|exact My].
  - intros u v H. apply P in H. destruct H as [H _]. now apply K.
Qed.
Lemma v_move m pre o post ow cl j n : Rm m (pre ++ o :: post) ow cl j -> ~ In o j -> m n = None -> U n = false ->
  exists m1 m2, moveNew m n o = Ok m1 /\ delete m1 o = Ok m2 /\ Rm m2 (pre ++ n :: post) ow cl j.
Proof.
  intros [G ND OW L VU CU JU K] Nj F Un.
  assert (Io : In o (pre ++ o :: post)) by (apply in_or_app; right; now left). pose proof (VU o Io) as Uo.
  pose proof (NoDup_remove_2 _ _ _ ND) as No.
  assert (Nn : ~ In n (pre ++ o :: post)) by (intros I; apply (proj2 (L n)); auto).
  assert (D : n <> o) by (intros ->; auto).
  destruct (moveNew_ok m n o G F) as (m1 & E1 & G1 & A1 & P1); [apply L; auto|]. simpl in A1, P1.
  destruct (delete_ok m1 o G1) as (m2 & E2 & G2 & A2 & P2); [apply A1; left; apply L; auto|]. simpl in A2, P2.
  exists m1, m2. split; [exact E1|]. split; [exact E2|].
  assert (P : forall x y, m2 x = Some (Some y) <-> (x = n /\ y <> n /\ y <> o /\ m o = Some (Some y)) \/ (y = n /\ x <> n /\ x <> o /\ m x = Some (Some o)) \/
     (x <> n /\ x <> o /\ y <> n /\ y <> o /\ m x = Some (Some y))).
  { intros x y. rewrite P2. unfold without. rewrite P1, moved_iff by auto. split; [tauto|]. intros H. split; [exact H|]. destruct H as [H|[H|H]]; destruct_conjs_; split; congruence. }
  assert (A : forall x, m2 x <> None <-> (m x <> None \/ x = n) /\ x <> o) by (intros x; now rewrite A2, A1).
  assert (Q : forall v r, v <> o -> v <> n -> U v = false -> m v = Some r -> m2 v = Some r).
  { intros v r N1 N2 Uv H. apply mem_eq; [apply A; split; [left; congruence|exact N1]|]. intros y. rewrite P, H. split.
    - intros [Q|[Q|Q]]; destruct_conjs_; try congruence. exfalso. subst. match goal with Q : Some r = Some (Some o) |- _ => injection Q as -> end. apply K in H. rewrite Uv, Uo in H. discriminate.
    - intros ->. right; right. repeat split; auto; intros ->; apply K in H; rewrite ?Uv, ?Un, ?Uo in H; discriminate. }
  constructor; auto.
  - apply NoDup_remove_1 in ND as ND1. apply NoDup_Add with (a := n) (l := pre ++ post); [apply Add_app|]. split; [exact ND1|]. intros I. apply Nn. apply in_app_iff. apply in_app_iff in I. simpl. tauto.
  - apply Forall2_app_inv_l in OW. destruct OW as (o1 & o2 & F1 & F2 & ->). inversion F2 as [|? ro ? o3 Mo F3]; subst.
    apply Forall2_app; [|constructor].
    + apply (own_same m); auto. intros v r I. apply Q; [intros ->; apply No, in_or_app; now left|intros ->; apply Nn, in_or_app; now left|apply VU, in_or_app; now left].
    + apply mem_eq; [apply A; auto|]. intros y. rewrite P, Mo. split.
      * intros [X|[X|X]]; destruct_conjs_; congruence.
      * intros ->. left. repeat split; auto; intros ->; apply K in Mo; rewrite ?Uo, ?Un in Mo; discriminate.
    + apply (own_same m); auto. intros v r I. apply Q; [intros ->; apply No, in_or_app; now right|intros ->; apply Nn, in_or_app; right; now right|apply VU, in_or_app; right; now right].
  - intros x. rewrite A, L, !in_app_iff. simpl. split; [intuition congruence|].
    intros H. split; [intuition congruence|]. intros ->. destruct H as [[H|[H|H]]|[H|H]]; [apply No, in_or_app; tauto|congruence|apply No, in_or_app; tauto|apply CU in H; congruence|tauto].
  - intros x I. apply in_app_or in I. destruct I as [I|[<-|I]]; [apply VU, in_or_app; now left|exact Un|apply VU, in_or_app; right; now right].
  - intros x I. destruct (JU x I) as [Ux Mx]. split; [exact Ux|]. apply Q; auto; congruence.
  - intros x y H. apply P in H. destruct H as [X|[X|X]]; destruct_conjs_; subst.
    + match goal with H : m o = Some (Some y) |- _ => apply K in H; congruence end.
    + match goal with H : m x = Some (Some o) |- _ => apply K in H; congruence end.
    + now apply K.
Qed.
Lemma relocate_ok os : forall ns m pre ow cl j, Rm m (pre ++ os) ow cl j -> length ns = length os -> NoDup ns ->
  (forall n, In n ns -> m n = None /\ U n = false) -> (forall o, In o os -> ~ In o j) ->
  exists m', relocate m os ns = Ok m' /\ Rm m' (pre ++ ns) ow cl j.
Proof.
  induction os as [|o os IH]; intros [|n ns] m pre ow cl j H Le ND F Nj; simpl in Le; try discriminate.
  - exists m. split; [reflexivity|exact H].
  - destruct (F n (or_introl eq_refl)) as [Fn Un]. destruct (v_move m pre o os ow cl j n H) as (m1 & m2 & E1 & E2 & R2); [apply Nj; now left|exact Fn|exact Un|].
    inversion ND as [|? ? N1 N2]; subst.
    assert (R2' : Rm m2 ((pre ++ [n]) ++ os) ow cl j) by (rewrite <- app_assoc; exact R2).
    destruct (IH ns m2 (pre ++ [n]) ow cl j R2') as (m' & E & R'); [lia|exact N2| |intros; apply Nj; now right|].
    + intros k I. destruct (F k (or_intror I)) as [Fk Uk]. split; [|exact Uk]. eapply delete_free; [exact E2|]. eapply moveNew_free; [exact E1|exact Fk|]. congruence.
    + exists m'. split; [|rewrite <- app_assoc in R'; exact R']. cbn [relocate]. rewrite E1. cbn [bind]. rewrite E2. cbn [bind]. exact E.
Qed.
Lemma register_ok s i c al : R s i -> freshAlloc (mm i) (length (addrs i)) al ->
  (forall a, In a (allocated al) -> U a = false) ->
  exists i', registerCb i c al = Ok i' /\ R (mkS (regs s ++ [(c, None)]) (clients s)) i' /\
    mm i' (place_ al) = Some None /\ In (place_ al) (addrs i').
Proof.
  intros [C M] (ND & F & Le) FU. unfold allocated in *. set (t := tmp al) in *. set (p := place_ al) in *. unfold registerCb. fold t p.
  inversion ND as [|? ? Nt ND1]; subst. inversion ND1 as [|? ? Np ND2]; subst.
  assert (Dt : t <> p) by (intros E; apply Nt; rewrite E; now left).
  destruct (j_new _ _ _ _ _ t M (F t (or_introl eq_refl)) (FU t (or_introl eq_refl))) as (m1 & E1 & R1 & O1). rewrite E1. cbn [bind].
  destruct (j_move _ _ _ _ _ p t R1) as (m2 & E2 & R2); [rewrite O1 by congruence; apply F; right; now left|apply FU; right; now left|now left|]. rewrite E2. cbn [bind].
  assert (Dv : forall x, In x (addrs i) -> x <> t /\ x <> p).
  { intros x I. assert (mm i x <> None) by (apply (r_live _ _ _ _ _ M); auto). split; intros ->; apply H, F; simpl; auto. }
  assert (exists m3, match news al with None => Ok m2 | Some l => relocate m2 (addrs i) l end = Ok m3 /\
    Rm m3 (match news al with None => addrs i | Some l => l end) (map snd (regs s)) (clients s) [p; t]) as (m3 & E3 & R3).
  { destruct (news al) as [l|]; [|eauto]. destruct (relocate_ok (addrs i) l m2 [] _ _ _ R2) as (m3 & E & R'); [exact Le|exact ND2| | |eauto].
    - intros n I. split; [|apply FU; right; now right]. assert (n <> t) by (intros ->; apply Nt; now right). assert (n <> p) by (intros ->; tauto).
      eapply moveNew_free; [exact E2| |assumption]. rewrite O1 by assumption. apply F. right. now right.
    - intros o I [<-|[<-|[]]]; destruct (Dv _ I); congruence. }
  rewrite E3. cbn [bind].
  assert (Nv : ~ In t (match news al with None => addrs i | Some l => l end) /\ ~ In p (match news al with None => addrs i | Some l => l end)).
  { destruct (news al) as [l|]; [split; [intros I; apply Nt; now right|exact Np]|]. split; intros I; destruct (Dv _ I); congruence. }
  assert (R3' : Rm m3 (match news al with None => addrs i | Some l => l end) (map snd (regs s)) (clients s) [t; p]).
  { destruct R3 as [G' ND' OW' L' VU' CU' JU' K']. constructor; auto. - intros a. rewrite L'. simpl. tauto. - intros a I. apply JU'. simpl in *. tauto. }
  destruct (j_delete _ _ _ _ _ t R3') as (m4 & E4 & R4); [intros [E|[]]; congruence|apply Nv|]. rewrite E4. cbn [bind].
  eexists. split; [reflexivity|]. cbn [mm addrs].
  destruct R4 as [G4 ND4 OW4 L4 VU4 CU4 JU4 K4]. destruct (JU4 p (or_introl eq_refl)) as [Up Mp].
  split; [|split; [exact Mp|apply in_or_app; right; now left]]. split; cbn [cbs mm addrs regs clients].
  - rewrite C, map_app. reflexivity.
  - rewrite map_app. simpl. constructor; auto.
    + apply NoDup_Add with (a := p) (l := match news al with None => addrs i | Some l => l end); [rewrite <- (app_nil_r (match news al with None => addrs i | Some l => l end)) at 1; apply Add_app|]. split; [exact ND4|apply Nv].
    + apply Forall2_app; auto.
    + intros a. rewrite L4, in_app_iff. simpl. tauto.
    + intros a I. apply in_app_or in I. destruct I as [I|[<-|[]]]; auto.
    + intros a [].
Qed.

Lemma last_own (m : mem) vec (ow : list (option nat)) v : Forall2 (fun v r => m v = Some r) (vec ++ [v]) (ow ++ [None]) -> m v = Some None.
Proof.
  intros F. apply Forall2_app_inv_l in F. destruct F as (o1 & o2 & F1 & F2 & E). inversion F2 as [|? r ? l H F3]; subst. inversion F3; subst.
  apply app_inj_tail in E. destruct E as [_ <-]. exact H.
Qed.
(* a client's token, newly built or already there, is paired with the last element *)
Lemma R_last s i c p : R (mkS (regs s ++ [(c, None)]) (clients s)) i -> mm i p = Some None -> In p (addrs i) -> last (addrs i) 0 = p ->
  exists vec, addrs i = vec ++ [p] /\ length vec = length (regs s) /\ ~ In p vec.
Proof.
  intros [C M] H I E. destruct (exists_last (l := addrs i)) as (vec & q & Eq); [intros E'; rewrite E' in I; destruct I|].
  rewrite Eq, last_last in E. subst q. exists vec. split; [exact Eq|].
  pose proof (Forall2_length _ _ _ (r_own _ _ _ _ _ M)) as Le. cbn [regs] in Le. rewrite Eq, map_length, !app_length in Le. simpl in Le. split; [lia|].
  pose proof (r_nd _ _ _ _ _ M) as ND. rewrite Eq in ND. apply NoDup_remove_2 in ND. now rewrite app_nil_r in ND.
Qed.
Lemma register_last i c al i' : registerCb i c al = Ok i' -> last (addrs i') 0 = place_ al.
Proof.
  unfold registerCb. intros H. destruct (newToken (mm i) (tmp al)); cbn [bind] in H; try discriminate. destruct (moveNew a (place_ al) (tmp al)); cbn [bind] in H; try discriminate.
  destruct (match news al with None => _ | Some l => _ end); cbn [bind] in H; try discriminate. destruct (delete a1 (tmp al)); cbn [bind] in H; try discriminate.
  injection H as <-. cbn [addrs]. apply last_last.
Qed.
Lemma regNew_ok s i c p a : R (mkS (regs s ++ [(c, None)]) (clients s)) i -> mm i p = Some None -> In p (addrs i) -> last (addrs i) 0 = p ->
  U a = true -> clients s a = false ->
  exists m', fromHandle (mm i) a (Some p) = Ok m' /\ R (mkS (regs s ++ [(c, Some a)]) (upd (clients s) a true)) (mkI m' (addrs i) (cbs i)).
Proof.
  intros RR H I La Ua Ca. destruct (R_last _ _ _ _ RR H I La) as (vec & Ev & Lv & Nv). destruct RR as [C M]. cbn [regs clients] in *.
  destruct M as [G ND OW L VU CU JU K].
  assert (F : mm i a = None). { destruct (mm i a) eqn:E; [|reflexivity]. destruct (proj1 (L a)) as [X|[X|X]]; [congruence| | |destruct X]; [apply VU in X|]; congruence. }
  destruct (fromHandle_ok (mm i) a p G F H) as (m' & E & G' & A & P). simpl in A, P. exists m'. split; [exact E|].
  pose proof (VU p I) as Up. split; cbn [cbs mm addrs regs clients].
  - rewrite C, !map_app. reflexivity.
  - constructor; auto.
    + rewrite map_app in *. rewrite Ev in *. apply Forall2_app_inv_l in OW. destruct OW as (o1 & o2 & F1 & F2 & Eo).
      apply app_len_inj in Eo; [|apply Forall2_length in F1; rewrite map_length; congruence]. destruct Eo as [<- <-]. apply Forall2_app.
      * apply (own_same (mm i)); auto. intros v r Iv Hv. assert (v <> p) by congruence. assert (U v = false) by (apply VU, in_or_app; now left).
        apply mem_eq; [apply A; left; congruence|]. intros y. rewrite P. unfold joined. rewrite Hv. split; [intros [X|[X|X]]; destruct_conjs_; congruence|intros ->; auto].
      * constructor; [|constructor]. simpl. apply mem_eq; [apply A; left; congruence|]. intros y. rewrite P. unfold joined. rewrite H. split; [intros [X|[X|X]]; destruct_conjs_; congruence|].
        intros X. injection X as <-. right; right. auto.
    + intros x. rewrite A, L. unfold upd. destruct (Nat.eqb_spec x a) as [->|]; split; intuition congruence.
    + intros x. unfold upd. destruct (Nat.eqb_spec x a) as [->|]; auto.
    + intros x [].
    + intros x y X. apply P in X. destruct X as [X|[[-> ->]|[-> ->]]]; [now apply K|rewrite Ua, Up; reflexivity|rewrite Ua, Up; reflexivity].
Qed.
Lemma regAssign_ok s i c p a : R (mkS (regs s ++ [(c, None)]) (clients s)) i -> mm i p = Some None -> In p (addrs i) -> last (addrs i) 0 = p ->
  clients s a = true ->
  exists m', assignHandle (mm i) a (Some p) = Ok m' /\ R (mkS (onOwners (forget a) (regs s) ++ [(c, Some a)]) (clients s)) (mkI m' (addrs i) (cbs i)).
Proof.
  intros RR H I La Ca. destruct (R_last _ _ _ _ RR H I La) as (vec & Ev & Lv & Nv). destruct RR as [C M]. cbn [regs clients] in *.
  destruct M as [G ND OW L VU CU JU K]. pose proof (CU a Ca) as Ua. pose proof (VU p I) as Up. assert (D : p <> a) by congruence.
  destruct (assignHandle_ok (mm i) a p G) as (m' & E & G' & A & P); [apply L; auto|exact H|exact D|]. simpl in A, P. exists m'. split; [exact E|].
  split; cbn [cbs mm addrs regs clients].
  - rewrite C, !map_app. destruct (map_onOwners (forget a) (regs s)) as [-> _]. reflexivity.
  - rewrite map_app. destruct (map_onOwners (forget a) (regs s)) as [_ ->]. constructor; auto.
    + rewrite map_app in *. rewrite Ev in *. apply Forall2_app_inv_l in OW. destruct OW as (o1 & o2 & F1 & F2 & Eo).
      apply app_len_inj in Eo; [|apply Forall2_length in F1; rewrite map_length; congruence]. destruct Eo as [<- <-]. apply Forall2_app.
      * apply (own_ext (mm i)); auto. intros v r Iv Hv. assert (v <> p) by congruence. assert (U v = false) by (apply VU, in_or_app; now left). assert (v <> a) by congruence.
        apply mem_eq; [apply A; congruence|]. intros y. rewrite P. unfold joined, without. rewrite Hv. destruct r as [x|]; simpl.
        -- destruct (Nat.eqb_spec x a) as [->|].
           ++ split; [|discriminate]. intros [X|[X|X]]; destruct_conjs_; congruence.
           ++ split; [intros [X|[X|X]]; destruct_conjs_; congruence|]. intros X. injection X as <-. left. repeat split; congruence.
        -- split; [|discriminate]. intros [X|[X|X]]; destruct_conjs_; congruence.
      * constructor; [|constructor]. simpl. apply mem_eq; [apply A; congruence|]. intros y. rewrite P. unfold joined, without. rewrite H. split; [intros [X|[X|X]]; destruct_conjs_; congruence|].
        intros X. injection X as <-. right; right. auto.
    + intros x. now rewrite A, L.
    + intros x [].
    + intros x y X. apply P in X. destruct X as [[X _]|[[-> ->]|[-> ->]]]; [now apply K|rewrite Ua, Up; reflexivity|rewrite Ua, Up; reflexivity].
Qed.
Lemma step_sim s i o out s' : R s i -> specU s -> iopIn U i o -> sstep s o out s' -> exists i', istep i o = Ok (out, i') /\ R s' i' /\ specU s'.
Proof.
  intros RR W IO H. destruct H as [s c s' H|s a c al Ca|s a c al Ca|s out s' H]; cbn [iopIn istep] in *.
  - pose proof (icop_ok None s i c RR IO) as K. rewrite H in K. destruct K as (i' & E & R'). rewrite E. cbn [bind]. eexists. split; [reflexivity|]. split; [exact R'|].
    intros x Ix. apply W. now apply (scop_cbs _ _ _ _ H).
  - destruct IO as (Ua & Uc & Ual & Fr). destruct (register_ok s i c al RR Fr Ual) as (i1 & E & R1 & H1 & I1). rewrite E. cbn [bind].
    destruct (regNew_ok s i1 c (place_ al) a R1 H1 I1 (register_last _ _ _ _ E) Ua Ca) as (m' & E' & R'). rewrite E'. cbn [bind]. eexists. split; [reflexivity|]. split; [exact R'|].
    intros x Ix. cbn [regs] in Ix. rewrite map_app in Ix. apply in_app_or in Ix. destruct Ix as [Ix|[<-|[]]]; [now apply W|exact Uc].
  - destruct IO as (Ua & Uc & Ual & Fr). destruct (register_ok s i c al RR Fr Ual) as (i1 & E & R1 & H1 & I1). rewrite E. cbn [bind].
    destruct (regAssign_ok s i1 c (place_ al) a R1 H1 I1 (register_last _ _ _ _ E) Ca) as (m' & E' & R'). rewrite E'. cbn [bind]. eexists. split; [reflexivity|]. split; [exact R'|].
    intros x Ix. cbn [regs] in Ix. rewrite map_app in Ix. destruct (map_onOwners (forget a) (regs s)) as [Q _]. rewrite Q in Ix. apply in_app_or in Ix. destruct Ix as [Ix|[<-|[]]]; [now apply W|exact Uc].
  - apply (run_ok 0 s out s' H i); auto. destruct RR as [C M]. pose proof (Forall2_length _ _ _ (r_own _ _ _ _ _ M)) as Le. rewrite map_length in Le. lia.
Qed.
Lemma steps_sim s l out s' : ssteps s l out s' -> forall i, R s i -> specU s -> placed U i l -> exists i', isteps i l = Ok (out, i') /\ R s' i' /\ specU s'.
Proof.
  induction 1 as [s|s o l out1 s1 out2 s2 H H' IH]; intros i RR W P; cbn [isteps placed] in *; [eauto|].
  destruct P as [P1 P2]. destruct (step_sim s i o out1 s1 RR W P1 H) as (i1 & E1 & R1 & W1). rewrite E1 in P2 |- *. cbn [bind snd fst] in *.
  destruct (IH i1 R1 W1 P2) as (i' & E & R' & W'). rewrite E. cbn [bind snd fst]. eauto.
Qed.
Lemma R_empty : R sempty iempty.
Proof. split; [reflexivity|]. constructor; simpl; try (intros; discriminate); try (intros; contradiction); try constructor. intros; congruence. intros [[]|[X|[]]]; discriminate. Qed.
End S.

Lemma history U l out s : ssteps sempty l out s -> placed U iempty l -> exists i, isteps iempty l = Ok (out, i) /\ cbs i = map fst (regs s) /\
  (forall k, option_map (mm i) (nth_error (addrs i) k) = option_map (fun r => Some (snd r)) (nth_error (regs s) k)).
Proof.
  intros H P. destruct (steps_sim U _ _ _ _ H iempty (R_empty U)) as (i & E & [C M] & _); [intros c []|exact P|].
  exists i. split; [exact E|]. split; [exact C|]. pose proof (r_own _ _ _ _ _ _ M) as OW. clear -OW.
  remember (map snd (regs s)) as ow eqn:Eo. revert Eo. generalize (regs s). induction OW as [|v r vec ow H F IH]; intros l' Eo k.
  - destruct l'; [|discriminate]. now destruct k.
  - destruct l' as [|p l']; [discriminate|]. injection Eo as -> ->. destruct k; simpl; [now rewrite H|now apply IH].
Qed.
(* no callback touches the tokens or the manager *)
Lemma quiet_runs post : forall pre cl, Forall (fun r => script (fst r) = []) post ->
  runs (length pre) (mkS (pre ++ post) cl) (map (fun r => label (fst r)) (filter (fun r => match snd r with Some _ => true | None => false end) post))
    (mkS (pre ++ filter (fun r => match snd r with Some _ => true | None => false end) post) cl).
Proof.
  induction post as [|[c o] post IH]; intros pre cl F; simpl.
  - apply runs_end. cbn. rewrite app_nil_r. lia.
  - inversion F as [|? ? F1 F2]; subst. assert (Hn : nth_error (pre ++ (c, o) :: post) (length pre) = Some (c, o)) by (rewrite nth_error_app2, Nat.sub_diag by lia; reflexivity).
    destruct o as [a|]; simpl.
    + eapply runs_live; [exact Hn|simpl in F1; rewrite F1; reflexivity|]. specialize (IH (pre ++ [(c, Some a)]) cl F2). rewrite app_length in IH. simpl in IH. rewrite Nat.add_1_r, <- !app_assoc in IH. exact IH.
    + eapply runs_dead; [exact Hn|]. replace (removeAt (length pre) (regs (mkS (pre ++ (c, None) :: post) cl))) with (pre ++ post); [apply (IH pre cl F2)|].
      unfold removeAt. cbn [regs]. rewrite firstn_app, Nat.sub_diag, firstn_all, firstn_O, app_nil_r. f_equal. rewrite skipn_app. rewrite skipn_all2 by lia. replace (S (length pre) - length pre) with 1 by lia. reflexivity.
Qed.
Lemma runs_det i s out s' : runs i s out s' -> forall out2 s2, runs i s out2 s2 -> out = out2 /\ s' = s2.
Proof.
  induction 1 as [k s H|k s c a s1 out s2 H Hs H' IH|k s c out s2 H H' IH]; intros out2 s3 K;
    destruct K as [k' t X|k' t c' a' t1 out' t2 X Y Z|k' t c' out' t2 X Z].
  - auto.
  - apply nth_error_None in H. congruence.
  - apply nth_error_None in H. congruence.
  - apply nth_error_None in X. congruence.
  - rewrite H in X. injection X as <- <-. rewrite Hs in Y. injection Y as <-. destruct (IH _ _ Z) as [-> ->]. auto.
  - congruence.
  - apply nth_error_None in X. congruence.
  - congruence.
  - now apply IH.
Qed.
Definition owned (r : cb * option nat) : bool := match snd r with Some _ => true | None => false end.
Lemma runs_quiet s : Forall (fun r => script (fst r) = []) (regs s) -> forall out s', runs 0 s out s' <->
  out = map (fun r => label (fst r)) (filter owned (regs s)) /\ s' = mkS (filter owned (regs s)) (clients s).
Proof.
  intros Q out s'. pose proof (quiet_runs (regs s) [] (clients s) Q) as H. simpl in H. destruct s as [rs cl]. cbn [regs clients] in *.
  split; [intros K; exact (runs_det _ _ _ _ K _ _ H)|]. intros [-> ->]. exact H.
Qed.
Lemma ssteps_app s l out s1 l' out' s2 : ssteps s l out s1 -> ssteps s1 l' out' s2 -> ssteps s (l ++ l') (out ++ out') s2.
Proof. induction 1; intros K; simpl; [exact K|]. rewrite <- app_assoc. econstructor; eauto. Qed.
Lemma run_after U l out s : ssteps sempty l out s -> Forall (fun r => script (fst r) = []) (regs s) -> placed U iempty l ->
  exists i, isteps iempty (l ++ [Run]) = Ok (out ++ map (fun r => label (fst r)) (filter owned (regs s)), i).
Proof.
  intros H Q P. destruct (history U (l ++ [Run]) (out ++ (map (fun r => label (fst r)) (filter owned (regs s)) ++ [])) (mkS (filter owned (regs s)) (clients s))) as (i & E & _).
  - apply (ssteps_app _ _ _ s); [exact H|]. econstructor; [|constructor]. constructor. now apply runs_quiet.
  - clear -P. revert P. generalize iempty. induction l as [|o l IH]; intros i P; simpl in *; [split; [exact I|]; now destruct (irun (length (addrs i)) 0 i)|].
    destruct P as [P1 P2]. split; [exact P1|]. destruct (istep i o); auto.
  - exists i. now rewrite app_nil_r in E.
Qed.
Lemma throw_same U l out s a : ssteps sempty l out s -> placed U iempty l -> clients s a = true -> ownerIndex a (regs s) = None ->
  isteps iempty (l ++ [Client (CUnregister a)]) = Throw.
Proof.
  intros H P Ca Oa. destruct (steps_sim U _ _ _ _ H iempty (R_empty U)) as (i & E & RR & _); [intros c []|exact P|].
  pose proof (icop_ok U None s i (CUnregister a) RR Logic.I) as K. cbn [scop] in K. rewrite Ca, Oa in K.
  assert (Q : forall l i0, isteps i0 l = Ok (out, i) -> isteps i0 (l ++ [Client (CUnregister a)]) = Throw).
  { clear -K. intros l. revert out. induction l as [|o l IH]; intros out i0 E; cbn [isteps app] in *.
    - injection E as <- <-. cbn [istep]. rewrite K. reflexivity.
    - destruct (istep i0 o) as [r| |]; cbn [bind] in *; try discriminate. destruct (isteps (snd r) l) as [[o' i']| |] eqn:E'; cbn [bind] in E; try discriminate.
      injection E as E0 ->. now rewrite (IH _ _ E'). }
  now apply Q.
Qed.
(* ---- deciding [placed], for the examples ---- *)
Fixpoint nodupb (l : list nat) : bool := match l with [] => true | a :: l' => negb (existsb (Nat.eqb a) l') && nodupb l' end.
Lemma nodupb_ok l : nodupb l = true -> NoDup l.
Proof.
  induction l as [|a l IH]; simpl; intros H; constructor; apply andb_prop in H; destruct H as [H1 H2]; [|now apply IH].
  intros I. apply negb_true_iff in H1. assert (E : existsb (Nat.eqb a) l = true) by (apply existsb_exists; exists a; split; [exact I|apply Nat.eqb_refl]). congruence.
Qed.
Definition copInb (U : nat -> bool) (c : cop) : bool := match c with CNew a | CMoveNew a _ => U a | _ => true end.
Lemma copInb_ok U c : copInb U c = true -> copIn U c.
Proof. destruct c; simpl; auto. Qed.
Definition regInb (U : nat -> bool) (i : imp) (a : nat) (c : cb) (al : alloc) : bool :=
  U a && forallb (copInb U) (script c) && forallb (fun x => negb (U x)) (allocated al) && nodupb (allocated al) &&
  forallb (fun x => match mm i x with None => true | _ => false end) (allocated al) &&
  match news al with Some l => length l =? length (addrs i) | None => true end.
Definition iopInb (U : nat -> bool) (i : imp) (o : iop) : bool :=
  match o with Client c => copInb U c | RegNew a c al | RegAssign a c al => regInb U i a c al | Run => true end.
Fixpoint placedb (U : nat -> bool) (i : imp) (l : list iop) : bool :=
  match l with [] => true | o :: l' => iopInb U i o && match istep i o with Ok r => placedb U (snd r) l' | _ => true end end.
Lemma placedb_ok U l : forall i, placedb U i l = true -> placed U i l.
Proof.
  assert (Q : forall i a c al, regInb U i a c al = true -> U a = true /\ Forall (copIn U) (script c) /\ (forall x, In x (allocated al) -> U x = false) /\
      freshAlloc (mm i) (length (addrs i)) al).
  { intros i a c al H. unfold regInb in H. repeat (apply andb_prop in H; destruct H as [H ?]). split; [exact H|]. split; [|split; [|split; [|split]]].
    - apply Forall_forall. intros x I. apply copInb_ok. eapply forallb_forall; eassumption.
    - intros x I. apply negb_true_iff. revert x I. now apply forallb_forall.
    - now apply nodupb_ok.
    - intros x I. pose proof (proj1 (forallb_forall _ _) H1 x I) as K. cbv beta in K. now destruct (mm i x).
    - destruct (news al); [now apply Nat.eqb_eq|exact Logic.I]. }
  induction l as [|o l IH]; intros i H; cbn [placed placedb] in *; [exact Logic.I|]. apply andb_prop in H. destruct H as [H1 H2]. split.
  - destruct o; cbn [iopIn iopInb] in *; [now apply copInb_ok|now apply Q|now apply Q|exact Logic.I].
  - destruct (istep i o); auto.
Qed.
