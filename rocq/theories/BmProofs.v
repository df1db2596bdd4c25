From Coq Require Import List Bool Arith QArith Lia.
From Verif Require Import Base BmModel BmSpec.
Import ListNotations.
Local Open Scope nat_scope.

Lemma put_len {A} (x : A) : forall l k, length (put l k x) = length l.
Proof. induction l as [|a l IH]; intros [|k]; simpl; auto. Qed.
Lemma put_nth {A} (x d : A) : forall l k i, nth i (put l k x) d = if (i =? k) && (k <? length l) then x else nth i l d.
Proof.
  induction l as [|a l IH]; intros k i; [simpl; rewrite andb_false_r; destruct i, k; reflexivity|]. destruct k as [|k]; destruct i as [|i]; simpl; try reflexivity.
  rewrite IH. reflexivity.
Qed.
Lemma idx_lt m n i j : i < m -> j < n -> i + j * m < m * n.
Proof. nia. Qed.
Lemma idx_inj m i j a b : i < m -> a < m -> i + j * m = a + b * m -> i = a /\ j = b.
Proof. intros Hi Ha E. assert (j = b) by nia. subst. split; [nia|reflexivity]. Qed.

(* the state s of the buffer represents the matrix t *)
Definition rep (s : bm) (t : mat) : Prop :=
  b_m s = t_m t /\ b_n s = t_n t /\ b_m s * b_n s <= length (b_buf s) /\
  forall i j x, inside t i j -> t_at t i j = Some x -> nth (i + j * b_m s) (b_buf s) None = Some x.

Lemma resize_room s m n : m * n <= length (b_buf (resize s m n)).
Proof. unfold resize. destruct (Nat.ltb_spec (length (b_buf s)) (m * n)); simpl; [rewrite repeat_length; nia|lia]. Qed.
Lemma resize_dims s m n : b_m (resize s m n) = m /\ b_n (resize s m n) = n.
Proof. unfold resize. destruct (_ <? _); auto. Qed.
Lemma place_ok s i j : b_m s * b_n s <= length (b_buf s) -> i < b_m s -> j < b_n s -> place s (getMap s) i j = Ok (i + j * b_m s).
Proof.
  intros L Hi Hj. unfold place, getMap. simpl. rewrite (proj2 (Nat.ltb_lt _ _) Hi), (proj2 (Nat.ltb_lt _ _) Hj), Nat.eqb_refl. simpl.
  pose proof (idx_lt _ _ _ _ Hi Hj). rewrite (proj2 (Nat.ltb_lt _ _)) by lia. reflexivity.
Qed.
Lemma write_ok s i j x : b_m s * b_n s <= length (b_buf s) -> i < b_m s -> j < b_n s ->
  writeMap s (getMap s) i j x = Ok (mkBm (b_m s) (b_n s) (put (b_buf s) (i + j * b_m s) (Some x)) (b_gen s)).
Proof. intros L Hi Hj. unfold writeMap. rewrite place_ok by auto. reflexivity. Qed.
Lemma rep_resize s t m n : rep s t -> rep (resize s m n) (mstep t (Resize m n)).
Proof.
  intros (Em & En & L & V). split; [apply resize_dims|]. split; [apply resize_dims|]. destruct (resize_dims s m n) as [Dm Dn]. split; [rewrite Dm, Dn; apply resize_room|].
  rewrite Dm. intros i j x [Hi Hj]. simpl in *. destruct (Nat.leb_spec n (t_n t)); simpl; [|discriminate]. destruct (Nat.eqb_spec m (t_m t)); simpl; [|discriminate].
  destruct (Nat.ltb_spec j (t_n t)); [|discriminate]. intros E. subst m. unfold resize. rewrite (proj2 (Nat.ltb_ge _ _)) by nia. simpl.
  rewrite <- Em. apply V; [split; auto|exact E].
Qed.
Lemma rep_write s t i j x : rep s t -> inside t i j -> exists s', bstep s (Write i j x) = Ok s' /\ rep s' (mstep t (Write i j x)).
Proof.
  intros (Em & En & L & V) [Hi Hj]. simpl. rewrite write_ok by lia. eexists. split; [reflexivity|]. repeat split; simpl; auto; [rewrite put_len; exact L|].
  intros a b y [Ha Hb] E. simpl in *. rewrite put_nth. pose proof (idx_lt (b_m s) (b_n s) i j ltac:(lia) ltac:(lia)) as K. rewrite (proj2 (Nat.ltb_lt (i + j * b_m s) _)) by lia. rewrite andb_true_r.
  destruct (Nat.eqb_spec (a + b * b_m s) (i + j * b_m s)) as [F|F].
  - apply idx_inj in F; [|lia|lia]. destruct F as [-> ->]. rewrite !Nat.eqb_refl in E. exact E.
  - destruct (Nat.eqb_spec a i); destruct (Nat.eqb_spec b j); subst; try congruence; simpl in E; apply V; auto; split; auto.
Qed.
Lemma pair_dec (p q : nat * nat) : {p = q} + {p <> q}.
Proof. decide equality; apply Nat.eq_dec. Qed.
Lemma writeAll_ok A : forall l s, b_m s * b_n s <= length (b_buf s) -> (forall i j, In (i, j) l -> i < b_m s /\ j < b_n s) ->
  exists s', writeAll s (getMap s) l A = Ok s' /\ b_m s' = b_m s /\ b_n s' = b_n s /\ b_gen s' = b_gen s /\ length (b_buf s') = length (b_buf s) /\
    forall i j, i < b_m s -> j < b_n s -> nth (i + j * b_m s) (b_buf s') None = if in_dec pair_dec (i, j) l then Some (A i j) else nth (i + j * b_m s) (b_buf s) None.
Proof.
  induction l as [|[a b] l IH]; intros s L F; [exists s; repeat split; auto|]. destruct (F a b) as [Ha Hb]; [simpl; auto|]. cbn [writeAll]. rewrite write_ok by auto. cbn [bind].
  set (s1 := mkBm (b_m s) (b_n s) (put (b_buf s) (a + b * b_m s) (Some (A a b))) (b_gen s)).
  destruct (IH s1) as (s' & E & E1 & E2 & E3 & E4 & V); [simpl; rewrite put_len; exact L|intros; apply F; simpl; auto|].
  exists s'. change (getMap s1) with (getMap s) in E. split; [exact E|]. split; [exact E1|]. split; [exact E2|]. split; [exact E3|]. split; [rewrite E4; simpl; apply put_len|].
  intros i j Hi Hj. specialize (V i j Hi Hj). simpl in V. rewrite V. rewrite put_nth. pose proof (idx_lt (b_m s) (b_n s) a b Ha Hb). rewrite (proj2 (Nat.ltb_lt (a + b * b_m s) _)) by lia. rewrite andb_true_r.
  destruct (in_dec pair_dec (i, j) l) as [I|I]; destruct (in_dec pair_dec (i, j) ((a, b) :: l)) as [I'|I']; try reflexivity.
  - exfalso. apply I'. right. exact I.
  - destruct I' as [[= -> ->]|I']; [rewrite Nat.eqb_refl; reflexivity|tauto].
  - destruct (Nat.eqb_spec (i + j * b_m s) (a + b * b_m s)) as [G|G]; [|reflexivity]. apply idx_inj in G; auto. destruct G as [-> ->]. exfalso. apply I'. simpl. auto.
Qed.
Lemma rep_assign s t m n A : exists s', bstep s (Assign m n A) = Ok s' /\ rep s' (mstep t (Assign m n A)) /\ b_gen s' = b_gen (resize s m n) /\ length (b_buf s') = length (b_buf (resize s m n)).
Proof.
  simpl. unfold assign. destruct (resize_dims s m n) as [Dm Dn]. pose proof (resize_room s m n) as L.
  destruct (writeAll_ok A (list_prod (seq 0 m) (seq 0 n)) (resize s m n)) as (s' & E & E1 & E2 & E3 & E4 & V).
  - rewrite Dm, Dn. exact L.
  - intros i j I. apply in_prod_iff in I. rewrite !in_seq in I. rewrite Dm, Dn. lia.
  - exists s'. split; [exact E|]. split; [|split; [exact E3|exact E4]]. split; [simpl; lia|]. split; [simpl; lia|]. split; [rewrite E1, E2, E4, Dm, Dn; exact L|].
    intros i j x [Hi Hj] [= <-]. simpl in Hi, Hj. rewrite E1. rewrite (V i j) by lia. destruct (in_dec _ _ _) as [I|I]; [reflexivity|]. exfalso. apply I. apply in_prod_iff. rewrite !in_seq. lia.
Qed.
Lemma rep_step s t o : rep s t -> match o with Write i j _ => inside t i j | _ => True end -> exists s', bstep s o = Ok s' /\ rep s' (mstep t o).
Proof.
  intros R V. destruct o as [m n|i j x|m n A].
  - eexists. split; [reflexivity|]. apply rep_resize. exact R.
  - apply rep_write; auto.
  - destruct (rep_assign s t m n A) as (s' & E & R' & _). eauto.
Qed.
Lemma rep_run : forall l s t, rep s t -> valid t l -> exists s', brun s l = Ok s' /\ rep s' (mrun t l).
Proof.
  induction l as [|o l IH]; intros s t R V; [exists s; auto|]. destruct V as [V0 V]. destruct (rep_step s t o R V0) as (s1 & E & R1). destruct (IH s1 _ R1 V) as (s' & E' & R'). exists s'. simpl. rewrite E. auto.
Qed.
Lemma rep_new m n : rep (newBuffered m n) (mkMat m n (fun _ _ => None)).
Proof.
  unfold newBuffered. destruct (resize_dims (mkBm 0 0 [] 0) m n) as [Dm Dn]. split; [exact Dm|]. split; [exact Dn|]. split; [rewrite Dm, Dn; apply resize_room|]. intros; discriminate.
Qed.
Lemma read_ok s t i j : rep s t -> inside t i j -> match t_at t i j with Some x => readMap s (getMap s) i j = Ok x | None => True end.
Proof.
  intros (Em & En & L & V) [Hi Hj]. destruct (t_at t i j) as [x|] eqn:E; [|exact I]. unfold readMap. rewrite place_ok by lia. cbn [bind]. rewrite (V i j x); auto. split; auto.
Qed.

(* allocations *)
Definition room (s : bm) := length (b_buf s).
Definition size_of (o : bop) : option nat := match o with Resize m n => Some (m * n) | Assign m n _ => Some (m * n) | Write _ _ _ => None end.
Lemma resize_alloc s m n : (room s < m * n /\ b_gen (resize s m n) = S (b_gen s) /\ room (resize s m n) = 2 * (m * n)) \/ (m * n <= room s /\ b_gen (resize s m n) = b_gen s /\ room (resize s m n) = room s).
Proof. unfold resize, room. destruct (Nat.ltb_spec (length (b_buf s)) (m * n)); [left|right]; simpl; rewrite ?repeat_length; repeat split; auto; nia. Qed.
Lemma step_alloc s o s' : bstep s o = Ok s' -> match size_of o with
  | Some k => (room s < k /\ b_gen s' = S (b_gen s) /\ room s' = 2 * k) \/ (k <= room s /\ b_gen s' = b_gen s /\ room s' = room s)
  | None => b_gen s' = b_gen s /\ room s' = room s end.
Proof.
  destruct o as [m n|i j x|m n A]; simpl size_of; cbn [bstep].
  - intros [= <-]. apply resize_alloc.
  - unfold writeMap. destruct (place _ _ _ _); simpl; [|discriminate|discriminate]. intros [= <-]. unfold room. simpl. rewrite put_len. auto.
  - destruct (rep_assign s (mkMat 0 0 (fun _ _ => None)) m n A) as (s1 & E & _ & G & R). cbn [bstep] in E. rewrite E. intros [= <-]. unfold room. rewrite G, R. apply resize_alloc.
Qed.
Lemma asked_cons o l : asked (o :: l) = match size_of o with Some k => k :: asked l | None => asked l end.
Proof. destruct o; reflexivity. Qed.
Lemma run_alloc : forall l s s' M, brun s l = Ok s' -> Forall (fun k => k <= M) (asked l) -> room s <= 2 * M ->
  b_gen s <= b_gen s' /\ room s <= room s' /\ room s' <= 2 * M /\ (0 < room s -> room s * 2 ^ (b_gen s' - b_gen s) <= room s').
Proof.
  induction l as [|o l IH]; intros s s' M E F B.
  - injection E as <-. rewrite Nat.sub_diag. simpl. lia.
  - simpl in E. destruct (bstep s o) as [s1| |] eqn:E1; simpl in E; try discriminate. pose proof (step_alloc _ _ _ E1) as A. rewrite asked_cons in F.
    destruct (size_of o) as [k|].
    + inversion F as [|? ? Fk F']; subst. destruct A as [(A1 & A2 & A3)|(A1 & A2 & A3)].
      * destruct (IH s1 s' M E F' ltac:(lia)) as (G & R1 & R2 & P). repeat split; try lia. intros Z. specialize (P ltac:(lia)).
        replace (b_gen s' - b_gen s) with (S (b_gen s' - b_gen s1)) by lia. rewrite Nat.pow_succ_r'. nia.
      * destruct (IH s1 s' M E F' ltac:(lia)) as (G & R1 & R2 & P). rewrite A2, A3 in *. repeat split; try lia; exact P.
    + destruct A as [A2 A3]. destruct (IH s1 s' M E F ltac:(lia)) as (G & R1 & R2 & P). rewrite A2, A3 in *. repeat split; try lia; exact P.
Qed.
Lemma run_zero : forall l s s', brun s l = Ok s' -> room s = 0 -> b_gen s' = b_gen s \/ (b_gen s < b_gen s' /\ 2 ^ (b_gen s' - b_gen s) <= room s').
Proof.
  induction l as [|o l IH]; intros s s' E Z; [injection E as <-; auto|]. simpl in E. destruct (bstep s o) as [s1| |] eqn:E1; simpl in E; try discriminate.
  pose proof (step_alloc _ _ _ E1) as A. destruct (size_of o) as [k|]; [destruct A as [(A1 & A2 & A3)|(A1 & A2 & A3)]|destruct A as [A2 A3]].
  - right. destruct (run_alloc l s1 s' (room s1 + list_max (asked l)) E) as (G & R1 & _ & P); [|lia|].
    + pose proof (proj1 (list_max_le (asked l) (list_max (asked l))) (le_n _)) as H. revert H. apply Forall_impl. intros; lia.
    + split; [lia|]. specialize (P ltac:(lia)). replace (b_gen s' - b_gen s) with (S (b_gen s' - b_gen s1)) by lia. rewrite Nat.pow_succ_r'. nia.
  - rewrite <- A2. apply (IH s1 s' E). lia.
  - rewrite <- A2. apply (IH s1 s' E). lia.
Qed.
Lemma run_fits : forall l s s', brun s l = Ok s' -> (b_gen s' = b_gen s <-> Forall (fun k => k <= room s) (asked l)).
Proof.
  induction l as [|o l IH]; intros s s' E; [injection E as <-; split; auto; constructor|]. simpl in E. destruct (bstep s o) as [s1| |] eqn:E1; simpl in E; try discriminate.
  pose proof (step_alloc _ _ _ E1) as A. rewrite asked_cons. specialize (IH s1 s' E). destruct (size_of o) as [k|].
  - destruct A as [(A1 & A2 & A3)|(A1 & A2 & A3)].
    + split; [|intros H; inversion H; lia]. intros G. exfalso. destruct (run_alloc l s1 s' (room s1 + list_max (asked l)) E) as (G1 & _); [|lia|lia].
      pose proof (proj1 (list_max_le (asked l) (list_max (asked l))) (le_n _)) as H. revert H. apply Forall_impl. intros; lia.
    + rewrite <- A2, <- A3 in *. rewrite IH. split; [intros H; constructor; auto|intros H; inversion H; auto].
  - destruct A as [A2 A3]. rewrite <- A2, <- A3 in *. exact IH.
Qed.
Lemma run_grows l s s' : brun s l = Ok s' -> Forall (fun k => k <= room s') (asked l).
Proof.
  revert s. induction l as [|o l IH]; intros s E; [constructor|]. simpl in E. destruct (bstep s o) as [s1| |] eqn:E1; simpl in E; try discriminate. rewrite asked_cons.
  pose proof (step_alloc _ _ _ E1) as A. specialize (IH s1 E). destruct (size_of o) as [k|]; [|exact IH]. constructor; [|exact IH].
  destruct (run_alloc l s1 s' (room s1 + list_max (asked l)) E) as (_ & R & _); [|lia|lia]. pose proof (proj1 (list_max_le (asked l) (list_max (asked l))) (le_n _)) as H. revert H. apply Forall_impl. intros; lia.
Qed.
