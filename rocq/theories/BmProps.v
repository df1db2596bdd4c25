(* C81: matrices on a buffer *)
From Coq Require Import List Bool Arith QArith Lia.
From Verif Require Import Base BmModel BmSpec BmProofs.
Import ListNotations.
Local Open Scope nat_scope.

(* The matrix seen through get() is the one of the specification: it has the last size asked for, all its coefficients
   can be written, the ones known are read, and writing one leaves the others. *)
Theorem C81_contents : forall m n l, valid (mkMat m n (fun _ _ => None)) l -> exists s, brun (newBuffered m n) l = Ok s /\
  let t := mrun (mkMat m n (fun _ _ => None)) l in
  p_m (getMap s) = t_m t /\ p_n (getMap s) = t_n t /\
  forall i j, inside t i j -> (forall x, t_at t i j = Some x -> readMap s (getMap s) i j = Ok x) /\ (forall x, exists s', writeMap s (getMap s) i j x = Ok s').
Proof.
  intros m n l V. destruct (rep_run l _ _ (rep_new m n) V) as (s & E & R). exists s. split; [exact E|]. simpl. split; [apply R|]. split; [apply R|].
  intros i j I. split.
  - intros x Ex. pose proof (read_ok _ _ i j R I) as H. rewrite Ex in H. exact H.
  - intros x. destruct R as (Em & En & L & _). destruct I as [Hi Hj]. eexists. apply write_ok; [exact L| |]; lia.
Qed.
Print Assumptions C81_contents.

(* For any history asking for at most M coefficients at a time, the buffer has at most 2 M of them, and k allocations
   leave a buffer of at least 2^k: there are at most log2 (2 M) allocations, however long the history. *)
Theorem C81_allocations : forall m n l s M, brun (newBuffered m n) l = Ok s -> m * n <= M -> Forall (fun k => k <= M) (asked l) ->
  length (b_buf s) <= 2 * M /\ (b_gen s = 0 \/ 2 ^ b_gen s <= length (b_buf s)).
Proof.
  intros m n l s M E Hm F. assert (E' : brun (mkBm 0 0 [] 0) (Resize m n :: l) = Ok s) by exact E. split.
  - destruct (run_alloc _ _ s M E') as (_ & _ & H & _); [constructor; auto|unfold room; simpl; lia|exact H].
  - destruct (run_zero _ _ s E' eq_refl) as [G|[_ G]]; simpl in G; [auto|]. rewrite Nat.sub_0_r in G. auto.
Qed.
Print Assumptions C81_allocations.

(* A part of a history allocates nothing if and only if all it asks for fits in the buffer; in particular if each time
   no more is asked for than at some time before, or than twice what was given to the constructor. *)
Theorem C81_no_allocation : forall m n l1 s1 l2 s2, brun (newBuffered m n) l1 = Ok s1 -> brun s1 l2 = Ok s2 ->
  (b_gen s2 = b_gen s1 <-> Forall (fun k => k <= length (b_buf s1)) (asked l2)) /\
  ((forall k, In k (asked l2) -> k <= 2 * (m * n) \/ exists k', In k' (asked l1) /\ k <= k') -> b_gen s2 = b_gen s1).
Proof.
  intros m n l1 s1 l2 s2 E1 E2. pose proof (run_fits l2 s1 s2 E2) as H. split; [exact H|]. intros K. apply H. apply Forall_forall. intros k I. destruct (K k I) as [L|(k' & I' & L)].
  - assert (B : 2 * (m * n) <= room (newBuffered m n)).
    { unfold newBuffered. destruct (resize_alloc (mkBm 0 0 [] 0) m n) as [(_ & _ & R)|(R & _)]; [lia|unfold room in R; simpl in R; lia]. }
    destruct (run_alloc l1 _ s1 (room (newBuffered m n) + list_max (asked l1)) E1) as (_ & R & _); [|lia|unfold room in *; lia].
    pose proof (proj1 (list_max_le (asked l1) (list_max (asked l1))) (le_n _)) as Q. revert Q. apply Forall_impl. intros; lia.
  - pose proof (run_grows l1 _ s1 E1) as G. rewrite Forall_forall in G. specialize (G k' I'). unfold room in *. lia.
Qed.
Print Assumptions C81_no_allocation.

(* A map made earlier can still be used, inside its own size, if and only if nothing was allocated since. *)
Theorem C81_map : forall m n l1 s1 l2 s2 i j, valid (mkMat m n (fun _ _ => None)) l1 -> brun (newBuffered m n) l1 = Ok s1 -> brun s1 l2 = Ok s2 -> i < p_m (getMap s1) -> j < p_n (getMap s1) ->
  ((exists s', writeMap s2 (getMap s1) i j 0%Q = Ok s') <-> Forall (fun k => k <= length (b_buf s1)) (asked l2)).
Proof.
  intros m n l1 s1 l2 s2 i j V E1 E2 Hi Hj. rewrite <- (run_fits l2 s1 s2 E2). simpl in Hi, Hj.
  destruct (rep_run l1 _ _ (rep_new m n) V) as (s' & E' & (_ & _ & L & _)). rewrite E1 in E'. injection E' as <-.
  destruct (run_alloc l2 s1 s2 (room s1 + list_max (asked l2)) E2) as (_ & R & _); [|lia|].
  - pose proof (proj1 (list_max_le (asked l2) (list_max (asked l2))) (le_n _)) as Q. revert Q. apply Forall_impl. intros; lia.
  - unfold writeMap, place. simpl. rewrite (proj2 (Nat.ltb_lt _ _) Hi), (proj2 (Nat.ltb_lt _ _) Hj). simpl. split.
    + intros [s' H]. destruct (Nat.eqb_spec (b_gen s1) (b_gen s2)); [auto|discriminate H].
    + intros ->. rewrite Nat.eqb_refl. pose proof (idx_lt _ _ _ _ Hi Hj). unfold room in R. rewrite (proj2 (Nat.ltb_lt _ _)) by lia. eexists. reflexivity.
Qed.
Print Assumptions C81_map.

(* The temporary of GenericCalculator, made for m rows and 2 n columns, is never allocated again for up to 4 n columns. *)
Theorem C81_calculator : forall m n cols s, Forall (fun c => c <= 4 * n) cols -> brun (newBuffered m (2 * n)) (map (fun c => Resize m c) cols) = Ok s -> b_gen s = b_gen (newBuffered m (2 * n)).
Proof.
  intros m n cols s F E. apply (proj2 (C81_no_allocation m (2 * n) [] _ _ s eq_refl E)). intros k I. left. clear E.
  induction F as [|c cols Hc F IH]; [destruct I|]. simpl in I. destruct I as [<-|I]; [nia|auto].
Qed.
Print Assumptions C81_calculator.

(* Within the buffer, a resize keeps the coefficients by their rank in the columns. *)
Theorem C81_kept : forall s m n i j i' j', b_m s * b_n s <= length (b_buf s) -> m * n <= length (b_buf s) -> i < b_m s -> j < b_n s -> i' < m -> j' < n -> i + j * b_m s = i' + j' * m ->
  readMap (resize s m n) (getMap (resize s m n)) i' j' = readMap s (getMap s) i j.
Proof.
  intros s m n i j i' j' L L' Hi Hj Hi' Hj' E. unfold readMap. rewrite (place_ok s i j L Hi Hj). destruct (resize_dims s m n) as [Dm Dn].
  rewrite (place_ok (resize s m n)); [|rewrite Dm, Dn; apply resize_room|lia|lia]. cbn [bind]. rewrite Dm, E. unfold resize. rewrite (proj2 (Nat.ltb_ge _ _) L'). reflexivity.
Qed.
Print Assumptions C81_kept.

(* A resize does not keep the coefficients (i, j): another number of rows mixes them, and more columns than the buffer
   can hold loses them. *)
Theorem C81_resize_refuted :
  (exists A s s', assign (newBuffered 2 2) 2 2 A = Ok s /\ bstep s (Resize 3 2) = Ok s' /\ b_gen s' = b_gen s /\ readMap s (getMap s) 0 1 = Ok 2%Q /\ readMap s' (getMap s') 0 1 = Ok 3%Q) /\
  (exists s s', bstep (newBuffered 1 1) (Write 0 0 5%Q) = Ok s /\ bstep s (Resize 1 3) = Ok s' /\ readMap s (getMap s) 0 0 = Ok 5%Q /\ readMap s' (getMap s') 0 0 = UB).
Proof.
  split.
  - exists (fun i j => inject_Z (Z.of_nat (i + 2 * j))). eexists _, _. split; [vm_compute; reflexivity|]. split; [vm_compute; reflexivity|]. split; [reflexivity|]. split; vm_compute; reflexivity.
  - eexists _, _. split; [vm_compute; reflexivity|]. split; [vm_compute; reflexivity|]. split; vm_compute; reflexivity.
Qed.
Print Assumptions C81_resize_refuted.

Example bm_ex : valid (mkMat 2 2 (fun _ _ => None)) [Write 1 1 4%Q; Resize 2 1; Write 1 0 3%Q; Resize 3 3; Write 2 2 5%Q] /\
  exists s, brun (newBuffered 2 2) [Write 1 1 4%Q; Resize 2 1; Write 1 0 3%Q; Resize 3 3; Write 2 2 5%Q] = Ok s /\ b_gen s = 2 /\ length (b_buf s) = 18 /\ readMap s (getMap s) 2 2 = Ok 5%Q.
Proof. split; [unfold valid, inside; simpl; lia|]. eexists. split; [vm_compute; reflexivity|]. split; [reflexivity|]. split; vm_compute; reflexivity. Qed.
