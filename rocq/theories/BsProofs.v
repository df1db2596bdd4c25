From Coq Require Import List Bool Arith Lia.
Import ListNotations.
From Verif Require Import Base MatPropModel BsModel BsSpec.
Local Open Scope nat_scope.

Lemma has_iff v k i : hasb v k i = true <-> has v k i.
Proof. unfold hasb, has. rewrite !andb_true_iff, Nat.eqb_eq, Nat.leb_le, Nat.ltb_lt. intuition lia. Qed.
Lemma has_no v k i : hasb v k i = false <-> ~ has v k i.
Proof. rewrite <- has_iff. destruct (hasb v k i); split; congruence. Qed.
Lemma contains_iff a b : 0 < v_d b -> (vcontains a b = true <-> within b a).
Proof.
  intros D. unfold vcontains. rewrite andb_true_iff, has_iff, Nat.leb_le. unfold within, has. split.
  - intros [[E L] U] k i [Ek H]. split; [congruence|lia].
  - intros W. destruct (W (v_sup b) (v_s b)) as [E L]; [split; [reflexivity|lia]|].
    destruct (W (v_sup b) (v_s b + v_d b - 1)) as [_ L']; [split; [reflexivity|lia]|]. split; [split; [exact E|exact L]|lia].
Qed.
Lemma intersects_iff a b : 0 < v_d a -> 0 < v_d b -> (vintersects a b = true <-> meets a b).
Proof.
  intros Da Db. unfold vintersects. rewrite andb_true_iff, orb_true_iff, !has_iff, Nat.eqb_eq. unfold meets, has. split.
  - intros [E [H|H]]; [exists (v_sup b), (v_s b)|exists (v_sup a), (v_s a)]; intuition lia.
  - intros (k & i & [Ea La] & [Eb Lb]). split; [congruence|].
    destruct (Nat.le_gt_cases (v_s a) (v_s b)); [left|right]; (split; [congruence|lia]).
Qed.
Lemma veq_iff a b : veq a b = true <-> a = b.
Proof.
  unfold veq. rewrite !andb_true_iff, !Nat.eqb_eq. destruct a, b; cbn. split; [intros [[-> ->] ->]; reflexivity|].
  intros E; injection E; auto.
Qed.
Lemma within_eq a b : 0 < v_d a -> 0 < v_d b -> within a b -> within b a -> a = b.
Proof.
  intros Da Db H K. apply contains_iff in H; [|exact Da]. apply contains_iff in K; [|exact Db].
  unfold vcontains in H, K. rewrite andb_true_iff, has_iff, Nat.leb_le in H, K. destruct H as [[E H] H'], K as [[_ K] K'].
  destruct a, b; cbn in *. subst. f_equal; lia.
Qed.
Lemma meets_sym a b : meets a b -> meets b a.
Proof. intros (k & i & H & K). exists k, i. auto. Qed.
Lemma has_dim v k i : has v k i -> 0 < v_d v.
Proof. unfold has. lia. Qed.
Lemma find_split {A} (f : A -> bool) l a : find f l = Some a -> exists x y, l = x ++ a :: y /\ f a = true /\ (forall t, In t x -> f t = false).
Proof.
  induction l as [|b l IH]; cbn; [discriminate|]. destruct (f b) eqn:E.
  - intros H; injection H as <-. exists [], l. repeat split; auto. intros t [].
  - intros H. destruct (IH H) as (x & y & -> & Fa & Fx). exists (b :: x), y. repeat split; auto. intros t [<-|K]; auto.
Qed.

(* ---- VariableCountingVector ---- *)
Section Sizes.
Variable sizeOf : nat -> nat.
Variable nsup : nat.
Notation counted := (counted sizeOf nsup).
Notation substitute := (substitute sizeOf nsup).
Notation gatherVars := (gatherVars sizeOf nsup).
Notation gather := (gather sizeOf nsup).
Notation process := (process sizeOf nsup).
Notation realVar := (realVar sizeOf nsup).
Notation sane := (sane sizeOf nsup).

Lemma runs_cover P k : forall n pos cur a b, a < b -> b <= pos + n ->
  match cur with Some s => s <= a /\ s <= pos | None => pos <= a end ->
  (forall i, a <= i < b -> pos <= i -> P i = true) ->
  exists m, In m (runsFrom P k pos n cur) /\ v_sup m = k /\ v_s m <= a /\ b <= v_s m + v_d m.
Proof.
  induction n as [|n IH]; intros pos cur a b L B C H; cbn [runsFrom].
  - destruct cur as [s|]; [|lia]. exists (mkVar k s (pos - s)). cbn. repeat split; [left; reflexivity|lia|lia].
  - destruct (P pos) eqn:E.
    + apply IH; [exact L|lia| |intros i Hi Hp; apply H; lia]. destruct cur as [s|]; lia.
    + destruct (Nat.le_gt_cases b pos) as [K|K].
      * destruct cur as [s|]; [|lia]. exists (mkVar k s (pos - s)). cbn. repeat split; [left; reflexivity|lia|lia].
      * destruct (Nat.le_gt_cases a pos) as [Q|Q]; [rewrite (H pos) in E by lia; discriminate|].
        destruct (IH (S pos) None a b) as (m & I & R); [exact L|lia|lia|intros i Hi Hp; apply H; lia|].
        exists m. split; [apply in_or_app; right; exact I|exact R].
Qed.
Lemma runs_cells P k : forall n pos cur m i, match cur with Some s => s <= pos | None => True end ->
  In m (runsFrom P k pos n cur) -> v_s m <= i < v_s m + v_d m ->
  v_sup m = k /\ i < pos + n /\ ((pos <= i /\ P i = true) \/ (i < pos /\ exists s, cur = Some s /\ s <= i)).
Proof.
  induction n as [|n IH]; intros pos cur m i C I H; cbn [runsFrom] in I.
  - destruct cur as [s|]; cbn in I; [|contradiction]. destruct I as [<-|[]]. cbn in *.
    split; [reflexivity|]. split; [lia|]. right. split; [lia|]. exists s. split; [reflexivity|lia].
  - destruct (P pos) eqn:E.
    + apply IH with (i := i) in I; [|destruct cur; lia|exact H]. destruct I as (S1 & S2 & S3).
      split; [exact S1|]. split; [lia|]. destruct S3 as [[S3 S4]|[S3 (s & S4 & S5)]]; [left; split; [lia|exact S4]|].
      injection S4 as S4. destruct cur as [c|].
      * destruct (Nat.eq_dec i pos) as [->|N]; [left; split; [lia|exact E]|]. right. split; [lia|]. exists c. split; [reflexivity|lia].
      * assert (i = pos) by lia. subst i. left. split; [lia|exact E].
    + apply in_app_or in I. destruct I as [I|I].
      * destruct cur as [s|]; cbn in I; [|contradiction]. destruct I as [<-|[]]. cbn in *.
        split; [reflexivity|]. split; [lia|]. right. split; [lia|]. exists s. split; [reflexivity|lia].
      * apply IH with (i := i) in I; [|exact Logic.I|exact H]. destruct I as (S1 & S2 & S3).
        split; [exact S1|]. split; [lia|]. destruct S3 as [[S3 S4]|[S3 (s & S4 & S5)]]; [left; split; [lia|exact S4]|discriminate].
Qed.
Lemma counted_cover P v : realVar v -> (forall k i, has v k i -> P k i = true) -> inColumns (counted P) v.
Proof.
  intros (D & N & S) H. destruct (runs_cover (P (v_sup v)) (v_sup v) (sizeOf (v_sup v)) 0 None (v_s v) (v_s v + v_d v))
    as (m & I & Em & L & U); [lia|lia|lia| |].
  - intros i Hi _. apply H. split; [reflexivity|exact Hi].
  - exists m. split.
    + apply in_flat_map. exists (v_sup v). split; [apply in_seq; lia|exact I].
    + intros k i [E B]. split; [congruence|lia].
Qed.
Lemma counted_cells P k i : (exists m, In m (counted P) /\ has m k i) <-> k < nsup /\ i < sizeOf k /\ P k i = true.
Proof.
  split.
  - intros (m & I & [E H]). apply in_flat_map in I. destruct I as (k' & K & I). apply in_seq in K.
    apply runs_cells with (i := i) in I; [|exact Logic.I|exact H]. destruct I as (E' & L & [[_ R]|[R _]]); [|lia].
    assert (X : k' = k) by congruence. rewrite X in *. split; [lia|]. split; [lia|exact R].
  - intros (K & L & H). destruct (counted_cover P (mkVar k i 1)) as (m & I & W).
    + repeat split; cbn; lia.
    + intros k' i' [E B]. cbn in *. subst k'. assert (i' = i) by lia. subst i'. exact H.
    + exists m. split; [exact I|]. apply W. split; cbn; [reflexivity|lia].
Qed.
Lemma mapping_ok M v : 0 < v_d v -> (mapping M v = Ok tt <-> inColumns M v).
Proof.
  intros D. unfold mapping. destruct (existsb _ M) eqn:E.
  - split; [intros _|reflexivity]. apply existsb_exists in E. destruct E as (m & I & C). exists m. split; [exact I|].
    apply contains_iff in C; assumption.
  - split; [discriminate|]. intros (m & I & W). exfalso. apply contains_iff in W; [|exact D].
    enough (existsb (fun m => vcontains m v) M = true) by congruence. apply existsb_exists. exists m. auto.
Qed.
Lemma mappings_ok M l : (forall v, In v l -> 0 < v_d v) -> (mappings M l = Ok tt <-> forall v, In v l -> inColumns M v).
Proof.
  induction l as [|v l IH]; intros D; cbn [mappings].
  - split; [intros _ v []|reflexivity].
  - assert (IH' := IH (fun w I => D w (or_intror I))). assert (Dv := D v (or_introl eq_refl)).
    destruct (mapping M v) as [[]| |] eqn:E; cbn.
    + rewrite IH'. apply mapping_ok in E; [|exact Dv]. split; [intros H w [<-|I]; auto|intros H w I; apply H; right; exact I].
    + split; [discriminate|]. intros H. assert (Q : mapping M v = Ok tt) by (apply mapping_ok; [exact Dv|apply H; left; reflexivity]). congruence.
    + split; [discriminate|]. intros H. assert (Q : mapping M v = Ok tt) by (apply mapping_ok; [exact Dv|apply H; left; reflexivity]). congruence.
Qed.

(* ---- the parts ---- *)
Section Parts.
Variable ss : list sub.
Hypothesis SA : sane ss.
Let real s (H : In s ss) : realVar (s_var s) := proj1 (proj1 SA s H).
Let disj s t : In s ss -> In t ss -> meets (s_var s) (s_var t) -> s = t := fun A B => proj1 (proj2 SA) s t A B.

Lemma owner_some k i s : owner ss k i = Some s <-> In s ss /\ has (s_var s) k i.
Proof.
  unfold owner. split.
  - intros F. apply find_some in F. rewrite has_iff in F. exact F.
  - intros [I H]. destruct (find _ ss) as [t|] eqn:F.
    + apply find_some in F. destruct F as [It Ht]. apply has_iff in Ht. f_equal. apply disj; [exact It|exact I|].
      exists k, i. auto.
    + apply find_none with (x := s) in F; [|exact I]. apply has_no in F. contradiction.
Qed.
Lemma owner_none k i : owner ss k i = None <-> ~ replaced ss k i.
Proof.
  split.
  - intros F (s & I & H). assert (owner ss k i = Some s) by (apply owner_some; auto). congruence.
  - intros N. destruct (owner ss k i) as [s|] eqn:E; [|reflexivity]. apply owner_some in E. exfalso. apply N. exists s. exact E.
Qed.
Definition ow (k i : nat) : option var := option_map s_var (owner ss k i).
Lemma same_iff a b : sameOwner a b = true <-> option_map s_var a = option_map s_var b.
Proof.
  destruct a as [a|], b as [b|]; cbn; try (split; congruence). rewrite veq_iff. split; [intros ->; reflexivity|intros E; injection E; auto].
Qed.
Lemma parts_cover k : forall n pos s o a b, a < b -> s <= a -> s < pos -> b <= pos + n ->
  (forall i, s <= i < pos -> ow k i = option_map s_var o) ->
  (forall i j, a <= i < b -> a <= j < b -> ow k i = ow k j) ->
  exists p, In p (partsFrom ss k pos n s o) /\ v_sup p = k /\ v_s p <= a /\ b <= v_s p + v_d p.
Proof.
  induction n as [|n IH]; intros pos s o a b L S1 S2 B INV H; cbn [partsFrom].
  - exists (mkVar k s (pos - s)). cbn. repeat split; [left; reflexivity|lia|lia].
  - destruct (sameOwner (owner ss k pos) o) eqn:E.
    + apply IH; try lia; [|exact H]. intros i Hi. destruct (Nat.eq_dec i pos) as [->|N]; [apply same_iff; exact E|apply INV; lia].
    + destruct (Nat.le_gt_cases b pos) as [K|K].
      * exists (mkVar k s (pos - s)). cbn. repeat split; [left; reflexivity|lia|lia].
      * destruct (Nat.le_gt_cases pos a) as [Q|Q].
        -- destruct (IH (S pos) pos (owner ss k pos) a b) as (p & I & R); try lia; [|exact H|].
           ++ intros i Hi. assert (i = pos) by lia. subst i. reflexivity.
           ++ exists p. split; [right; exact I|exact R].
        -- exfalso. assert (E' : sameOwner (owner ss k pos) o = true); [|congruence]. apply same_iff.
           change (ow k pos = option_map s_var o). rewrite <- (INV a) by lia. apply H; lia.
Qed.
Lemma parts_in k : forall n pos s o p, s < pos ->
  (forall i, s <= i < pos -> ow k i = option_map s_var o) -> In p (partsFrom ss k pos n s o) ->
  v_sup p = k /\ 0 < v_d p /\ s <= v_s p /\ v_s p + v_d p <= pos + n /\
  (forall i j, v_s p <= i < v_s p + v_d p -> v_s p <= j < v_s p + v_d p -> ow k i = ow k j).
Proof.
  induction n as [|n IH]; intros pos s o p S1 INV I; cbn [partsFrom] in I.
  - destruct I as [<-|[]]. cbn. repeat split; try lia. intros i j Hi Hj. rewrite !INV by lia. reflexivity.
  - destruct (sameOwner (owner ss k pos) o) eqn:E.
    + apply IH in I; [|lia|].
      * destruct I as (A & B & C & D & F). repeat split; try assumption; lia.
      * intros i Hi. destruct (Nat.eq_dec i pos) as [->|N]; [apply same_iff; exact E|apply INV; lia].
    + destruct I as [<-|I].
      * cbn. repeat split; try lia. intros i j Hi Hj. rewrite !INV by lia. reflexivity.
      * apply IH in I; [|lia|].
        -- destruct I as (A & B & C & D & F). repeat split; try assumption; lia.
        -- intros i Hi. assert (i = pos) by lia. subst i. reflexivity.
Qed.
Lemma parts_max k : forall n pos s o a b p c, a <= c < b -> s <= a -> s < pos -> b <= pos + n ->
  v_s p <= c < v_s p + v_d p ->
  (forall i, s <= i < pos -> ow k i = option_map s_var o) ->
  (forall i j, a <= i < b -> a <= j < b -> ow k i = ow k j) ->
  In p (partsFrom ss k pos n s o) -> v_sup p = k /\ v_s p <= a /\ b <= v_s p + v_d p.
Proof.
  induction n as [|n IH]; intros pos s o a b p c L S1 S2 B C INV H I; cbn [partsFrom] in I.
  - destruct I as [<-|[]]. cbn in *. repeat split; lia.
  - destruct (sameOwner (owner ss k pos) o) eqn:E.
    + refine (IH (S pos) s o a b p c L S1 _ _ C _ H I); [lia|lia|].
      intros i Hi. destruct (Nat.eq_dec i pos) as [->|N]; [apply same_iff; exact E|apply INV; lia].
    + assert (X : b <= pos \/ pos <= a).
      { destruct (Nat.le_gt_cases b pos) as [K|K]; [left; exact K|]. destruct (Nat.le_gt_cases pos a) as [Q|Q]; [right; exact Q|].
        exfalso. assert (E' : sameOwner (owner ss k pos) o = true); [|congruence]. apply same_iff.
        change (ow k pos = option_map s_var o). rewrite <- (INV a) by lia. apply H; lia. }
      destruct I as [<-|I].
      * cbn in *. repeat split; lia.
      * assert (J := I). apply parts_in in J; [|lia|].
        -- refine (IH (S pos) pos (owner ss k pos) a b p c L _ _ _ C _ H I); [lia|lia|lia|].
           intros i Hi. assert (i = pos) by lia. subst i. reflexivity.
        -- intros i Hi. assert (i = pos) by lia. subst i. reflexivity.
Qed.
Lemma parts_spec x p : In p (parts ss x) -> 0 < v_d p /\ within p x /\ (forall k i j, has p k i -> has p k j -> ow k i = ow k j).
Proof.
  unfold parts. destruct (v_d x) as [|n] eqn:D; [intros []|]. intros I. apply parts_in in I; [|lia|].
  - destruct I as (A & B & C & E & F). split; [exact B|]. split.
    + intros k i [K H]. split; [congruence|]. rewrite D. lia.
    + intros k i j [K H] [_ H']. rewrite <- K, A. apply F; assumption.
  - intros i Hi. assert (i = v_s x) by lia. subst i. reflexivity.
Qed.
Lemma parts_covers x w : 0 < v_d w -> within w x -> (forall k i j, has w k i -> has w k j -> ow k i = ow k j) ->
  exists p, In p (parts ss x) /\ within w p.
Proof.
  intros Dw W H. assert (W0 := W (v_sup w) (v_s w)). assert (W1 := W (v_sup w) (v_s w + v_d w - 1)).
  unfold has in W0, W1. destruct W0 as [E W0]; [lia|]. destruct W1 as [_ W1]; [lia|]. unfold parts. destruct (v_d x) as [|n] eqn:D; [lia|].
  destruct (parts_cover (v_sup x) n (S (v_s x)) (v_s x) (owner ss (v_sup x) (v_s x)) (v_s w) (v_s w + v_d w)) as (p & I & A & B & C);
    try lia.
  - intros i Hi. assert (i = v_s x) by lia. subst i. reflexivity.
  - intros i j Hi Hj. rewrite E. apply H; (split; [reflexivity|lia]).
  - exists p. split; [exact I|]. intros k i [K Hi]. split; [congruence|lia].
Qed.
Lemma indexOf_in s : In s ss -> indexOf ss (s_var s) = Some s.
Proof.
  intros I. assert (D : 0 < v_d (s_var s)) by (apply real; exact I). unfold indexOf. destruct (find _ ss) as [t|] eqn:F.
  - apply find_some in F. destruct F as [It Ht]. apply contains_iff in Ht; [|exact D].
    assert (t = s); [|subst t].
    + apply disj; [exact It|exact I|]. exists (v_sup (s_var s)), (v_s (s_var s)). split; [apply Ht|]; (split; [reflexivity|lia]).
    + assert (E : veq (s_var s) (s_var s) = true) by (apply veq_iff; reflexivity). rewrite E. reflexivity.
  - apply find_none with (x := s) in F; [|exact I].
    assert (E : vcontains (s_var s) (s_var s) = true) by (apply contains_iff; [exact D|intros k i H; exact H]). congruence.
Qed.
Lemma indexOf_some p s : indexOf ss p = Some s -> In s ss /\ s_var s = p.
Proof.
  unfold indexOf. destruct (find _ ss) as [t|] eqn:F; [|discriminate]. apply find_some in F.
  destruct (veq (s_var t) p) eqn:E; [|discriminate]. intros H; injection H as <-. apply veq_iff in E. split; [apply F|exact E].
Qed.
Lemma parts_maximal x p w : In p (parts ss x) -> within w x -> meets p w ->
  (forall k i j, has w k i -> has w k j -> ow k i = ow k j) -> within w p.
Proof.
  intros I W (k0 & i0 & [K0 H0] & H0') H. assert (Dw := has_dim _ _ _ H0').
  assert (W0 := W (v_sup w) (v_s w)). assert (W1 := W (v_sup w) (v_s w + v_d w - 1)).
  unfold has in W0, W1. destruct W0 as [E W0]; [lia|]. destruct W1 as [_ W1]; [lia|].
  unfold parts in I. destruct (v_d x) as [|n] eqn:D; [lia|].
  destruct (parts_max (v_sup x) n (S (v_s x)) (v_s x) (owner ss (v_sup x) (v_s x)) (v_s w) (v_s w + v_d w) p i0) as (A & B & C);
    try lia; try assumption.
  - destruct H0'. lia.
  - intros i Hi. assert (i = v_s x) by lia. subst i. reflexivity.
  - intros i j Hi Hj. rewrite E. apply H; (split; [reflexivity|lia]).
  - intros k i [K Hi]. split; [congruence|lia].
Qed.
Lemma parts_granular x p : granular ss x -> In p (parts ss x) ->
  (exists s, In s ss /\ s_var s = p /\ meets (s_var s) x /\ actOf ss p = Through s) \/
  (actOf ss p = Direct p /\ forall k i, has p k i -> ~ replaced ss k i).
Proof.
  intros G I. destruct (parts_spec x p I) as (D & W & H). set (k := v_sup p). set (i := v_s p).
  assert (Hi : has p k i) by (split; [reflexivity|unfold i; lia]).
  destruct (owner ss k i) as [s|] eqn:O.
  - left. assert (O' := O). apply owner_some in O. destruct O as [Is Hs].
    assert (Pm : meets (s_var s) x) by (exists k, i; split; [exact Hs|apply W; exact Hi]).
    assert (Ws := G s Is Pm).
    assert (Ps : within p (s_var s)).
    { intros k' j Hj. assert (k' = k) by (destruct Hj; unfold k; congruence). subst k'.
      assert (E := H k i j Hi Hj). unfold ow in E. rewrite O' in E. cbn in E.
      destruct (owner ss k j) as [t|] eqn:Oj; [|discriminate]. apply owner_some in Oj. cbn in E. injection E as E. rewrite E. apply Oj. }
    assert (Sp : within (s_var s) p).
    { apply (parts_maximal x); [exact I|exact Ws|exists k, i; auto|]. intros k' a b Ha Hb. unfold ow.
      rewrite (proj2 (owner_some k' a s) (conj Is Ha)), (proj2 (owner_some k' b s) (conj Is Hb)). reflexivity. }
    assert (E : s_var s = p) by (apply within_eq; auto; apply real; exact Is).
    exists s. split; [exact Is|]. split; [exact E|]. split; [exact Pm|]. unfold actOf. rewrite <- E, (indexOf_in s Is). reflexivity.
  - right. assert (N : forall k' j, has p k' j -> ~ replaced ss k' j).
    { intros k' j Hj. assert (k' = k) by (destruct Hj; unfold k; congruence). subst k'. apply owner_none.
      assert (E := H k i j Hi Hj). unfold ow in E. rewrite O in E. cbn in E. destruct (owner ss k j); [discriminate|reflexivity]. }
    split; [|exact N]. unfold actOf. destruct (indexOf ss p) as [s|] eqn:X; [|reflexivity]. exfalso.
    apply indexOf_some in X. destruct X as [Is Es]. apply (N k i Hi). exists s. rewrite Es. auto.
Qed.
Lemma acts_rewritten c : (forall id x, In (id, x) (c_vars c) -> granular ss x) -> rewritten ss c (acts ss c).
Proof.
  intros G. unfold acts. split; [|split].
  - intros id x k i I H. destruct (parts_covers x (mkVar k i 1)) as (p & Ip & Wp).
    + cbn; lia.
    + intros k' i' [A B]. cbn in *. assert (i' = i) by lia. subst. exact H.
    + intros k' a b [A B] [_ C]. cbn in *. assert (a = i) by lia. assert (b = i) by lia. subst. reflexivity.
    + assert (Hp : has p k i) by (apply Wp; split; cbn; [reflexivity|lia]).
      assert (Ia : In (actOf ss p) (map (actOf ss) (flat_map (fun x => parts ss (snd x)) (c_vars c)))).
      { apply in_map, in_flat_map. exists (id, x). auto. }
      destruct (parts_granular x p (G _ _ I) Ip) as [(s & Is & Es & M & A)|[A N]]; rewrite A in Ia.
      * left. exists s. rewrite Es. auto.
      * right. split; [apply N; exact Hp|]. exists p. auto.
  - intros s I. apply in_map_iff in I. destruct I as (p & A & Ip). apply in_flat_map in Ip. destruct Ip as ([id x] & I & Ip). cbn in Ip.
    destruct (parts_granular x p (G _ _ I) Ip) as [(s' & Is & Es & M & A')|[A' N]]; rewrite A' in A; [|discriminate].
    injection A as ->. split; [exact Is|]. exists id, x. split; [exact I|]. rewrite Es. apply (parts_spec x p Ip).
  - intros q I. apply in_map_iff in I. destruct I as (p & A & Ip). apply in_flat_map in Ip. destruct Ip as ([id x] & I & Ip). cbn in Ip.
    destruct (parts_granular x p (G _ _ I) Ip) as [(s' & Is & Es & M & A')|[A' N]]; rewrite A' in A; [discriminate|].
    injection A as <-. split; [|exact N]. exists id, x. split; [exact I|]. apply (parts_spec x p Ip).
Qed.
End Parts.

(* ---- the variables of the solver ---- *)
Section Gather.
Variable ss : list sub.
Hypothesis SA : sane ss.
Let real s (H : In s ss) : realVar (s_var s) := proj1 (proj1 SA s H).
Let realY s y p (H : In s ss) : In (y, p) (s_vars s) -> realVar y := proj2 (proj1 SA s H) y p.

Definition share (x : var) (k i : nat) : Prop :=
  ((forall s, In s ss -> ~ meets (s_var s) x) /\ has x k i) \/
  (exists s, firstMet ss x s /\
     ((has x k i /\ ~ has (s_var s) k i) \/ (exists y p, In (y, p) (s_vars s) /\ has y k i))).

Lemma find_met x : 0 < v_d x ->
  match find (fun s => vintersects (s_var s) x) ss with
  | None => forall s, In s ss -> ~ meets (s_var s) x
  | Some s => firstMet ss x s
  end.
Proof.
  intros D. destruct (find _ ss) as [s|] eqn:F.
  - assert (I := find_some _ _ F). apply find_split in F. destruct F as (l & r & E & Fs & Fl). exists l, r. split; [exact E|]. split.
    + apply intersects_iff in Fs; [exact Fs|apply real, I|exact D].
    + intros t It M. apply intersects_iff in M; [rewrite (Fl t It) in M; discriminate| |exact D].
      apply real. rewrite E. apply in_or_app. left; exact It.
  - intros s I M. apply find_none with (x := s) in F; [|exact I].
    apply intersects_iff in M; [congruence|apply real; exact I|exact D].
Qed.
Lemma firstMet_in x s : firstMet ss x s -> In s ss.
Proof. intros (l & r & E & _). rewrite E. apply in_or_app. right; left; reflexivity. Qed.
Lemma firstMet_unique x s t : firstMet ss x s -> firstMet ss x t -> s = t.
Proof.
  intros (l & r & E & M & N) (l' & r' & E' & M' & N'). rewrite E in E'. clear E.
  revert l' N' E'. induction l as [|a l IH]; intros l' N' E'; destruct l' as [|b l']; cbn in E'.
  - injection E'; auto.
  - injection E' as -> E'. exfalso. apply (N' b); [left; reflexivity|exact M].
  - injection E' as <- E'. exfalso. apply (N a); [left; reflexivity|exact M'].
  - injection E' as <- E'. apply (IH (fun t I => N t (or_intror I)) l'); [intros t' I; apply N'; right; exact I|exact E'].
Qed.
Lemma eq_within x s : x = s_var s -> within (s_var s) x. Proof. intros -> k i H; exact H. Qed.

Lemma substitute_ok x : realVar x ->
  (is_ok (substitute ss x) = true <-> forall s, firstMet ss x s -> within (s_var s) x) /\
  (forall l, substitute ss x = Ok l -> forall k i, (exists v, In v l /\ has v k i) <-> share x k i) /\
  substitute ss x <> UB.
Proof.
  intros R. assert (D : 0 < v_d x) by apply R. assert (F := find_met x D). unfold substitute. destruct (find _ ss) as [s|] eqn:Ef.
  - assert (Is := firstMet_in x s F). assert (Ds : 0 < v_d (s_var s)) by (apply real; exact Is).
    assert (SH : forall k i, share x k i <-> ((has x k i /\ ~ has (s_var s) k i) \/ (exists y p, In (y, p) (s_vars s) /\ has y k i))).
    { intros k i. unfold share. split.
      - intros [[N _]|(t & Ft & H)].
        + exfalso. destruct F as (l & r & E & M & _). apply (N s Is M).
        + rewrite (firstMet_unique x s t F Ft). exact H.
      - intros H. right. exists s. split; [exact F|exact H]. }
    destruct (veq x (s_var s)) eqn:Ev.
    + apply veq_iff in Ev. split; [|split; [|discriminate]].
      * split; [|reflexivity]. intros _ t Ft. rewrite <- (firstMet_unique x s t F Ft). apply eq_within; exact Ev.
      * intros l E k i. injection E as <-. rewrite SH. split.
        -- intros (v & I & H). apply in_map_iff in I. destruct I as ([y p] & <- & I). right. exists y, p. auto.
        -- intros [[H N]|(y & p & I & H)]; [rewrite Ev in H; contradiction|]. exists y. split; [|exact H].
           apply in_map_iff. exists (y, p). auto.
    + destruct (vcontains x (s_var s)) eqn:Ec.
      * apply contains_iff in Ec; [|exact Ds]. split; [|split; [|discriminate]].
        -- split; [|reflexivity]. intros _ t Ft. rewrite <- (firstMet_unique x s t F Ft). exact Ec.
        -- intros l E k i. injection E as <-. rewrite counted_cells, SH, orb_true_iff, andb_true_iff, negb_true_iff, has_iff, has_no, existsb_exists.
           split.
           ++ intros (_ & _ & [H|([y p] & I & H)]); [left; exact H|right]. apply has_iff in H. exists y, p. auto.
           ++ intros H. assert (B : k < nsup /\ i < sizeOf k).
              { assert (Q : forall v, realVar v -> has v k i -> k < nsup /\ i < sizeOf k).
                { intros v (Dv & Nv & Sv) [Ek Hv]. rewrite <- Ek. lia. }
                destruct H as [[H _]|(y & p & I & H)]; [exact (Q x R H)|exact (Q y (realY s y p Is I) H)]. }
              destruct B as [B1 B2]. split; [exact B1|]. split; [exact B2|]. destruct H as [H|(y & p & I & H)]; [left; exact H|].
              right. exists (y, p). split; [exact I|]. apply has_iff. exact H.
      * split; [|split; [discriminate|discriminate]]. split; [discriminate|]. intros H. apply H, (contains_iff x) in F; [congruence|exact Ds].
  - split; [|split; [|discriminate]].
    + split; [|reflexivity]. intros _ t Ft. exfalso. destruct (Ft) as (l & r & E & M & _). apply (F t); [apply (firstMet_in x); exact Ft|exact M].
    + intros l E k i. injection E as <-. unfold share. split.
      * intros (v & [<-|[]] & H). left. auto.
      * intros [[_ H]|(t & Ft & _)]; [exists x; split; [left; reflexivity|exact H]|].
        exfalso. destruct (Ft) as (l & r & E & M & _). apply (F t); [apply (firstMet_in x); exact Ft|exact M].
Qed.
Definition bounded (P : nat -> nat -> bool) : Prop := forall k i, P k i = true -> k < nsup /\ i < sizeOf k.
Lemma share_bounded x k i : realVar x -> share x k i -> k < nsup /\ i < sizeOf k.
Proof.
  intros R H. assert (Q : forall v, realVar v -> has v k i -> k < nsup /\ i < sizeOf k).
  { intros v (Dv & Nv & Sv) [Ek Hv]. rewrite <- Ek. lia. }
  destruct H as [[_ H]|(s & F & [[H _]|(y & p & I & H)])]; [exact (Q x R H)|exact (Q x R H)|].
  exact (Q y (realY s y p (firstMet_in x s F) I) H).
Qed.
Lemma gatherVars_ok xs : forall P, (forall id x, In (id, x) xs -> realVar x) ->
  (is_ok (gatherVars ss xs P) = true <-> forall id x, In (id, x) xs -> forall s, firstMet ss x s -> within (s_var s) x) /\
  gatherVars ss xs P <> UB /\
  (forall P', gatherVars ss xs P = Ok P' ->
     forall k i, P' k i = true <-> (P k i = true \/ exists id x, In (id, x) xs /\ share x k i)).
Proof.
  induction xs as [|[id x] xs IH]; intros P R; cbn [BsModel.gatherVars].
  - split; [split; [intros _ id x []|reflexivity]|]. split; [discriminate|]. intros P' E k i. injection E as <-. split; [auto|].
    intros [H|(id & x & [] & _)]; exact H.
  - destruct (substitute_ok x (R id x (or_introl eq_refl))) as (A & B & C).
    destruct (substitute ss x) as [l| |] eqn:E; cbn [bind is_ok] in *; [| |congruence].
    + destruct (IH (addAll l P) (fun i y I => R i y (or_intror I))) as (A' & C' & B'). split; [|split; [exact C'|]].
      * rewrite A'. split.
        -- intros H i y [X|I]; [injection X as <- <-; apply A; reflexivity|exact (H i y I)].
        -- intros H i y I. exact (H i y (or_intror I)).
      * intros P' E' k i. rewrite (B' P' E' k i). unfold addAll at 1. rewrite orb_true_iff, existsb_exists.
        assert (X : (exists v, In v l /\ hasb v k i = true) <-> share x k i).
        { rewrite <- (B l eq_refl k i). split; intros (v & I & H); exists v; (split; [exact I|apply has_iff; exact H]). }
        rewrite X. split.
        -- intros [[H|H]|(id' & y & I & H)]; [left; exact H|right; exists id, x; split; [left; reflexivity|exact H]|].
           right. exists id', y. split; [right; exact I|exact H].
        -- intros [H|(id' & y & [Q|I] & H)]; [left; left; exact H|injection Q as <- <-; left; right; exact H|].
           right. exists id', y. auto.
    + split; [|split; discriminate]. split; [discriminate|]. intros H. apply A. intros s. apply (H id x). left; reflexivity.
Qed.
Lemma gather_ok cs : forall P, (forall x, asked cs x -> realVar x) ->
  (is_ok (gather ss cs P) = true <-> forall x, asked cs x -> forall s, firstMet ss x s -> within (s_var s) x) /\
  gather ss cs P <> UB /\
  (forall P', gather ss cs P = Ok P' -> forall k i, P' k i = true <-> (P k i = true \/ exists x, asked cs x /\ share x k i)).
Proof.
  induction cs as [|c cs IH]; intros P R; cbn [BsModel.gather].
  - split; [split; [intros _ x (c & id & [] & _)|reflexivity]|]. split; [discriminate|]. intros P' E k i. injection E as <-. split; [auto|].
    intros [H|(x & (c & id & [] & _) & _)]; exact H.
  - assert (MONO : forall x, asked cs x -> asked (c :: cs) x).
    { intros x (d & id & I & U & J). exists d, id. split; [right; exact I|auto]. }
    destruct (c_used c) eqn:U.
    + destruct (IH P (fun x A => R x (MONO x A))) as (A & B & C).
      assert (EQ : forall x, asked (c :: cs) x <-> asked cs x).
      { intros x. split; [|apply MONO]. intros (d & id & [<-|I] & Ud & J); [congruence|]. exists d, id. auto. }
      split; [|split; [exact B|]].
      * rewrite A. split; intros H x X; apply H, EQ, X.
      * intros P' E k i. rewrite (C P' E k i). split; (intros [H|(x & X & H)]; [left; exact H|right; exists x; split; [apply EQ, X|exact H]]).
    + assert (HERE : forall id x, In (id, x) (c_vars c) -> asked (c :: cs) x).
      { intros id x I. exists c, id. split; [left; reflexivity|auto]. }
      destruct (gatherVars_ok (c_vars c) P (fun id x I => R x (HERE id x I))) as (A & B & C).
      assert (EQ : forall x, asked (c :: cs) x <-> (asked cs x \/ exists id, In (id, x) (c_vars c))).
      { intros x. split; [|intros [X|(id & X)]; [apply MONO, X|exact (HERE id x X)]].
        intros (d & id & [<-|I] & Ud & J); [right; exists id; exact J|left; exists d, id; auto]. }
      destruct (gatherVars ss (c_vars c) P) as [P1| |] eqn:E; cbn [bind is_ok] in *; [| |congruence].
      * destruct (IH P1 (fun x A => R x (MONO x A))) as (A' & B' & C'). split; [|split; [exact B'|]].
        -- rewrite A'. split.
           ++ intros H x X. apply EQ in X. destruct X as [X|(id & X)]; [apply H, X|].
              apply (proj1 A eq_refl id x X).
           ++ intros H x X. apply H, MONO, X.
        -- intros P' E' k i. rewrite (C' P' E' k i), (C P1 eq_refl k i). split.
           ++ intros [[H|(id & x & I & H)]|(x & X & H)]; [left; exact H| |]; right; exists x; (split; [|exact H]).
              ** apply EQ. right. exists id; exact I.
              ** apply EQ. left; exact X.
           ++ intros [H|(x & X & H)]; [left; left; exact H|]. apply EQ in X. destruct X as [X|(id & X)]; [right; exists x; auto|].
              left. right. exists id, x. auto.
      * split; [|split; discriminate]. split; [discriminate|]. intros H. apply A. intros id x I. apply H. apply (HERE id x I).
Qed.
End Gather.
End Sizes.
