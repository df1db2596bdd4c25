From Coq Require Import List Bool Arith Lia.
Import ListNotations.
From Verif Require Import Base MatPropModel BsModel BsSpec BsProofs.
Local Open Scope nat_scope.

Lemma bind_inv {A B} (e : res A) (f : A -> res B) b : bind e f = Ok b -> exists a, e = Ok a /\ f a = Ok b.
Proof. destruct e; cbn; try discriminate. intros H. exists a. auto. Qed.

Section Sizes.
Variable sizeOf : nat -> nat.
Variable nsup : nat.
Notation counted := (counted sizeOf nsup).
Notation gather := (gather sizeOf nsup).
Notation process := (process sizeOf nsup).
Notation realVar := (realVar sizeOf nsup).
Notation sane := (sane sizeOf nsup).

(* ---- bounds ---- *)
Lemma isBound_iff c : isBound c = true <-> exists id x, simple c id x.
Proof.
  unfold isBound, simple. destruct (c_vars c) as [|[id x] [|y r]].
  - split; [discriminate|]. intros (id & x & H & _). discriminate.
  - cbn. rewrite !andb_true_iff. split.
    + intros [[[A _] B] C]. exists id, x. auto.
    + intros (id' & x' & _ & A & B & C). auto.
  - cbn. rewrite !andb_true_iff. split; [intros [[[_ H] _] _]; discriminate|]. intros (id' & x' & H & _). discriminate.
Qed.
Section Subs.
Variable ss : list sub.
Hypothesis SA : sane ss.
Let real s (H : In s ss) : realVar (s_var s) := proj1 (proj1 SA s H).
Lemma find_id s : In s ss -> find (fun t => s_id t =? s_id s) ss = Some s.
Proof.
  intros I. destruct (find _ ss) as [t|] eqn:F.
  - apply find_some in F. destruct F as [It E]. apply Nat.eqb_eq in E. f_equal. apply (proj1 (proj2 (proj2 SA))); auto.
  - apply find_none with (x := s) in F; [|exact I]. rewrite Nat.eqb_refl in F. discriminate.
Qed.
Lemma bound_iff c : (forall id x, In (id, x) (c_vars c) -> realVar x) ->
  (isBoundS ss c = true <->
   exists id x, simple c id x /\
     (((forall s, In s ss -> s_id s <> id) /\ (forall k i, has x k i -> ~ replaced ss k i)) \/
      (exists s y p, In s ss /\ s_id s = id /\ s_vars s = [(y, p)] /\ isDiagonal p = true /\ isInvertible p = true))).
Proof.
  intros R. unfold isBoundS. destruct (c_vars c) as [|[id x] r] eqn:V.
  - split; [discriminate|]. intros (id & x & (H & _) & _). congruence.
  - assert (Rx : realVar x) by (apply (R id); left; reflexivity). destruct (isBound c) eqn:B.
    + apply isBound_iff in B. destruct B as (id0 & x0 & Sc). assert (E := proj1 Sc). rewrite V in E. injection E as -> -> ->.
      assert (U : forall id x, simple c id x -> id = id0 /\ x = x0).
      { intros id x (H & _). rewrite V in H. injection H as -> ->. auto. }
      destruct (find _ ss) as [s|] eqn:F.
      * assert (F' := F). apply find_some in F'. destruct F' as [Is Ei]. apply Nat.eqb_eq in Ei.
        split.
        -- destruct (s_vars s) as [|[y p] [|z q]] eqn:Vs; try discriminate. rewrite andb_true_iff. intros [D1 D2].
           exists id0, x0. split; [exact Sc|]. right. exists s, y, p. repeat split; assumption.
        -- intros (id & x & Sx & [[N _]|(t & y & p & It & Et & Vt & D1 & D2)]); destruct (U id x Sx) as [-> ->].
           ++ exfalso. apply (N s Is Ei).
           ++ assert (t = s) by (apply (proj1 (proj2 (proj2 SA))); congruence). subst t. rewrite Vt, D1, D2. reflexivity.
      * assert (N : forall s, In s ss -> s_id s <> id0).
        { intros s I E. apply find_none with (x := s) in F; [|exact I]. rewrite E, Nat.eqb_refl in F. discriminate. }
        destruct (existsb _ ss) eqn:X.
        -- split; [discriminate|]. intros (id & x & Sx & [[_ H]|(t & y & p & It & Et & _)]); destruct (U id x Sx) as [-> ->].
           ++ exfalso. apply existsb_exists in X. destruct X as (s & I & M). apply intersects_iff in M; [|apply Rx|apply real; exact I].
              destruct M as (k & i & A & B). apply (H k i A). exists s. auto.
           ++ exfalso. apply (N t It Et).
        -- split; [|reflexivity]. intros _. exists id0, x0. split; [exact Sc|]. left. split; [exact N|].
           intros k i A (s & I & B). assert (Y : existsb (fun s => vintersects x0 (s_var s)) ss = true); [|congruence].
           apply existsb_exists. exists s. split; [exact I|]. apply intersects_iff; [apply Rx|apply real; exact I|]. exists k, i. auto.
    + split; [discriminate|]. intros (id' & x' & Sc & _). assert (isBound c = true) by (apply isBound_iff; exists id', x'; exact Sc). congruence.
Qed.
Lemma canBeUsed_DS c : canBeUsed ss c DS = Ok (isBoundS ss c).
Proof. unfold canBeUsed, isBoundS. destruct (c_vars c) as [|[id x] r]; [reflexivity|]. destruct (if isBound c then _ else false); reflexivity. Qed.
Lemma canBeUsed_EQ c : canBeUsed ss c EQ = Ok false.
Proof. unfold canBeUsed. destruct (c_vars c) as [|[id x] r]; [reflexivity|]. destruct (isBoundS ss c); reflexivity. Qed.
Lemma canBeUsed_free c t id x : simple c id x -> (forall s, In s ss -> s_id s <> id) -> isBoundS ss c = true -> oneSided t = true ->
  (canBeUsed ss c t = Ok true <->
   (c_type c = t /\ isPositiveDefinite (c_prop c) = true) \/
   (oneSided (c_type c) = true /\ c_type c <> t /\ isNegativeDefinite (c_prop c) = true)).
Proof.
  intros (V & _) N B T. unfold canBeUsed. rewrite V, B.
  assert (F : find (fun s => s_id s =? id) ss = None).
  { destruct (find _ ss) as [s|] eqn:F; [|reflexivity]. apply find_some in F. destruct F as [I E]. apply Nat.eqb_eq in E. exfalso. exact (N s I E). }
  rewrite F. destruct t; try discriminate; destruct (c_type c); cbn; destruct (isPositiveDefinite _), (isNegativeDefinite _);
    intuition congruence.
Qed.
(* the look up of line 145 finds nothing *)
Lemma canBeUsed_replaced c t s x : In s ss -> simple c (s_id s) x -> isBoundS ss c = true ->
  oneSided t = true -> oneSided (c_type c) = true -> canBeUsed ss c t = Throw.
Proof.
  intros I (V & _) B T T'. unfold canBeUsed. rewrite V, B, (find_id s I).
  destruct ss as [|s0 r] eqn:Es; [contradiction|].
  assert (J : jacobianOf (s_vars s) (s_var s0) = Throw).
  { unfold jacobianOf. destruct (find _ (s_vars s)) as [[y p]|] eqn:F; [|reflexivity]. apply find_some in F. destruct F as [Iy C]. cbn in C.
    assert (R0 : realVar (s_var s0)) by (apply real; left; reflexivity).
    apply contains_iff in C; [|apply R0]. exfalso.
    assert (H : has (s_var s0) (v_sup (s_var s0)) (v_s (s_var s0))) by (split; [reflexivity|destruct R0; lia]).
    apply (proj2 (proj2 (proj2 SA)) s y p _ _ I Iy (C _ _ H)). exists s0. split; [left; reflexivity|exact H]. }
  destruct t; try discriminate; destruct (c_type c); try discriminate; rewrite J; reflexivity.
Qed.

(* ---- the problem ---- *)
Lemma treatAll_spec M cs : forall l, treatAll ss M cs = Ok l ->
  map fst l = filter (fun c => negb (c_used c)) cs /\ forall c f, In (c, f) l -> treat ss M c = Ok f.
Proof.
  induction cs as [|c cs IH]; intros l E; cbn [treatAll filter] in *.
  - injection E as <-. split; [reflexivity|intros c f []].
  - destruct (c_used c); cbn [negb]; [apply IH; exact E|].
    apply bind_inv in E. destruct E as (f & Ef & E). apply bind_inv in E. destruct E as (l' & El & E). injection E as <-.
    destruct (IH l' El) as [A B]. split; [cbn; rewrite A; reflexivity|]. intros d g [X|X]; [injection X as <- <-; exact Ef|apply B; exact X].
Qed.
Lemma treatAll_ok M cs : (forall c, In c cs -> c_used c = false -> exists f, treat ss M c = Ok f) -> exists l, treatAll ss M cs = Ok l.
Proof.
  induction cs as [|c cs IH]; intros H; cbn [treatAll]; [exists []; reflexivity|].
  destruct (IH (fun d I => H d (or_intror I))) as (l & E). destruct (c_used c) eqn:U; [exists l; exact E|].
  destruct (H c (or_introl eq_refl) U) as (f & Ef). rewrite Ef. cbn. rewrite E. cbn. eexists; reflexivity.
Qed.
Lemma process_inv cs ex M l : process ss cs ex = Ok (M, l) ->
  exists P, gather ss cs (fun _ _ => false) = Ok P /\ M = counted P /\ treatAll ss M cs = Ok l /\ mappings M (concat ex) = Ok tt.
Proof.
  unfold BsModel.process. intros E. apply bind_inv in E. destruct E as (P & EP & E). apply bind_inv in E. destruct E as (l' & El & E).
  apply bind_inv in E. destruct E as (u & Eu & E). injection E as <- <-. exists P. destruct u. auto.
Qed.
Lemma share_collected cs k i : (exists x, asked cs x /\ share ss x k i) <-> collected ss cs k i.
Proof. unfold share, collected. reflexivity. Qed.
Lemma columns_cells cs P : (forall x, asked cs x -> realVar x) -> gather ss cs (fun _ _ => false) = Ok P ->
  forall k i, (exists m, In m (counted P) /\ has m k i) <-> collected ss cs k i.
Proof.
  intros R E k i. destruct (gather_ok sizeOf nsup ss SA cs (fun _ _ => false) R) as (_ & _ & G). rewrite counted_cells, (G P E k i), <- share_collected.
  split; [intros (_ & _ & [H|H]); [discriminate|exact H]|]. intros H. assert (H' := H). destruct H' as (x & A & S).
  destruct (share_bounded sizeOf nsup ss SA x k i (R x A) S) as [B1 B2]. auto.
Qed.
Lemma process_columns cs ex M l : (forall x, asked cs x -> realVar x) -> process ss cs ex = Ok (M, l) ->
  map fst l = filter (fun c => negb (c_used c)) cs /\
  forall k i, (exists m, In m M /\ has m k i) <-> collected ss cs k i.
Proof.
  intros R E. apply process_inv in E. destruct E as (P & EP & -> & ET & _). split; [apply (treatAll_spec _ _ _ ET)|].
  apply columns_cells; assumption.
Qed.
Lemma process_coarse cs ex x s : (forall x, asked cs x -> realVar x) -> asked cs x -> firstMet ss x s -> ~ within (s_var s) x ->
  process ss cs ex = Throw.
Proof.
  intros R A F N. destruct (gather_ok sizeOf nsup ss SA cs (fun _ _ => false) R) as (O & U & _). unfold BsModel.process.
  destruct (gather ss cs (fun _ _ => false)) as [P| |] eqn:E; [|reflexivity|congruence].
  exfalso. apply N. apply (proj1 O eq_refl x A s F).
Qed.
(* the parts of the constraint found *)
Lemma acts_dim c v : (forall id x, In (id, x) (c_vars c) -> realVar x) -> In v (flat_map columns (acts ss c)) -> 0 < v_d v.
Proof.
  intros R I. apply in_flat_map in I. destruct I as (a & Ia & Iv). unfold acts in Ia. apply in_map_iff in Ia.
  destruct Ia as (p & <- & Ip). apply in_flat_map in Ip. destruct Ip as ([id x] & Ix & Ip). cbn in Ip.
  destruct (parts_spec ss x p Ip) as (D & _). unfold actOf in Iv. destruct (indexOf ss p) as [s|] eqn:X; cbn in Iv.
  - apply indexOf_some in X. apply in_map_iff in Iv. destruct Iv as ([y q] & <- & Iy). apply (proj2 (proj1 SA s (proj1 X)) y q Iy).
  - destruct Iv as [<-|[]]. exact D.
Qed.
Lemma process_general cs ex M l c a : (forall x, asked cs x -> realVar x) -> process ss cs ex = Ok (M, l) ->
  In (c, AGeneral a) l -> (forall id x, In (id, x) (c_vars c) -> granular ss x) ->
  rewritten ss c a /\
  (forall s y p, In (Through s) a -> In (y, p) (s_vars s) -> inColumns M y) /\ (forall p, In (Direct p) a -> inColumns M p).
Proof.
  intros R E I G. apply process_inv in E. destruct E as (P & EP & EM & ET & _). destruct (treatAll_spec _ _ _ ET) as [TF TS].
  assert (Ic : In c (filter (fun c => negb (c_used c)) cs)) by (rewrite <- TF; apply in_map_iff; exists (c, AGeneral a); auto).
  apply filter_In in Ic. destruct Ic as [Ic Uc]. apply negb_true_iff in Uc.
  assert (Rc : forall id x, In (id, x) (c_vars c) -> realVar x) by (intros id x H; apply R; exists c, id; auto).
  apply TS in I. unfold treat in I. rewrite canBeUsed_DS in I. cbn [bind] in I. destruct (isBoundS ss c && _).
  - apply bind_inv in I. destruct I as (u & _ & I). discriminate.
  - apply bind_inv in I. destruct I as (a' & Ea & I). injection I as ->. unfold assign in Ea. apply bind_inv in Ea. destruct Ea as (v & _ & Ea).
    apply bind_inv in Ea. destruct Ea as ([] & Em & Ea). injection Ea as <-. split; [apply (acts_rewritten sizeOf nsup ss SA); exact G|].
    assert (Em' := proj1 (mappings_ok M _ (fun v => acts_dim c v Rc)) Em). split.
    + intros s y p It Iy. apply Em'. apply in_flat_map. exists (Through s). split; [exact It|]. cbn. apply in_map_iff. exists (y, p). auto.
    + intros p Ip. apply Em'. apply in_flat_map. exists (Direct p). split; [exact Ip|left; reflexivity].
Qed.
Lemma plain_bound c : plainMatrices ss -> (forall id x, In (id, x) (c_vars c) -> realVar x) ->
  (isBoundS ss c = true <-> exists id x, simple c id x /\ (forall s, In s ss -> s_id s <> id) /\ (forall k i, has x k i -> ~ replaced ss k i)).
Proof.
  intros PM R. rewrite (bound_iff c R). split.
  - intros (id & x & Sc & [[A B]|(s & y & p & Is & _ & V & D & _)]); [exists id, x; auto|].
    exfalso. assert (X : isDiagonal p = false) by (apply (PM s y p Is); rewrite V; left; reflexivity). congruence.
  - intros (id & x & Sc & A & B). exists id, x. split; [exact Sc|left; auto].
Qed.
Lemma process_bound cs ex M l c : plainMatrices ss -> (forall x, asked cs x -> realVar x) -> process ss cs ex = Ok (M, l) ->
  In (c, ABound) l ->
  c_level c = 0 /\ exists id x, simple c id x /\ (forall k i, has x k i -> ~ replaced ss k i) /\ inColumns M x.
Proof.
  intros PM R E I. apply process_inv in E. destruct E as (P & EP & EM & ET & _). destruct (treatAll_spec _ _ _ ET) as [TF TS].
  assert (Ic : In c (filter (fun c => negb (c_used c)) cs)) by (rewrite <- TF; apply in_map_iff; exists (c, ABound); auto).
  apply filter_In in Ic. destruct Ic as [Ic Uc]. apply negb_true_iff in Uc.
  assert (Rc : forall id x, In (id, x) (c_vars c) -> realVar x) by (intros id x H; apply R; exists c, id; auto).
  apply TS in I. unfold treat in I. rewrite canBeUsed_DS in I. cbn [bind] in I. destruct (isBoundS ss c) eqn:B; cbn [andb] in I.
  - destruct (c_level c =? 0) eqn:L.
    + apply Nat.eqb_eq in L. split; [exact L|]. apply (plain_bound c PM Rc) in B. destruct B as (id & x & Sc & N & H). exists id, x.
      split; [exact Sc|]. split; [exact H|]. apply bind_inv in I. destruct I as ([] & Em & _). rewrite (proj1 Sc) in Em. cbn [firstn map snd] in Em.
      assert (Dx : 0 < v_d x) by (apply (Rc id); rewrite (proj1 Sc); left; reflexivity).
      refine (proj1 (mappings_ok M [x] _) Em x (or_introl eq_refl)). intros v [<-|[]]; exact Dx.
    + apply bind_inv in I. destruct I as (a & _ & I). discriminate.
  - apply bind_inv in I. destruct I as (a & _ & I). discriminate.
Qed.

(* ---- success ---- *)
Lemma vvAddAll_ok vs : forall l, (forall v, In v vs -> 0 < v_d v) -> (forall v, In v l -> 0 < v_d v) ->
  (forall v w, In v (l ++ vs) -> In w vs -> meets v w -> v = w) -> exists l', vvAddAll l vs = Ok l'.
Proof.
  induction vs as [|v vs IH]; intros l D Dl H; cbn [vvAddAll]; [exists l; reflexivity|].
  assert (Dv := D v (or_introl eq_refl)). unfold vvAdd. destruct (existsb (fun x => vcontains x v) l) eqn:C.
  - cbn. apply IH; [intros w I; apply D; right; exact I|exact Dl|]. intros w z I J. apply H; [|right; exact J].
    apply in_app_or in I. apply in_or_app. destruct I as [I|I]; [left; exact I|right; right; exact I].
  - destruct (existsb (fun x => vintersects x v) l) eqn:X.
    + exfalso. apply existsb_exists in X. destruct X as (w & I & M). apply intersects_iff in M; [|apply Dl; exact I|exact Dv].
      assert (w = v) by (apply H; [apply in_or_app; left; exact I|left; reflexivity|exact M]). subst w.
      assert (Y : existsb (fun x => vcontains x v) l = true); [|congruence]. apply existsb_exists. exists v. split; [exact I|].
      apply contains_iff; [exact Dv|intros k i Q; exact Q].
    + cbn. apply IH; [intros w I; apply D; right; exact I| |].
      * intros w I. apply in_app_or in I. destruct I as [I|[<-|[]]]; [apply Dl; exact I|exact Dv].
      * intros w z I J. apply H; [|right; exact J]. rewrite <- app_assoc in I. exact I.
Qed.
Lemma meets_dec a b : meets a b \/ ~ meets a b.
Proof.
  destruct (Nat.eq_dec (v_sup a) (v_sup b)) as [E|N]; [|right; intros (k & i & [A _] & [B _]); congruence].
  destruct (le_lt_dec (v_s a) (v_s b)) as [L|L].
  - destruct (lt_dec (v_s b) (v_s a + v_d a)) as [K|K]; [|right; intros (k & i & [_ A] & [_ B]); lia].
    destruct (lt_dec 0 (v_d b)) as [K'|K']; [|right; intros (k & i & [_ A] & [_ B]); lia].
    left. exists (v_sup b), (v_s b). split; (split; [congruence|lia]).
  - destruct (lt_dec (v_s a) (v_s b + v_d b)) as [K|K]; [|right; intros (k & i & [_ A] & [_ B]); lia].
    destruct (lt_dec 0 (v_d a)) as [K'|K']; [|right; intros (k & i & [_ A] & [_ B]); lia].
    left. exists (v_sup a), (v_s a). split; (split; [congruence|lia]).
Qed.
Lemma met_any x : (exists s, In s ss /\ meets (s_var s) x) \/ (forall s, In s ss -> ~ meets (s_var s) x).
Proof.
  clear SA real. induction ss as [|a l IH]; [right; intros s []|]. destruct (meets_dec (s_var a) x) as [M|N]; [left; exists a; split; [left; reflexivity|exact M]|].
  destruct IH as [(s & I & M)|H]; [left; exists s; split; [right; exact I|exact M]|]. right. intros s [<-|I]; [exact N|exact (H s I)].
Qed.
Lemma needed_collected cs : (forall x, asked cs x -> single ss x /\ granular ss x) -> forall k i, needed ss cs k i <-> collected ss cs k i.
Proof.
  intros SG k i. unfold needed, collected.
  assert (FM : forall x s, In s ss -> meets (s_var s) x -> exists t, firstMet ss x t).
  { intros x s. generalize ss. clear. intros l. induction l as [|a l IH]; [intros []|]. intros I M.
    destruct (meets_dec (s_var a) x) as [Ma|Na]; [exists a, [], l; split; [reflexivity|split; [exact Ma|intros t []]]|].
    destruct I as [->|I]; [contradiction|]. destruct (IH I M) as (t & p & r & -> & Mt & N). exists t, (a :: p), r. split; [reflexivity|].
    split; [exact Mt|]. intros u [<-|J]; [exact Na|apply N; exact J]. }
  split.
  - intros (x & A & H). exists x. split; [exact A|]. destruct (SG x A) as [Sx Gx].
    destruct (met_any x) as [(s & Is & Ms)|N].
    + destruct (FM x s Is Ms) as (t & Ft). assert (t = s).
      { apply Sx; [apply (firstMet_in ss x t Ft)|exact Is| |exact Ms]. destruct Ft as (p & r & _ & Mt & _). exact Mt. }
      subst t. right. exists s. split; [exact Ft|]. destruct H as [[H Nr]|(u & y & p & Iu & Mu & Iy & Hy)].
      * left. split; [exact H|]. intros Q. apply Nr. exists s. auto.
      * right. assert (u = s) by (apply Sx; assumption). subst u. exists y, p. auto.
    + left. split; [exact N|]. destruct H as [[H _]|(u & y & p & Iu & Mu & _)]; [exact H|]. exfalso. exact (N u Iu Mu).
  - intros (x & A & H). exists x. split; [exact A|]. destruct (SG x A) as [Sx Gx]. destruct H as [[N H]|(s & Fs & H)].
    + left. split; [exact H|]. intros (s & Is & Hs). apply (N s Is). exists k, i. auto.
    + assert (Is := firstMet_in ss x s Fs). assert (Ms : meets (s_var s) x) by (destruct Fs as (p & r & _ & Mt & _); exact Mt).
      destruct H as [[H Nh]|(y & p & Iy & Hy)].
      * left. split; [exact H|]. intros (t & It & Ht). apply Nh. assert (t = s); [|subst t; exact Ht].
        apply Sx; [exact It|exact Is|exists k, i; auto|exact Ms].
      * right. exists s, y, p. auto.
Qed.
Lemma process_good cs ex : plainMatrices ss -> (forall x, asked cs x -> realVar x) ->
  (forall c, In c cs -> c_used c = false -> good ss c) ->
  (forall v, In v (concat ex) -> realVar v /\ forall k i, has v k i -> needed ss cs k i) ->
  exists M l, process ss cs ex = Ok (M, l) /\ (forall k i, (exists m, In m M /\ has m k i) <-> needed ss cs k i).
Proof.
  intros PM R GD EX.
  assert (SG : forall x, asked cs x -> single ss x /\ granular ss x).
  { intros x (c & id & I & U & J). apply (proj1 (GD c I U) id x J). }
  destruct (gather_ok sizeOf nsup ss SA cs (fun _ _ => false) R) as (O & U & G).
  destruct (gather ss cs (fun _ _ => false)) as [P| |] eqn:EP; [| |congruence].
  2:{ exfalso. assert (X : false = true); [|discriminate]. apply O. intros x A s F. apply (proj2 (SG x A)); [apply (firstMet_in ss x s F)|].
      destruct F as (p & r & _ & M & _). exact M. }
  set (M := counted P).
  assert (CELL : forall k i, (exists m, In m M /\ has m k i) <-> needed ss cs k i).
  { intros k i. rewrite needed_collected by exact SG. apply columns_cells; assumption. }
  assert (COV : forall v, realVar v -> (forall k i, has v k i -> needed ss cs k i) -> inColumns M v).
  { intros v Rv H. apply counted_cover; [exact Rv|]. intros k i Hv. assert (Q := proj2 (CELL k i) (H k i Hv)). apply counted_cells in Q. apply Q. }
  assert (TR : forall c, In c cs -> c_used c = false -> exists f, treat ss M c = Ok f).
  { intros c I Uc. destruct (GD c I Uc) as [Gc Ac].
    assert (Rc : forall id x, In (id, x) (c_vars c) -> realVar x) by (intros id x H; apply R; exists c, id; auto).
    unfold treat. rewrite canBeUsed_DS. cbn [bind]. destruct (isBoundS ss c && (c_level c =? 0)) eqn:B.
    - apply andb_true_iff in B. destruct B as [B _]. apply (plain_bound c PM Rc) in B. destruct B as (id & x & Sc & N & H).
      rewrite (proj1 Sc). cbn [firstn map snd].
      assert (Ix : In (id, x) (c_vars c)) by (rewrite (proj1 Sc); left; reflexivity).
      assert (Em : mappings M [x] = Ok tt).
      { apply mappings_ok; intros v [<-|[]]; [apply (Rc id x Ix)|]. apply COV; [apply (Rc id x Ix)|]. intros k i Hx. exists x.
        split; [exists c, id; auto|]. left. split; [exact Hx|exact (H k i Hx)]. }
      rewrite Em. cbn. eexists; reflexivity.
    - assert (RW : rewritten ss c (acts ss c)) by (apply (acts_rewritten sizeOf nsup ss SA); intros id x J; apply (Gc id x J)).
      destruct RW as (_ & RT & RD).
      assert (TM : forall s, In (Through s) (acts ss c) -> In s ss /\ exists id x, In (id, x) (c_vars c) /\ meets (s_var s) x).
      { intros s It. destruct (RT s It) as (Is & id & x & Ix & W). split; [exact Is|]. exists id, x. split; [exact Ix|].
        assert (Rs : realVar (s_var s)) by (apply real; exact Is).
        assert (Q : has (s_var s) (v_sup (s_var s)) (v_s (s_var s))) by (split; [reflexivity|destruct Rs; lia]).
        exists (v_sup (s_var s)), (v_s (s_var s)). split; [exact Q|apply W; exact Q]. }
      assert (IN : forall v, In v (flat_map into (acts ss c)) -> exists s p, In (Through s) (acts ss c) /\ In (v, p) (s_vars s)).
      { intros v Iv. apply in_flat_map in Iv. destruct Iv as ([s|p] & Ia & Iv); cbn in Iv; [|contradiction].
        apply in_map_iff in Iv. destruct Iv as ([y q] & <- & Iy). exists s, q. auto. }
      assert (AL : exists l, vvAddAll [] (flat_map into (acts ss c)) = Ok l).
      { apply vvAddAll_ok.
        - intros v Iv. destruct (IN v Iv) as (s & p & It & Iy). apply (proj2 (proj1 SA s (proj1 (TM s It))) v p Iy).
        - intros v [].
        - cbn [app]. intros v w Iv Iw Mv. destruct (IN v Iv) as (s & p & It & Iy). destruct (IN w Iw) as (t & q & It' & Iy').
          destruct (TM s It) as (Is & id & x & Ix & Mx). destruct (TM t It') as (Is' & id' & x' & Ix' & Mx').
          exact (Ac s t id x id' x' v p w q Is Is' Ix Ix' Mx Mx' Iy Iy' Mv). }
      destruct AL as (l & El). unfold assign. rewrite El. cbn [bind].
      assert (Em : mappings M (flat_map columns (acts ss c)) = Ok tt).
      { apply mappings_ok; [intros v; apply acts_dim; exact Rc|]. intros v Iv. apply in_flat_map in Iv. destruct Iv as ([s|p] & Ia & Iv); cbn in Iv.
        - apply in_map_iff in Iv. destruct Iv as ([y q] & <- & Iy). destruct (TM s Ia) as (Is & id & x & Ix & Mx). cbn [fst].
          apply COV; [apply (proj2 (proj1 SA s Is) y q Iy)|]. intros k i Hy. exists x. split; [exists c, id; auto|]. right. exists s, y, q. auto.
        - destruct Iv as [<-|[]]. destruct (RD p Ia) as ((id & x & Ix & W) & N). apply COV.
          + assert (D : 0 < v_d p).
            { apply (acts_dim c p Rc). apply in_flat_map. exists (Direct p). split; [exact Ia|left; reflexivity]. }
            destruct (Rc id x Ix) as (D1 & D2 & D3).
            destruct (W (v_sup p) (v_s p)) as [E1 _]; [split; [reflexivity|lia]|].
            destruct (W (v_sup p) (v_s p + v_d p - 1)) as [_ E2]; [split; [reflexivity|lia]|].
            split; [exact D|]. rewrite <- E1. split; [exact D2|lia].
          + intros k i Hp. exists x. split; [exists c, id; auto|]. left. split; [apply W; exact Hp|apply N; exact Hp]. }
      rewrite Em. cbn. eexists; reflexivity. }
  destruct (treatAll_ok M cs TR) as (l & El). exists M, l. split; [|exact CELL].
  unfold BsModel.process. rewrite EP. cbn [bind]. fold M. rewrite El. cbn [bind].
  assert (Em : mappings M (concat ex) = Ok tt).
  { apply mappings_ok; intros v Iv; [apply (EX v Iv)|]. apply COV; apply (EX v Iv). }
  rewrite Em. reflexivity.
Qed.
End Subs.
End Sizes.

(* ---- products of properties ---- *)
Lemma product_definite p ps q : isDiagonal p = true -> isDiagonal ps = true -> mp_mul p ps = Ok q ->
  isPositiveDefinite q = (isIdentity p && isIdentity ps) || (isMinusIdentity p && isMinusIdentity ps).
Proof.
  destruct p as [c1 i1 s1 y1 p1], ps as [c2 i2 s2 y2 p2]. unfold isDiagonal, isPositiveDefinite, isIdentity, isMinusIdentity, mp_mul, isConstant, isInvertible.
  cbn [shape_]. intros D1 D2 E.
  destruct s1; try discriminate D1; destruct s2; try discriminate D2; destruct c1, c2, i1, i2; vm_compute in E;
    first [discriminate E|injection E as <-; reflexivity].
Qed.
