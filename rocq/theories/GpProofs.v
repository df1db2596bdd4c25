(* Proofs about the exploration of computed values. *)
From Coq Require Import List Bool Arith Lia Relations.
Import ListNotations.
From Verif Require Import Base CallGraphModel NdModel LgModel LgSpec LgProofs LgProofs2 GpModel GpSpec.
Local Open Scope nat_scope.

Lemma pval_eqb_spec a b : pval_eqb a b = true <-> a = b.
Proof.
  destruct a as [x|x], b as [y|y]; cbn [pval_eqb]; try (split; [discriminate|congruence]).
  - rewrite pair_eqb_spec. split; congruence.
  - rewrite upd_eqb_spec. split; congruence.
Qed.
Lemma existsb_pval x l : existsb (pval_eqb x) l = true <-> In x l.
Proof. rewrite existsb_exists. split; [intros [y [J E]]; apply pval_eqb_spec in E; subst; exact J|]. intros J. exists x. split; [exact J|]. apply pval_eqb_spec. reflexivity. Qed.
Lemma uses1_In L x y : In y (uses1 L x) <-> uses L x y.
Proof.
  destruct x as [n o|n u]; cbn [uses1]; rewrite in_app_iff, !in_map_iff.
  - split.
    + intros [[[[[n' o'] s] i] [<- J]]|[[[n' o'] u] [<- J]]]; apply filter_In in J; cbn [fst snd] in *; destruct J as [J E];
        apply andb_true_iff in E; destruct E as [E1 E2]; apply Nat.eqb_eq in E1, E2; subst n' o'; constructor; exact J.
    + intros U. inversion U as [n0 o0 u J|n0 o0 s i J| |]; subst.
      * right. exists (n, o, u). split; [reflexivity|]. apply filter_In. split; [exact J|]. cbn [fst snd]. rewrite !Nat.eqb_refl. reflexivity.
      * left. exists (n, o, s, i). split; [reflexivity|]. apply filter_In. split; [exact J|]. cbn [fst snd]. rewrite !Nat.eqb_refl. reflexivity.
  - split.
    + intros [[[[[n' o'] s] i] [<- J]]|[[[n' o'] v] [<- J]]]; apply filter_In in J; cbn [fst snd] in *; destruct J as [J E];
        apply andb_true_iff in E; destruct E as [E1 E2]; apply Nat.eqb_eq in E1, E2; subst n' o'; constructor; exact J.
    + intros U. inversion U as [| |n0 o0 v J|n0 o0 s i J]; subst.
      * right. exists (n, u, v). split; [reflexivity|]. apply filter_In. split; [exact J|]. cbn [fst snd]. rewrite !Nat.eqb_refl. reflexivity.
      * left. exists (n, u, s, i). split; [reflexivity|]. apply filter_In. split; [exact J|]. cbn [fst snd]. rewrite !Nat.eqb_refl. reflexivity.
Qed.
Lemma filter_flat {A B} (p : B -> bool) (f : A -> list B) l : filter p (flat_map f l) = flat_map (fun x => filter p (f x)) l.
Proof. induction l as [|x l IH]; [reflexivity|]. cbn [flat_map]. rewrite filter_app, IH. reflexivity. Qed.
Lemma map_flat {A B C} (g : B -> C) (f : A -> list B) l : map g (flat_map f l) = flat_map (fun x => map g (f x)) l.
Proof. induction l as [|x l IH]; [reflexivity|]. cbn [flat_map]. rewrite map_app, IH. reflexivity. Qed.
Lemma expanded_node x ts : expanded (PNode x ts) = match ts with [] => [] | _ => [x] end ++ flat_map expanded ts.
Proof.
  unfold expanded at 1. cbn [nodes filter]. rewrite filter_flat. cbn [snd].
  destruct ts as [|t ts]; [reflexivity|]. cbn [map app fst]. rewrite map_flat. reflexivity.
Qed.
Lemma NoDup_app_intro {A} (l1 l2 : list A) : NoDup l1 -> NoDup l2 -> (forall x, In x l1 -> ~ In x l2) -> NoDup (l1 ++ l2).
Proof.
  induction l1 as [|x l1 IH]; intros N1 N2 D; [exact N2|]. cbn [app]. inversion N1 as [|y l NI N1' E]; subst. constructor.
  - rewrite in_app_iff. intros [J|J]; [exact (NI J)|exact (D x (or_introl eq_refl) J)].
  - apply IH; [exact N1'|exact N2|]. intros y J. apply D. right. exact J.
Qed.

Section Tree.
Variable L : log.
Variable passes : nat -> nat -> Prop.
Variable start : out_.
Definition okv (x : pval) : Prop :=
  match x with PO o => o = start \/ In o (map (fun i => (snd (fst i), snd i)) (lgInp L)) | PU u => firstFunction L (fst (fst u)) (snd (fst u)) (snd u) end.
Definition inF (ts : list ptree) (y : pval) : Prop := exists cs, In (y, cs) (flat_map nodes ts).
Record gf (ts : list ptree) (P P' : list pval) : Prop := {
  gf_incl : incl P P';
  gf_ok : forall y, inF ts y -> okv y;
  gf_open : forall y, inF ts y -> open passes (key y) -> In y P';
  gf_new : forall y, In y P' -> In y P \/ (inF ts y /\ open passes (key y) /\ In (y, uses1 L (key y)) (flat_map nodes ts) /\ ~ dangling L (key y) /\
             forall z, uses L (key y) z -> exists v, inF ts v /\ key v = z);
  gf_once : NoDup (flat_map expanded ts);
  gf_exp : forall y, In y (flat_map expanded ts) -> In y P' /\ ~ In y P;
  gf_nodes : forall v cs, In (v, cs) (flat_map nodes ts) -> cs = [] \/ (open passes (key v) /\ cs = uses1 L (key v));
  gf_seen : forall y, inF ts y -> exists r, In r ts /\ seenFrom L passes (key (root r)) (key y) }.

Lemma inF_app a b y : inF (a ++ b) y <-> inF a y \/ inF b y.
Proof.
  unfold inF. rewrite flat_map_app. split.
  - intros [cs J]. apply in_app_or in J. destruct J as [J|J]; [left|right]; exists cs; exact J.
  - intros [[cs J]|[cs J]]; exists cs; apply in_or_app; auto.
Qed.
Lemma gf_nil P : gf [] P P.
Proof.
  constructor.
  - intros x J. exact J.
  - intros y [cs []].
  - intros y [cs []].
  - intros y J. left. exact J.
  - constructor.
  - intros y [].
  - intros v cs [].
  - intros y [cs []].
Qed.
Lemma gf_app a b P P1 P2 : gf a P P1 -> gf b P1 P2 -> gf (a ++ b) P P2.
Proof.
  intros [A1 A2 A3 A4 A5 A6 A7 A8] [B1 B2 B3 B4 B5 B6 B7 B8]. constructor.
  - intros x J. apply B1, A1, J.
  - intros y J. apply inF_app in J. destruct J as [J|J]; [exact (A2 y J)|exact (B2 y J)].
  - intros y J O. apply inF_app in J. destruct J as [J|J]; [apply B1; exact (A3 y J O)|exact (B3 y J O)].
  - intros y J. destruct (B4 y J) as [K|[K1 [K2 [K3 [K4 K5]]]]].
    + destruct (A4 y K) as [K'|[K1 [K2 [K3 [K4 K5]]]]]; [left; exact K'|right]. split; [apply inF_app; auto|]. split; [exact K2|].
      split; [rewrite flat_map_app; apply in_or_app; auto|]. split; [exact K4|]. intros z U. destruct (K5 z U) as [v [Q E]]. exists v. split; [apply inF_app; auto|exact E].
    + right. split; [apply inF_app; auto|]. split; [exact K2|].
      split; [rewrite flat_map_app; apply in_or_app; auto|]. split; [exact K4|]. intros z U. destruct (K5 z U) as [v [Q E]]. exists v. split; [apply inF_app; auto|exact E].
  - rewrite flat_map_app. apply NoDup_app_intro; [exact A5|exact B5|]. intros x J K. exact (proj2 (B6 x K) (proj1 (A6 x J))).
  - intros y J. rewrite flat_map_app in J. apply in_app_or in J. destruct J as [J|J].
    + destruct (A6 y J) as [K1 K2]. split; [exact (B1 y K1)|exact K2].
    + destruct (B6 y J) as [K1 K2]. split; [exact K1|]. intros K. exact (K2 (A1 y K)).
  - intros v cs J. rewrite flat_map_app in J. apply in_app_or in J. destruct J as [J|J]; [exact (A7 v cs J)|exact (B7 v cs J)].
  - intros y J. apply inF_app in J. destruct J as [J|J]; [destruct (A8 y J) as [r [R S]]|destruct (B8 y J) as [r [R S]]]; exists r; (split; [apply in_or_app; auto|exact S]).
Qed.
Lemma gf_leaf x P : okv x -> (In x P \/ ~ open passes (key x)) -> gf [PNode x []] P P.
Proof.
  intros O D.
  assert (E : forall y, inF [PNode x []] y -> y = x) by (intros y [cs [J|[]]]; congruence).
  constructor.
  - intros y J. exact J.
  - intros y J. rewrite (E y J). exact O.
  - intros y J Op. rewrite (E y J) in *. destruct D as [D|D]; [exact D|contradiction].
  - intros y J. left. exact J.
  - constructor.
  - intros y [].
  - intros v cs [J|[]]. cbn in J. injection J as _ <-. left. reflexivity.
  - intros y J. rewrite (E y J). exists (PNode x []). split; [left; reflexivity|]. apply rt_refl.
Qed.
Lemma root_within ts r : In r ts -> inF ts (root r).
Proof. intros J. destruct r as [x cs]. exists (map (fun c => key (root c)) cs). apply in_flat_map. exists (PNode x cs). split; [exact J|]. left. reflexivity. Qed.
Lemma gf_node x ts P P' : okv x -> open passes (key x) -> ~ In x P -> ~ dangling L (key x) -> gf ts (x :: P) P' ->
  map (fun c => key (root c)) ts = uses1 L (key x) -> gf [PNode x ts] P P'.
Proof.
  intros O Op NP ND [B1 B2 B3 B4 B5 B6 B7 B8] C.
  assert (FM : flat_map nodes [PNode x ts] = (x, uses1 L (key x)) :: flat_map nodes ts) by (cbn [flat_map nodes]; rewrite C, app_nil_r; reflexivity).
  assert (E : forall y, inF [PNode x ts] y <-> y = x \/ inF ts y).
  { intros y. unfold inF. rewrite FM. split.
    - intros [cs [J|J]]; [left; congruence|right; exists cs; exact J].
    - intros [->|[cs J]]; [eexists; left; reflexivity|exists cs; right; exact J]. }
  constructor.
  - intros y J. apply B1. right. exact J.
  - intros y J. apply E in J. destruct J as [->|J]; [exact O|exact (B2 y J)].
  - intros y J Q. apply E in J. destruct J as [->|J]; [apply B1; left; reflexivity|exact (B3 y J Q)].
  - intros y J. destruct (B4 y J) as [[<-|K]|[K1 [K2 [K3 [K4 K5]]]]].
    + right. split; [apply E; left; reflexivity|]. split; [exact Op|]. split; [rewrite FM; left; reflexivity|]. split; [exact ND|].
      intros z U. apply uses1_In in U. rewrite <- C in U. apply in_map_iff in U. destruct U as [r [Q R]]. exists (root r). split; [|exact Q]. apply E. right. apply root_within, R.
    + left. exact K.
    + right. split; [apply E; auto|]. split; [exact K2|]. split; [rewrite FM; right; exact K3|]. split; [exact K4|]. intros z U. destruct (K5 z U) as [v [Q R]].
      exists v. split; [apply E; auto|exact R].
  - cbn [flat_map]. rewrite app_nil_r, expanded_node. apply NoDup_app_intro; [destruct ts; repeat constructor; intros []|exact B5|].
    intros y J K. destruct ts; [destruct J|]. destruct J as [<-|[]]. apply (proj2 (B6 x K)). left. reflexivity.
  - intros y J. cbn [flat_map] in J. rewrite app_nil_r, expanded_node in J. apply in_app_or in J. destruct J as [J|J].
    + destruct ts; [destruct J|]. destruct J as [<-|[]]. split; [apply B1; left; reflexivity|exact NP].
    + destruct (B6 y J) as [K1 K2]. split; [exact K1|]. intros K. apply K2. right. exact K.
  - intros v cs J. rewrite FM in J. destruct J as [J|J]; [|exact (B7 v cs J)]. injection J as <- <-. right. auto.
  - intros y J. exists (PNode x ts). split; [left; reflexivity|]. cbn [root]. apply E in J. destruct J as [->|J]; [apply rt_refl|].
    destruct (B8 y J) as [r [R S]]. eapply rt_trans; [|exact S]. apply rt_step. split; [exact Op|]. apply uses1_In. rewrite <- C. apply in_map_iff. exists r. auto.
Qed.

Definition badFrom (x : item) : Prop := exists y, seenFrom L passes x y /\ open passes y /\ dangling L y.
Definition U : list pval := PO start :: map PO (map (fun i => (snd (fst i), snd i)) (lgInp L)) ++ map PU (lgUpd L).
Definition rem (P : list pval) : nat := length (filter (fun x => negb (existsb (pval_eqb x) P)) U).
Lemma okv_U x : okv x -> In x U.
Proof.
  destruct x as [o|[[n u] f]]; cbn [okv].
  - intros [->|J]; [left; reflexivity|]. right. apply in_or_app. left. apply in_map. exact J.
  - intros F. right. apply in_or_app. right. apply in_map. exact (firstFunction_In _ _ _ _ F).
Qed.
Lemma rem_le P P' : incl P P' -> rem P' <= rem P.
Proof.
  intros I. apply filter_le. intros x K. apply negb_true_iff in K. apply negb_true_iff. destruct (existsb (pval_eqb x) P) eqn:E; [|reflexivity].
  apply existsb_pval in E. apply I in E. apply existsb_pval in E. congruence.
Qed.
Lemma rem_lt x P : okv x -> ~ In x P -> rem (x :: P) < rem P.
Proof.
  intros O N. apply filter_lt with (x := x).
  - intros y. cbn [existsb]. rewrite negb_orb. intros K. apply andb_true_iff in K. exact (proj2 K).
  - apply okv_U. exact O.
  - cbn [existsb]. rewrite (proj2 (pval_eqb_spec x x) eq_refl). reflexivity.
  - apply negb_true_iff. destruct (existsb (pval_eqb x) P) eqn:E; [|reflexivity]. apply existsb_pval in E. contradiction.
Qed.
Lemma rem_nil : rem [] = S (length (lgInp L) + length (lgUpd L)).
Proof.
  unfold rem. cbn [existsb negb]. assert (A : forall (X : Type) (l : list X), length (filter (fun _ => true) l) = length l) by (intros X l; induction l as [|x l IH]; [reflexivity|cbn [filter length]; rewrite IH; reflexivity]).
  rewrite A. unfold U. cbn [length]. rewrite app_length, !map_length. reflexivity.
Qed.

Definition goSpec (go : pval -> list pval -> res (ptree * list pval)) (k : nat) : Prop := forall x P, okv x -> rem P < k ->
  match go x P with Ok (t, P') => root t = x /\ gf [t] P P' | Throw => badFrom (key x) | UB => False end.
Lemma children_spec {D} (p : D -> bool) (f : D -> res pval) (kd : D -> item) go k l : goSpec go k ->
  (forall d, In d l -> p d = true -> match f d with Ok v => okv v /\ key v = kd d | Throw => True | UB => False end) ->
  forall ts0 P0, rem P0 < k ->
  match childrenFor p f go l (ts0, P0) with
  | Ok (ts', P') => (exists ts, ts' = ts0 ++ ts /\ gf ts P0 P' /\ map (fun c => key (root c)) ts = map kd (filter p l)) /\ (forall d, In d l -> p d = true -> f d <> Throw)
  | Throw => (exists d, In d l /\ p d = true /\ f d = Throw) \/ (exists d, In d l /\ p d = true /\ badFrom (kd d))
  | UB => False
  end.
Proof.
  intros G. induction l as [|d l IH]; intros F ts0 P0 K.
  - cbn [childrenFor]. split; [|intros d []]. exists []. split; [rewrite app_nil_r; reflexivity|]. split; [apply gf_nil|reflexivity].
  - assert (F' : forall d, In d l -> p d = true -> match f d with Ok v => okv v /\ key v = kd d | Throw => True | UB => False end) by (intros d' J; apply F; right; exact J).
    cbn [childrenFor filter]. destruct (p d) eqn:Pd.
    + specialize (F d (or_introl eq_refl) Pd). destruct (f d) as [v| |] eqn:Fd; cbn [bind]; [|left; exists d; split; [left; reflexivity|auto]|exact F].
      destruct F as [Ov Kv]. cbn [snd]. pose proof (G v P0 Ov K) as Gv. destruct (go v P0) as [[t P1]| |]; cbn [bind].
      * destruct Gv as [Rt Gt]. cbn [fst snd]. specialize (IH F' (ts0 ++ [t]) P1). pose proof (rem_le P0 P1 (gf_incl _ _ _ Gt)) as Rl. specialize (IH ltac:(lia)).
        destruct (childrenFor p f go l (ts0 ++ [t], P1)) as [[ts' P']| |]; [| |exact IH].
        -- destruct IH as [[ts [E1 [E2 E3]]] T]. split.
           ++ exists (t :: ts). split; [rewrite E1, <- app_assoc; reflexivity|]. split; [exact (gf_app [t] ts P0 P1 P' Gt E2)|]. cbn [map]. rewrite E3, Rt, Kv. reflexivity.
           ++ intros d' [<-|J] Q; [congruence|exact (T d' J Q)].
        -- destruct IH as [[d' [J Q]]|[d' [J Q]]]; [left|right]; exists d'; (split; [right; exact J|exact Q]).
      * right. exists d. split; [left; reflexivity|]. split; [exact Pd|]. rewrite <- Kv. exact Gv.
      * exact Gv.
    + specialize (IH F' ts0 P0 K). destruct (childrenFor p f go l (ts0, P0)) as [[ts' P']| |]; [| |exact IH].
      * destruct IH as [E T]. split; [exact E|]. intros d' [<-|J] Q; [congruence|exact (T d' J Q)].
      * destruct IH as [[d' [J Q]]|[d' [J Q]]]; [left|right]; exists d'; (split; [right; exact J|exact Q]).
Qed.
Lemma find_out n s i : match asPO (do x <- findInput (lgInp L) n s i ; findOutput (allOutputs L) x) with Ok v => okv v /\ key v = AnOutput s i | Throw => ~ In (n, s, i) (lgInp L) | UB => False end.
Proof.
  pose proof (inputTo_spec L n s i) as K. unfold inputTo in K. unfold asPO. destruct (do x <- findInput (lgInp L) n s i ; findOutput (allOutputs L) x) as [x| |]; cbn [bind]; [|exact K|exact K].
  destruct K as [-> J]. split; [|reflexivity]. right. apply in_map_iff. exists (n, s, i). auto.
Qed.
Lemma find_upd n u : match asPU (findUpdate (lgUpd L) n u) with Ok v => okv v /\ key v = AnUpdate n u | Throw => forall f, ~ In (n, u, f) (lgUpd L) | UB => False end.
Proof.
  pose proof (findUpdate_spec L n u) as K. unfold asPU. destruct (findUpdate (lgUpd L) n u) as [x| |]; cbn [bind]; [|exact K|exact K]. destruct K as [f [-> F]]. split; [exact F|reflexivity].
Qed.
Lemma find_out_nT n s i : asPO (do x <- findInput (lgInp L) n s i ; findOutput (allOutputs L) x) <> Throw -> In (n, s, i) (lgInp L).
Proof.
  intros H. pose proof (inputTo_spec L n s i) as K. unfold inputTo in K. unfold asPO in H. destruct (do x <- findInput (lgInp L) n s i ; findOutput (allOutputs L) x); [exact (proj2 K)|destruct H; reflexivity|destruct K].
Qed.
Lemma find_upd_nT n u : asPU (findUpdate (lgUpd L) n u) <> Throw -> ~ forall f, ~ In (n, u, f) (lgUpd L).
Proof.
  intros H N. pose proof (findUpdate_spec L n u) as K. unfold asPU in H. destruct (findUpdate (lgUpd L) n u) as [x| |]; [|destruct H; reflexivity|exact K].
  destruct K as [f [_ F]]. exact (N f (firstFunction_In _ _ _ _ F)).
Qed.
Lemma badFrom_step x y : open passes x -> uses L x y -> badFrom y -> badFrom x.
Proof. intros O Us [z [S Q]]. exists z. split; [|exact Q]. eapply rt_trans; [apply rt_step; split; [exact O|exact Us]|exact S]. Qed.
End Tree.
