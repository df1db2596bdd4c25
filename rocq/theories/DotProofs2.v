(* Proofs for C75: the drawings. *)
From Coq Require Import List Bool Arith String Ascii DecimalString Lia Sorting.Sorted.
Import ListNotations.
From Verif Require Import Base CallGraphModel NdModel NdProofs2 LgModel LgSpec LgProofs LgProofs2 DotModel DotSpec DotProofs.
Local Open Scope nat_scope.
Local Open Scope list_scope.

(* ---- lists ---- *)
Lemma mapM_spec {A B} (f : A -> res B) (P : A -> B -> Prop) (Q : A -> Prop) l :
  (forall x, In x l -> match f x with Ok s => P x s /\ Q x | Throw => ~ Q x | UB => False end) ->
  match mapM f l with Ok ss => Forall2 P l ss /\ (forall x, In x l -> Q x) | Throw => exists x, In x l /\ ~ Q x | UB => False end.
Proof.
  induction l as [|x l IH]; intros H; [split; [constructor|intros x []]|]. cbn [mapM]. pose proof (H x (or_introl eq_refl)) as Hx.
  destruct (f x) as [y| |]; cbn [bind]; [|exists x; split; [left; reflexivity|exact Hx]|exact Hx].
  specialize (IH (fun z I => H z (or_intror I))). destruct (mapM f l) as [ys| |]; cbn [bind]; [| |exact IH].
  - destruct IH as [I1 I2]. split; [constructor; [apply Hx|exact I1]|]. intros z [<-|I]; [apply Hx|auto].
  - destruct IH as (z & I & N). exists z. split; [right; exact I|exact N].
Qed.
Lemma mapM_ok {A B} (f : A -> res B) (P : A -> B -> Prop) l :
  (forall x, In x l -> exists s, f x = Ok s /\ P x s) -> exists ss, mapM f l = Ok ss /\ Forall2 P l ss.
Proof.
  intros H. pose proof (mapM_spec f P (fun _ => True) l) as S. destruct (mapM f l) as [ss| |].
  - exists ss. split; [reflexivity|]. apply S. intros x I. destruct (H x I) as (s & -> & HP). auto.
  - destruct S as (x & _ & N); [|tauto]. intros x I. destruct (H x I) as (s & -> & HP). auto.
  - destruct S. intros x I. destruct (H x I) as (s & -> & HP). auto.
Qed.
Lemma Forall2_eq {A B} (h : A -> B) l ss : Forall2 (fun x s => s = h x) l ss -> ss = map h l.
Proof. induction 1 as [|x s l ss E F IH]; [reflexivity|]. cbn. congruence. Qed.
Lemma filter_all {A B} (P : A -> B -> Prop) q l ss : Forall2 P l ss -> (forall x s, P x s -> q s = true) -> filter q ss = ss.
Proof. induction 1 as [|x s l ss E F IH]; intros H; [reflexivity|]. cbn. rewrite (H x s E), (IH H). reflexivity. Qed.
Lemma filter_none {A B} (P : A -> B -> Prop) q l ss : Forall2 P l ss -> (forall x s, P x s -> q s = false) -> filter q ss = [].
Proof. induction 1 as [|x s l ss E F IH]; intros H; [reflexivity|]. cbn. rewrite (H x s E), (IH H). reflexivity. Qed.
Lemma NoDup_concat {A} (f : nat -> list A) (g : A -> nat) ks : NoDup ks -> (forall v, NoDup (f v)) -> (forall v x, In x (f v) -> g x = v) -> NoDup (flat_map f ks).
Proof.
  intros N Nf G. induction N as [|k ks NI N IH]; [constructor|]. cbn [flat_map]. specialize (Nf k).
  assert (D : forall x, In x (f k) -> ~ In x (flat_map f ks)).
  { intros x I J. apply in_flat_map in J as (k' & J1 & J2). apply G in I. apply G in J2. congruence. }
  induction Nf as [|x l NI' N' IH']; [exact IH|]. cbn [app]. constructor.
  - rewrite in_app_iff. intros [I|I]; [tauto|]. exact (D x (or_introl eq_refl) I).
  - apply IH'. intros y I. apply D. right. exact I.
Qed.
Lemma flat_if {A B} (q : A -> bool) (h : A -> B) l : flat_map (fun d => if q d then [h d] else []) l = map h (filter q l).
Proof. induction l as [|x l IH]; [reflexivity|]. cbn [flat_map filter]. rewrite IH. destruct (q x); reflexivity. Qed.
Lemma findR_spec {A} (p : A -> bool) l : match findR p l with Ok x => In x l /\ p x = true | Throw => forall x, In x l -> p x = false | UB => False end.
Proof.
  unfold findR. destruct (find p l) as [x|] eqn:E; [exact (find_some _ _ E)|]. intros x I. exact (find_none _ _ E x I).
Qed.
Lemma sorted_nodup l : StronglySorted lt l -> NoDup l.
Proof.
  induction 1 as [|x l S IH F]; constructor; [|exact IH]. intros I. rewrite Forall_forall in F. specialize (F x I). lia.
Qed.
Lemma assocN_In {A} v (a : A) m : NoDup (map fst m) -> In (v, a) m -> assocN v m = Some a.
Proof.
  induction m as [|[w b] m IH]; intros N I; [destruct I|]. cbn [map fst] in N. inversion N as [|? ? NI N']; subst. cbn [assocN]. destruct I as [I|I].
  - injection I as -> ->. rewrite Nat.eqb_refl. reflexivity.
  - destruct (Nat.eqb_spec v w); [|auto]. subst w. destruct NI. apply in_map_iff. exists (v, a). auto.
Qed.
Lemma existsb_pair o l : existsb (pair_eqb o) l = true <-> In o l.
Proof.
  rewrite existsb_exists. split.
  - intros (x & I & E). unfold pair_eqb in E. apply andb_true_iff in E as [E1 E2]. apply Nat.eqb_eq in E1, E2. destruct o, x. cbn in *. congruence.
  - intros I. exists o. split; [exact I|]. unfold pair_eqb. rewrite !Nat.eqb_refl. reflexivity.
Qed.
Lemma existsb_upd u l : existsb (upd_eqb u) l = true <-> In u l.
Proof.
  rewrite existsb_exists. split.
  - intros (x & I & E). unfold upd_eqb, pair_eqb in E. rewrite !andb_true_iff, !Nat.eqb_eq in E. destruct E as [[E1 E2] E3]. destruct u as [[? ?] ?], x as [[? ?] ?]. cbn in *. congruence.
  - intros I. exists u. split; [exact I|]. unfold upd_eqb, pair_eqb. rewrite !Nat.eqb_refl. reflexivity.
Qed.

Section Dot.
Variable demangle : string -> string.
Variable tname : nat -> string.
Variables oName uName : nat -> nat -> string.
Variable evs : list tev.
Variables nm lbl : kind -> nat -> nat -> string.
Hypothesis Nm : named demangle tname oName uName evs nm lbl.
Local Notation T := (tlogOf evs).
Local Notation L := (theLog evs).
Local Notation outName := (outName demangle tname oName).
Local Notation inName := (inName demangle tname oName).
Local Notation upName := (upName demangle tname uName).

Lemma outName_ok n o : known evs n -> outName (tl_types T) (n, o) = Ok (nm KOut n o).
Proof.
  intros K. destruct (known_ok evs n K) as (t & E & N). unfold DotModel.outName, nodeName. cbn [fst snd]. rewrite E. cbn [bind].
  rewrite (proj2 Nm KOut n o t N), (proj1 Nm KOut n o). reflexivity.
Qed.
Lemma inName_ok m n o : known evs n -> inName (tl_types T) (m, n, o) = Ok (nm KIn n o).
Proof.
  intros K. destruct (known_ok evs n K) as (t & E & N). unfold DotModel.inName, nodeName. cbn [fst snd]. rewrite E. cbn [bind].
  rewrite (proj2 Nm KIn n o t N), (proj1 Nm KIn n o). reflexivity.
Qed.
Lemma upName_ok n u f : known evs n -> upName (tl_types T) (n, u, f) = Ok (nm KUp n u).
Proof.
  intros K. destruct (known_ok evs n K) as (t & E & N). unfold DotModel.upName, nodeName. cbn [fst snd]. rewrite E. cbn [bind].
  rewrite (proj2 Nm KUp n u t N), (proj1 Nm KUp n u). reflexivity.
Qed.

(* the sets *)
Lemma outputsOf_In v n o : In (n, o) (outputsOf T v) <-> n = v /\ isOutput L n o.
Proof.
  unfold outputsOf. rewrite (setOf_In outKey 2 outKey_len outKey_inj), filter_In, log_of. cbn [fst]. rewrite Nat.eqb_eq. unfold allOutputs, isOutput.
  rewrite in_app_iff, in_map_iff. split.
  - intros [[I|([[m s] i] & E & I)] ->]; [tauto|]. cbn [fst snd] in E. injection E as -> ->. split; [reflexivity|]. right. eauto.
  - intros [-> [I|[m I]]]; [tauto|]. split; [|reflexivity]. right. exists (m, v, o). auto.
Qed.
Lemma updatesOf_In v x : In x (updatesOf T v) <-> fst (fst x) = v /\ In x (lgUpd L).
Proof. unfold updatesOf. rewrite (setOf_In updKey 3 updKey_len updKey_inj), filter_In, log_of, Nat.eqb_eq. tauto. Qed.
Lemma inputsFrom_In v x : In x (inputsFrom T v) <-> snd (fst x) = v /\ In x (lgInp L).
Proof. unfold inputsFrom. rewrite (setOf_In inpKey 3 inpKey_len inpKey_inj), filter_In, log_of, Nat.eqb_eq. tauto. Qed.
Lemma outputsOf_NoDup v : NoDup (outputsOf T v).
Proof. apply (setOf_NoDup outKey 2 outKey_len outKey_inj). Qed.
Lemma updatesOf_NoDup v : NoDup (updatesOf T v).
Proof. apply (setOf_NoDup updKey 3 updKey_len updKey_inj). Qed.
Lemma isOutput_known n o : isOutput L n o -> known evs n.
Proof. intros [I|[m I]]; [exact (known_out _ _ _ I)|exact (proj2 (known_inp _ _ _ _ I))]. Qed.

(* the searches *)
Lemma findUpdate_spec n u : match findUpdate (updatesOf T n) n u with
  | Ok y => exists f, y = (n, u, f) /\ In (n, u, f) (lgUpd L) /\ forall g, In (n, u, g) (lgUpd L) -> f <= g
  | Throw => ~ exists f, In (n, u, f) (lgUpd L)
  | UB => False end.
Proof.
  unfold findUpdate, findR. change upd_ with (nat * nat * nat)%type. destruct (@find (nat * nat * nat) (fun u0 : nat * nat * nat => (fst (fst u0) =? n) && (snd (fst u0) =? u)) (updatesOf T n)) as [y|] eqn:E; cbv beta iota.
  - apply (find_least updKey) in E; [|apply (setOf_sorted updKey 3 updKey_len updKey_inj)].
    destruct E as (I & P & M). apply andb_true_iff in P as [P1 P2]. apply Nat.eqb_eq in P1, P2. destruct y as [[n' u'] f]. cbn [fst snd] in *. subst n' u'.
    exists f. split; [reflexivity|]. apply updatesOf_In in I as [_ I]. split; [exact I|]. intros g J. destruct (M (n, u, g)) as [E|E].
    + apply updatesOf_In. auto.
    + cbn [fst snd]. rewrite !Nat.eqb_refl. reflexivity.
    + injection E as ->. lia.
    + unfold lt_, updKey in E. cbn [fst snd lexLess] in E. rewrite !Nat.ltb_irrefl, !Nat.eqb_refl, andb_false_r, orb_false_r in E. cbn [orb andb] in E.
      apply Nat.ltb_lt in E. lia.
  - intros [f I]. assert (J : In (n, u, f) (updatesOf T n)) by (apply updatesOf_In; auto). apply (find_none _ _ E) in J. cbn [fst snd] in J. rewrite !Nat.eqb_refl in J. discriminate.
Qed.
Lemma findInput_spec l n s i P0 : (In (n, s, i) l <-> P0) -> match findInput l n s i with Ok x => x = (n, s, i) /\ P0 | Throw => ~ P0 | UB => False end.
Proof.
  intros W.
  unfold findInput. pose proof (findR_spec (fun i0 : nat * nat * nat => (fst (fst i0) =? n) && (snd i0 =? i) && (snd (fst i0) =? s)) l) as S. destruct (findR (fun i0 : nat * nat * nat => (fst (fst i0) =? n) && (snd i0 =? i) && (snd (fst i0) =? s)) l) as [[[n' s'] i']| |]; [| |exact S].
  - destruct S as [I P]. cbn [fst snd] in P. rewrite !andb_true_iff, !Nat.eqb_eq in P. destruct P as [[-> ->] ->]. tauto.
  - intros I. apply W, S in I. cbn [fst snd] in I. rewrite !Nat.eqb_refl in I. discriminate.
Qed.
Lemma findOut_ok v n o : v = n -> isOutput L n o -> findOut (outputsOf T v) n o = Ok (n, o).
Proof.
  intros -> I. unfold findOut. pose proof (findR_spec (fun o0 : out_ => (fst o0 =? n) && (snd o0 =? o)) (outputsOf T n)) as S. change out_ with (nat * nat)%type. change out_ with (nat * nat)%type in S. destruct (findR (fun o0 : nat * nat => (fst o0 =? n) && (snd o0 =? o)) (outputsOf T n)) as [[n' o']| |]; [| |destruct S].
  - destruct S as [_ P]. cbn [fst snd] in P. rewrite andb_true_iff, !Nat.eqb_eq in P. destruct P as [-> ->]. reflexivity.
  - assert (J : In (n, o) (outputsOf T n)) by (apply outputsOf_In; auto). apply S in J. cbn [fst snd] in J. rewrite !Nat.eqb_refl in J. discriminate.
Qed.

Section Whole.
Variable oh : list out_.
Variable uh : list upd_.
Lemma litU_least n u f : In (n, u, f) (lgUpd L) -> (forall g, In (n, u, g) (lgUpd L) -> f <= g) -> (litU uh (n, u, f) = true <-> litLeast L uh n u).
Proof.
  intros I M. unfold litU. rewrite existsb_upd. split; [intros J; exists f; auto|]. intros (g & J1 & J2 & J3). assert (f = g) by (pose proof (M g J1); pose proof (J2 f I); lia). subst g. exact J3.
Qed.
Lemma edgeIn_spec n u s i : match edgeIn demangle tname oName uName T oh uh (n, u, s, i) with
  | Ok e => inEdge nm (inOuts oh) (litLeast L uh) (n, u, s, i) e /\ (In (n, s, i) (lgInp L) /\ exists f, In (n, u, f) (lgUpd L))
  | Throw => ~ (In (n, s, i) (lgInp L) /\ exists f, In (n, u, f) (lgUpd L))
  | UB => False end.
Proof.
  cbn [edgeIn]. pose proof (findInput_spec (inputsFrom T s) n s i _ (inputsFrom_In s (n, s, i))) as S. cbn [fst snd] in S.
  destruct (findInput (inputsFrom T s) n s i) as [x| |]; cbn [bind]; [|tauto|exact S]. destruct S as [-> [_ I]].
  pose proof (findUpdate_spec n u) as S. destruct (findUpdate (updatesOf T n) n u) as [y| |]; cbn [bind]; [|tauto|exact S]. destruct S as (f & -> & J & M).
  cbn [fst snd]. rewrite (outName_ok s i (proj2 (known_inp _ _ _ _ I))). cbn [bind]. rewrite (upName_ok n u f (known_upd _ _ _ _ J)). cbn [bind].
  split; [|eauto]. cbn [inEdge]. eexists. split; [reflexivity|]. rewrite andb_true_iff, (litU_least n u f J M). unfold litO, inOuts. rewrite existsb_pair. tauto.
Qed.
Lemma edgeOut_spec n o u : In (n, o, u) (lgOutDep L) -> match edgeOut demangle tname oName uName T oh uh (n, o, u) with
  | Ok e => outEdge nm (inOuts oh) (litLeast L uh) (n, o, u) e /\ (exists f, In (n, u, f) (lgUpd L))
  | Throw => ~ (exists f, In (n, u, f) (lgUpd L))
  | UB => False end.
Proof.
  intros D. assert (O : isOutput L n o) by (left; apply out_logged; left; eauto).
  cbn [edgeOut]. pose proof (findUpdate_spec n u) as S. destruct (findUpdate (updatesOf T n) n u) as [y| |]; cbn [bind]; [|tauto|exact S]. destruct S as (f & -> & J & M).
  rewrite (findOut_ok n n o eq_refl O). cbn [bind]. rewrite (upName_ok n u f (known_upd _ _ _ _ J)). cbn [bind]. rewrite (outName_ok n o (known_upd _ _ _ _ J)). cbn [bind].
  split; [|eauto]. cbn [outEdge]. eexists. split; [reflexivity|]. rewrite andb_true_iff, (litU_least n u f J M). unfold litO, inOuts. rewrite existsb_pair. tauto.
Qed.
Lemma edgeInt_spec n ud u : match edgeInt demangle tname uName T uh (n, ud, u) with
  | Ok e => intEdge nm (litLeast L uh) (n, ud, u) e /\ ((exists f, In (n, u, f) (lgUpd L)) /\ exists f, In (n, ud, f) (lgUpd L))
  | Throw => ~ ((exists f, In (n, u, f) (lgUpd L)) /\ exists f, In (n, ud, f) (lgUpd L))
  | UB => False end.
Proof.
  cbn [edgeInt]. pose proof (findUpdate_spec n u) as S. destruct (findUpdate (updatesOf T n) n u) as [y| |]; cbn [bind]; [|tauto|exact S]. destruct S as (f & -> & J & M).
  pose proof (findUpdate_spec n ud) as S. destruct (findUpdate (updatesOf T n) n ud) as [y| |]; cbn [bind]; [|tauto|exact S]. destruct S as (f' & -> & J' & M').
  rewrite (upName_ok n u f (known_upd _ _ _ _ J)). cbn [bind]. rewrite (upName_ok n ud f' (known_upd _ _ _ _ J')). cbn [bind].
  split; [|eauto]. cbn [intEdge]. eexists. split; [reflexivity|]. rewrite andb_true_iff, (litU_least n u f J M), (litU_least n ud f' J' M'). tauto.
Qed.
Lemma edgeDir_spec n o s i : In (n, o, s, i) (lgDir L) -> match edgeDir demangle tname oName T oh (n, o, s, i) with
  | Ok e => dirEdge nm (inOuts oh) (n, o, s, i) e /\ In (n, s, i) (lgInp L)
  | Throw => ~ In (n, s, i) (lgInp L)
  | UB => False end.
Proof.
  intros D. assert (O : isOutput L n o) by (left; apply out_logged; right; eauto).
  cbn [edgeDir]. pose proof (findInput_spec (inputsFrom T s) n s i _ (inputsFrom_In s (n, s, i))) as S. cbn [fst snd] in S.
  destruct (findInput (inputsFrom T s) n s i) as [x| |]; cbn [bind]; [|tauto|exact S]. destruct S as [-> [_ I]].
  rewrite (findOut_ok n n o eq_refl O). cbn [bind]. cbn [fst snd]. rewrite (outName_ok s i (proj2 (known_inp _ _ _ _ I))). cbn [bind].
  rewrite (outName_ok n o (isOutput_known _ _ O)). cbn [bind].
  split; [|exact I]. cbn [dirEdge]. eexists. split; [reflexivity|]. rewrite andb_true_iff. unfold litO, inOuts. rewrite !existsb_pair. tauto.
Qed.

Lemma drawUp_ok x : In x (lgUpd L) -> exists s, drawUp demangle tname uName T uh x = Ok s /\ upStmt nm lbl (inUpds uh) x s.
Proof.
  destruct x as [[n u] f]. intros I. unfold drawUp. rewrite (upName_ok n u f (known_upd _ _ _ _ I)). cbn [bind fst snd]. eexists. split; [reflexivity|].
  cbn [upStmt]. rewrite (proj1 Nm KUp n u). eexists. split; [reflexivity|]. unfold litU, inUpds. apply existsb_upd.
Qed.
Lemma drawOut_ok n o : isOutput L n o -> exists s, drawOut demangle tname oName T oh (n, o) = Ok s /\ outStmt nm lbl (inOuts oh) L (n, o) s.
Proof.
  intros I. unfold drawOut. rewrite (outName_ok n o (isOutput_known _ _ I)). cbn [bind fst snd]. eexists. split; [reflexivity|].
  cbn [outStmt]. rewrite (proj1 Nm KOut n o). eexists. eexists. split; [reflexivity|]. split; [|unfold litO, inOuts; apply existsb_pair].
  unfold isAlsoInput. rewrite log_of, existsb_exists. split.
  - intros ([[m s] i] & J & E). unfold pair_eqb in E. cbn [fst snd] in E. apply andb_true_iff in E as [E1 E2]. apply Nat.eqb_eq in E1, E2. subst. eauto.
  - intros [m J]. exists (m, n, o). split; [exact J|]. unfold pair_eqb. cbn [fst snd]. rewrite !Nat.eqb_refl. reflexivity.
Qed.
Lemma draw_spec m : forall c, (forall v ts, In (v, ts) m -> exists ts' t, ts = ts' ++ [t] /\ lastNewType evs v t) ->
  exists d, drawObjects demangle tname oName uName T oh uh c m = Ok d /\
    Forall2 (outStmt nm lbl (inOuts oh) L) (flat_map (outputsOf T) (map fst m)) (filter isOut d) /\
    Forall2 (upStmt nm lbl (inUpds uh)) (flat_map (updatesOf T) (map fst m)) (filter isUp d) /\
    filter isIn d = [] /\ filter isEdge d = [] /\
    Forall2 (fun p s => exists t, lastNewType evs (snd p) t /\ s = SCluster (fst p) (clean demangle false (tname t))) (combine (seq c (List.length m)) (map fst m)) (filter isCluster d).
Proof.
  induction m as [|[v ts] m IH]; intros c H.
  - exists []. repeat split; constructor.
  - destruct (H v ts (or_introl eq_refl)) as (ts' & t & -> & Lt). cbn [drawObjects]. rewrite back_snoc. cbn [bind].
    destruct (mapM_ok (drawUp demangle tname uName T uh) (upStmt nm lbl (inUpds uh)) (updatesOf T v)) as (us & -> & Fu).
    { intros x I. apply updatesOf_In in I as [_ I]. exact (drawUp_ok x I). }
    destruct (mapM_ok (drawOut demangle tname oName T oh) (outStmt nm lbl (inOuts oh) L) (outputsOf T v)) as (os & -> & Fo).
    { intros [n o] I. apply outputsOf_In in I as [_ I]. exact (drawOut_ok n o I). }
    destruct (IH (S c) (fun w tw I => H w tw (or_intror I))) as (d & -> & D1 & D2 & D3 & D4 & D5). cbn [bind].
    assert (Su : forall x s, upStmt nm lbl (inUpds uh) x s -> exists a b c, s = SUp a b c) by (intros [[? ?] ?] s (o & -> & _); eauto).
    assert (So : forall x s, outStmt nm lbl (inOuts oh) L x s -> exists a b c d, s = SOut a b c d) by (intros [? ?] s (o & o' & -> & _); eauto).
    eexists. split; [reflexivity|]. cbn [filter isOut isUp isIn isEdge isCluster map fst flat_map List.length seq combine]. rewrite !filter_app.
    rewrite (filter_none _ isOut _ _ Fu), (filter_all _ isOut _ _ Fo) by (intros x s X; first [apply So in X as (? & ? & ? & ? & ->)|apply Su in X as (? & ? & ? & ->)]; reflexivity).
    rewrite (filter_none _ isUp _ _ Fo), (filter_all _ isUp _ _ Fu) by (intros x s X; first [apply So in X as (? & ? & ? & ? & ->)|apply Su in X as (? & ? & ? & ->)]; reflexivity).
    rewrite (filter_none _ isIn _ _ Fo), (filter_none _ isIn _ _ Fu) by (intros x s X; first [apply So in X as (? & ? & ? & ? & ->)|apply Su in X as (? & ? & ? & ->)]; reflexivity).
    rewrite (filter_none _ isEdge _ _ Fo), (filter_none _ isEdge _ _ Fu) by (intros x s X; first [apply So in X as (? & ? & ? & ? & ->)|apply Su in X as (? & ? & ? & ->)]; reflexivity).
    rewrite (filter_none _ isCluster _ _ Fo), (filter_none _ isCluster _ _ Fu) by (intros x s X; first [apply So in X as (? & ? & ? & ? & ->)|apply Su in X as (? & ? & ? & ->)]; reflexivity).
    cbn [app]. split; [apply Forall2_app; assumption|]. split; [apply Forall2_app; assumption|]. split; [exact D3|]. split; [exact D4|].
    constructor; [|exact D5]. exists t. auto.
Qed.
Lemma types_ok v ts : In (v, ts) (tl_types T) -> exists ts' t, ts = ts' ++ [t] /\ lastNewType evs v t.
Proof.
  rewrite types_regs. intros I. apply assocN_In in I; [|apply sorted_nodup, regs_sorted].
  destruct (regs_spec (allTold evs) v) as [[E _]|(ts' & t & E & _ & G)]; [congruence|]. exists ts', t. split; [congruence|exact G].
Qed.
Lemma types_keys v : In v (map fst (tl_types T)) <-> known evs v.
Proof.
  rewrite types_regs. split.
  - intros I. apply in_map_iff in I as ([w ts] & E & I). cbn [fst] in E. subst w. apply assocN_In in I; [|apply sorted_nodup, regs_sorted].
    destruct (regs_spec (allTold evs) v) as [[E _]|(ts' & t & E & F & _)]; [congruence|]. exists t. apply F. apply in_app_iff. right. left. reflexivity.
  - intros [t I]. destruct (regs_spec (allTold evs) v) as [[_ F]|(ts' & t' & E & _)]; [destruct (F t I)|].
    destruct (in_dec Nat.eq_dec v (map fst (regs (allTold evs)))) as [J|J]; [exact J|]. rewrite (assocN_None v _ J) in E. discriminate.
Qed.
Lemma keys_NoDup : NoDup (map fst (tl_types T)).
Proof. rewrite types_regs. apply sorted_nodup, regs_sorted. Qed.

Ltac edge_shape X := match type of X with
  | inEdge _ _ _ ?x _ => destruct x as [[[? ?] ?] ?] | outEdge _ _ _ ?x _ => destruct x as [[? ?] ?]
  | intEdge _ _ ?x _ => destruct x as [[? ?] ?] | dirEdge _ _ ?x _ => destruct x as [[[? ?] ?] ?] end; destruct X as (? & -> & _).
Lemma whole_spec : match generateDot demangle tname oName uName T oh uh with
  | Ok d => complete L /\ shows nm lbl (inOuts oh) (inUpds uh) (litLeast L uh) L d /\ clusters demangle tname evs d
  | Throw => ~ complete L
  | UB => False end.
Proof.
  unfold generateDot. destruct (draw_spec (tl_types T) 1 types_ok) as (d & -> & D1 & D2 & D3 & D4 & D5). cbn [bind]. rewrite log_of.
  pose proof (mapM_spec (edgeIn demangle tname oName uName T oh uh) (inEdge nm (inOuts oh) (litLeast L uh)) (fun d => let '(n, u, s, i) := d in In (n, s, i) (lgInp L) /\ exists f, In (n, u, f) (lgUpd L)) (lgInDep L)
    ltac:(intros [[[n u] s] i] _; apply edgeIn_spec)) as S1.
  destruct (mapM _ (lgInDep L)) as [e1| |]; cbn [bind]; [| |exact S1].
  2: { destruct S1 as ([[[n u] s] i] & I & N). intros [C _]. apply N. exact (C _ _ _ _ I). }
  pose proof (mapM_spec (edgeOut demangle tname oName uName T oh uh) (outEdge nm (inOuts oh) (litLeast L uh)) (fun d => let '(n, o, u) := d in exists f, In (n, u, f) (lgUpd L)) (lgOutDep L)
    ltac:(intros [[n o] u] I; apply edgeOut_spec; exact I)) as S2.
  destruct (mapM _ (lgOutDep L)) as [e2| |]; cbn [bind]; [| |exact S2].
  2: { destruct S2 as ([[n o] u] & I & N). intros (_ & C & _). apply N. exact (C _ _ _ I). }
  pose proof (mapM_spec (edgeInt demangle tname uName T uh) (intEdge nm (litLeast L uh)) (fun d => let '(n, ud, u) := d in (exists f, In (n, u, f) (lgUpd L)) /\ exists f, In (n, ud, f) (lgUpd L)) (lgIntDep L)
    ltac:(intros [[n o] u] I; apply edgeInt_spec)) as S3.
  destruct (mapM _ (lgIntDep L)) as [e3| |]; cbn [bind]; [| |exact S3].
  2: { destruct S3 as ([[n o] u] & I & N). intros (_ & _ & C & _). apply N. exact (C _ _ _ I). }
  pose proof (mapM_spec (edgeDir demangle tname oName T oh) (dirEdge nm (inOuts oh)) (fun d => let '(n, o, s, i) := d in In (n, s, i) (lgInp L)) (lgDir L)
    ltac:(intros [[[n o] s] i] I; apply edgeDir_spec; exact I)) as S4.
  destruct (mapM _ (lgDir L)) as [e4| |]; cbn [bind]; [| |exact S4].
  2: { destruct S4 as ([[[n u] s] i] & I & N). intros (_ & _ & _ & C). apply N. exact (C _ _ _ _ I). }
  destruct S1 as [E1 Q1], S2 as [E2 Q2], S3 as [E3 Q3], S4 as [E4 Q4]. split.
  { split; [intros n u s i I; exact (Q1 _ I)|]. split; [intros n o u I; exact (Q2 _ I)|]. split; [intros n ud u I; exact (Q3 _ I)|intros n o s i I; exact (Q4 _ I)]. }
  assert (NE : forall q, (forall a b c, q (SEdge a b c) = false) -> filter q (d ++ e1 ++ e2 ++ e3 ++ e4) = filter q d).
  { intros q Hq. rewrite !filter_app. rewrite (filter_none _ q _ _ E1), (filter_none _ q _ _ E2), (filter_none _ q _ _ E3), (filter_none _ q _ _ E4)
      by (intros x s X; edge_shape X; apply Hq). rewrite !app_nil_r. reflexivity. }
  split.
  - split; [|split; [|split]].
    + rewrite NE by reflexivity. eexists. split; [|split; [|exact D1]].
      * apply (NoDup_concat _ fst); [apply keys_NoDup|apply outputsOf_NoDup|]. intros v [n o] I. apply outputsOf_In in I. cbn. tauto.
      * intros n o. rewrite in_flat_map. split.
        -- intros (v & _ & I). apply outputsOf_In in I. tauto.
        -- intros I. exists n. split; [apply types_keys, (isOutput_known n o I)|]. apply outputsOf_In. auto.
    + rewrite NE by reflexivity. eexists. split; [|split; [|exact D2]].
      * apply (NoDup_concat _ (fun x => fst (fst x))); [apply keys_NoDup|apply updatesOf_NoDup|]. intros v x I. apply updatesOf_In in I. tauto.
      * intros [[n u] f]. rewrite in_flat_map. split.
        -- intros (v & _ & I). apply updatesOf_In in I. tauto.
        -- intros I. exists n. split; [apply types_keys, (known_upd _ _ _ _ I)|]. apply updatesOf_In. auto.
    + rewrite NE by reflexivity. exact D3.
    + exists e1, e2, e3, e4. rewrite !filter_app, D4.
      rewrite (filter_all _ isEdge _ _ E1), (filter_all _ isEdge _ _ E2), (filter_all _ isEdge _ _ E3), (filter_all _ isEdge _ _ E4)
        by (intros x s X; edge_shape X; reflexivity). auto.
  - exists (map fst (tl_types T)). split; [apply keys_NoDup|]. split; [apply types_keys|]. rewrite NE by reflexivity. rewrite map_length. exact D5.
Qed.
End Whole.

(* one object *)
Section One.
Variable p : nat.
Lemma myInputs_In s x : In x (myInputs T p s) <-> fst (fst x) = p /\ snd (fst x) = s /\ In x (lgInp L).
Proof. unfold myInputs. rewrite (setOf_In inpKey 3 inpKey_len inpKey_inj), filter_In, log_of, andb_true_iff, !Nat.eqb_eq. tauto. Qed.
Lemma myInputs_In' s i : In (p, s, i) (myInputs T p s) <-> In (p, s, i) (lgInp L).
Proof. rewrite myInputs_In. cbn [fst snd]. tauto. Qed.
Lemma mySources_In s : In s (mySources T p) <-> exists i, In (p, s, i) (lgInp L).
Proof.
  unfold mySources. rewrite (setOf_In (fun s => [s]) 1); [|reflexivity|congruence]. rewrite in_map_iff, log_of. split.
  - intros ([[n s'] i] & E & I). apply filter_In in I as [I E']. cbn [fst snd] in *. apply Nat.eqb_eq in E'. subst. eauto.
  - intros [i I]. exists (p, s, i). split; [reflexivity|]. apply filter_In. split; [exact I|]. apply Nat.eqb_refl.
Qed.
Lemma mySources_NoDup : NoDup (mySources T p).
Proof. unfold mySources. apply (setOf_NoDup (fun s => [s]) 1); [reflexivity|congruence]. Qed.
Definition inp_ (x : nat * nat * nat) : stmt := SIn (nm KIn (snd (fst x)) (snd x)) (lbl KIn (snd (fst x)) (snd x)).
Lemma sources_spec l : forall c, exists d, drawSources demangle tname oName T p c l = Ok d /\
  filter isIn d = map inp_ (flat_map (myInputs T p) l) /\ filter isOut d = [] /\ filter isUp d = [] /\ filter isEdge d = [].
Proof.
  induction l as [|s l IH]; intros c; [exists []; auto|]. cbn [drawSources].
  destruct (mapM_ok (draw1In demangle tname oName T) (fun x s => s = inp_ x) (myInputs T p s)) as (is_ & -> & F).
  { intros [[n s'] i] I. apply myInputs_In in I as (E1 & E2 & I). cbn [fst snd] in *. subst n s'. unfold draw1In. rewrite (inName_ok p s i (proj2 (known_inp _ _ _ _ I))). cbn [bind fst snd].
    eexists. split; [reflexivity|]. unfold inp_. cbn [fst snd]. rewrite (proj1 Nm KIn s i). reflexivity. }
  destruct (IH (S c)) as (d & -> & D1 & D2 & D3 & D4). cbn [bind]. eexists. split; [reflexivity|]. cbn [filter isIn isOut isUp isEdge flat_map]. rewrite !filter_app, map_app.
  rewrite (filter_all _ isIn _ _ F), (filter_none _ isOut _ _ F), (filter_none _ isUp _ _ F), (filter_none _ isEdge _ _ F) by (intros x z ->; reflexivity).
  rewrite D1, D2, D3, D4, (Forall2_eq inp_ _ _ F). auto.
Qed.
Lemma edge1In_spec u s i : match edge1In demangle tname oName uName T p (p, u, s, i) with
  | Ok e => e = SEdge (nm KIn s i) (nm KUp p u) false /\ (In (p, s, i) (lgInp L) /\ exists f, In (p, u, f) (lgUpd L))
  | Throw => ~ (In (p, s, i) (lgInp L) /\ exists f, In (p, u, f) (lgUpd L))
  | UB => False end.
Proof.
  cbn [edge1In]. pose proof (findInput_spec (myInputs T p s) p s i _ (myInputs_In' s i)) as S.
  destruct (findInput (myInputs T p s) p s i) as [x| |]; cbn [bind]; [|tauto|exact S]. destruct S as [-> I].
  pose proof (findUpdate_spec p u) as S. destruct (findUpdate (updatesOf T p) p u) as [y| |]; cbn [bind]; [|tauto|exact S]. destruct S as (f & -> & J & M).
  rewrite (inName_ok p s i (proj2 (known_inp _ _ _ _ I))). cbn [bind]. rewrite (upName_ok p u f (known_upd _ _ _ _ J)). cbn [bind]. eauto.
Qed.
Lemma edge1Out_spec o u : In (p, o, u) (lgOutDep L) -> match edge1Out demangle tname oName uName T p (p, o, u) with
  | Ok e => e = SEdge (nm KUp p u) (nm KOut p o) false /\ (exists f, In (p, u, f) (lgUpd L))
  | Throw => ~ (exists f, In (p, u, f) (lgUpd L))
  | UB => False end.
Proof.
  intros D. assert (O : isOutput L p o) by (left; apply out_logged; left; eauto).
  cbn [edge1Out]. pose proof (findUpdate_spec p u) as S. destruct (findUpdate (updatesOf T p) p u) as [y| |]; cbn [bind]; [|tauto|exact S]. destruct S as (f & -> & J & M).
  rewrite (findOut_ok p p o eq_refl O). cbn [bind]. rewrite (upName_ok p u f (known_upd _ _ _ _ J)). cbn [bind]. rewrite (outName_ok p o (known_upd _ _ _ _ J)). cbn [bind]. eauto.
Qed.
Lemma edge1Int_spec ud u : match edge1Int demangle tname uName T p (p, ud, u) with
  | Ok e => e = SEdge (nm KUp p u) (nm KUp p ud) false /\ ((exists f, In (p, u, f) (lgUpd L)) /\ exists f, In (p, ud, f) (lgUpd L))
  | Throw => ~ ((exists f, In (p, u, f) (lgUpd L)) /\ exists f, In (p, ud, f) (lgUpd L))
  | UB => False end.
Proof.
  cbn [edge1Int]. pose proof (findUpdate_spec p u) as S. destruct (findUpdate (updatesOf T p) p u) as [y| |]; cbn [bind]; [|tauto|exact S]. destruct S as (f & -> & J & M).
  pose proof (findUpdate_spec p ud) as S. destruct (findUpdate (updatesOf T p) p ud) as [y| |]; cbn [bind]; [|tauto|exact S]. destruct S as (f' & -> & J' & M').
  rewrite (upName_ok p u f (known_upd _ _ _ _ J)). cbn [bind]. rewrite (upName_ok p ud f' (known_upd _ _ _ _ J')). cbn [bind]. eauto.
Qed.
Lemma edge1Dir_spec o s i : In (p, o, s, i) (lgDir L) -> match edge1Dir demangle tname oName T p (p, o, s, i) with
  | Ok e => e = SEdge (nm KIn s i) (nm KOut p o) false /\ In (p, s, i) (lgInp L)
  | Throw => ~ In (p, s, i) (lgInp L)
  | UB => False end.
Proof.
  intros D. assert (O : isOutput L p o) by (left; apply out_logged; right; eauto).
  cbn [edge1Dir]. pose proof (findInput_spec (myInputs T p s) p s i _ (myInputs_In' s i)) as S.
  destruct (findInput (myInputs T p s) p s i) as [x| |]; cbn [bind]; [|tauto|exact S]. destruct S as [-> I].
  rewrite (findOut_ok p p o eq_refl O). cbn [bind]. rewrite (inName_ok p s i (proj2 (known_inp _ _ _ _ I))). cbn [bind].
  rewrite (outName_ok p o (isOutput_known _ _ O)). cbn [bind]. eauto.
Qed.
Definition e4i (d : nat * nat * nat * nat) : stmt := let '(n, u, s, i) := d in SEdge (nm KIn s i) (nm KUp p u) false.
Definition e3o (d : nat * nat * nat) : stmt := let '(n, o, u) := d in SEdge (nm KUp p u) (nm KOut p o) false.
Definition e3i (d : nat * nat * nat) : stmt := let '(n, ud, u) := d in SEdge (nm KUp p u) (nm KUp p ud) false.
Definition e4d (d : nat * nat * nat * nat) : stmt := let '(n, o, s, i) := d in SEdge (nm KIn s i) (nm KOut p o) false.
Lemma NoDup_map_in {A B} (h : A -> B) l : NoDup l -> (forall x y, In x l -> In y l -> h x = h y -> x = y) -> NoDup (map h l).
Proof.
  induction 1 as [|x l NI N IH]; intros H; [constructor|]. cbn [map]. constructor; [|apply IH; intros a b I J; apply H; right; assumption].
  intros I. apply in_map_iff in I as (y & E & I). apply NI. rewrite <- (H y x (or_intror I) (or_introl eq_refl) E). exact I.
Qed.
Lemma filter_map {A} (q : stmt -> bool) (h : A -> stmt) b l : (forall x, q (h x) = b) -> filter q (map h l) = if b then map h l else [].
Proof. intros H. induction l as [|x l IH]; [destruct b; reflexivity|]. cbn. rewrite H, IH. destruct b; reflexivity. Qed.
Lemma one_spec : match generateDot1 demangle tname oName uName T p with
  | Ok d => completeFor L p /\ shows1 nm lbl L p d
  | Throw => ~ completeFor L p
  | UB => False end.
Proof.
  unfold generateDot1. destruct (sources_spec (mySources T p) 0) as (d & -> & D1 & D2 & D3 & D4). cbn [bind]. rewrite log_of.
  destruct (mapM_ok (draw1Up demangle tname uName T) (fun x s => s = SUp (nm KUp p (snd (fst x))) (lbl KUp p (snd (fst x))) false) (updatesOf T p)) as (us & -> & Fu).
  { intros [[n u] f] I. apply updatesOf_In in I as (E & I). cbn [fst snd] in *. subst n. unfold draw1Up. rewrite (upName_ok p u f (known_upd _ _ _ _ I)). cbn [bind fst snd].
    rewrite (proj1 Nm KUp p u). eauto. }
  destruct (mapM_ok (draw1Out demangle tname oName T) (fun x s => s = SOut (nm KOut p (snd x)) (lbl KOut p (snd x)) false false) (outputsOf T p)) as (os & -> & Fo).
  { intros [n o] I. apply outputsOf_In in I as (E & I). cbn [fst snd] in *. subst n. unfold draw1Out. rewrite (outName_ok p o (isOutput_known _ _ I)). cbn [bind fst snd].
    rewrite (proj1 Nm KOut p o). eauto. }
  cbn [bind]. apply Forall2_eq in Fu, Fo. subst us os.
  assert (S1 := mapM_spec (edge1In demangle tname oName uName T p) (fun d s => s = e4i d) (fun d => let '(n, u, s, i) := d in In (p, s, i) (lgInp L) /\ exists f, In (p, u, f) (lgUpd L))
    (filter (fun d => owner4 d =? p) (lgInDep L))).
  match type of S1 with ?A -> _ => assert (H1 : A) end. { intros [[[n u] s] i] I. apply filter_In in I as [I E]. apply Nat.eqb_eq in E. unfold owner4 in E. cbn [fst] in E. subst n. apply edge1In_spec. }
  specialize (S1 H1). destruct (mapM _ (filter _ (lgInDep L))) as [e1| |]; cbn [bind]; [| |exact S1].
  2: { destruct S1 as ([[[n u] s] i] & I & N). apply filter_In in I as [I E]. apply Nat.eqb_eq in E. unfold owner4 in E. cbn [fst] in E. subst n. intros [C _]. apply N. exact (C _ _ _ I). }
  assert (S2 := mapM_spec (edge1Out demangle tname oName uName T p) (fun d s => s = e3o d) (fun d => let '(n, o, u) := d in exists f, In (p, u, f) (lgUpd L))
    (filter (fun d => owner3 d =? p) (lgOutDep L))).
  match type of S2 with ?A -> _ => assert (H2 : A) end. { intros [[n o] u] I. apply filter_In in I as [I E]. apply Nat.eqb_eq in E. unfold owner3 in E. cbn [fst] in E. subst n. apply edge1Out_spec. exact I. }
  specialize (S2 H2). destruct (mapM _ (filter _ (lgOutDep L))) as [e2| |]; cbn [bind]; [| |exact S2].
  2: { destruct S2 as ([[n o] u] & I & N). apply filter_In in I as [I E]. apply Nat.eqb_eq in E. unfold owner3 in E. cbn [fst] in E. subst n. intros (_ & C & _). apply N. exact (C _ _ I). }
  assert (S3 := mapM_spec (edge1Int demangle tname uName T p) (fun d s => s = e3i d) (fun d => let '(n, ud, u) := d in (exists f, In (p, u, f) (lgUpd L)) /\ exists f, In (p, ud, f) (lgUpd L))
    (filter (fun d => owner3 d =? p) (lgIntDep L))).
  match type of S3 with ?A -> _ => assert (H3 : A) end. { intros [[n o] u] I. apply filter_In in I as [I E]. apply Nat.eqb_eq in E. unfold owner3 in E. cbn [fst] in E. subst n. apply edge1Int_spec. }
  specialize (S3 H3). destruct (mapM _ (filter _ (lgIntDep L))) as [e3| |]; cbn [bind]; [| |exact S3].
  2: { destruct S3 as ([[n o] u] & I & N). apply filter_In in I as [I E]. apply Nat.eqb_eq in E. unfold owner3 in E. cbn [fst] in E. subst n. intros (_ & _ & C & _). apply N. exact (C _ _ I). }
  assert (S4 := mapM_spec (edge1Dir demangle tname oName T p) (fun d s => s = e4d d) (fun d => let '(n, o, s, i) := d in In (p, s, i) (lgInp L))
    (filter (fun d => owner4 d =? p) (lgDir L))).
  match type of S4 with ?A -> _ => assert (H4 : A) end. { intros [[[n u] s] i] I. apply filter_In in I as [I E]. apply Nat.eqb_eq in E. unfold owner4 in E. cbn [fst] in E. subst n. apply edge1Dir_spec. exact I. }
  specialize (S4 H4). destruct (mapM _ (filter _ (lgDir L))) as [e4| |]; cbn [bind]; [| |exact S4].
  2: { destruct S4 as ([[[n u] s] i] & I & N). apply filter_In in I as [I E]. apply Nat.eqb_eq in E. unfold owner4 in E. cbn [fst] in E. subst n. intros (_ & _ & _ & C). apply N. exact (C _ _ _ I). }
  clear H1 H2 H3 H4. destruct S1 as [E1 Q1], S2 as [E2 Q2], S3 as [E3 Q3], S4 as [E4 Q4].
  apply Forall2_eq in E1, E2, E3, E4. subst e1 e2 e3 e4.
  assert (F4 : forall (l : list (nat * nat * nat * nat)) a b c, In (p, a, b, c) l -> In (p, a, b, c) (filter (fun d => owner4 d =? p) l))
    by (intros l a b c I; apply filter_In; split; [exact I|apply Nat.eqb_refl]).
  assert (F3 : forall (l : list (nat * nat * nat)) a b, In (p, a, b) l -> In (p, a, b) (filter (fun d => owner3 d =? p) l))
    by (intros l a b I; apply filter_In; split; [exact I|apply Nat.eqb_refl]).
  split.
  { split; [intros u s i I; exact (Q1 _ (F4 _ _ _ _ I))|]. split; [intros o u I; exact (Q2 _ (F3 _ _ _ I))|]. split; [intros ud u I; exact (Q3 _ (F3 _ _ _ I))|intros o s i I; exact (Q4 _ (F4 _ _ _ _ I))]. }
  unfold shows1. rewrite !filter_app, D1, D2, D3, D4.
  repeat match goal with |- context [filter ?q (map ?h ?l)] =>
    first [rewrite (filter_map q h true l) by (intros; repeat match goal with x : (_ * _)%type |- _ => destruct x end; reflexivity)
          |rewrite (filter_map q h false l) by (intros; repeat match goal with x : (_ * _)%type |- _ => destruct x end; reflexivity)] end.
  cbn [app]. rewrite ?app_nil_r. split; [|split; [|split]].
  - exists (map (fun x => (snd (fst x), snd x)) (flat_map (myInputs T p) (mySources T p))). split; [|split].
    + assert (N : NoDup (flat_map (myInputs T p) (mySources T p))).
      { apply (NoDup_concat _ (fun x => snd (fst x))); [apply mySources_NoDup|intros v; apply (setOf_NoDup inpKey 3 inpKey_len inpKey_inj)|].
        intros v x I. apply myInputs_In in I. tauto. }
      assert (A : forall x, In x (flat_map (myInputs T p) (mySources T p)) -> fst (fst x) = p).
      { intros x I. apply in_flat_map in I as (v & _ & I). apply myInputs_In in I. tauto. }
      apply (NoDup_map_in _ _ N). intros x y I J E. destruct x as [[a b] c], y as [[a' b'] c']. apply A in I, J.
      cbn [fst snd] in *. congruence.
    + intros s i. rewrite in_map_iff. split.
      * intros ([[n s'] i'] & E & I). apply in_flat_map in I as (v & _ & I). apply myInputs_In in I. cbn [fst snd] in *. destruct I as (-> & _ & I). congruence.
      * intros I. exists (p, s, i). split; [reflexivity|]. apply in_flat_map. exists s. split; [apply mySources_In; eauto|]. apply myInputs_In'. exact I.
    + rewrite map_map. reflexivity.
  - exists (map snd (outputsOf T p)). split; [|split].
    + pose proof (outputsOf_NoDup p) as N. assert (A : forall x, In x (outputsOf T p) -> fst x = p) by (intros [n o] I; apply outputsOf_In in I; cbn; tauto).
      apply (NoDup_map_in _ _ N). intros x y I J E. apply A in I, J.
      destruct x as [a b], y as [a' b']. cbn [fst snd] in *. congruence.
    + intros o. rewrite in_map_iff. split.
      * intros ([n o'] & E & I). apply outputsOf_In in I as [-> I]. cbn [snd] in E. congruence.
      * intros I. exists (p, o). split; [reflexivity|]. apply outputsOf_In. auto.
    + rewrite map_map. reflexivity.
  - exists (map (fun x => (snd (fst x), snd x)) (updatesOf T p)). split; [|split].
    + pose proof (updatesOf_NoDup p) as N. assert (A : forall x, In x (updatesOf T p) -> fst (fst x) = p) by (intros x I; apply updatesOf_In in I; tauto).
      apply (NoDup_map_in _ _ N). intros x y I J E. apply A in I, J.
      destruct x as [[a b] c], y as [[a' b'] c']. cbn [fst snd] in *. congruence.
    + intros u f. rewrite in_map_iff. split.
      * intros ([[n u'] f'] & E & I). apply updatesOf_In in I as [E' I]. cbn [fst snd] in *. injection E as -> ->. subst n. exact I.
      * intros I. exists (p, u, f). split; [reflexivity|]. apply updatesOf_In. auto.
    + rewrite map_map. reflexivity.
  - f_equal; [|f_equal; [|f_equal]]; rewrite <- flat_if; apply flat_map_ext; intros; repeat match goal with x : (_ * _)%type |- _ => destruct x end; reflexivity.
Qed.
End One.
End Dot.
