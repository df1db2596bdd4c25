(* Proofs for C75: the drawing of a call graph, the names, the types. *)
From Coq Require Import List Bool Arith String Ascii DecimalString DecimalNat Lia Sorting.Sorted Relations.
Import ListNotations.
From Verif Require Import Base CallGraphModel InputsModel InputsSpec NdModel NdSpec NdProofs2 LgModel LgSpec LgProofs LgProofs2 DotModel DotSpec DotProofs DotProofs2.
Local Open Scope nat_scope.
Local Open Scope list_scope.

Lemma Forall2_impl_in {A B} (P Q : A -> B -> Prop) l ss : Forall2 P l ss -> (forall x s, In x l -> P x s -> Q x s) -> Forall2 Q l ss.
Proof.
  induction 1 as [|x s l ss E F IH]; intros H; [constructor|]. constructor; [apply H; [left; reflexivity|exact E]|]. apply IH. intros y t I. apply H. right. exact I.
Qed.
Lemma shows_ext nm lbl lo lo' lu lu' la la' L d : complete L ->
  (forall n o, lo n o <-> lo' n o) -> (forall n u f, In (n, u, f) (lgUpd L) -> (lu n u f <-> lu' n u f)) -> (forall n u f, In (n, u, f) (lgUpd L) -> (la n u <-> la' n u)) ->
  shows nm lbl lo lu la L d -> shows nm lbl lo' lu' la' L d.
Proof.
  intros (C1 & C2 & C3 & C4) Eo Eu Ea ((outs & O1 & O2 & O3) & (upds & U1 & U2 & U3) & I & e1 & e2 & e3 & e4 & E & E1 & E2 & E3 & E4). split; [|split; [|split; [exact I|]]].
  - exists outs. split; [exact O1|]. split; [exact O2|]. apply (Forall2_impl_in _ _ _ _ O3). intros [n o] s _ (a & b & -> & X & Y). exists a, b. rewrite Y, Eo. tauto.
  - exists upds. split; [exact U1|]. split; [exact U2|]. apply (Forall2_impl_in _ _ _ _ U3). intros [[n u] f] s J (a & -> & X). exists a. apply U2 in J. rewrite X, (Eu _ _ _ J). tauto.
  - exists e1, e2, e3, e4. split; [exact E|]. split; [|split; [|split]].
    + apply (Forall2_impl_in _ _ _ _ E1). intros [[[n u] s0] i] s J (a & -> & X). exists a. destruct (C1 _ _ _ _ J) as [_ [f K]]. rewrite X, Eo, (Ea _ _ _ K). tauto.
    + apply (Forall2_impl_in _ _ _ _ E2). intros [[n o] u] s J (a & -> & X). exists a. destruct (C2 _ _ _ J) as [f K]. rewrite X, Eo, (Ea _ _ _ K). tauto.
    + apply (Forall2_impl_in _ _ _ _ E3). intros [[n o] u] s J (a & -> & X). exists a. destruct (C3 _ _ _ J) as [[f K] [g K']]. rewrite X, (Ea _ _ _ K), (Ea _ _ _ K'). tauto.
    + apply (Forall2_impl_in _ _ _ _ E4). intros [[[n u] s0] i] s J (a & -> & X). exists a. rewrite X, !Eo. tauto.
Qed.
Lemma dangling_incomplete L x : dangling L x -> ~ complete L.
Proof.
  intros D (C1 & C2 & C3 & C4). inversion D as [n o u J K|n o s i J K|n ud u J K|n u s i J K]; subst.
  - destruct (C2 _ _ _ J) as [f I]. exact (K f I).
  - exact (K (C4 _ _ _ _ J)).
  - destruct (C3 _ _ _ J) as [[f I] _]. exact (K f I).
  - exact (K (proj1 (C1 _ _ _ _ J))).
Qed.
Lemma lit_used L start outs upds n u f : oneFunction L -> rightWalk L start outs upds -> In (n, u, f) (lgUpd L) ->
  (inUpds upds n u f <-> usedBy L start (AnUpdate n u)) /\ (litLeast L upds n u <-> usedBy L start (AnUpdate n u)).
Proof.
  intros O (_ & _ & _ & W) I. assert (F : firstFunction L n u f).
  { destruct (firstFunction_ex L n u f I) as [g G]. rewrite (O n u f g I (firstFunction_In _ _ _ _ G)). exact G. }
  assert (X : inUpds upds n u f <-> usedBy L start (AnUpdate n u)) by (unfold inUpds; rewrite W; tauto). split; [exact X|]. rewrite <- X. split.
  - intros (g & J1 & _ & J3). rewrite (O n u f g I J1). exact J3.
  - intros J. exists f. split; [exact I|]. split; [|exact J]. intros g J'. rewrite (O n u f g I J'). lia.
Qed.

Section Dot.
Variable demangle : string -> string.
Variable tname : nat -> string.
Variables oName uName : nat -> nat -> string.
Variable evs : list tev.
Variables nm lbl : kind -> nat -> nat -> string.
Hypothesis Nm : named demangle tname oName uName evs nm lbl.
Local Notation T := (tlogOf evs).
Local Notation L := (theLog evs).
Lemma graph_draw g start : (forall n o, In (n, o) start <-> isGraphOutput L g n o) -> forall fuel, turns L (inputsOfGraph L g) <= fuel ->
  match generateDotOf demangle tname oName uName T fuel g with
  | Ok d => (start = [] /\ d = []) \/
            (start <> [] /\ complete L /\ clusters demangle tname evs d /\
             exists outs upds, rightWalk L start outs upds /\ shows nm lbl (inOuts outs) (inUpds upds) (litLeast L upds) L d)
  | Throw => start <> [] /\ ~ complete L
  | UB => False end.
Proof.
  intros S fuel B. unfold generateDotOf. rewrite log_of. pose proof (graph_spec L g start S fuel B) as G.
  destruct (subGraph fuel L g) as [[outs upds]| |]; cbn [bind]; [| |exact G].
  2: { destruct G as (x & U & D). split; [|exact (dangling_incomplete L x D)]. intros ->. destruct U as (n & o & [] & _). }
  destruct G as [W ND]. assert (X : outs = [] -> upds = [] /\ start = []).
  { intros ->. destruct W as (_ & _ & W1 & W2). destruct start as [|[n o] start'].
    - split; [|reflexivity]. destruct upds as [|[[n u] f] upds']; [reflexivity|]. destruct (proj1 (W2 n u f) (or_introl eq_refl)) as [(n' & o' & [] & _) _].
    - destruct (proj2 (W1 n o)). exists n, o. split; [left; reflexivity|apply rt_refl]. }
  pose proof (whole_spec demangle tname oName uName evs nm lbl Nm outs upds) as Wh. destruct outs as [|o0 outs'].
  - destruct (X eq_refl) as [-> ->]. left. auto.
  - assert (start <> []). { intros ->. destruct W as (_ & _ & W1 & _). destruct o0 as [n o]. destruct (proj1 (W1 n o) (or_introl eq_refl)) as (n' & o' & [] & _). }
    destruct (generateDot demangle tname oName uName T (o0 :: outs') upds) as [d| |]; [right|auto|exact Wh].
    destruct Wh as (C & Sh & Cl). split; [assumption|]. split; [exact C|]. split; [exact Cl|]. exists (o0 :: outs'), upds. auto.
Qed.
Lemma graph_colours g start : oneFunction L -> (forall n o, In (n, o) start <-> isGraphOutput L g n o) -> forall fuel, turns L (inputsOfGraph L g) <= fuel ->
  match generateDotOf demangle tname oName uName T fuel g with
  | Ok d => (start = [] /\ d = []) \/
            (start <> [] /\ complete L /\ clusters demangle tname evs d /\
             shows nm lbl (fun n o => usedBy L start (AnOutput n o)) (fun n u _ => usedBy L start (AnUpdate n u)) (fun n u => usedBy L start (AnUpdate n u)) L d)
  | Throw => start <> [] /\ ~ complete L
  | UB => False end.
Proof.
  intros O S fuel B. pose proof (graph_draw g start S fuel B) as G. destruct (generateDotOf demangle tname oName uName T fuel g) as [d| |]; [|exact G|exact G].
  destruct G as [G|(S1 & C & Cl & outs & upds & W & Sh)]; [left; exact G|right]. split; [exact S1|]. split; [exact C|]. split; [exact Cl|].
  revert Sh. apply shows_ext; [exact C| | |].
  - intros n o. unfold inOuts. destruct W as (_ & _ & W1 & _). apply W1.
  - intros n u f I. apply (lit_used L start outs upds n u f O W I).
  - intros n u f I. apply (lit_used L start outs upds n u f O W I).
Qed.
End Dot.
(* an arrow is in the subgraph as soon as its end is *)
Lemma used_target L start x y : uses L x y -> usedBy L start x -> usedBy L start y.
Proof. intros U (n & o & I & R). exists n, o. split; [exact I|]. apply rt_trans with x; [exact R|apply rt_step; exact U]. Qed.

(* names exist *)
Definition theName (demangle : string -> string) (tname : nat -> string) (oName uName : nat -> nat -> string) (evs : list tev) (k : kind) (v i : nat) : string :=
  match nodeName demangle tname (tl_types (tlogOf evs)) k v (match k with KUp => uName v i | _ => oName v i end) with Ok s => s | _ => EmptyString end.
Definition theLabel (demangle : string -> string) (oName uName : nat -> nat -> string) (k : kind) (v i : nat) : string :=
  clean demangle true (match k with KUp => uName v i | _ => oName v i end).
Lemma named_ex demangle tname oName uName evs : named demangle tname oName uName evs (theName demangle tname oName uName evs) (theLabel demangle oName uName).
Proof.
  split; [reflexivity|]. intros k v i t N. unfold theName, nodeName. pose proof (typeAt_spec evs v) as S. destruct (typeAt _ v) as [t'| |].
  - rewrite (lastNew_fun _ _ _ _ N S). reflexivity.
  - exfalso. destruct N as (l1 & l2 & E & _). apply (S t). rewrite E. apply in_app_iff. right. left. reflexivity.
  - destruct S.
Qed.

(* ---- the histories of the nodes ---- *)
Lemma told_complete H evs : toldBy H (map te_ev evs) ->
  (forall n nd u s i, world H n = Some nd -> depends nd u s i -> hasInput nd s i /\ nUpd nd u <> None) ->
  (forall n nd o us u, world H n = Some nd -> outDep (nDeps nd) o = Some us -> In u us -> nUpd nd u <> None) ->
  (forall n nd v us u, world H n = Some nd -> intDep (nDeps nd) v = Some us -> In u us -> nUpd nd u <> None /\ nUpd nd v <> None) ->
  complete (theLog evs).
Proof.
  intros T C1 C2 C3. unfold theLog.
  assert (R : forall n u, nUpd (stOf H n) u <> None -> exists f, In (n, u, f) (lgUpd (logOf (map te_ev evs)))).
  { intros n u N. destruct (nUpd (stOf H n) u) as [f|] eqn:E; [|congruence]. exists f. apply (log_upd H (map te_ev evs) T). exact E. }
  split; [|split; [|split]].
  - intros n u s i I. apply (log_in H (map te_ev evs) T) in I. destruct (C1 n _ u s i eq_refl I) as [I1 I2]. split; [apply (log_inp H (map te_ev evs) T); exact I1|apply R; exact I2].
  - intros n o u I. apply (log_out H (map te_ev evs) T) in I. destruct I as [us [E I]]. apply R. exact (C2 n _ o us u eq_refl E I).
  - intros n ud u I. apply (log_int H (map te_ev evs) T) in I. destruct I as [us [E I]]. destruct (C3 n _ ud us u eq_refl E I). split; apply R; assumption.
  - intros n o s i I. apply (log_inp H (map te_ev evs) T). apply (log_dir H (map te_ev evs) T) in I. destruct (madeOf H n) as [a HD]. apply (hd_inp _ _ _ _ HD). apply (hd_dir _ _ _ _ HD) in I.
    right. right. destruct I as [sh [oen [sen I]]]. exists sh, oen, sen, o. exact I.
Qed.
Lemma told_oneFunction H evs : toldBy H (map te_ev evs) -> oneFunction (theLog evs).
Proof. intros T n u f g I J. apply (log_upd H (map te_ev evs) T) in I, J. congruence. Qed.

(* ---- names ---- *)
Lemma append_inj_l a : forall b c, String.append a b = String.append a c -> b = c.
Proof. induction a as [|x a IH]; intros b c E; [exact E|]. cbn in E. injection E as E. auto. Qed.
Lemma chars_append a b : chars (String.append a b) = chars a ++ chars b.
Proof. induction a as [|x a IH]; [reflexivity|]. cbn. rewrite IH. reflexivity. Qed.
Lemma chars_inj : forall a b, chars a = chars b -> a = b.
Proof. induction a as [|x a IH]; intros [|y b] E; try discriminate; [reflexivity|]. cbn in E. injection E as -> E. rewrite (IH b E). reflexivity. Qed.
Lemma decimal_digits v : exists c l, chars (NilZero.string_of_uint (Nat.to_uint v)) = c :: l /\ Forall (fun c => isDigit c = true) (c :: l).
Proof.
  assert (G : forall d, Forall (fun c => isDigit c = true) (chars (NilEmpty.string_of_uint d))).
  { induction d; cbn [NilEmpty.string_of_uint chars]; constructor; try reflexivity; assumption. }
  unfold NilZero.string_of_uint. destruct (Nat.to_uint v) as [|d|d|d|d|d|d|d|d|d|d]; cbn [NilEmpty.string_of_uint chars];
    (eexists; eexists; split; [reflexivity|constructor; [reflexivity|first [apply G|constructor]]]).
Qed.
Lemma decimal_inj v w : NilZero.string_of_uint (Nat.to_uint v) = NilZero.string_of_uint (Nat.to_uint w) -> v = w.
Proof.
  assert (D : forall v, option_map Nat.of_uint (NilZero.uint_of_string (NilZero.string_of_uint (Nat.to_uint v))) = Some v).
  { intros u. pose proof (DecimalNat.Unsigned.of_to u) as O. destruct (Nat.to_uint u) as [|d|d|d|d|d|d|d|d|d|d] eqn:E.
    - cbn in *. congruence.
    - rewrite NilZero.usu by discriminate. cbn [option_map]. congruence.
    - rewrite NilZero.usu by discriminate. cbn [option_map]. congruence.
    - rewrite NilZero.usu by discriminate. cbn [option_map]. congruence.
    - rewrite NilZero.usu by discriminate. cbn [option_map]. congruence.
    - rewrite NilZero.usu by discriminate. cbn [option_map]. congruence.
    - rewrite NilZero.usu by discriminate. cbn [option_map]. congruence.
    - rewrite NilZero.usu by discriminate. cbn [option_map]. congruence.
    - rewrite NilZero.usu by discriminate. cbn [option_map]. congruence.
    - rewrite NilZero.usu by discriminate. cbn [option_map]. congruence.
    - rewrite NilZero.usu by discriminate. cbn [option_map]. congruence. }
  intros E. pose proof (D v) as Dv. rewrite E, (D w) in Dv. congruence.
Qed.
(* the characters up to the first one with another value of q *)
Lemma span_eq (q : ascii -> bool) b a : forall a' c l c' l', Forall (fun x => q x = b) a -> Forall (fun x => q x = b) a' -> q c = negb b -> q c' = negb b ->
  a ++ c :: l = a' ++ c' :: l' -> a = a' /\ c :: l = c' :: l'.
Proof.
  induction a as [|x a IH]; intros [|y a'] c l c' l' F F' Q Q' E; cbn [app] in E.
  - auto.
  - exfalso. injection E as -> _. inversion F'; subst. destruct (q y); cbn in *; congruence.
  - exfalso. injection E as -> _. inversion F; subst. destruct (q c'); cbn in *; congruence.
  - injection E as -> E. inversion F; inversion F'; subst. destruct (IH a' c l c' l') as [-> E']; auto.
Qed.
Lemma suffix_inj k k' a b : String.append (suffix k) a = String.append (suffix k') b -> k = k' /\ a = b.
Proof. destruct k, k'; cbn; intros E; try discriminate; injection E as E; auto. Qed.
Lemma suffix_char k a : exists l, chars (String.append (suffix k) a) = "_"%char :: l.
Proof. destruct k; cbn; eauto. Qed.
Lemma name_split P v k a P' v' k' a' : Forall (fun c => isDigit c = false) (chars P) -> Forall (fun c => isDigit c = false) (chars P') ->
  String.append P (String.append (NilZero.string_of_uint (Nat.to_uint v)) (String.append (suffix k) a)) =
  String.append P' (String.append (NilZero.string_of_uint (Nat.to_uint v')) (String.append (suffix k') a')) -> P = P' /\ v = v' /\ k = k' /\ a = a'.
Proof.
  intros F F' E. apply (f_equal chars) in E. rewrite !chars_append in E. destruct (decimal_digits v) as (c & l & Dv & Fv). destruct (decimal_digits v') as (c' & l' & Dv' & Fv').
  rewrite Dv, Dv' in E. cbn [app] in E. inversion Fv as [|? ? Fc Fl]; subst. inversion Fv' as [|? ? Fc' Fl']; subst.
  apply (span_eq isDigit false) in E as [E1 E]; [|assumption..]. apply chars_inj in E1. subst P'. split; [reflexivity|].
  assert (E2 : (c :: l) ++ chars (String.append (suffix k) a) = (c' :: l') ++ chars (String.append (suffix k') a')) by (rewrite !chars_append; exact E).
  destruct (suffix_char k a) as [z Z]. destruct (suffix_char k' a') as [z' Z']. pose proof E2 as E3. rewrite Z, Z' in E3.
  apply (span_eq isDigit true) in E3 as [E3 E4]; [|assumption|assumption|reflexivity|reflexivity]. rewrite <- Dv, <- Dv' in E3. apply chars_inj, decimal_inj in E3.
  split; [exact E3|]. rewrite <- Z, <- Z' in E4. apply chars_inj, suffix_inj in E4. exact E4.
Qed.
Section Unique.
Variable demangle : string -> string.
Variable tname : nat -> string.
Variables oName uName : nat -> nat -> string.
Variable evs : list tev.
Variables nm lbl : kind -> nat -> nat -> string.
Hypothesis Nm : named demangle tname oName uName evs nm lbl.
Lemma names_owner k v i k' i' : (exists t, In (v, t) (allTold evs)) -> nm k v i = nm k' v i' -> k = k' /\ lbl k v i = lbl k' v i'.
Proof.
  intros K E. destruct (known_ok evs v K) as (a & _ & N). rewrite (proj2 Nm k v i a N), (proj2 Nm k' v i' a N) in E. apply append_inj_l, append_inj_l, suffix_inj in E. exact E.
Qed.
Lemma names_digits k v i k' v' i' t t' : lastNewType evs v t -> lastNewType evs v' t' ->
  Forall (fun c => isDigit c = false) (chars (clean demangle true (tname t))) -> Forall (fun c => isDigit c = false) (chars (clean demangle true (tname t'))) ->
  nm k v i = nm k' v' i' -> v = v' /\ k = k' /\ lbl k v i = lbl k' v' i'.
Proof.
  intros N N' F F' E. rewrite (proj2 Nm k v i t N), (proj2 Nm k' v' i' t' N') in E. apply name_split in E; [|assumption|assumption]. tauto.
Qed.
End Unique.
Lemma replace_none a b s : a <> b -> ~ In a (chars (replaceChar a b s)).
Proof.
  intros N. induction s as [|c s IH]; [intros []|]. cbn [replaceChar chars]. intros [E|I]; [|exact (IH I)]. destruct (Ascii.eqb_spec c a); congruence.
Qed.
Lemma replace_keeps a b d s : d <> b -> ~ In d (chars s) -> ~ In d (chars (replaceChar a b s)).
Proof.
  intros N. induction s as [|c s IH]; [intros _ []|]. cbn [replaceChar chars In]. intros M [E|I]; [|exact (IH (fun J => M (or_intror J)) I)].
  destruct (Ascii.eqb_spec c a); [congruence|]. apply M. left. exact E.
Qed.
Lemma replace_id a b s : ~ In a (chars s) -> replaceChar a b s = s.
Proof.
  induction s as [|c s IH]; [reflexivity|]. cbn [replaceChar chars In]. intros M. destruct (Ascii.eqb_spec c a); [tauto|]. rewrite IH by tauto. reflexivity.
Qed.
Lemma clean_chars demangle colons s : ~ In " "%char (chars (clean demangle colons s)) /\ (colons = true -> ~ In ":"%char (chars (clean demangle colons s))).
Proof.
  unfold clean. destruct colons.
  - split; [|intros _; apply replace_none; discriminate]. apply replace_keeps; [discriminate|]. apply replace_none. discriminate.
  - split; [|discriminate]. apply replace_none. discriminate.
Qed.
Lemma clean_id demangle colons s : (forall p, In p namespaces -> String.index 0 (String.append p "::") (demangle s) = None) ->
  ~ In " "%char (chars (demangle s)) -> (colons = true -> ~ In ":"%char (chars (demangle s))) -> clean demangle colons s = demangle s.
Proof.
  intros H S C. assert (R : removeNamespace (demangle s) = demangle s).
  { unfold removeNamespace. revert H. generalize namespaces as l. induction l as [|p l IH]; intros H; [reflexivity|]. cbn [fold_left].
    unfold removeOne at 2. rewrite (H p (or_introl eq_refl)). apply IH. intros q I. apply H. right. exact I. }
  unfold clean. rewrite R, (replace_id " " "_" _ S). destruct colons; [|reflexivity]. apply replace_id. apply C. reflexivity.
Qed.
Lemma promoted_spec evs t v : exists t', getPromotedType (tl_types (tlogOf evs)) t v = Ok t' /\
  (lastNewType evs v t' \/ (t' = t /\ forall a, ~ In (v, a) (allTold evs))).
Proof.
  rewrite types_regs. unfold getPromotedType. destruct (regs_spec (allTold evs) v) as [[E F]|(ts & a & E & F & G)]; rewrite E.
  - exists t. auto.
  - exists a. rewrite back_snoc. auto.
Qed.
