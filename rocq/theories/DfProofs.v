Require Import Reals List Arith Bool Lia Lra.
Require Import Verif.Base Verif.ConeModel Verif.ConeSpec Verif.ConeProofs Verif.DfModel Verif.DfSpec.
Import ListNotations.
Local Open Scope R_scope.

Lemma sumR_ext n f g : (forall i, (i < n)%nat -> f i = g i) -> sumR n f = sumR n g.
Proof. induction n as [|n IH]; intros H; [reflexivity|]. cbn. rewrite IH, (H n); [reflexivity|lia|]. intros i Hi. apply H. lia. Qed.
Lemma sumR_plus n f g : sumR n (fun i => f i + g i) = sumR n f + sumR n g.
Proof. induction n as [|n IH]; cbn; [ring|]. rewrite IH. ring. Qed.
Lemma sumR_scale n k f : sumR n (fun i => k * f i) = k * sumR n f.
Proof. induction n as [|n IH]; cbn; [ring|]. rewrite IH. ring. Qed.

(* the model's contact of a side, with its first variable *)
Definition fcOf (v : nat) (a : part) : fcontact :=
  mkFC (a_id a) (a_lin a) (seq v (length (a_points a))) (a_frame a) (a_points a) (a_dir a) (a_gen a)
    (if a_lin a then flat_map (fun p => map vopp (frictionCone (mscale (a_dir a) (p_rot p)) (a_gen a) (a_mu a) (a_dir a))) (a_points a) else []).
Fixpoint block (c : fcontact) (g : option config) (i v : nat) (ps : list ptr) : list fvar :=
  match ps with
  | [] => []
  | p :: ps => mkFV v (if k_lin c then k_nrGen c else 3%nat) (option_map (fun g => forceJ g c i p) g) :: block c g (S i) (S v) ps
  end.
Definition varsOf (l : list (nat * entry)) : list fvar := flat_map (fun e : nat * entry => let '(v, (a, _, g)) := e in block (fcOf v a) g 0 v (a_points a)) l.
Definition contactsOf (l : list (nat * entry)) : list fcontact := flat_map (fun e : nat * entry => let '(v, (a, alive, _)) := e in if alive : bool then [fcOf v a] else []) l.
Fixpoint size (L : list entry) : nat := match L with [] => 0%nat | e :: L => (length (a_points (fst (fst e))) + size L)%nat end.

Record inv (d : dyn) (robot : nat) (L : list entry) (g : option config) : Prop := mkInv {
  n_robot : y_robot d = robot;
  n_next : y_next d = (2 + size L)%nat;
  n_vars : y_vars d = varsOf (numbered 2 L);
  n_H : y_H d = option_map g_H g;
  n_b : y_b d = option_map g_C g;
  n_contacts : y_contacts d = contactsOf (numbered 2 L) }.

Lemma size_app L L' : size (L ++ L') = (size L + size L')%nat.
Proof. induction L as [|e L IH]; cbn; [reflexivity|]. rewrite IH. lia. Qed.
Lemma numbered_app v L L' : numbered v (L ++ L') = numbered v L ++ numbered (v + size L) L'.
Proof.
  revert v. induction L as [|e L IH]; intros v; cbn; [rewrite Nat.add_0_r; reflexivity|]. rewrite IH. f_equal. f_equal. f_equal. lia.
Qed.
Lemma block_none c v i ps : map (fun v => mkFV v (if k_lin c then k_nrGen c else 3%nat) None) (seq v (length ps)) = block c None i v ps.
Proof. revert v i. induction ps as [|p ps IH]; intros v i; [reflexivity|]. cbn [length seq map block option_map]. f_equal. apply IH. Qed.

(* ---- the ids ---- *)
Lemma cid_same a b : cid_eqb a b = same_id a b.
Proof.
  unfold same_id. destruct (id_dec a b) as [->|N].
  - unfold cid_eqb. rewrite !Nat.eqb_refl. reflexivity.
  - destruct (cid_eqb a b) eqn:E; [|reflexivity]. exfalso. apply N. unfold cid_eqb in E. apply andb_prop in E. destruct E as [E E5].
    apply andb_prop in E. destruct E as [E E4]. apply andb_prop in E. destruct E as [E E3]. apply andb_prop in E. destruct E as [E1 E2].
    apply Nat.eqb_eq in E1, E2, E3, E4, E5. destruct a, b; cbn in *. congruence.
Qed.
(* ---- adding ---- *)
Lemma inv_getContact d robot L g i : inv d robot L g -> (getContact d i = None <-> dadded L i = false) /\ (forall c, getContact d i = Some c -> dadded L i = true).
Proof.
  intros I. unfold getContact. rewrite (n_contacts _ _ _ _ I). unfold dadded. generalize 2%nat. clear. induction L as [|[[a al] g0] L IH]; intros v; [cbn; split; [tauto|discriminate]|].
  cbn [numbered contactsOf flat_map existsb]. destruct al; cbn [app andb orb find].
  - cbn [k_id fcOf]. rewrite cid_same. destruct (same_id (a_id a) i); cbn; [split; [split; discriminate|auto]|]. apply IH.
  - apply IH.
Qed.
Lemma inv_add_ d robot L g a : inv d robot L g -> inv (addContact_ d (a_id a) (a_frame a) (a_points a) (a_lin a) (a_mu a) (a_gen a) (a_dir a)) robot (L ++ [(a, true, None)]) g.
Proof.
  intros [I1 I2 I3 I4 I5 I6]. constructor; cbn [addContact_ y_robot y_next y_vars y_H y_b y_contacts]; auto.
  - rewrite size_app, I2. cbn. lia.
  - rewrite numbered_app. unfold varsOf. rewrite flat_map_app. fold (varsOf (numbered 2 L)). rewrite I3. f_equal. cbn [numbered flat_map]. rewrite app_nil_r, I2.
    rewrite <- (block_none (fcOf (2 + size L) a) (2 + size L) 0 (a_points a)). reflexivity.
  - rewrite numbered_app. unfold contactsOf. rewrite flat_map_app. fold (contactsOf (numbered 2 L)). rewrite I6. f_equal. cbn [numbered flat_map app fst]. rewrite I2. reflexivity.
Qed.
Lemma inv_add d robot L g ct li mu n : inv d robot L g -> inv (fst (addContact d ct li mu n)) robot (hstep robot L (DAdd ct li mu n)) g /\
  (snd (addContact d ct li mu n) = true <-> dadded L (t_id ct) = false /\ parts robot ct li mu n <> []).
Proof.
  intros I. unfold addContact, hstep. destruct (inv_getContact d robot L g (t_id ct) I) as (A & B).
  destruct (getContact d (t_id ct)) as [c|] eqn:E.
  - rewrite (B c eq_refl). split; [exact I|]. cbn. split; [discriminate|intros [? _]; discriminate].
  - rewrite (proj1 A eq_refl). rewrite (n_robot _ _ _ _ I). unfold parts.
    destruct (Nat.eqb (i_r1 (t_id ct)) robot), (Nat.eqb (i_r2 (t_id ct)) robot); cbn [app map fst snd orb].
    + split; [|split; auto; split; [reflexivity|discriminate]].
      pose proof (inv_add_ _ _ _ _ (mkPart (t_id ct) (i_f1 (t_id ct)) (t_p1 ct) 1 li mu n) I) as I1. cbn in I1.
      pose proof (inv_add_ _ _ _ _ (mkPart (t_id ct) (i_f2 (t_id ct)) (t_p2 ct) (-1) li mu n) I1) as I2. cbn in I2. rewrite <- app_assoc in I2. exact I2.
    + split; [|split; auto; split; [reflexivity|discriminate]]. exact (inv_add_ _ _ _ _ (mkPart (t_id ct) (i_f1 (t_id ct)) (t_p1 ct) 1 li mu n) I).
    + split; [|split; auto; split; [reflexivity|discriminate]]. exact (inv_add_ _ _ _ _ (mkPart (t_id ct) (i_f2 (t_id ct)) (t_p2 ct) (-1) li mu n) I).
    + rewrite app_nil_r. split; [exact I|]. split; [discriminate|intros [_ H]; congruence].
Qed.

(* ---- removing ---- *)
Lemma size_stop i L : size (stop i L) = size L.
Proof. induction L as [|[[a al] g] L IH]; [reflexivity|]. cbn [stop]. destruct (al && same_id (a_id a) i); cbn; [reflexivity|]. rewrite IH. reflexivity. Qed.
Lemma inv_remove d robot L g i : inv d robot L g -> inv (removeContact d i) robot (stop i L) g.
Proof.
  intros [I1 I2 I3 I4 I5 I6]. constructor; cbn [removeContact y_robot y_next y_vars y_H y_b y_contacts]; auto.
  - rewrite size_stop. exact I2.
  - rewrite I3. clear. generalize 2%nat. induction L as [|[[a al] g] L IH]; intros v; [reflexivity|]. cbn [stop]. destruct (al && same_id (a_id a) i); [reflexivity|].
    cbn [numbered varsOf flat_map fst]. f_equal. apply IH.
  - rewrite I6. clear. generalize 2%nat. induction L as [|[[a al] g] L IH]; intros v; [reflexivity|]. cbn [stop]. destruct al; cbn [andb].
    + destruct (same_id (a_id a) i) eqn:E; cbn [numbered contactsOf flat_map fst app eraseFirst]; cbn [k_id fcOf]; rewrite cid_same, E; [reflexivity|]. f_equal. apply IH.
    + cbn [numbered contactsOf flat_map fst app]. apply IH.
Qed.

(* ---- updating ---- *)
Lemma setJ_app l l' v J : setJ (l ++ l') v J = setJ l v J ++ setJ l' v J.
Proof. apply map_app. Qed.
Lemma setJ_out l v J : (forall w, In w l -> w_id w <> v) -> setJ l v J = l.
Proof.
  intros H. unfold setJ. rewrite <- (map_id l) at 2. apply map_ext_in. intros w Hw. destruct (Nat.eqb_spec (w_id w) v) as [E|]; [|reflexivity]. exfalso. exact (H w Hw E).
Qed.
Lemma block_ids c g i v ps w : In w (block c g i v ps) -> (v <= w_id w < v + length ps)%nat.
Proof. revert i v. induction ps as [|p ps IH]; intros i v H; [destruct H|]. cbn in H. destruct H as [<-|H]; [cbn; lia|]. apply IH in H. cbn. lia. Qed.
Lemma vars_ids v L w : In w (varsOf (numbered v L)) -> (v <= w_id w)%nat.
Proof.
  revert v. induction L as [|[[a al] g] L IH]; intros v H; [destruct H|]. cbn in H. apply in_app_or in H. destruct H as [H|H]; [apply block_ids in H; lia|]. apply IH in H. lia.
Qed.
Lemma updJ_block g g0 c i v ps pre rest : (forall w, In w pre -> (w_id w < v)%nat) -> (forall w, In w rest -> (v + length ps <= w_id w)%nat) ->
  updJ g c i (seq v (length ps)) ps (pre ++ block c g0 i v ps ++ rest) = pre ++ block c (Some g) i v ps ++ rest.
Proof.
  revert i v pre. induction ps as [|p ps IH]; intros i v pre Hp Hr; [reflexivity|]. cbn [length seq updJ block app option_map].
  assert (E : setJ (pre ++ mkFV v (if k_lin c then k_nrGen c else 3%nat) (option_map (fun g => forceJ g c i p) g0) :: block c g0 (S i) (S v) ps ++ rest) v (forceJ g c i p)
     = (pre ++ [mkFV v (if k_lin c then k_nrGen c else 3%nat) (Some (forceJ g c i p))]) ++ block c g0 (S i) (S v) ps ++ rest).
  { rewrite setJ_app, (setJ_out pre) by (intros w Hw; apply Hp in Hw; lia). cbn [setJ map w_id]. rewrite Nat.eqb_refl. cbn [w_id w_size]. fold (setJ (block c g0 (S i) (S v) ps ++ rest) v (forceJ g c i p)).
    rewrite setJ_out; [rewrite <- app_assoc; reflexivity|]. intros w Hw. apply in_app_or in Hw. destruct Hw as [Hw|Hw]; [apply block_ids in Hw; lia|]. apply Hr in Hw. cbn in Hw. lia. }
  etransitivity; [apply f_equal; exact E|]. rewrite IH.
  - rewrite <- app_assoc. reflexivity.
  - intros w Hw. apply in_app_or in Hw. destruct Hw as [Hw|[<-|[]]]; [apply Hp in Hw; lia|cbn; lia].
  - intros w Hw. apply Hr in Hw. cbn in Hw. lia.
Qed.
Definition updE (g : config) (e : entry) : entry := let '(a, alive, g0) := e in (a, alive, if alive then Some g else g0).
Lemma updE_points g e : fst (fst (updE g e)) = fst (fst e).
Proof. destruct e as [[a al] g0]. reflexivity. Qed.
Lemma size_upd g L : size (map (updE g) L) = size L.
Proof. induction L as [|e L IH]; [reflexivity|]. cbn. rewrite updE_points, IH. reflexivity. Qed.
Lemma fold_updJ g L : forall v pre, (forall w, In w pre -> (w_id w < v)%nat) ->
  fold_left (fun l c => updJ g c 0 (k_forces c) (k_points c) l) (contactsOf (numbered v L)) (pre ++ varsOf (numbered v L)) = pre ++ varsOf (numbered v (map (updE g) L)).
Proof.
  induction L as [|[[a al] g0] L IH]; intros v pre Hp; [reflexivity|]. cbn [map updE numbered contactsOf varsOf flat_map fst]. destruct al.
  - cbn [app fold_left]. cbn [k_forces k_points fcOf]. fold (fcOf v a). rewrite updJ_block; [|exact Hp|intros w Hw; apply vars_ids in Hw; exact Hw].
    rewrite !app_assoc. apply IH. intros w Hw. apply in_app_or in Hw. destruct Hw as [Hw|Hw]; [apply Hp in Hw; lia|apply block_ids in Hw; lia].
  - cbn [app fold_left]. rewrite !app_assoc. apply IH. intros w Hw. apply in_app_or in Hw. destruct Hw as [Hw|Hw]; [apply Hp in Hw; lia|apply block_ids in Hw; lia].
Qed.
Lemma contacts_upd g L v : contactsOf (numbered v (map (updE g) L)) = contactsOf (numbered v L).
Proof. revert v. induction L as [|[[a al] g0] L IH]; intros v; [reflexivity|]. cbn. f_equal. apply IH. Qed.
Lemma inv_update d robot L g0 g : inv d robot L g0 -> inv (update d g) robot (map (updE g) L) (Some g).
Proof.
  intros [I1 I2 I3 I4 I5 I6]. constructor; cbn [update y_robot y_next y_vars y_H y_b y_contacts option_map]; auto.
  - rewrite size_upd. exact I2.
  - rewrite I3, I6. apply (fold_updJ g L 2 []). intros w [].
  - rewrite I6, contacts_upd. reflexivity.
Qed.

(* ---- histories ---- *)
Lemma inv_new robot : inv (newDyn robot) robot [] None.
Proof. constructor; reflexivity. Qed.
Lemma inv_run ops : forall d robot L g, inv d robot L g -> inv (drun d ops) robot (fold_left (hstep robot) ops L) (last_config ops g).
Proof.
  induction ops as [|o ops IH]; intros d robot L g I; [exact I|]. cbn [drun fold_left]. destruct o as [ct li mu n|i|g']; cbn [last_config dstep].
  - apply IH. apply inv_add. exact I.
  - apply IH. apply inv_remove. exact I.
  - apply IH. apply (inv_update d robot L g). exact I.
Qed.
Lemma inv_history robot ops : inv (drun (newDyn robot) ops) robot (history robot ops) (last_config ops None).
Proof. apply inv_run. apply inv_new. Qed.

(* ---- the value ---- *)
Lemma comp_combine (env : nat -> nat -> R) v n gs k : (length gs = n)%nat -> comp (combine3 (map (env v) (seq 0 n)) gs) k = sumR n (fun j => env v j * comp (nth j gs zero3) k).
Proof.
  intros H. assert (G : forall gs (s : nat), comp (combine3 (map (env v) (seq s (length gs))) gs) k = sumR (length gs) (fun j => env v (s + j)%nat * comp (nth j gs zero3) k)).
  { clear. intros gs. induction gs as [|h gs IH]; intros s; [destruct k as [|[|k]]; reflexivity|].
    assert (S1 : forall n f, sumR (S n) f = f 0%nat + sumR n (fun i => f (S i))). { clear. induction n as [|n IH]; intros f; [cbn; ring|]. change (sumR (S (S n)) f) with (sumR (S n) f + f (S n)). rewrite IH. cbn. ring. }
    cbn [length]. rewrite S1. cbn [seq map]. rewrite combine3_cons. specialize (IH (S s)).
    transitivity (env v s * comp h k + comp (combine3 (map (env v) (seq (S s) (length gs))) gs) k); [destruct k as [|[|k]]; reflexivity|].
    rewrite IH, Nat.add_0_r. cbn [nth]. f_equal. apply sumR_ext. intros i _. rewrite Nat.add_succ_r. reflexivity. }
  rewrite <- H. apply (G gs 0%nat).
Qed.
Lemma nth_flat {A B} (f : A -> list B) n (l pre : list A) x (post : list A) j d : (forall y, length (f y) = n) -> l = pre ++ x :: post -> (j < n)%nat ->
  nth (n * length pre + j) (flat_map f l) d = nth j (f x) d.
Proof.
  intros Hf -> Hj. rewrite flat_map_app. rewrite app_nth2.
  - assert (E : length (flat_map f pre) = (n * length pre)%nat). { clear -Hf. induction pre as [|y pre IH]; cbn; [lia|]. rewrite app_length, IH, Hf. lia. }
    rewrite E. replace (n * length pre + j - n * length pre)%nat with j by lia. cbn. apply app_nth1. rewrite Hf. exact Hj.
  - assert (E : length (flat_map f pre) = (n * length pre)%nat). { clear -Hf. induction pre as [|y pre IH]; cbn; [lia|]. rewrite app_length, IH, Hf. lia. }
    rewrite E. lia.
Qed.
Lemma gens_length E n mu d : length (map vopp (frictionCone E n mu d)) = n.
Proof. rewrite map_length. unfold frictionCone. rewrite map_length. apply seq_length. Qed.
Lemma comp_vopp a k : comp (vopp a) k = - comp a k.
Proof. destruct k as [|[|k]]; reflexivity. Qed.
Lemma nth_vopp j l : nth j (map vopp l) zero3 = vopp (nth j l zero3).
Proof. transitivity (nth j (map vopp l) (vopp zero3)); [f_equal; unfold vopp, zero3; cbn; f_equal; ring|]. apply map_nth. Qed.
Lemma sum3 f : sumR 3 f = f 0%nat + f 1%nat + f 2%nat.
Proof. cbn. ring. Qed.

Lemma point_term g env a v i p pre post v0 r : a_points a = pre ++ p :: post -> length pre = i ->
  sumR (if k_lin (fcOf v0 a) then k_nrGen (fcOf v0 a) else 3%nat) (fun j => forceJ g (fcOf v0 a) i p r j * env v j) =
  - sumR 3 (fun k => g_J g (a_frame a) (p_tr p) k r * comp (on_body env a v p) k).
Proof.
  intros Ep Ei. unfold forceJ, on_body. cbn [k_lin k_nrGen k_frame k_dir k_gens fcOf]. destruct (a_lin a); [|cbn; ring].
  set (F := fun p => map vopp (frictionCone (mscale (a_dir a) (p_rot p)) (a_gen a) (a_mu a) (a_dir a))).
  transitivity (sumR (a_gen a) (fun j => sumR 3 (fun k => g_J g (a_frame a) (p_tr p) k r * - (env v j * comp (nth j (frictionCone (mscale (a_dir a) (p_rot p)) (a_gen a) (a_mu a) (a_dir a)) zero3) k)))).
  - apply sumR_ext. intros j Hj. rewrite <- Ei. rewrite (nth_flat F (a_gen a) (a_points a) pre p post j zero3 (fun y => gens_length _ _ _ _) Ep Hj). unfold F. rewrite nth_vopp. rewrite !sum3, !comp_vopp. ring.
  - rewrite !sum3. rewrite !(comp_combine env v (a_gen a)) by (unfold frictionCone; rewrite map_length; apply seq_length).
    set (cone := frictionCone _ _ _ _). generalize (a_gen a). intros n. rewrite (sumR_ext n _ (fun j =>
      (- g_J g (a_frame a) (p_tr p) 0%nat r) * (env v j * comp (nth j cone zero3) 0%nat) + ((- g_J g (a_frame a) (p_tr p) 1%nat r) * (env v j * comp (nth j cone zero3) 1%nat) + (- g_J g (a_frame a) (p_tr p) 2%nat r) * (env v j * comp (nth j cone zero3) 2%nat)))).
    2:{ intros j _. rewrite sum3. ring. }
    rewrite !sumR_plus, !sumR_scale. ring.
Qed.
Lemma block_terms g env a r v0 rest ps : forall pre i v acc, a_points a = pre ++ ps -> length pre = i ->
  forceTerms env r (block (fcOf v0 a) (Some g) i v ps ++ rest) acc = forceTerms env r rest (acc - generalised g env a r v ps).
Proof.
  induction ps as [|p ps IH]; intros pre i v acc Ep Ei; [cbn; f_equal; ring|]. cbn [block option_map app forceTerms w_jac w_size w_id].
  rewrite (point_term g env a v i p pre ps v0 r Ep Ei). cbn [generalised]. rewrite (IH (pre ++ [p])); [f_equal; ring|rewrite <- app_assoc; exact Ep|rewrite app_length; cbn; lia].
Qed.
Lemma vars_terms env r L : forall v acc, forceTerms env r (varsOf (numbered v L)) acc = match total env r (numbered v L) with Some t => Ok (acc - t) | None => UB end.
Proof.
  induction L as [|[[a al] g] L IH]; intros v acc; [cbn; f_equal; ring|]. cbn [numbered varsOf flat_map total fst]. fold (varsOf (numbered (v + length (a_points a)) L)).
  destruct (a_points a) as [|p ps] eqn:Ep; [cbn [block app]; apply IH|]. destruct g as [g|]; [|reflexivity].
  rewrite (block_terms g env a r v _ (p :: ps) [] 0 v acc) by (auto; rewrite Ep; reflexivity). rewrite IH. destruct (total env r _); [|reflexivity]. f_equal. ring.
Qed.
Lemma inv_value nq d robot L g env r : inv d robot L g ->
  value nq d env r = match g, total env r (numbered 2 L) with
                     | Some g, Some t => Ok (sumR nq (fun j => g_H g r j * env 0%nat j) + g_C g r - env 1%nat r - t)
                     | _, _ => UB end.
Proof.
  intros I. unfold value. rewrite (n_H _ _ _ _ I), (n_b _ _ _ _ I). destruct g as [g|]; [|reflexivity]. cbn [option_map].
  rewrite (n_vars _ _ _ _ I), vars_terms. destruct (total env r (numbered 2 L)); [|reflexivity]. f_equal. ring.
Qed.
