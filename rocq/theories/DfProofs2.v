Require Import Reals List Arith Bool Lia Lra.
Require Import Verif.Base Verif.ConeModel Verif.ConeSpec Verif.ConeProofs Verif.DfModel Verif.DfSpec Verif.DfProofs.
Import ListNotations.
Local Open Scope R_scope.

Lemma value_history nq robot ops env r :
  value nq (drun (newDyn robot) ops) env r = match last_config ops None, total env r (numbered 2 (history robot ops)) with
    | Some g, Some t => Ok (sumR nq (fun j => g_H g r j * env 0%nat j) + g_C g r - env 1%nat r - t)
    | _, _ => UB end.
Proof. apply (inv_value nq _ robot). apply inv_history. Qed.

(* ---- without removals ---- *)
Definition lively (L : list entry) : Prop := forall e, In e L -> snd (fst e) = true.
Lemma lively_run robot ops : (forall i, ~ In (DRemove i) ops) -> forall L, lively L -> lively (fold_left (hstep robot) ops L).
Proof.
  induction ops as [|o ops IH]; intros H L HL; [exact HL|]. cbn [fold_left]. apply IH; [intros i Hi; apply (H i); right; exact Hi|].
  destruct o as [ct li mu n|i|g]; cbn [hstep].
  - destruct (dadded L (t_id ct)); [exact HL|]. intros e He. apply in_app_or in He. destruct He as [He|He]; [apply HL; exact He|]. apply in_map_iff in He. destruct He as (a & <- & _). reflexivity.
  - exfalso. apply (H i). left. reflexivity.
  - intros e He. apply in_map_iff in He. destruct He as ([[a al] g0] & <- & He). cbn. apply (HL _ He).
Qed.
Lemma total_upd env r g L : lively L -> forall v, total env r (numbered v (map (updE g) L)) =
  Some (sum_list (map (fun e : nat * entry => let '(v, (a, _, _)) := e in generalised g env a r v (a_points a)) (numbered v L))).
Proof.
  induction L as [|[[a al] g0] L IH]; intros H v; [reflexivity|]. assert (al = true) as -> by (apply (H (a, al, g0)); left; reflexivity).
  cbn [map updE numbered total sum_list fst]. rewrite IH by (intros e He; apply H; right; exact He). destruct (a_points a) as [|p ps] eqn:E; [|reflexivity]. cbn [generalised]. f_equal. ring.
Qed.
Lemma last_config_app ops ops' g : last_config (ops ++ ops') g = last_config ops' (last_config ops g).
Proof. revert g. induction ops as [|o ops IH]; intros g; [reflexivity|]. destruct o; cbn; apply IH. Qed.
Lemma equation nq robot ops g env r : (forall i, ~ In (DRemove i) ops) ->
  value nq (drun (newDyn robot) (ops ++ [DUpdate g])) env r =
  Ok (sumR nq (fun j => g_H g r j * env 0%nat j) + g_C g r - env 1%nat r
      - sum_list (map (fun e : nat * entry => let '(v, (a, _, _)) := e in generalised g env a r v (a_points a)) (numbered 2 (history robot ops)))).
Proof.
  intros H. rewrite value_history, last_config_app. cbn [last_config]. unfold history. rewrite fold_left_app. cbn [fold_left hstep].
  fold (updE g). change (map (fun e : entry => let '(a, alive, g0) := e in (a, alive, if alive then Some g else g0)) (fold_left (hstep robot) ops [])) with (map (updE g) (fold_left (hstep robot) ops [])).
  rewrite total_upd; [reflexivity|]. apply lively_run; [exact H|]. intros e [].
Qed.

(* ---- what addContact returns; removal ---- *)
Lemma add_result robot ops ct li mu n : snd (addContact (drun (newDyn robot) ops) ct li mu n) = true <->
  dadded (history robot ops) (t_id ct) = false /\ (i_r1 (t_id ct) = robot \/ i_r2 (t_id ct) = robot).
Proof.
  destruct (inv_add _ _ _ _ ct li mu n (inv_history robot ops)) as (_ & E). rewrite E. unfold parts.
  destruct (Nat.eqb_spec (i_r1 (t_id ct)) robot), (Nat.eqb_spec (i_r2 (t_id ct)) robot); cbn [app]; split; intros [A B]; (split; [exact A|]); auto; try discriminate; try congruence.
  destruct B; contradiction.
Qed.
Lemma remove_keeps nq d i env r : value nq (removeContact d i) env r = value nq d env r.
Proof. reflexivity. Qed.

(* ---- friction ---- *)
Lemma hist_dir robot ops a al g : In (a, al, g) (history robot ops) -> a_dir a = 1 \/ a_dir a = -1.
Proof.
  assert (G : forall ops L, (forall e, In e L -> a_dir (fst (fst e)) = 1 \/ a_dir (fst (fst e)) = -1) -> forall e, In e (fold_left (hstep robot) ops L) -> a_dir (fst (fst e)) = 1 \/ a_dir (fst (fst e)) = -1).
  { clear. induction ops as [|o ops IH]; intros L HL; [exact HL|]. cbn [fold_left]. apply IH. destruct o as [ct li mu n|i|g]; cbn [hstep].
    - destruct (dadded L (t_id ct)); [exact HL|]. intros e He. apply in_app_or in He. destruct He as [He|He]; [apply HL; exact He|]. apply in_map_iff in He. destruct He as (a & <- & Ha). cbn.
      unfold parts in Ha. apply in_app_or in Ha. destruct Ha as [Ha|Ha]; [destruct (Nat.eqb _ _); [destruct Ha as [<-|[]]; left; reflexivity|destruct Ha]|destruct (Nat.eqb _ _); [destruct Ha as [<-|[]]; right; reflexivity|destruct Ha]].
    - clear -HL. induction L as [|[[a al] g] L IH]; [exact HL|]. cbn [stop]. destruct (al && same_id (a_id a) i).
      + intros e [<-|He]; [apply (HL (a, al, g)); left; reflexivity|apply HL; right; exact He].
      + intros e [<-|He]; [apply (HL (a, al, g)); left; reflexivity|]. apply IH; [|exact He]. intros e' He'. apply HL. right. exact He'.
    - intros e He. apply in_map_iff in He. destruct He as ([[a al] g0] & <- & He). apply (HL _ He). }
  intros H. apply (G ops [] (fun e (X : In e []) => match X with end) (a, al, g) H).
Qed.
Lemma numbered_in v0 L v e : In (v, e) (numbered v0 L) -> In e L.
Proof. revert v0. induction L as [|x L IH]; intros v0 H; [destruct H|]. cbn in H. destruct H as [H|H]; [injection H as _ <-; left; reflexivity|right; apply (IH _ H)]. Qed.
Lemma positives_in robot ops v a g i p : In (v, (a, true, g)) (numbered 2 (history robot ops)) -> a_lin a = true -> nth_error (a_points a) i = Some p ->
  In (v + i)%nat (positives (drun (newDyn robot) ops)).
Proof.
  intros H Hl Hi. unfold positives. rewrite (n_contacts _ _ _ _ (inv_history robot ops)). apply in_flat_map. exists (fcOf v a). split.
  - unfold contactsOf. apply in_flat_map. exists (v, (a, true, g)). split; [exact H|left; reflexivity].
  - cbn [k_lin fcOf]. rewrite Hl. apply in_seq. assert (i < length (a_points a))%nat by (apply nth_error_Some; congruence). lia.
Qed.
Lemma framed_opp E : framed E -> framed (mscale (-1) E).
Proof.
  intros (A & B & C). unfold framed. cbn [row0 row2 mscale]. rewrite !norm_scale, A, B. split; [unfold Rabs; destruct (Rcase_abs (-1)); lra|]. split; [unfold Rabs; destruct (Rcase_abs (-1)); lra|].
  unfold along in *. cbn. lra.
Qed.
Lemma framed_dir E d : framed E -> d = 1 \/ d = -1 -> framed (mscale d E).
Proof.
  intros H [-> | ->]; [|apply framed_opp; exact H]. replace (mscale 1 E) with E; [exact H|]. unfold mscale. destruct E as [a b c]; cbn. f_equal; v3ring.
Qed.
Lemma friction robot ops env v a g i p :
  (forall w j, In w (positives (drun (newDyn robot) ops)) -> 0 <= env w j) -> In (v, (a, true, g)) (numbered 2 (history robot ops)) -> a_lin a = true ->
  nth_error (a_points a) i = Some p -> framed (p_rot p) -> in_cone (vscale (a_dir a) (row2 (p_rot p))) (Rabs (a_mu a)) (on_body env a (v + i) p).
Proof.
  intros P H Hl Hi F. unfold on_body. rewrite Hl. pose proof (hist_dir robot ops a true g (numbered_in _ _ _ _ H)) as D.
  apply (combinations (mscale (a_dir a) (p_rot p)) (a_gen a) (a_mu a) (a_dir a)); [apply framed_dir; auto|exact D|].
  apply Forall_forall. intros x Hx. apply in_map_iff in Hx. destruct Hx as (j & <- & _). apply P. eapply positives_in; eauto.
Qed.

(* ---- the force at a contact ---- *)
Lemma get_side robot ops i : getContact (drun (newDyn robot) ops) i = option_map (fun x => fcOf (fst x) (snd x)) (the_side i (numbered 2 (history robot ops))).
Proof.
  unfold getContact. rewrite (n_contacts _ _ _ _ (inv_history robot ops)). generalize 2%nat, (history robot ops). intros v L. revert v.
  induction L as [|[[a al] g] L IH]; intros v; [reflexivity|]. cbn [numbered contactsOf flat_map the_side]. destruct al; cbn [andb app find]; [|apply IH].
  cbn [k_id fcOf]. rewrite cid_same. destruct (same_id (a_id a) i); [reflexivity|apply IH].
Qed.
Lemma wplus0 a : wplus a (zero3, zero3) = a.
Proof. destruct a as [[a b c] [d e f]]. unfold wplus, vplus, zero3; cbn. repeat f_equal; ring. Qed.
Lemma wplus0l a : wplus (zero3, zero3) a = a.
Proof. destruct a as [[a b c] [d e f]]. unfold wplus, vplus, zero3; cbn. repeat f_equal; ring. Qed.
Lemma wplusA a b c : wplus (wplus a b) c = wplus a (wplus b c).
Proof. unfold wplus, vplus. cbn. f_equal; f_equal; ring. Qed.
Lemma wrench_cons p f l : wrench ((p, f) :: l) = wplus (cross3 p f, f) (wrench l).
Proof. unfold wplus, vplus, cross3. cbn. f_equal; f_equal; ring. Qed.
Lemma transMul_id p f : p_rot p = identity3 -> transMul p f = (cross3 (p_tr p) f, f).
Proof.
  intros E. unfold transMul. rewrite E. assert (H : tmul identity3 f = f) by (apply v3_eq; cbn; ring). rewrite H. reflexivity.
Qed.
Lemma forceN_sum env a v ps acc : a_lin a = false -> a_dir a = -1 -> Forall (fun p => p_rot p = identity3) ps ->
  forceN env (seq v (length ps)) ps acc = wplus acc (wrench (point_forces env a v ps)).
Proof.
  intros Hl Hd F. revert v acc. induction F as [|p ps Hp F IH]; intros v acc; [cbn; symmetry; apply wplus0|].
  cbn [length seq forceN point_forces]. rewrite IH, wrench_cons, <- wplusA. f_equal. f_equal. rewrite transMul_id by exact Hp. unfold on_body. rewrite Hl, Hd.
  assert (E : mkV3 (env v 0%nat) (env v 1%nat) (env v 2%nat) = mkV3 (- (-1 * env v 0%nat)) (- (-1 * env v 1%nat)) (- (-1 * env v 2%nat))) by (f_equal; ring). rewrite E. reflexivity.
Qed.
Lemma force_second robot ops i v a env : the_side i (numbered 2 (history robot ops)) = Some (v, a) -> a_lin a = false -> a_dir a = -1 -> Forall (fun p => p_rot p = identity3) (a_points a) ->
  contactForce (drun (newDyn robot) ops) env i = Ok (wrench (point_forces env a v (a_points a))).
Proof.
  intros H Hl Hd F. unfold contactForce. rewrite get_side, H. cbn [option_map fst snd k_lin fcOf k_forces k_points]. rewrite Hl. f_equal. rewrite (forceN_sum env a v) by auto.
  destruct (wrench _) as [[x y z] [x' y' z']]. unfold wplus, vplus; cbn. f_equal; f_equal; ring.
Qed.
(* the first frame: the opposite *)
Definition wopp (w : v3 * v3) : v3 * v3 := (vopp (fst w), vopp (snd w)).
Lemma forceN_opp env a v ps acc : a_lin a = false -> a_dir a = 1 -> Forall (fun p => p_rot p = identity3) ps ->
  forceN env (seq v (length ps)) ps acc = wplus acc (wopp (wrench (point_forces env a v ps))).
Proof.
  intros Hl Hd F. revert v acc. induction F as [|p ps Hp F IH]; intros v acc; [cbn; unfold wopp, wplus, vplus, vopp; destruct acc as [[x y z] [x' y' z']]; cbn; f_equal; f_equal; ring|].
  cbn [length seq forceN point_forces]. rewrite IH, wrench_cons. rewrite transMul_id by exact Hp. unfold on_body. rewrite Hl, Hd.
  set (w := wrench _). unfold wopp, wplus, vplus, vopp, cross3. cbn. f_equal; f_equal; ring.
Qed.
Lemma force_first robot ops i v a env : the_side i (numbered 2 (history robot ops)) = Some (v, a) -> a_lin a = false -> a_dir a = 1 -> Forall (fun p => p_rot p = identity3) (a_points a) ->
  exists c f, wrench (point_forces env a v (a_points a)) = (c, f) /\ contactForce (drun (newDyn robot) ops) env i = Ok (vopp c, vopp f).
Proof.
  intros H Hl Hd F. destruct (wrench (point_forces env a v (a_points a))) as [c f] eqn:W. exists c, f. split; [reflexivity|]. unfold contactForce. rewrite get_side, H. cbn [option_map fst snd k_lin fcOf k_forces k_points]. rewrite Hl. f_equal.
  rewrite (forceN_opp env a v) by auto. rewrite W. unfold wopp, wplus, vplus, vopp; cbn. f_equal; f_equal; ring.
Qed.
(* linearised *)
Lemma forceL_sum env a v0 : a_lin a = true -> forall ps pre acc, a_points a = pre ++ ps -> (length (a_points a) <= 1 \/ a_gen a = 1)%nat -> Forall (fun p => p_rot p = identity3) ps ->
  forceL env (fcOf v0 a) (length pre) ps acc = Ok (wplus acc (wrench (point_forces env a (v0 + length pre) ps))).
Proof.
  intros Hl. induction ps as [|p ps IH]; intros pre acc Ep G F; [cbn; f_equal; symmetry; apply wplus0|]. inversion F as [|? ? Hp F' ]; subst.
  cbn [forceL]. cbn [k_forces k_nrGen fcOf].
  assert (E : nth_error (seq v0 (length (a_points a))) (a_gen a * length pre) = Some (v0 + length pre)%nat).
  { assert (L : (length pre < length (a_points a))%nat) by (rewrite Ep, app_length; cbn; lia).
    assert (Q : (a_gen a * length pre = length pre)%nat) by (destruct G as [G|G]; [assert (length pre = 0)%nat as -> by lia; lia|rewrite G; lia]).
    rewrite Q. rewrite (nth_error_nth' _ 0%nat) by (rewrite seq_length; exact L). rewrite seq_nth by exact L. reflexivity. }
  rewrite E. replace (S (length pre)) with (length (pre ++ [p])) by (rewrite app_length; cbn; lia).
  rewrite IH; [|rewrite <- app_assoc; exact Ep|exact G|exact F']. f_equal. cbn [point_forces]. rewrite wrench_cons, <- wplusA. rewrite transMul_id by exact Hp.
  replace (v0 + length (pre ++ [p]))%nat with (S (v0 + length pre)) by (rewrite app_length; cbn; lia). f_equal. f_equal.
  assert (X : (let F0 := fun k : nat => sumR (k_nrGen (fcOf v0 a)) (fun j : nat => - comp (nth (k_nrGen (fcOf v0 a) * length pre + j) (k_gens (fcOf v0 a)) zero3) k * env (v0 + length pre)%nat j) in mkV3 (F0 0%nat) (F0 1%nat) (F0 2%nat)) = on_body env a (v0 + length pre) p).
  { cbn zeta. unfold on_body. rewrite Hl. cbn [k_nrGen k_gens fcOf]. rewrite Hl.
    set (Fl := fun p => map vopp (frictionCone (mscale (a_dir a) (p_rot p)) (a_gen a) (a_mu a) (a_dir a))).
    assert (Y : forall k, sumR (a_gen a) (fun j => - comp (nth (a_gen a * length pre + j) (flat_map Fl (a_points a)) zero3) k * env (v0 + length pre)%nat j) =
              comp (combine3 (map (env (v0 + length pre)%nat) (seq 0 (a_gen a))) (frictionCone (mscale (a_dir a) (p_rot p)) (a_gen a) (a_mu a) (a_dir a))) k).
    { intros k. rewrite comp_combine by (unfold frictionCone; rewrite map_length; apply seq_length). apply sumR_ext. intros j Hj.
      rewrite (nth_flat Fl (a_gen a) (a_points a) pre p ps j zero3 (fun y => gens_length _ _ _ _) Ep Hj). unfold Fl. rewrite nth_vopp, comp_vopp. ring. }
    rewrite !Y. set (c := combine3 _ _). destruct c; reflexivity. }
  rewrite <- X. reflexivity.
Qed.
Lemma force_linear robot ops i v a env : the_side i (numbered 2 (history robot ops)) = Some (v, a) -> a_lin a = true -> (length (a_points a) <= 1 \/ a_gen a = 1)%nat ->
  Forall (fun p => p_rot p = identity3) (a_points a) -> contactForce (drun (newDyn robot) ops) env i = Ok (wrench (point_forces env a v (a_points a))).
Proof.
  intros H Hl G F. unfold contactForce. rewrite get_side, H. cbn [option_map fst snd k_lin fcOf k_points]. rewrite Hl.
  pose proof (forceL_sum env a v Hl (a_points a) [] (zero3, zero3) eq_refl G F) as E. cbn [length] in E. rewrite E, wplus0l, Nat.add_0_r. reflexivity.
Qed.
Lemma forceL_ub env c ps : forall i acc, (i < length ps + i)%nat -> (length (k_forces c) <= k_nrGen c * (i + length ps - 1))%nat -> forceL env c i ps acc = UB.
Proof.
  induction ps as [|p ps IH]; intros i acc H L; [cbn in H; lia|]. cbn [forceL]. destruct (nth_error (k_forces c) (k_nrGen c * i)) as [v|] eqn:E; [|reflexivity].
  destruct ps as [|q ps].
  - exfalso. assert (nth_error (k_forces c) (k_nrGen c * i) <> None) as N by congruence. apply nth_error_Some in N. cbn in L. replace (i + 1 - 1)%nat with i in L by lia. lia.
  - apply IH; [cbn; lia|]. cbn [length] in *. replace (S i + S (length ps) - 1)%nat with (i + S (S (length ps)) - 1)%nat by lia. exact L.
Qed.
Lemma force_index robot ops i v a env : the_side i (numbered 2 (history robot ops)) = Some (v, a) -> a_lin a = true -> (2 <= length (a_points a))%nat -> (2 <= a_gen a)%nat ->
  contactForce (drun (newDyn robot) ops) env i = UB.
Proof.
  intros H Hl P G. unfold contactForce. rewrite get_side, H. cbn [option_map fst snd k_lin fcOf k_points]. rewrite Hl. apply forceL_ub; [lia|]. cbn [k_forces k_nrGen fcOf]. rewrite seq_length. nia.
Qed.
Lemma force_none robot ops i env : dadded (history robot ops) i = false -> contactForce (drun (newDyn robot) ops) env i = Ok (mkV3 0 0 0, mkV3 0 0 0).
Proof.
  intros H. unfold contactForce. destruct (inv_getContact _ _ _ _ i (inv_history robot ops)) as [[_ E] _]. rewrite E by exact H. reflexivity.
Qed.
