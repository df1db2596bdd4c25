From Coq Require Import List Bool Arith QArith Lia.
From Verif Require Import Base BgModel BgSpec.
Import ListNotations.
Local Open Scope nat_scope.

Lemma upd_len {A} (x : A) : forall l k, length (upd l k x) = length l.
Proof. induction l as [|a l IH]; intros [|k]; simpl; auto. Qed.
Lemma upd_nth {A} (x : A) : forall l k i, nth_error (upd l k x) i = if (i =? k) && (k <? length l) then Some x else nth_error l i.
Proof.
  induction l as [|a l IH]; intros k i; [simpl; rewrite andb_false_r; destruct k; reflexivity|]. destruct k as [|k]; destruct i as [|i]; simpl; try reflexivity.
  rewrite IH. reflexivity.
Qed.
Lemma map_upd {A B} (f : A -> B) x : forall l k, map f (upd l k x) = upd (map f l) k (f x).
Proof. induction l as [|a l IH]; intros [|k]; simpl; [reflexivity|reflexivity|reflexivity|rewrite IH; reflexivity]. Qed.
Lemma upd_same {A} (x : A) : forall l k, nth_error l k = Some x -> upd l k x = l.
Proof. induction l as [|a l IH]; intros [|k] E; simpl in *; try discriminate; [injection E as <-; reflexivity|rewrite IH; auto]. Qed.
Lemma nth_map_snd {A} (l : list (A * Q)) i k b d : nth_error l i = Some (k, b) -> nth i (map snd l) d = b.
Proof. revert i. induction l as [|a l IH]; intros [|i] E; simpl in *; try discriminate; [injection E as ->; reflexivity|apply IH; exact E]. Qed.
Lemma nth_map_fst {A} (l : list (nat * A)) i k b d : nth_error l i = Some (k, b) -> nth i (map fst l) d = k.
Proof. revert i. induction l as [|a l IH]; intros [|i] E; simpl in *; try discriminate; [injection E as ->; reflexivity|apply IH; exact E]. Qed.

(* rows: the call that assigned them and the number then shared *)
Definition traced (b0 : Q) (l : list bgop) (d : nat) (r : row) : Prop :=
  exists l1 o l2, l = l1 ++ o :: l2 /\ assigns (rev l1) o d /\ w_big r = lastBuilt b0 (rev (l1 ++ [o])).
Definition binv (b0 : Q) (l : list bgop) (s : bgs) : Prop :=
  map snd (g_schemes s) = numbers (rev l) /\ map fst (g_data s) = schemes (rev l) /\ g_big s = lastBuilt b0 (rev l) /\
  forall d i rows r, nth_error (g_data s) d = Some (i, rows) -> In r rows -> traced b0 l d r.
Lemma traced_snoc b0 l o d r : traced b0 l d r -> traced b0 (l ++ [o]) d r.
Proof. intros (l1 & o1 & l2 & -> & A & W). exists l1, o1, (l2 ++ [o]). split; [rewrite <- app_assoc; reflexivity|auto]. Qed.
Lemma traced_new b0 l o d r : assigns (rev l) o d -> w_big r = lastBuilt b0 (rev (l ++ [o])) -> traced b0 (l ++ [o]) d r.
Proof. intros A W. exists l, o, []. auto. Qed.

Lemma binv_step b0 l s o s' : binv b0 l s -> bgstep s o = Ok s' -> binv b0 (l ++ [o]) s'.
Proof.
  intros (N & S & G & T) E. assert (R : rev (l ++ [o]) = o :: rev l) by (rewrite rev_app_distr; reflexivity). unfold binv. rewrite R.
  destruct o as [k b|i b|i ts|d ts|d t]; cbn [bgstep] in E.
  - unfold newScheme in E. destruct (pos b); [|discriminate E]. injection E as <-. simpl. rewrite map_app, N. repeat split; auto. intros d i rows r E I. apply traced_snoc. eapply T; eauto.
  - unfold setBig in E. destruct (nth_error (g_schemes s) i) as [[k b1]|] eqn:E1; [|discriminate E]. destruct (pos b); [|discriminate E]. injection E as <-. simpl. rewrite map_upd, N. repeat split; auto.
    intros d j rows r E I. apply traced_snoc. eapply T; eauto.
  - unfold create in E. destruct (nth_error (g_schemes s) i) as [[k b1]|] eqn:E1; [|discriminate E]. simpl in E. injection E as <-. simpl. rewrite map_app, S. split; [exact N|]. split; [reflexivity|].
    rewrite <- N, (nth_map_snd _ _ _ _ b0 E1). split; [reflexivity|]. intros d j rows r E I.
    destruct (Nat.lt_ge_cases d (length (g_data s))) as [H|H].
    + rewrite nth_error_app1 in E by exact H. apply traced_snoc. eapply T; eauto.
    + rewrite nth_error_app2 in E by exact H. destruct (d - length (g_data s)) as [|k'] eqn:Ed; [|destruct k'; discriminate E]. injection E as <- <-.
      apply in_map_iff in I. destruct I as (t & <- & _). apply traced_new; [simpl; rewrite <- S, map_length; lia|]. rewrite R. simpl. rewrite <- N, (nth_map_snd _ _ _ _ b0 E1). reflexivity.
  - unfold reset in E. destruct (nth_error (g_data s) d) as [[i rs]|] eqn:Ed; [|discriminate E]. destruct (nth_error (g_schemes s) i) as [[k b1]|] eqn:E1; [|discriminate E]. simpl in E. injection E as <-. simpl.
    assert (V : nth (nth d (schemes (rev l)) 0) (numbers (rev l)) b0 = b1) by (rewrite <- S, <- N, (nth_map_fst _ _ _ _ 0 Ed); apply (nth_map_snd _ _ _ _ b0 E1)).
    split; [exact N|]. split; [rewrite map_upd; simpl; rewrite <- S; apply upd_same; rewrite nth_error_map, Ed; reflexivity|]. split; [auto|].
    intros d1 j rows r E I. rewrite upd_nth in E. destruct ((d1 =? d) && (d <? length (g_data s))) eqn:C.
    + apply andb_prop in C. destruct C as [C _]. apply Nat.eqb_eq in C. subst d1. injection E as <- <-. apply in_map_iff in I. destruct I as (t & <- & _). apply traced_new; [reflexivity|]. rewrite R. simpl. auto.
    + apply traced_snoc. eapply T; eauto.
  - unfold addTask in E. destruct (nth_error (g_data s) d) as [[i rs]|] eqn:Ed; [|discriminate E]. destruct (nth_error (g_schemes s) i) as [[[|] b1]|] eqn:E1; try discriminate E. injection E as <-. simpl.
    split; [exact N|]. split; [rewrite map_upd; simpl; rewrite <- S; apply upd_same; rewrite nth_error_map, Ed; reflexivity|]. split; [exact G|].
    intros d1 j rows r E I. rewrite upd_nth in E. destruct ((d1 =? d) && (d <? length (g_data s))) eqn:C.
    + apply andb_prop in C. destruct C as [C _]. apply Nat.eqb_eq in C. subst d1. injection E as <- <-. apply in_app_or in I. destruct I as [I|[<-|[]]].
      * apply traced_snoc. eapply T; eauto.
      * apply traced_new; [reflexivity|]. rewrite R. simpl. exact G.
    + apply traced_snoc. eapply T; eauto.
Qed.
Lemma binv_run b0 : forall l l0 s s', binv b0 l0 s -> bgrun s l = Ok s' -> binv b0 (l0 ++ l) s'.
Proof.
  induction l as [|o l IH]; intros l0 s s' V E; [injection E as <-; rewrite app_nil_r; exact V|]. simpl in E. destruct (bgstep s o) as [s1| |] eqn:E1; simpl in E; try discriminate.
  pose proof (IH _ _ _ (binv_step _ _ _ _ _ V E1) E) as H. rewrite <- app_assoc in H. exact H.
Qed.
Lemma binv_init b0 : binv b0 [] (bginit b0).
Proof. repeat split; auto. intros d i rows r E. destruct d; discriminate E. Qed.
Lemma main b0 l s : bgrun (bginit b0) l = Ok s -> binv b0 l s.
Proof. intros E. exact (binv_run b0 l [] _ s (binv_init b0) E). Qed.

(* all the numbers are the same *)
Lemma Forall_upd {A} (P : A -> Prop) x : P x -> forall l k, Forall P l -> Forall P (upd l k x).
Proof. intros Px. induction l as [|a l IH]; intros [|k] F; simpl; inversion F; subst; constructor; auto. Qed.
Lemma sinv_step b s o s' : (match o with NewScheme _ x | SetBig _ x => x = b | _ => True end) ->
  Forall (fun p => snd p = b) (g_schemes s) /\ (g_big s = b \/ g_data s = []) /\ Forall (fun p => Forall (fun r => w_big r = b) (snd p)) (g_data s) -> bgstep s o = Ok s' ->
  Forall (fun p => snd p = b) (g_schemes s') /\ (g_big s' = b \/ g_data s' = []) /\ Forall (fun p => Forall (fun r => w_big r = b) (snd p)) (g_data s').
Proof.
  intros O (N & G & T) E. assert (Hs : forall i k x, nth_error (g_schemes s) i = Some (k, x) -> x = b).
  { intros i k x Ei. apply nth_error_In in Ei. rewrite Forall_forall in N. exact (N _ Ei). }
  destruct o as [k x|i x|i ts|d ts|d t]; cbn [bgstep] in E.
  - unfold newScheme in E. destruct (pos x); [|discriminate E]. injection E as <-. simpl. split; [|auto]. apply Forall_app. split; [exact N|]. constructor; auto.
  - unfold setBig in E. destruct (nth_error (g_schemes s) i) as [[k b1]|] eqn:E1; [|discriminate E]. destruct (pos x); [|discriminate E]. injection E as <-. simpl. split; [|auto]. apply Forall_upd; auto.
  - unfold create in E. destruct (nth_error (g_schemes s) i) as [[k b1]|] eqn:E1; [|discriminate E]. simpl in E. injection E as <-. simpl. rewrite (Hs _ _ _ E1). split; [exact N|]. split; [auto|].
    apply Forall_app. split; [exact T|]. constructor; [|constructor]. simpl. apply Forall_forall. intros r I. apply in_map_iff in I. destruct I as (t & <- & _). reflexivity.
  - unfold reset in E. destruct (nth_error (g_data s) d) as [[i rs]|] eqn:Ed; [|discriminate E]. destruct (nth_error (g_schemes s) i) as [[k b1]|] eqn:E1; [|discriminate E]. simpl in E. injection E as <-. simpl. rewrite (Hs _ _ _ E1). split; [exact N|]. split; [auto|].
    apply Forall_upd; [|exact T]. simpl. apply Forall_forall. intros r I. apply in_map_iff in I. destruct I as (t & <- & _). reflexivity.
  - unfold addTask in E. destruct (nth_error (g_data s) d) as [[i rs]|] eqn:Ed; [|discriminate E]. destruct (nth_error (g_schemes s) i) as [[[|] b1]|] eqn:E1; try discriminate E. injection E as <-. simpl.
    destruct G as [G|G]; [|rewrite G in Ed; destruct d; discriminate Ed]. split; [exact N|]. split; [auto|]. apply Forall_upd; [|exact T]. simpl. apply Forall_app. split; [|constructor; auto].
    apply nth_error_In in Ed. rewrite Forall_forall in T. exact (T _ Ed).
Qed.
Lemma sinv_run b : forall l s s', Forall (fun x => x = b) (given l) ->
  Forall (fun p => snd p = b) (g_schemes s) /\ (g_big s = b \/ g_data s = []) /\ Forall (fun p => Forall (fun r => w_big r = b) (snd p)) (g_data s) -> bgrun s l = Ok s' ->
  Forall (fun p => Forall (fun r => w_big r = b) (snd p)) (g_data s').
Proof.
  induction l as [|o l IH]; intros s s' F V E; [injection E as <-; apply V|]. simpl in E. destruct (bgstep s o) as [s1| |] eqn:E1; simpl in E; try discriminate.
  assert (O : match o with NewScheme _ x | SetBig _ x => x = b | _ => True end) by (destruct o; auto; inversion F; auto).
  assert (F' : Forall (fun x => x = b) (given l)) by (destruct o; simpl in F; auto; inversion F; auto).
  exact (IH _ _ F' (sinv_step _ _ _ _ O V E1) E).
Qed.
Lemma bgrun_app : forall l1 l2 s, bgrun s (l1 ++ l2) = bind (bgrun s l1) (fun s => bgrun s l2).
Proof. induction l1 as [|o l1 IH]; intros l2 s; [reflexivity|]. simpl. destruct (bgstep s o); simpl; auto. Qed.
Lemma created_rows b0 l i ts s : bgrun (bginit b0) (l ++ [Create i ts]) = Ok s ->
  nth_error (g_data s) (length (schemes (rev l))) = Some (i, map (fun t => mkRow t (nth i (numbers (rev l)) b0)) ts).
Proof.
  rewrite bgrun_app. destruct (bgrun (bginit b0) l) as [s1| |] eqn:E1; simpl; try discriminate. destruct (main b0 l s1 E1) as (N & S & _). unfold create.
  destruct (nth_error (g_schemes s1) i) as [[k b]|] eqn:Ei; simpl; [|discriminate]. intros [= <-]. simpl. rewrite <- S, <- N, map_length, (nth_map_snd _ _ _ _ b0 Ei).
  rewrite nth_error_app2, Nat.sub_diag by lia. reflexivity.
Qed.
Lemma reset_rows b0 l d ts s : bgrun (bginit b0) (l ++ [Reset d ts]) = Ok s ->
  nth_error (g_data s) d = Some (nth d (schemes (rev l)) 0, map (fun t => mkRow t (nth (nth d (schemes (rev l)) 0) (numbers (rev l)) b0)) ts).
Proof.
  rewrite bgrun_app. destruct (bgrun (bginit b0) l) as [s1| |] eqn:E1; simpl; try discriminate. destruct (main b0 l s1 E1) as (N & S & _). unfold reset.
  destruct (nth_error (g_data s1) d) as [[i rs]|] eqn:Ed; simpl; [|discriminate]. destruct (nth_error (g_schemes s1) i) as [[k b]|] eqn:Ei; simpl; [|discriminate]. intros [= <-]. simpl.
  rewrite <- S, <- N, (nth_map_fst _ _ _ _ 0 Ed), (nth_map_snd _ _ _ _ b0 Ei), upd_nth, Nat.eqb_refl. rewrite (proj2 (Nat.ltb_lt _ _)); [reflexivity|]. apply nth_error_Some. rewrite Ed. discriminate.
Qed.
