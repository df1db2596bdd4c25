(* Proofs for C54: when finalize succeeds. *)
From Coq Require Import List Bool Arith QArith Lia Permutation.
Import ListNotations.
From Verif Require Import Base QSum SubstModel SubSetModel SubSetSpec SubSetProofs SubSetProofs2 SubSetProofs3.
From Verif Require GraphModel.
Local Open Scope nat_scope.

Lemma list_sum_perm l l' : Permutation l l' -> list_sum l = list_sum l'.
Proof. induction 1; simpl; lia. Qed.
Lemma sorted_perm l : NoDup l -> Permutation (sorted l) l.
Proof. intros N. apply NoDup_Permutation; [apply NoDup_sorted|exact N|]. intros x. apply In_sorted. Qed.
Lemma sum_flat {A} (f : A -> list nat) (w : nat -> nat) l : list_sum (map w (flat_map f l)) = list_sum (map (fun a => list_sum (map w (f a))) l).
Proof. induction l as [|a l IH]; simpl; [reflexivity|]. rewrite map_app, list_sum_app, IH. reflexivity. Qed.
Lemma sum_le {A} (f g : A -> nat) l : (forall a, In a l -> f a <= g a) -> list_sum (map f l) <= list_sum (map g l).
Proof. induction l as [|a l IH]; intros H; simpl; [lia|]. pose proof (H a (or_introl eq_refl)). specialize (IH (fun b I => H b (or_intror I))). lia. Qed.
Lemma NoDup_flat_pos {A B} (f : A -> list B) l p q a b v : NoDup (flat_map f l) -> nth_error l p = Some a -> nth_error l q = Some b -> In v (f a) -> In v (f b) -> p = q.
Proof.
  intros N. rewrite flat_map_concat_map in N. intros E1 E2. apply (concat_NoDup_pos (map f l) p q (f a) (f b) v N); now apply map_nth_error.
Qed.
Lemma NoDup_flat_one {A B} (f : A -> list B) l a : NoDup (flat_map f l) -> In a l -> NoDup (f a).
Proof.
  induction l as [|b l IH]; intros N I; [destruct I|]. simpl in N. destruct I as [->|I].
  - clear IH. induction (f a) as [|x y IH]; [constructor|]. simpl in N. inversion N as [|? ? N1 N2]. subst. constructor; [|auto]. intros K. apply N1, in_app_iff. auto.
  - apply IH; [|exact I]. clear IH. induction (f b) as [|x y IH]; [exact N|]. simpl in N. inversion N. auto.
Qed.
Lemma mapR_total {A B} (f : A -> res B) l : (forall a, In a l -> exists b, f a = Ok b) -> exists r, mapR f l = Ok r.
Proof.
  induction l as [|a l IH]; intros H; [eexists; reflexivity|]. destruct (H a (or_introl eq_refl)) as [b E]. destruct (IH (fun x I => H x (or_intror I))) as [r E'].
  exists (b :: r). simpl. rewrite E. cbn [bind]. rewrite E'. reflexivity.
Qed.

Section P.
Variable sz : nat -> nat.
Variable cdef : nat -> cons.
Notation acceptable := (acceptable sz cdef).

Lemma group_ok l : l <> [] -> (forall s, In s l -> acceptable s) -> NoDup (flat_map ss_xs l) -> NoDup (flat_map ss_cs l) -> exists s, group sz cdef l = Ok s.
Proof.
  intros NE A NX NC. unfold group. set (vs := sorted (flat_map ss_xs l)). eexists. apply newSub_ok. split; [reflexivity|].
  assert (M : list_sum (map (fun c => c_size (k_cst (cdef c))) (sorted (flat_map ss_cs l))) = list_sum (map (fun s => mOf cdef (ss_cs s)) l)).
  { rewrite (list_sum_perm _ _ (Permutation_map (fun c => c_size (k_cst (cdef c))) (sorted_perm _ NC))). apply sum_flat. }
  assert (N : list_sum (map sz vs) = list_sum (map (fun s => list_sum (map sz (ss_xs s))) l)).
  { unfold vs. rewrite (list_sum_perm _ _ (Permutation_map sz (sorted_perm _ NX))). apply sum_flat. }
  unfold SubSetSpec.acceptable. cbn [ss_cs ss_xs ss_rank full]. split; [|split; [|split; [|split; [|split; [|split]]]]].
  - intros c I. apply In_sorted, in_flat_map in I. destruct I as (s & I & J). now apply (A s I).
  - destruct l as [|s l']; [contradiction|]. assert (X : ss_xs s <> []) by (apply (A s); left; reflexivity). destruct (ss_xs s) as [|x xs] eqn:EX; [contradiction|].
    intros K. assert (I : In x vs) by (unfold vs; apply In_sorted, in_flat_map; exists s; split; [left; reflexivity|rewrite EX; left; reflexivity]). rewrite K in I. destruct I.
  - apply NoDup_sorted.
  - intros x I. apply In_sorted, in_flat_map in I. destruct I as (s & I & J). destruct (proj1 (proj2 (proj2 (proj2 (A s I)))) x J) as (c & C1 & C2). exists c. split; [apply In_sorted, in_flat_map; eauto|exact C2].
  - intros c I. apply In_sorted, in_flat_map in I. destruct I as (s & I & J). destruct (proj1 (proj2 (proj2 (proj2 (proj2 (A s I))))) c J) as (x & C1 & C2). exists x. split; [apply In_sorted, in_flat_map; eauto|exact C2].
  - rewrite M. apply sum_le. intros s _. unfold rankOf. apply Nat.le_min_r.
  - rewrite M, N. apply sum_le. intros s I. apply (A s I).
Qed.

Lemma oneOf_ok pool cl : (forall s, In s pool -> acceptable s) -> separate pool -> cl <> [] -> NoDup cl -> (forall a, In a cl -> a < length pool) -> exists s, oneOf sz cdef pool cl = Ok s.
Proof.
  intros A [SX SC] NE ND R.
  assert (TO : forall a, In a cl -> exists s, GraphModel.nthR pool a = Ok s).
  { intros a I. specialize (R a I). destruct (nth_error pool a) as [s|] eqn:E; [exists s; now apply nthR_Some|apply nth_error_None in E; lia]. }
  destruct cl as [|a [|b cl]]; [contradiction|apply (TO a); left; reflexivity|].
  cbn [oneOf]. remember (a :: b :: cl) as cls eqn:Ecl. destruct (mapR_total (GraphModel.nthR pool) cls TO) as [l E]. rewrite E. cbn [bind].
  pose proof (mapR_Forall2 _ _ _ E) as F.
  assert (PO : forall p s, nth_error l p = Some s -> exists i, nth_error cls p = Some i /\ nth_error pool i = Some s).
  { intros p s H. destruct (Forall2_nth _ _ _ F _ _ H) as (i & I1 & I2). apply nthR_Some in I2. eauto. }
  assert (IN : forall s, In s l -> In s pool) by (intros s I; apply In_nth in I; destruct I as [p I]; destruct (PO p s I) as (i & _ & K); eapply nth_error_In; eassumption).
  assert (NF : forall f : ssub -> list nat, NoDup (flat_map f pool) -> NoDup (flat_map f l)).
  { intros f N. apply NoDup_flat.
    - intros p s H. apply (NoDup_flat_one f pool s N). apply IN. eapply nth_error_In; eassumption.
    - intros p q s s' v H1 H2 I1 I2. destruct (PO p s H1) as (i & P1 & P2). destruct (PO q s' H2) as (j & Q1 & Q2).
      pose proof (NoDup_flat_pos f pool i j s s' v N P2 Q2 I1 I2) as K. subst j. exact (NoDup_nth_eq cls p q i ND P1 Q1). }
  apply group_ok.
  - subst cls. destruct l; [inversion F|discriminate].
  - auto.
  - now apply NF.
  - now apply NF.
Qed.

Lemma buildUnits_total pool cls mm : forall gs us0, (forall g, In g gs -> exists l, extract sz cdef pool cls g = Ok l) -> exists us, buildUnits sz cdef pool cls mm gs us0 = Ok (us, true).
Proof.
  induction gs as [|g gs IH]; intros us0 H; [eexists; reflexivity|]. simpl. destruct (H g (or_introl eq_refl)) as [l E]. rewrite E. apply IH. intros g' I. apply H. right. exact I.
Qed.
Lemma concat_In_NoDup {A} (l : list (list A)) c : NoDup (concat l) -> In c l -> NoDup c.
Proof. intros N I. apply (NoDup_flat_one (fun x => x) l c); [|exact I]. rewrite flat_map_concat_map, map_id. exact N. Qed.
Lemma finalizes t mm : inv sz cdef t -> separate (subs t) -> exists t1, finalize sz cdef mm t = Done t1.
Proof.
  intros I S. destruct (finalize_graph sz cdef t I) as (cls & g & gs & R & G & F). unfold finalize. rewrite R. cbn [bind]. rewrite G. cbn [bind].
  assert (NC : NoDup (concat cls)) by (eapply Permutation_NoDup; [apply Permutation_sym, (f_perm _ _ _ _ F)|apply seq_NoDup]).
  destruct (buildUnits_total (subs t) cls mm gs []) as [us E]; [|rewrite E; eexists; reflexivity].
  intros gg Ig. apply mapR_total. intros i Ii. pose proof (f_range _ _ _ _ F gg i Ig Ii) as L.
  destruct (nth_error cls i) as [cl|] eqn:C; [|apply nth_error_None in C; lia]. rewrite (proj2 (nthR_Some cls i cl) C). cbn [bind].
  apply oneOf_ok; [apply (i_acc _ _ _ I)|exact S|apply (f_ne _ _ _ _ F); eapply nth_error_In; eassumption|apply (concat_In_NoDup cls); [exact NC|eapply nth_error_In; eassumption]|].
  intros a Ia. assert (K : In a (seq 0 (length (subs t)))) by (apply (Permutation_in _ (f_perm _ _ _ _ F)), in_concat; exists cl; split; [eapply nth_error_In; eassumption|exact Ia]).
  apply in_seq in K. lia.
Qed.

(* no nullspace variable before the first finalize *)
Lemma addVars_none hist : (forall mm, ~ In (OFinalize mm) hist) -> forall t0 t, run sz cdef hist t0 = Some t -> addVars t = addVars t0.
Proof.
  induction hist as [|o hist IH]; intros N t0 t E; simpl in E; [injection E as <-; reflexivity|].
  assert (K : match step sz cdef o t0 with Done t' | Threw t' => addVars t' = addVars t0 | Undef => True end).
  { destruct o as [cs xs r|i|mm|D]; cbn [step].
    - destruct (newSub sz cdef cs xs r) as [s| |]; [|reflexivity|exact Logic.I]. unfold add. destruct (GraphModel.addNode (deps t0)) as [g i].
      destruct (negb (i =? length (subs t0))); [exact Logic.I|]. destruct (addEdges cdef i 0 s (subs t0 ++ [s]) g); [reflexivity|exact Logic.I|exact Logic.I].
    - unfold remove. destruct (i <? length (subs t0)); [|reflexivity]. destruct (GraphModel.removeNode (deps t0) i); [reflexivity|exact Logic.I|exact Logic.I].
    - exfalso. apply (N mm). left. reflexivity.
    - destruct (updateSubstitutions sz cdef D t0) as [t'| |] eqn:U; [|exact Logic.I|exact Logic.I]. now apply update_keeps in U. }
  assert (NT : forall mm, ~ In (OFinalize mm) hist) by (intros mm I; apply (N mm); right; exact I).
  destruct (step sz cdef o t0) as [t'|t'|]; [| |discriminate]; rewrite (IH NT t' t E); exact K.
Qed.
End P.
