(* The theorems of C32 from DiagProofs. *)
From Coq Require Import List Bool Arith ZArith QArith Lia.
Import ListNotations.
From Verif Require Import Base QSum DiagModel DiagSpec DiagProofs.
Local Open Scope nat_scope.

Lemma asharp m n r nnz zeros d rows A : made m n r nnz zeros d -> structured m n nnz zeros rows A ->
  exists inv Ash, update_ d A = Ok inv /\ eqm m n (mul m (mul n A Ash) A) A /\
    forall minus outA outS inM, match premultiply d inv minus outA outS inM with
      | Ok (oA, oS) => forall p, eqm n p oA (if minus then opp (mul m Ash inM) else mul m Ash inM)
      | Throw => False
      | UB => exists z, zeros z /\ m <= z
      end.
Proof.
  intros M St. destruct (made_wf _ _ _ _ _ _ M) as (W & L1 & L2).
  eexists. exists (Ash d A). split; [exact (update_ok _ _ _ _ _ _ _ _ W St)|]. split; [exact (ginverse _ _ _ _ _ _ _ _ W St)|].
  intros minus outA outS inM. destruct (premultiply_parts _ _ _ _ _ _ _ _ W St minus outA outS inM) as (a & Ha & E).
  rewrite E. destruct (mulS m (m - r) (i_zeros d) 0 inM outS) as [s| |] eqn:ES; cbn [bind].
  - intros p i j Li Lj. rewrite (Ha i j Li). destruct minus; reflexivity.
  - clear -ES. exfalso. revert ES. generalize 0 outS. generalize (i_zeros d).
    induction l as [|z l IH]; intros i o E; simpl in E; [discriminate|]. destruct (_ && _); [eauto|discriminate].
  - destruct (forallb (fun z => z <? m) (i_zeros d)) eqn:F.
    + destruct (mulS_ok m (m - r) (i_zeros d) inM 0 outS) as (o & Eo); [|rewrite forallb_forall in F; intros z I; now apply Nat.ltb_lt, F|congruence].
      rewrite (proj1 (r_len _ _ _ _ _ _ _ _ W St)). lia.
    + assert (X : exists z, In z (i_zeros d) /\ (z <? m) = false).
      { clear -F. induction (i_zeros d) as [|z l IH]; simpl in F; [discriminate|]. destruct (z <? m) eqn:Z.
        - destruct (IH F) as (y & Iy & Hy). exists y. simpl. auto.
        - exists z. simpl. auto. }
      destruct X as (z & I & H). exists z. split; [now apply (wf_zeros _ _ _ _ _ _ W)|]. now apply Nat.ltb_ge.
Qed.

Lemma null_space m n r nnz zeros d rows A : made m n r nnz zeros d -> structured m n nnz zeros rows A ->
  nullBasis m n (n - r) A (i_N d) /\
  forall add out inM, exists o, postMultiplyByN d add out inM = Ok o /\
    forall a b, b < n - r -> (o a b == if add : bool then out a b + mul n inM (i_N d) a b else mul n inM (i_N d) a b)%Q.
Proof.
  intros M St. destruct (made_wf _ _ _ _ _ _ M) as (W & L1 & L2).
  split; [exact (null_basis _ _ _ _ _ _ _ _ W St)|]. intros. exact (post_ok _ _ _ _ _ _ W add out inM).
Qed.

Lemma left_null m n r nnz zeros d rows A : made m n r nnz zeros d -> structured m n nnz zeros rows A -> full nnz zeros ->
  exists inv St, update_ d A = Ok inv /\ nullBasis n m (m - r) (tr A) St /\
    forall minus outA outS inM, exists oA oS, premultiply d inv minus outA outS inM = Ok (oA, oS) /\
      forall p, eqm (m - r) p oS (mul m (tr St) inM).
Proof.
  intros M St F. destruct (made_wf _ _ _ _ _ _ M) as (W & L1 & L2).
  eexists. exists (sel (i_zeros d)). split; [exact (update_ok _ _ _ _ _ _ _ _ W St)|]. split; [exact (left_basis _ _ _ _ _ _ _ _ W St F)|].
  intros minus outA outS inM. destruct (premultiply_parts _ _ _ _ _ _ _ _ W St minus outA outS inM) as (a & Ha & E).
  destruct (mulS_ok m (m - r) (i_zeros d) inM 0 outS) as (s & Es).
  { rewrite (proj1 (r_len _ _ _ _ _ _ _ _ W St)). lia. }
  { intros z I. apply (wf_zeros _ _ _ _ _ _ W) in I. rewrite <- (full_rho _ _ _ _ _ _ W F z I). apply (rho_lt _ _ _ _ _ _ _ _ W St). auto. }
  exists a, s. rewrite E, Es. split; [reflexivity|]. intros p i j Li Lj. apply (proj2 (outS_sel _ _ _ _ _ _ _ _ W St _ _ _ Es) i j Li).
Qed.

Lemma left_null_only_full m n r nnz zeros d rows A inv minus outA outS oA oS : made m n r nnz zeros d ->
  structured m n nnz zeros rows A -> update_ d A = Ok inv -> premultiply d inv minus outA outS A = Ok (oA, oS) ->
  eqm (m - r) n oS zero -> full nnz zeros.
Proof.
  intros M St U P Z. destruct (made_wf _ _ _ _ _ _ M) as (W & L1 & L2).
  rewrite (update_ok _ _ _ _ _ _ _ _ W St) in U. injection U as <-.
  destruct (premultiply_parts _ _ _ _ _ _ _ _ W St minus outA outS A) as (a & Ha & E). rewrite E in P.
  destruct (mulS m (m - r) (i_zeros d) 0 A outS) as [s| |] eqn:ES; try discriminate. cbn [bind] in P. injection P as _ <-.
  exact (left_zero_full _ _ _ _ _ _ _ _ W St _ _ ES Z).
Qed.

Lemma updates_last constant d l : forall A inv0 s, (constant = true -> forall B, In B l -> B = A) ->
  updates constant d (l ++ [A]) (inv0, true) = Ok s -> update_ d A = Ok (fst s).
Proof.
  assert (G : forall l A s0 s, (snd s0 = true \/ constant = false \/ update_ d A = Ok (fst s0)) ->
    (constant = true -> forall B, In B l -> B = A) -> updates constant d (l ++ [A]) s0 = Ok s -> update_ d A = Ok (fst s)).
  { clear l. induction l as [|B l IH]; intros A s0 s H C E; simpl in E.
    - unfold update in E. destruct (negb constant || snd s0) eqn:X.
      + destruct (update_ d A); simpl in E; try discriminate. injection E as <-. reflexivity.
      + simpl in E. injection E as <-. destruct constant; [|discriminate]. simpl in X. destruct H as [H|[H|H]]; congruence.
    - destruct (update constant d B s0) as [s1| |] eqn:U; simpl in E; try discriminate.
      apply (IH A s1 s); [|intros K D I; apply (C K); simpl; auto|exact E].
      unfold update in U. destruct constant; [|auto]. rewrite (C eq_refl B (or_introl eq_refl)) in U. simpl in U.
      destruct (snd s0) eqn:S0.
      + destruct (update_ d A); simpl in U; try discriminate. injection U as <-. auto.
      + injection U as <-. destruct H as [H|[H|H]]; try congruence. auto. }
  intros A inv0 s C E. apply (G l A (inv0, true) s); auto.
Qed.
