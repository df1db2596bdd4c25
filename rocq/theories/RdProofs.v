From Coq Require Import ZArith List Bool QArith Lia Lqa.
From Verif Require Import Base RangeModel SpaceModel VariableModel VariableSpec MapVarModel MapVarSpec QSum LtcModel LtcSpec LtcProofs LtcProps RdModel RdSpec.
Import ListNotations.
Local Open Scope nat_scope.

Lemma impl_ok r f t rhs v : r_ref r = Some v -> f_eu f = true -> length rhs = f_n f -> t_impl (referenceTD r) f t rhs = Ok v.
Proof. intros E Eu L. simpl. unfold referenceImpl, tdCheck. rewrite L, Nat.eqb_refl, Eu, E. reflexivity. Qed.

Lemma advance_sum i h : forall J x d, length x = length d ->
  (qsum (fun cx => nth i (fst cx) 0 * snd cx) (combine J (advance h x d)) ==
   qsum (fun cx => nth i (fst cx) 0 * snd cx) (combine J x) + h * qsum (fun cx => nth i (fst cx) 0 * snd cx) (combine J d))%Q.
Proof.
  unfold advance. induction J as [|c J IH]; intros x d L; [simpl; ring|]. destruct x as [|a x]; destruct d as [|b d]; simpl in L; try discriminate; [simpl; ring|].
  cbn [combine map qsum fst snd]. rewrite IH by lia. ring.
Qed.
Lemma moved_sum h env env' i : forall (m : vmap (list Q)) ds, moved h (map fst m) ds env env' ->
  (qsum (fun p => qsum (fun cx => nth i (fst cx) 0 * snd cx) (combine (snd (fst p)) (env' (snd p)))) (combine m (map fst m)) ==
   qsum (fun p => qsum (fun cx => nth i (fst cx) 0 * snd cx) (combine (snd (fst p)) (env (snd p)))) (combine m (map fst m)) +
   h * qsum (fun p => qsum (fun cx => nth i (fst cx) 0 * snd cx) (combine (snd (fst p)) (env (snd p)))) (combine m ds))%Q.
Proof.
  induction m as [|[v J] m IH]; intros ds [L M]; [simpl; ring|]. destruct ds as [|d ds]; [discriminate L|].
  cbn [combine map qsum fst snd]. rewrite (IH ds); [|split; [simpl in L; lia|intros a b I; apply M; simpl; auto]].
  destruct (M v d) as [Le ->]; [simpl; auto|]. rewrite advance_sum by exact Le. ring.
Qed.
Lemma moved_linear h f env env' ds i : map fst (f_J f) = f_vars f -> moved h (f_vars f) ds env env' ->
  (linearPart f env' i == linearPart f env i + h * chainRule f env ds i)%Q.
Proof. intros E M. unfold linearPart, chainRule. rewrite <- E in *. apply moved_sum. exact M. Qed.

Lemma integral_S h refs n i : (integral h refs (S n) i == integral h refs n i + h * nth i (refs n) 0)%Q.
Proof. unfold integral, qsumn. rewrite seq_S, qsum_app. simpl. ring. Qed.

Lemma tracks f ds (refs : nat -> list Q) (env : nat -> nat -> list Q) dt :
  map fst (f_J f) = f_vars f -> (forall k, moved dt (f_vars f) ds (env k) (env (S k))) ->
  (forall k i, i < f_n f -> (chainRule f (env k) ds i == nth i (refs k) 0)%Q) ->
  forall n i, i < f_n f -> (linearPart f (env n) i == linearPart f (env 0%nat) i + integral dt refs n i)%Q.
Proof.
  intros E M W n i Hi. induction n as [|n IH]; [unfold integral, qsumn; simpl; ring|].
  rewrite (moved_linear dt f (env n) (env (S n)) ds i E (M n)), IH, (W n i Hi), integral_S. ring.
Qed.
