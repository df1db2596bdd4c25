(* The removal of the namespaces. *)
From Coq Require Import List Bool Arith String Ascii Lia.
Import ListNotations.
From Verif Require Import Base DotModel DotSpec.
Local Open Scope nat_scope.
Lemma prefix_append_in a s : forall q, prefix (String.append q (String a EmptyString)) s = true -> In a (chars s).
Proof.
  induction s as [|c s IH]; intros q H; destruct q as [|d q]; cbn in H; try discriminate.
  - destruct (ascii_dec a c) as [->|]; [|discriminate]. left. reflexivity.
  - destruct (ascii_dec d c); [|discriminate]. right. exact (IH q H).
Qed.
Lemma index_none a q s : ~ In a (chars s) -> q <> EmptyString -> (exists q', q = String.append q' (String a EmptyString)) -> String.index 0 q s = None.
Proof.
  intros N Ne [q' ->]. induction s as [|c s IH].
  - destruct q'; reflexivity.
  - cbn [String.index]. destruct (prefix (String.append q' (String a EmptyString)) (String c s)) eqn:P.
    + destruct (N (prefix_append_in a _ _ P)).
    + rewrite IH; [reflexivity|]. intros K. apply N. right. exact K.
Qed.
Lemma index_colon p s : ~ In ":"%char (chars s) -> String.index 0 (String.append p "::") s = None.
Proof.
  intros N. apply (index_none ":"%char _ _ N).
  - destruct p; discriminate.
  - exists (String.append p ":"). induction p as [|c p IH]; [reflexivity|]. cbn. f_equal. exact IH.
Qed.
Lemma prefix_extend a s q : ~ In a (chars s) -> forall r, prefix (String.append q (String a EmptyString)) (String.append r s) = prefix (String.append q (String a EmptyString)) r.
Proof.
  intros N. induction q as [|d q IH]; intros r; destruct r as [|c r]; cbn [String.append prefix].
  - destruct s as [|c s]; [reflexivity|]. cbn [prefix]. destruct (ascii_dec a c) as [->|]; [|reflexivity]. destruct N. left. reflexivity.
  - destruct (ascii_dec a c); [|reflexivity]. destruct r, s; reflexivity.
  - destruct s as [|c s]; [reflexivity|]. cbn [prefix]. destruct (ascii_dec d c); [|reflexivity].
    destruct (prefix (String.append q (String a "")) s) eqn:P; [|reflexivity]. destruct N. right. exact (prefix_append_in a s q P).
  - destruct (ascii_dec d c); [|reflexivity]. apply IH.
Qed.
Lemma index_extend a s q r : ~ In a (chars s) ->
  String.index 0 (String.append q (String a EmptyString)) (String.append r s) = String.index 0 (String.append q (String a EmptyString)) r.
Proof.
  intros N. induction r as [|c r IH].
  - cbn [String.append]. rewrite (index_none a _ s N); [destruct q; reflexivity|destruct q; discriminate|eauto].
  - pose proof (prefix_extend a s q N (String c r)) as P. cbn [String.append] in P |- *. cbn [String.index]. rewrite P, IH. reflexivity.
Qed.
Lemma substring_all s : String.substring 0 (String.length s) s = s.
Proof. induction s as [|c s IH]; cbn; [reflexivity|]. f_equal. exact IH. Qed.
Lemma substring_skip r s : String.substring (String.length r) (String.length (String.append r s) - String.length r) (String.append r s) = s.
Proof.
  induction r as [|c r IH]; cbn.
  - rewrite Nat.sub_0_r. apply substring_all.
  - exact IH.
Qed.
Lemma append_assoc a b c : String.append a (String.append b c) = String.append (String.append a b) c.
Proof. induction a as [|x a IH]; cbn; [reflexivity|]. f_equal. exact IH. Qed.
Lemma length_append a b : String.length (String.append a b) = String.length a + String.length b.
Proof. induction a as [|x a IH]; cbn; [reflexivity|]. f_equal. exact IH. Qed.
Lemma removeOne_at q s : ~ In ":"%char (chars s) -> String.index 0 (String.append q "::") (String.append q "::") = Some 0 ->
  removeOne (String.append (String.append q "::") s) q = s.
Proof.
  intros N I. unfold removeOne.
  assert (E : String.index 0 (String.append q "::") (String.append (String.append q "::") s) = Some 0).
  { change "::"%string with (String.append ":" ":") at 1 2. rewrite append_assoc. rewrite index_extend by exact N.
    rewrite <- append_assoc. exact I. }
  rewrite E. cbn [Nat.add].
  assert (L : String.length q + 2 = String.length (String.append q "::")) by (rewrite length_append; reflexivity).
  rewrite L, substring_skip. destruct q; reflexivity.
Qed.
Lemma removeOne_not q r s : ~ In ":"%char (chars s) -> String.index 0 (String.append q "::") r = None ->
  removeOne (String.append r s) q = String.append r s.
Proof.
  intros N I. unfold removeOne. change "::"%string with (String.append ":" ":"). rewrite append_assoc. rewrite index_extend by exact N.
  rewrite <- append_assoc. cbn [String.append] in *. rewrite I. reflexivity.
Qed.
Lemma removed_ns p s : In p listed -> ~ In ":"%char (chars s) -> removeNamespace (String.append p (String.append "::" s)) = s.
Proof.
  intros I N. rewrite append_assoc. unfold removeNamespace, namespaces. cbn [fold_left].
  assert (R : forall q, removeOne s q = s).
  { intros q. unfold removeOne. rewrite index_colon by exact N. reflexivity. }
  unfold listed in I. cbn [In] in I. decompose [or] I; try contradiction; subst p;
   repeat (rewrite (removeOne_not _ _ _ N) by (vm_compute; reflexivity)); rewrite removeOne_at by (exact N || (vm_compute; reflexivity)); rewrite ?R; reflexivity.
Qed.
