(* Proofs for SlcProps.v *)
Require Import List Bool Arith Lia.
Require Import Verif.Base Verif.MatPropModel Verif.SlcModel Verif.SlcSpec.

Section Plain.
Variable K : Type.
Variables add sub : K -> K -> K.
Notation step := (step add sub).

Lemma view_ok (o : obj K) t v : view o t = Ok v <->
  exists d, fits (mx o) t d /\ nr v = nr (mx o) /\ nc v = d /\ v = mkMat (nr (mx o)) d (entry (mx o) t).
Proof.
  destruct t as [|s d]; cbn.
  - split.
    + intros [= <-]. exists (nc (mx o)). destruct (mx o); auto.
    + intros (d & -> & _ & _ & ->). destruct (mx o); reflexivity.
  - unfold middleCols. destruct (Nat.leb_spec (s + d) (nc (mx o))); split.
    + intros [= <-]. exists d. auto.
    + intros (d' & (-> & _) & _ & _ & ->). reflexivity.
    + discriminate.
    + intros (d' & (-> & ?) & _). lia.
Qed.
Lemma put_replaced (M : mat K) t f d : fits M t d -> replaced M t f (put M t f).
Proof.
  intros F. destruct t as [|s e]; cbn [fits] in F; unfold replaced; cbn [put nr nc en refersTo].
  - split; [reflexivity|]. split; [reflexivity|]. split.
    + intros i j k [-> _]. reflexivity.
    + intros i j J N. exfalso. apply (N j). auto.
  - split; [reflexivity|]. split; [reflexivity|]. split.
    + intros i j k [-> L]. destruct (Nat.leb_spec s (s + k)); [|lia].
      destruct (Nat.ltb_spec (s + k) (s + e)); [|lia]. cbn [andb]. f_equal. lia.
    + intros i j J N. destruct (Nat.leb_spec s j); [|reflexivity].
      destruct (Nat.ltb_spec j (s + e)); [|reflexivity]. exfalso. apply (N (j - s)). split; lia.
Qed.
Lemma same_spec (v e : mat K) : sameSize v e = true <-> nr e = nr v /\ nc e = nc v.
Proof. unfold sameSize. rewrite andb_true_iff, !Nat.eqb_eq. intuition. Qed.

Lemma step_spec (o : obj K) t c :
  ((exists o', step o (t, c) = Ok o') <->
   exists d, fits (mx o) t d /\
     forall e f, writes add sub (mx o) t c = Some (e, f) -> nr e = nr (mx o) /\ nc e = d) /\
  (forall o', step o (t, c) = Ok o' ->
     pr o' = leaves o c /\
     match writes add sub (mx o) t c with
     | Some (_, f) => replaced (mx o) t f (mx o')
     | None => mx o' = mx o
     end).
Proof.
  unfold step, assign, assignKeep; cbn [fst snd].
  destruct (view o t) as [v| |] eqn:V; cbn [bind].
  - apply view_ok in V. destruct V as (d & F & Er & Ec & Ev).
    assert (U : forall d', fits (mx o) t d' -> d' = d)
      by (intros d'; destruct t; cbn in *; intuition congruence).
    assert (S : forall e : mat K, sameSize v e = true <-> nr e = nr (mx o) /\ nc e = d)
      by (intros e; rewrite same_spec, Er, Ec; reflexivity).
    assert (Y : forall (e : mat K) (f : nat -> nat -> K) p,
      ((exists o', (if sameSize v e then Ok (mkObj (put (mx o) t f) p) else UB) = Ok o') <->
       exists d', fits (mx o) t d' /\ forall e' f', Some (e, f) = Some (e', f') -> nr e' = nr (mx o) /\ nc e' = d') /\
      (forall o', (if sameSize v e then Ok (mkObj (put (mx o) t f) p) else UB) = Ok o' ->
         pr o' = p /\ replaced (mx o) t f (mx o'))).
    { intros e f p. split.
      - split.
        + intros [o' H]. exists d. split; [exact F|]. intros e' f' [= <- <-]. apply S.
          destruct (sameSize v e); [reflexivity|discriminate].
        + intros (d' & F' & H). pose proof (U _ F'). subst d'. specialize (H _ _ eq_refl). apply S in H.
          rewrite H. eexists. reflexivity.
      - intros o'. destruct (sameSize v e); [|discriminate]. intros [= <-]. cbn. split; [reflexivity|].
        eapply put_replaced. exact F. }
    assert (EE : forall i j, en v i j = entry (mx o) t i j) by (intros; rewrite Ev; reflexivity).
    rewrite Ev. cbn [en]. rewrite <- Ev.
    destruct c as [e|e|e|b e|p]; cbn [writes leaves].
    + apply Y.
    + apply Y.
    + apply Y.
    + destruct b; apply Y.
    + split; [|intros o' [= <-]; cbn; auto]. split; [|eauto].
      intros _. exists d. split; [exact F|discriminate].
  - exfalso. destruct t; cbn in V; [discriminate|]. unfold middleCols in V. destruct (_ <=? _); discriminate.
  - split; [|discriminate]. split; [intros [? ?]; discriminate|].
    intros (d & F & _). exfalso.
    assert (view o t = Ok (mkMat (nr (mx o)) d (entry (mx o) t))) as W
      by (apply view_ok; exists d; auto).
    congruence.
Qed.

Lemma add_spec (o : obj K) t A o' : addTo add sub o t A = Ok o' ->
  pr o' = mkP true false GENERAL false NA /\ replaced (mx o) t (fun i k => add (entry (mx o) t i k) (en A i k)) (mx o').
Proof.
  unfold addTo. destruct (step o (t, Plus A)) as [o1| |] eqn:S; cbn [bind]; [|discriminate|discriminate].
  destruct (step_spec o t (Plus A)) as [_ H]. specialize (H _ S). cbn [writes leaves] in H. destruct H as [_ H].
  change (build (mkArgs GENERAL NA (Some true) None)) with (Ok (mkP true false GENERAL false NA)). cbn [bind].
  intros S'. destruct (step_spec o1 t (SetProps (mkP true false GENERAL false NA))) as [_ H'].
  specialize (H' _ S'). cbn [writes leaves] in H'. destruct H' as [-> ->]. auto.
Qed.
Lemma add_defined (o : obj K) t A d : fits (mx o) t d -> nr A = nr (mx o) -> nc A = d ->
  exists o', addTo add sub o t A = Ok o'.
Proof.
  intros F Er Ec. unfold addTo.
  destruct (step_spec o t (Plus A)) as [[_ H] H']. destruct H as [o1 S].
  { exists d. split; [exact F|]. cbn. intros e f [= <- <-]. auto. }
  rewrite S. cbn [bind]. change (build (mkArgs GENERAL NA (Some true) None)) with (Ok (mkP true false GENERAL false NA)).
  cbn [bind]. specialize (H' _ S). cbn [writes] in H'. destruct H' as [_ (Xr & Xc & _)].
  destruct (step_spec o1 t (SetProps (mkP true false GENERAL false NA))) as [[_ H] _]. apply H.
  exists d. split; [|discriminate]. destruct t; cbn in *; rewrite Xc; exact F.
Qed.
End Plain.
