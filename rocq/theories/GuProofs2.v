(* What executing the generated graph does. *)
From Coq Require Import List Bool Arith Lia Relations.
Require Import Verif.Base Verif.CallGraphModel Verif.CallGraphSpec Verif.InputsModel Verif.InputsSpec Verif.GuModel Verif.GuSpec Verif.GuProofs.
Import ListNotations.
Local Open Scope nat_scope.

Lemma generate_ok N rank D fuel U en addrs obj args :
  forwarding_ends N rank D -> finitely N obj args U -> length U * (D + 2) + D + 2 <= fuel -> lists_objects obj args addrs ->
  (forall s o, asked obj args s o -> en s o = true) -> ~ cyclic N obj args ->
  exists us p, generate fuel N en addrs obj args = Ok (us, p) /\ NoDup p /\ (forall c, In c p <-> needs N obj args c) /\
    (forall c d, In c p -> dep N c d -> called_before p d c) /\
    (forall s, (exists u, In u us /\ owns u s) <-> exists o, asked obj args s o).
Proof.
  intros FE FI FU LO AE NC. destruct (generate_spec N rank D fuel U en addrs obj args FE FI FU LO) as [[(s & o & A & E) _]|[_ G]].
  - rewrite (AE s o A) in E. discriminate.
  - destruct (generate fuel N en addrs obj args) as [[us p]| |]; [|contradiction|contradiction].
    destruct G as (AL & ND & P1 & P2 & O). exists us, p. split; [reflexivity|]. split; [exact ND|].
    split; [intros c; split; [apply P1|apply P2, NC]|]. split; [exact O|exact AL].
Qed.
Lemma generate_throw N rank D fuel U en addrs obj args :
  forwarding_ends N rank D -> finitely N obj args U -> length U * (D + 2) + D + 2 <= fuel -> lists_objects obj args addrs ->
  ~ cyclic N obj args ->
  (generate fuel N en addrs obj args = Throw <-> exists s o, asked obj args s o /\ en s o = false).
Proof.
  intros FE FI FU LO NC. destruct (generate_spec N rank D fuel U en addrs obj args FE FI FU LO) as [[E T]|[AE G]].
  - split; auto.
  - split.
    + intros T. rewrite T in G. contradiction.
    + intros (s & o & A & E). rewrite (AE s o A) in E. discriminate.
Qed.
Lemma generate_any N rank D fuel U en addrs obj args :
  forwarding_ends N rank D -> finitely N obj args U -> length U * (D + 2) + D + 2 <= fuel -> lists_objects obj args addrs ->
  match generate fuel N en addrs obj args with
  | Ok (us, p) => (forall s o, asked obj args s o -> en s o = true) /\ NoDup p /\ (forall c, In c p -> needs N obj args c) /\
      (forall c d, In c p -> dep N c d -> called_before p d c)
  | Throw => (exists s o, asked obj args s o /\ en s o = false) \/ cyclic N obj args
  | UB => False
  end.
Proof.
  intros FE FI FU LO. destruct (generate_spec N rank D fuel U en addrs obj args FE FI FU LO) as [[E T]|[AE G]].
  - rewrite T. auto.
  - destruct (generate fuel N en addrs obj args) as [[us p]| |]; auto.
    destruct G as (_ & ND & P1 & _ & O). auto.
Qed.
Lemma generate_run V N rank D fuel U en addrs obj args us p (F : call -> (call -> V) -> V) m :
  forwarding_ends N rank D -> finitely N obj args U -> length U * (D + 2) + D + 2 <= fuel -> lists_objects obj args addrs ->
  ~ cyclic N obj args -> reads_deps N F -> generate fuel N en addrs obj args = Ok (us, p) ->
  up_to_date F (needs N obj args) (run F p m) /\ (forall c, ~ needs N obj args c -> run F p m c = m c) /\
  (forall m', up_to_date F (needs N obj args) m' -> forall c, needs N obj args c -> run F p m c = m' c).
Proof.
  intros FE FI FU LO NC RD G. destruct (generate_spec N rank D fuel U en addrs obj args FE FI FU LO) as [[E T]|[AE H]]; [congruence|].
  rewrite G in H. destruct H as (_ & ND & P1 & P2 & O). specialize (P2 NC).
  assert (OR : ordered N p) by (split; assumption).
  assert (UD : up_to_date F (needs N obj args) (run F p m)).
  { intros c I. apply (run_fixed N F RD p m OR). apply P2, I. }
  split; [exact UD|]. split.
  - intros c I. apply run_other. intros K. apply I, P1, K.
  - intros m' U' c I. apply (unique_on N F RD p OR); [intros d J; apply UD, P1, J|intros d J; apply U', P1, J|apply P2, I].
Qed.
