Require Import QArith ZArith List Bool Lia Arith.
Require Import Verif.Base Verif.QSum Verif.RangeModel Verif.SpaceModel Verif.VarCountingModel Verif.LinFunModel Verif.LinFunSpec Verif.BlcModel Verif.BlcSpec Verif.BlcProofs Verif.BlcProofs2 Verif.BlcProofs3.
Import ListNotations.
Local Open Scope Z_scope.

Section Blc.
Variables (base : nat -> bool) (V : nat -> cvar).
Notation binv := (binv base V). Notation sane x := (sane base (V x)).

Lemma fst_combine {S T} : forall (l : list S) (m : list T), length l = length m -> map fst (combine l m) = l.
Proof. induction l as [|u l IH]; intros [|v m] L; try discriminate; cbn; [reflexivity|]. f_equal. apply IH. cbn in L. lia. Qed.
Lemma last_initially k x A : length (k_mats k) = length (k_vars k) -> lastOf (k_terms k) x A -> initially k x (Some A).
Proof.
  intros L (a & b & E & N). unfold k_terms in E. apply (Ilast k x (map fst a) A (map fst b) (map snd a) (map snd b)).
  - rewrite <- (fst_combine _ _ L), E, map_app. reflexivity.
  - rewrite <- (snd_combine _ _ L), E, map_app. reflexivity.
  - rewrite !map_length. reflexivity.
  - exact N.
Qed.
(* a constructor with matrices, up to the right-hand side *)
Definition kcore (k : ctor) (c : blc) : Prop :=
  binv c /\ b_type c = k_type k /\ b_rhs c = k_rhs k /\ b_size c = k_rows k /\
  (forall x J, In (x, J) (b_jac c) -> exists A, initially k x (Some A) /\ J = mkBJ (k_rows k) (tSize (c_space (V x))) (Some A) constP) /\
  (forall x, In x (keys c) <-> In x (k_vars k)).
Lemma matrices_spec k c0 : length (k_mats k) = length (k_vars k) -> newBlc (k_type k) (k_rhs k) (k_rows k) = Ok c0 -> Forall (fun x => sane x) (k_vars k) ->
  let good := Forall2 (fun A x => fine base V (k_rows k) A x) (k_mats k) (k_vars k) /\ separate base V (k_vars k) in
  (good -> exists c, blcAdds base V c0 (k_terms k) = Ok c) /\
  (forall c, blcAdds base V c0 (k_terms k) = Ok c -> good /\ kcore k c /\ sameHead c0 c) /\ blcAdds base V c0 (k_terms k) <> UB.
Proof.
  intros L E S good. destruct (newBlc_inv base V _ _ _ _ E) as (I & Ej & Et & Er & En & _).
  assert (I0 : ainv base V c0 [] c0).
  { constructor; [exact I|unfold sameHead; auto 8|unfold keys; rewrite Ej; reflexivity|rewrite Ej; intros ? ? []]. }
  assert (S' : Forall (fun t => sane (snd t)) (k_terms k)).
  { apply Forall_forall. intros t Ht. rewrite Forall_forall in S. apply S. unfold k_terms in Ht. rewrite <- (snd_combine _ _ L). apply in_map, Ht. }
  destruct (adds_spec base V c0 (k_terms k) [] c0 I0 S') as (P1 & P2 & P3). rewrite En in P1, P2.
  assert (T : okTerms base V (k_rows k) [] (k_terms k) <-> good) by (apply terms_sep, L). split; [|split; [|exact P3]].
  - intros G. apply T in G. destruct (P1 G) as (c & Ec & _). eauto.
  - intros c Ec. destruct (P2 c Ec) as [Ok_ [J H K M]]. split; [apply T, Ok_|]. split; [|exact H]. cbn [app] in *. destruct H as (H1 & H2 & H3 & H4 & H5 & H6).
    split; [exact J|]. split; [congruence|]. split; [congruence|]. split; [congruence|]. split.
    + intros x Jx Hx. destruct (M x Jx Hx) as (A & HA & EA). exists A. split; [apply last_initially; auto|]. rewrite EA, En. reflexivity.
    + intros x. rewrite K. unfold k_terms. rewrite (snd_combine _ _ L). reflexivity.
Qed.

Lemma isDouble_spec t : isDouble t = true <-> t = BDouble. Proof. destruct t; cbn; split; congruence. Qed.
Lemma isZero_spec r : isZeroRhs r = true <-> r = BZero. Proof. destruct r; cbn; split; congruence. Qed.
Lemma isDouble_f t : isDouble t = false <-> t <> BDouble. Proof. destruct t; cbn; split; congruence. Qed.
Lemma isZero_f r : isZeroRhs r = false <-> r <> BZero. Proof. destruct r; cbn; split; congruence. Qed.

Lemma kcore_kinv k c : ~ allocates k -> kcore k c -> ~ (k_type k = BDouble /\ k_rhs k = BZero) ->
  b_l c = (match k_rhs k, k_type k with BZero, _ => None | _, BGreater => Some (init_b k) | _, BDouble => Some (init_l k) | _, _ => None end) ->
  b_u c = (match k_rhs k, k_type k with BZero, _ => None | _, BLower => Some (init_b k) | _, BDouble => Some (init_u k) | _, _ => None end) ->
  b_e c = (match k_rhs k, k_type k with BZero, _ => None | _, BEqual => Some (init_b k) | _, _ => None end) -> kinv base V k c.
Proof.
  intros N (C1 & C2 & C3 & C4 & C5 & C6) D El Eu Ee. unfold kinv. split; [exact C1|]. split; [exact C2|]. split; [exact C3|]. split; [exact C4|]. split; [exact D|]. split.
  { intros x J Hx. destruct (C5 x J Hx) as (A & HA & ->). exists (Some A). split; [exact HA|]. split; [intros; contradiction|]. split; [discriminate|reflexivity]. }
  split; [intros; contradiction|]. split; [intros _; exact C6|]. split; [exact El|]. split; [exact Eu|exact Ee].
Qed.
Lemma kcore_rhs k c l u e : kcore k c -> kcore k (mkBlc (b_type c) (b_rhs c) (b_size c) (b_jac c) l u e).
Proof. intros ([I1 I2 I3 I4] & C2 & C3 & C4 & C5 & C6). split; [constructor; assumption|]. cbn. auto. Qed.

Lemma construct_spec k : Forall (fun x => sane x) (k_vars k) -> (allocates k \/ k_mats k <> []) ->
  (proper base V k -> exists c, construct base V k = Ok c) /\ (forall c, construct base V k = Ok c -> proper base V k /\ kinv base V k c) /\ construct base V k <> UB.
Proof.
  intros S Ne. destruct k as [As xs t|As xs b t r|As xs l u r|m xs t r].
  - (* Homogeneous *) destruct Ne as [[]|Ne]. destruct As as [|A0 As]; [exfalso; apply Ne; reflexivity|]. set (k := Homogeneous (A0 :: As) xs t) in *. cbn [construct k].
    assert (L : length (k_mats k) = length (k_vars k) \/ length (k_mats k) <> length (k_vars k)) by lia. cbn in S.
    destruct (newBlc t BZero (mr A0)) as [c0| |] eqn:En; cbn [bind].
    2:{ split; [|split; discriminate]. intros (_ & _ & P). assert (Hx : ~ (t = BDouble /\ BZero = BZero)) by (intros [? _]; auto). destruct (newBlc_ok t BZero (mr A0) Hx) as (c & Ec). congruence. }
    2:{ exfalso. apply (newBlc_defined _ _ _ En). }
    destruct (isDouble t) eqn:Ed; [apply isDouble_spec in Ed; split; [intros (_ & _ & P); contradiction|split; discriminate]|]. apply isDouble_f in Ed.
    destruct (Nat.eqb_spec (length (A0 :: As)) (length xs)) as [El|El]; cbn [negb].
    2:{ split; [|split; discriminate]. intros (F & _ & _). exfalso. apply El. clear - F. cbn [k k_mats k_vars] in F. induction F; cbn; congruence. }
    destruct (matrices_spec k c0 El En S) as (P1 & P2 & P3). change (combine (A0 :: As) xs) with (k_terms k). split; [|split; [|exact P3]].
    + intros (F & Sp & _). apply P1. split; [exact F|exact Sp].
    + intros c Ec. destruct (P2 c Ec) as ([F Sp] & K & H). split; [split; [exact F|split; [exact Sp|exact Ed]]|].
      destruct (newBlc_inv base V _ _ _ _ En) as (_ & _ & _ & _ & _ & N & Hl & Hu & He). destruct H as (_ & _ & _ & H4 & H5 & H6).
      apply kcore_kinv; [intros []|exact K|exact N|rewrite H4, Hl; reflexivity|rewrite H5, Hu; reflexivity|rewrite H6, He; reflexivity].
  - (* WithB *) destruct Ne as [[]|Ne]. destruct As as [|A0 As]; [exfalso; apply Ne; reflexivity|]. set (k := WithB (A0 :: As) xs b t r) in *. cbn [construct k]. cbn in S.
    destruct (newBlc t r (mr A0)) as [c0| |] eqn:En; cbn [bind].
    2:{ split; [|split; discriminate]. intros (_ & _ & P & _). assert (Hx : ~ (t = BDouble /\ r = BZero)) by (intros [? _]; auto). destruct (newBlc_ok t r (mr A0) Hx) as (c & Ec). congruence. }
    2:{ exfalso. apply (newBlc_defined _ _ _ En). }
    destruct (isDouble t) eqn:Ed; [apply isDouble_spec in Ed; split; [intros (_ & _ & P & _); contradiction|split; discriminate]|]. apply isDouble_f in Ed.
    destruct (isZeroRhs r) eqn:Ez; [apply isZero_spec in Ez; split; [intros (_ & _ & _ & P & _); contradiction|split; discriminate]|]. apply isZero_f in Ez.
    destruct (Nat.eqb_spec (length (A0 :: As)) (length xs)) as [El|El]; cbn [negb].
    2:{ split; [|split; discriminate]. intros (F & _ & _). exfalso. apply El. clear - F. cbn [k k_mats k_vars] in F. induction F; cbn; congruence. }
    destruct (newBlc_inv base V _ _ _ _ En) as (_ & _ & Et & Er & Es & N & Hl & Hu & He).
    destruct (Nat.eqb_spec (vn b) (b_size c0)) as [Eb|Eb]; cbn [negb]; rewrite Es in Eb.
    2:{ split; [|split; discriminate]. intros (_ & _ & _ & _ & P). contradiction. }
    destruct (matrices_spec k c0 El En S) as (P1 & P2 & P3). change (combine (A0 :: As) xs) with (k_terms k).
    assert (Sb : forall c, blcAdds base V c0 (k_terms k) = Ok c -> exists c', setb c b = Ok c' /\ proper base V k /\ kinv base V k c').
    { intros c Ec. destruct (P2 c Ec) as ([F Sp] & K & H). destruct K as (C1 & C2 & C3 & C4 & C56). assert (K : kcore k c) by (split; auto). clear C56.
      unfold setb. rewrite C2, C3, C4. cbn [k k_type k_rhs k_rows k_mats]. rewrite (proj2 (isDouble_f t) Ed), (proj2 (isZero_f r) Ez). cbn [negb andb].
      destruct (Nat.eqb_spec (vn b) (mr A0)) as [_|]; [|contradiction]. eexists. split; [reflexivity|]. split; [split; [exact F|split; [exact Sp|split; [exact Ed|split; [exact Ez|exact Eb]]]]|].
      destruct H as (_ & _ & _ & H4 & H5 & H6).
      assert (Q : kcore k (match t with
          | BEqual => mkBlc (b_type c) (b_rhs c) (b_size c) (b_jac c) (b_l c) (b_u c) (Some (Some b))
          | BGreater => mkBlc (b_type c) (b_rhs c) (b_size c) (b_jac c) (Some (Some b)) (b_u c) (b_e c)
          | BLower => mkBlc (b_type c) (b_rhs c) (b_size c) (b_jac c) (b_l c) (Some (Some b)) (b_e c)
          | BDouble => c end)) by (destruct t; try apply kcore_rhs; exact K).
      rewrite C2, C3, C4 in Q. cbn [k k_type k_rhs k_rows k_mats] in Q.
      apply kcore_kinv; [intros []|exact Q|exact N| | |]; cbn [k k_type k_rhs init_b init_l init_u]; destruct t; try congruence; cbn [b_l b_u b_e]; rewrite ?H4, ?H5, ?H6, ?Hl, ?Hu, ?He; destruct r; congruence. }
    split; [|split].
    + intros (F & Sp & _). destruct (P1 (conj F Sp)) as (c & Ec). rewrite Ec. cbn [bind]. destruct (Sb c Ec) as (c' & E' & _). eauto.
    + intros c' Ec'. destruct (blcAdds base V c0 (k_terms k)) as [c| |] eqn:Ec; cbn [bind] in Ec'; try discriminate. destruct (Sb c eq_refl) as (c1 & E1 & Q). rewrite E1 in Ec'. injection Ec' as <-. exact Q.
    + destruct (blcAdds base V c0 (k_terms k)) as [c| |] eqn:Ec; cbn [bind]; [|discriminate|congruence]. destruct (Sb c eq_refl) as (c1 & E1 & Q). rewrite E1. discriminate.
  - (* WithLU *) destruct Ne as [[]|Ne]. destruct As as [|A0 As]; [exfalso; apply Ne; reflexivity|]. set (k := WithLU (A0 :: As) xs l u r) in *. cbn [construct k]. cbn in S.
    destruct (newBlc BDouble r (mr A0)) as [c0| |] eqn:En; cbn [bind].
    2:{ split; [|split; discriminate]. intros (_ & _ & P & _). assert (Hx : ~ (BDouble = BDouble /\ r = BZero)) by (intros [_ ?]; auto). destruct (newBlc_ok BDouble r (mr A0) Hx) as (c & Ec). congruence. }
    2:{ exfalso. apply (newBlc_defined _ _ _ En). }
    destruct (isZeroRhs r) eqn:Ez; [apply isZero_spec in Ez; split; [intros (_ & _ & P & _); contradiction|split; discriminate]|]. apply isZero_f in Ez.
    destruct (Nat.eqb_spec (length (A0 :: As)) (length xs)) as [El|El]; cbn [negb].
    2:{ split; [|split; discriminate]. intros (F & _ & _). exfalso. apply El. clear - F. cbn [k k_mats k_vars] in F. induction F; cbn; congruence. }
    destruct (newBlc_inv base V _ _ _ _ En) as (_ & _ & Et & Er & Es & N & Hl & Hu & He).
    destruct (Nat.eqb_spec (vn l) (b_size c0)) as [Eb|Eb]; cbn [negb]; rewrite Es in Eb.
    2:{ split; [|split; discriminate]. intros (_ & _ & _ & P & _). contradiction. }
    destruct (Nat.eqb_spec (vn u) (b_size c0)) as [Eb2|Eb2]; cbn [negb]; rewrite Es in Eb2.
    2:{ split; [|split; discriminate]. intros (_ & _ & _ & _ & P). contradiction. }
    destruct (matrices_spec k c0 El En S) as (P1 & P2 & P3). change (combine (A0 :: As) xs) with (k_terms k).
    assert (Sb : forall c, blcAdds base V c0 (k_terms k) = Ok c -> exists c', (do c <- setl c l; setu c u) = Ok c' /\ proper base V k /\ kinv base V k c').
    { intros c Ec. destruct (P2 c Ec) as ([F Sp] & K & H). destruct K as (C1 & C2 & C3 & C4 & C56). assert (K : kcore k c) by (split; auto). clear C56.
      unfold setl. rewrite C2, C3, C4. cbn [k k_type k_rhs k_rows k_mats]. rewrite (proj2 (isZero_f r) Ez). cbn [negb andb isDouble].
      destruct (Nat.eqb_spec (vn l) (mr A0)) as [_|]; [|contradiction]. cbn [bind]. unfold setu. cbn [b_type b_rhs b_size b_jac b_l b_u b_e]. rewrite (proj2 (isZero_f r) Ez). cbn [negb andb isDouble].
      destruct (Nat.eqb_spec (vn u) (mr A0)) as [_|]; [|contradiction]. eexists. split; [reflexivity|]. split; [split; [exact F|split; [exact Sp|split; [exact Ez|split; [exact Eb|exact Eb2]]]]|].
      destruct H as (_ & _ & _ & H4 & H5 & H6). pose proof (kcore_rhs k c (Some (Some l)) (Some (Some u)) (b_e c) K) as Q. rewrite C2, C3, C4 in Q.
      apply kcore_kinv; [intros []|exact Q|exact N| | |]; cbn [k k_type k_rhs init_b init_l init_u b_l b_u b_e]; rewrite ?H6, ?He; destruct r; congruence. }
    split; [|split].
    + intros (F & Sp & _). destruct (P1 (conj F Sp)) as (c & Ec). rewrite Ec. cbn [bind]. destruct (Sb c Ec) as (c' & E' & _). eauto.
    + intros c' Ec'. destruct (blcAdds base V c0 (k_terms k)) as [c| |] eqn:Ec; cbn [bind] in Ec'; try discriminate. destruct (Sb c eq_refl) as (c1 & E1 & Q). rewrite E1 in Ec'. injection Ec' as <-. exact Q.
    + destruct (blcAdds base V c0 (k_terms k)) as [c| |] eqn:Ec; cbn [bind]; [|discriminate|congruence]. destruct (Sb c eq_refl) as (c1 & E1 & Q). rewrite E1. discriminate.
  - (* Allocated *) cbn [construct k_vars] in *. destruct (newBlc t r m) as [c0| |] eqn:En; cbn [bind].
    2:{ split; [|split; discriminate]. intros (N & _). destruct (newBlc_ok t r m N) as (c & Ec). congruence. }
    2:{ exfalso. apply (newBlc_defined _ _ _ En). }
    destruct (newBlc_inv base V _ _ _ _ En) as (I & Ej & Et & Er & Es & N & Hl & Hu & He).
    assert (I0 : vinv base V c0 [] c0).
    { constructor; [exact I|unfold sameHead; auto 8|unfold keys; rewrite Ej; intros ? []|intros ? []|rewrite Ej; intros ? ? []]. }
    destruct (addVars_spec base V c0 xs [] c0 I0 (Forall_nil _) S) as (P1 & P2 & P3). split; [|split; [|exact P3]].
    + intros [_ C]. apply vars_comp in C. destruct (P1 C) as (c & Ec & _). eauto.
    + intros c Ec. destruct (P2 c Ec) as [C [J (H1 & H2 & H3 & H4 & H5 & H6) K In_ M]]. cbn [app] in *. apply vars_comp in C. split; [split; [exact N|exact C]|].
      unfold kinv. cbn [k_type k_rhs k_rows k_vars init_b init_l init_u allocates]. split; [exact J|]. split; [congruence|]. split; [congruence|]. split; [congruence|]. split; [exact N|]. split.
      { intros x Jx Hx. exists None. split; [constructor; exact Logic.I|]. split; [reflexivity|]. split; [intros Nk; exfalso; apply Nk; exact Logic.I|]. rewrite (M x Jx Hx), Es. reflexivity. }
      split; [intros _; split; assumption|]. split; [intros Nk; exfalso; apply Nk; exact Logic.I|].
      rewrite H4, H5, H6, Hl, Hu, He. destruct t, r; split; try reflexivity; split; reflexivity.
Qed.
End Blc.
