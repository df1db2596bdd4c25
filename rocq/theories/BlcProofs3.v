Require Import QArith ZArith List Bool Lia Arith.
Require Import Verif.Base Verif.QSum Verif.RangeModel Verif.SpaceModel Verif.VarCountingModel Verif.LinFunModel Verif.LinFunSpec Verif.BlcModel Verif.BlcSpec Verif.BlcProofs Verif.BlcProofs2.
Import ListNotations.
Local Open Scope Z_scope.

Section Blc.
Variables (base : nat -> bool) (V : nat -> cvar).
Notation binv := (binv base V). Notation sane x := (sane base (V x)).

(* ---- allocation: the variables alone ---- *)
Record vinv (c0 : blc) (done : list nat) (c : blc) : Prop := mkVI {
  v_inv : binv c;
  v_head : sameHead c0 c;
  v_keys : forall x, In x (keys c) -> In x done;
  v_in : forall x, In x done -> exists y, In y (keys c) /\ inside base (V x) (V y);
  v_mat : forall x J, In (x, J) (b_jac c) -> J = mkBJ (b_size c0) (tSize (c_space (V x))) None dfltP }.
Definition comp (done : list nat) (x : nat) : Prop := (exists y, In y done /\ inside base (V x) (V y)) \/ (forall y, In y done -> apart base (V y) (V x)).
Definition okVars (done l : list nat) : Prop := forall a x b, l = a ++ x :: b -> comp (done ++ a) x.
Lemma okVars_cons done x l : okVars done (x :: l) <-> comp done x /\ okVars (done ++ [x]) l.
Proof.
  split.
  - intros H. split; [rewrite <- (app_nil_r done); apply (H [] x l eq_refl)|]. intros a y b ->. rewrite <- app_assoc. apply (H (x :: a) y b eq_refl).
  - intros [H1 H2] a y b E. destruct a as [|t a]; cbn in E; injection E as <- E.
    + rewrite app_nil_r. exact H1.
    + specialize (H2 a y b E). rewrite <- app_assoc in H2. exact H2.
Qed.
Lemma apart_inside x y z : inside base y z -> apart base z x -> apart base y x.
Proof. intros H A k c [C D]. apply (A k c). split; [apply H, C|exact D]. Qed.
Lemma addVars_spec c0 : forall l done c, vinv c0 done c -> Forall (fun x => sane x) done -> Forall (fun x => sane x) l ->
  (okVars done l -> exists c', addVars base V c l = Ok c' /\ vinv c0 (done ++ l) c') /\
  (forall c', addVars base V c l = Ok c' -> okVars done l /\ vinv c0 (done ++ l) c') /\ addVars base V c l <> UB.
Proof.
  induction l as [|x l IH]; intros done c I Sd S.
  - cbn [addVars]. rewrite app_nil_r. split; [intros _; exists c; auto|]. split; [|discriminate]. intros c' [= <-]. split; [|exact I]. intros [|t a] y b E; discriminate.
  - inversion S as [|? ? S1 S2]; subst. cbn [addVars]. destruct I as [J H K In_ M].
    pose proof (addVar_spec base V c x J (sane_pos base _ S1)) as A. destruct (addVar base V c x) as [c1| |]; [| |destruct A].
    + cbn [bind]. destruct A as [I' A].
      assert (C : comp done x /\ vinv c0 (done ++ [x]) c1).
      { destruct H as [H1 [H2 [H3 [H4 [H5 H6]]]]]. destruct A as [(-> & y & Hy & Hin)|(-> & Ha & Hn)].
        - split; [left; exists y; split; [apply K, Hy|exact Hin]|]. constructor; auto; [unfold sameHead; auto 8|intros z Hz; apply in_or_app; left; apply K, Hz|].
          intros z Hz. apply in_app_or in Hz. destruct Hz as [Hz|[<-|[]]]; [apply In_, Hz|]. exists y. auto.
        - split.
          + right. intros y Hy. destruct (In_ y Hy) as (z & Hz & Hin). apply (apart_inside _ _ (V z)); auto.
          + constructor; [exact I'|unfold sameHead; cbn; auto 8| | |]; unfold keys; cbn [withJac b_jac]; try rewrite map_app; cbn [map fst].
            * intros z Hz. apply in_app_or in Hz. apply in_or_app. destruct Hz as [Hz|Hz]; [left; apply K, Hz|right; exact Hz].
            * intros z Hz. apply in_app_or in Hz. destruct Hz as [Hz|[<-|[]]].
              -- destruct (In_ z Hz) as (y & Hy & Hin). exists y. split; [apply in_or_app; left; exact Hy|exact Hin].
              -- exists x. split; [apply in_or_app; right; left; reflexivity|apply inside_refl].
            * intros z Jz Hz. apply in_app_or in Hz. destruct Hz as [Hz|[Hz|[]]]; [apply M, Hz|]. injection Hz as <- <-. rewrite H3. reflexivity. }
      destruct C as [C I1]. destruct (IH (done ++ [x]) c1 I1) as (P1 & P2 & P3); [apply Forall_app; split; [exact Sd|constructor; [exact S1|constructor]]|exact S2|].
      rewrite <- app_assoc in P1, P2. cbn [app] in P1, P2. split; [|split; [|exact P3]].
      * intros Hk. apply okVars_cons in Hk. apply P1, Hk.
      * intros c' E'. destruct (P2 c' E') as [Q1 Q2]. split; [apply okVars_cons; split; [exact C|exact Q1]|exact Q2].
    + cbn [bind]. destruct A as [Hn (y & Hy & Hna)]. assert (NC : ~ comp done x).
      { intros [(z & Hz & Hin)|Ha]; [|apply Hna, Ha, K, Hy]. destruct (In_ z Hz) as (w & Hw & Hin2). apply (Hn w Hw). apply (inside_trans base _ (V z)); auto. }
      split; [intros Hk; apply okVars_cons in Hk; destruct Hk; contradiction|]. split; discriminate.
Qed.

(* ---- constructors ---- *)
Lemma newBlc_inv t r m c : newBlc t r m = Ok c -> binv c /\ b_jac c = [] /\ b_type c = t /\ b_rhs c = r /\ b_size c = m /\ ~ (t = BDouble /\ r = BZero) /\
  b_l c = (match r, t with BZero, _ => None | _, (BGreater | BDouble) => Some None | _, _ => None end) /\
  b_u c = (match r, t with BZero, _ => None | _, (BLower | BDouble) => Some None | _, _ => None end) /\
  b_e c = (match r, t with BZero, _ => None | _, BEqual => Some None | _, _ => None end).
Proof.
  unfold newBlc. intros E. destruct t, r; cbn in E; try discriminate; injection E as <-; (split; [constructor; cbn; [constructor|intros ? ? []|intros ? []|intros ? ? []]|]);
  cbn; repeat (split; [reflexivity|]); (split; [intros [? ?]; discriminate|]); repeat split.
Qed.
Lemma newBlc_ok t r m : ~ (t = BDouble /\ r = BZero) -> exists c, newBlc t r m = Ok c.
Proof. intros N. unfold newBlc. destruct t, r; cbn; eauto. exfalso. apply N. auto. Qed.
Lemma newBlc_defined t r m : newBlc t r m <> UB.
Proof. unfold newBlc. destruct (isDouble t && isZeroRhs r); discriminate. Qed.

Lemma snd_combine {S T} : forall (l : list S) (m : list T), length l = length m -> map snd (combine l m) = m.
Proof. induction l as [|u l IH]; intros [|v m] L; try discriminate; cbn; [reflexivity|]. f_equal. apply IH. cbn in L. lia. Qed.
Lemma forall2_combine {S T} (P : S -> T -> Prop) : forall l m, length l = length m -> (Forall2 P l m <-> Forall (fun t => P (fst t) (snd t)) (combine l m)).
Proof.
  induction l as [|u l IH]; intros [|v m] L; try discriminate; cbn; [split; constructor|]. split; intros H; inversion H; subst; constructor; auto; apply IH; auto.
Qed.
Lemma okTerms_fine n : forall l done, okTerms base V n done l -> Forall (fun t => fine base V n (fst t) (snd t)) l.
Proof. induction l as [|[A x] l IH]; intros done H; constructor; apply okTerms_cons in H; [apply H|eapply IH, H]. Qed.
Lemma terms_sep As xs n : length As = length xs -> (okTerms base V n [] (combine As xs) <-> Forall2 (fun A x => fine base V n A x) As xs /\ separate base V xs).
Proof.
  intros E. rewrite (forall2_combine _ As xs E). split.
  - intros H. split; [eapply okTerms_fine, H|]. intros a y b Eq. rewrite <- (snd_combine As xs E) in Eq. apply map_eq_app in Eq. destruct Eq as (la & r & EC & Ea & Er).
    apply map_eq_cons in Er. destruct Er as ([A z] & lb & -> & Ez & _). cbn in Ez. subst z. destruct (H _ _ _ _ EC) as [_ Hs]. cbn [app] in Hs. rewrite <- Ea. exact Hs.
  - intros [F S] a A x b Eq. split; [rewrite Eq in F; apply Forall_app in F; destruct F as [_ F]; inversion F; subst; assumption|]. cbn [app].
    apply (S (map snd a) x (map snd b)). rewrite <- (snd_combine As xs E), Eq, map_app. reflexivity.
Qed.
Lemma vars_comp xs : okVars [] xs <-> compatible base (map V xs).
Proof.
  split.
  - intros H a y b Eq. apply map_eq_app in Eq. destruct Eq as (la & r & -> & <- & Er). apply map_eq_cons in Er. destruct Er as (x & lb & -> & <- & _).
    destruct (H la x lb eq_refl) as [(z & Hz & Hin)|Ha]; cbn [app] in *; [left; exists (V z); split; [apply in_map, Hz|exact Hin]|].
    right. intros z Hz. apply in_map_iff in Hz. destruct Hz as (w & <- & Hw). apply Ha, Hw.
  - intros H a x b ->. cbn [app]. destruct (H (map V a) (V x) (map V b)) as [(z & Hz & Hin)|Ha]; [rewrite map_app; reflexivity| |].
    + left. apply in_map_iff in Hz. destruct Hz as (w & <- & Hw). eauto.
    + right. intros y Hy. apply Ha, in_map, Hy.
Qed.

(* what a constructor gives, before the right-hand side *)
Definition k_terms (k : ctor) : list (mat * nat) := combine (k_mats k) (k_vars k).
Definition kinv (k : ctor) (c : blc) : Prop :=
  binv c /\ b_type c = k_type k /\ b_rhs c = k_rhs k /\ b_size c = k_rows k /\ ~ (k_type k = BDouble /\ k_rhs k = BZero) /\
  (forall x J, In (x, J) (b_jac c) -> exists A0, initially k x A0 /\ (allocates k -> A0 = None) /\ (~ allocates k -> A0 <> None) /\
     J = mkBJ (k_rows k) (tSize (c_space (V x))) A0 (match A0 with Some _ => constP | None => dfltP end)) /\
  (allocates k -> (forall x, In x (keys c) -> In x (k_vars k)) /\ forall x, In x (k_vars k) -> exists y, In y (keys c) /\ inside base (V x) (V y)) /\
  (~ allocates k -> forall x, In x (keys c) <-> In x (k_vars k)) /\
  b_l c = (match k_rhs k, k_type k with BZero, _ => None | _, BGreater => Some (init_b k) | _, BDouble => Some (init_l k) | _, _ => None end) /\
  b_u c = (match k_rhs k, k_type k with BZero, _ => None | _, BLower => Some (init_b k) | _, BDouble => Some (init_u k) | _, _ => None end) /\
  b_e c = (match k_rhs k, k_type k with BZero, _ => None | _, BEqual => Some (init_b k) | _, _ => None end).
End Blc.
