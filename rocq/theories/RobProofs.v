From Coq Require Import List Bool Arith ZArith QArith Lia.
Import ListNotations.
From Verif Require Import Base IdModel RobModel RobSpec.
Local Open Scope nat_scope.

Lemma total_sum w l : total w l = sumOf w l.
Proof. unfold total, sumOf. induction l as [|j l IH]; cbn; [reflexivity|]. rewrite IH. reflexivity. Qed.
Lemma sumOf_app w a b : sumOf w (a ++ b) = sumOf w a + sumOf w b.
Proof. induction a as [|j a IH]; cbn; [reflexivity|]. unfold sumOf in *. rewrite IH. lia. Qed.
Lemma posOf_split w b j a : posOf w (b ++ j :: a) (length b) = sumOf w b.
Proof. unfold posOf. rewrite firstn_app, Nat.sub_diag, firstn_all. cbn. rewrite app_nil_r. apply total_sum. Qed.

Lemma jindexFrom_split mb n i k : jindexFrom mb n i = Some k ->
  exists b j a, mb = b ++ j :: a /\ k = i + length b /\ rj_name j = n.
Proof.
  revert i. induction mb as [|j mb IH]; intros i; cbn; [discriminate|]. destruct (Nat.eqb_spec (rj_name j) n) as [E|E].
  - intros H. injection H as <-. exists [], j, mb. repeat split; auto.
  - intros H. destruct (IH _ H) as (b & j' & a & -> & -> & Hn). exists (j :: b), j', a. repeat split; auto. cbn. lia.
Qed.
Lemma jindexFrom_none mb n i : jindexFrom mb n i = None -> forall j, In j mb -> rj_name j <> n.
Proof.
  revert i. induction mb as [|j mb IH]; intros i; cbn; [intros _ ? []|]. destruct (Nat.eqb_spec (rj_name j) n) as [E|E]; [discriminate|].
  intros H j' [<-|Hj]; eauto.
Qed.
Lemma names_inj mb b1 j1 a1 b2 j2 a2 : NoDup (map rj_name mb) -> mb = b1 ++ j1 :: a1 -> mb = b2 ++ j2 :: a2 ->
  rj_name j1 = rj_name j2 -> b1 = b2 /\ j1 = j2.
Proof.
  revert b1 b2. induction mb as [|j mb IH]; intros b1 b2 ND E1 E2 En; [destruct b1; discriminate|].
  inversion ND as [|? ? Hn ND']; subst x l. destruct b1 as [|k1 b1], b2 as [|k2 b2]; cbn in E1, E2.
  - injection E1 as -> ->. injection E2 as -> ->. auto.
  - injection E1 as -> ->. injection E2 as -> E2. exfalso. apply Hn. rewrite En. rewrite E2. apply in_map, in_elt.
  - injection E2 as -> ->. injection E1 as -> E1. exfalso. apply Hn. rewrite <- En. rewrite E1. apply in_map, in_elt.
  - injection E1 as -> E1. injection E2 as -> E2. destruct (IH b1 b2 ND' E1 E2 En) as [-> ->]. auto.
Qed.
Lemma blocks w (mb : rbody) b1 j1 a1 b2 j2 a2 : NoDup (map rj_name mb) -> mb = b1 ++ j1 :: a1 -> mb = b2 ++ j2 :: a2 ->
  rj_name j1 <> rj_name j2 -> sumOf w b1 + w j1 <= sumOf w b2 \/ sumOf w b2 + w j2 <= sumOf w b1.
Proof.
  revert b1 b2. induction mb as [|j mb IH]; intros b1 b2 ND E1 E2 En; [destruct b1; discriminate|].
  inversion ND as [|? ? Hn ND']; subst x l. destruct b1 as [|k1 b1], b2 as [|k2 b2]; cbn in E1, E2.
  - injection E1 as -> ->. injection E2 as -> ->. congruence.
  - injection E1 as -> ->. injection E2 as -> E2. left. cbn. lia.
  - injection E2 as -> ->. injection E1 as -> E1. right. cbn. lia.
  - injection E1 as -> E1. injection E2 as -> E2. specialize (IH b1 b2 ND' E1 E2 En). cbn. unfold sumOf in *. lia.
Qed.

Lemma putN_length o p x : length (putN o p x) = length o.
Proof. revert p. induction o as [|h o IH]; intros [|p]; cbn; auto. Qed.
Lemma putN_nth o p x q : p < length o -> nth_error (putN o p x) q = if Nat.eqb p q then Some x else nth_error o q.
Proof. revert p q. induction o as [|h o IH]; intros [|p] [|q]; cbn; intros; try lia; auto. apply IH. lia. Qed.
Lemma put_cases o p x : (exists k, p = Z.of_nat k /\ k < length o /\ put o p x = Ok (putN o k x)) \/
  (~ (0 <= p < Z.of_nat (length o))%Z /\ put o p x = UB).
Proof.
  unfold put. destruct (Z.leb_spec 0 p), (Z.ltb_spec p (Z.of_nat (length o))); cbn [andb];
    [left; exists (Z.to_nat p); repeat split; lia | right; split; [lia|reflexivity] ..].
Qed.
Lemma writes_cases vs : forall o p mul,
  ((vs = [] \/ (0 <= p /\ p + Z.of_nat (length vs) <= Z.of_nat (length o))%Z) /\
   exists r, writes o p mul vs = Ok r /\ length r = length o /\
     (vs = [] -> r = o) /\
     forall k, nth_error r k = if ((p <=? Z.of_nat k) && (Z.of_nat k <? p + Z.of_nat (length vs)))%Z
       then option_map (Qmult mul) (nth_error vs (Z.to_nat (Z.of_nat k - p))) else nth_error o k) \/
  ((vs <> [] /\ ~ (0 <= p /\ p + Z.of_nat (length vs) <= Z.of_nat (length o))%Z) /\ writes o p mul vs = UB).
Proof.
  induction vs as [|v vs IH]; intros o p mul.
  - left. split; [auto|]. exists o. repeat split; auto. intros k. cbn [length].
    destruct (Z.leb_spec p (Z.of_nat k)), (Z.ltb_spec (Z.of_nat k) (p + Z.of_nat 0)); cbn [andb]; try reflexivity. lia.
  - cbn [writes]. destruct (put_cases o p (mul * v)%Q) as [(k0 & -> & Hk & ->)|[Hn ->]].
    + cbn [bind]. destruct (IH (putN o k0 (mul * v)%Q) (Z.of_nat k0 + 1)%Z mul) as [[Hb (r & -> & Hl & Hnil & Hr)]|[[Hne Hb] ->]].
      * rewrite putN_length in *. left. split; [destruct Hb as [->|Hb]; cbn [length]; right; lia|].
        exists r. split; [reflexivity|]. split; [exact Hl|]. split; [discriminate|]. intros k. rewrite Hr. rewrite putN_nth by exact Hk. cbn [length].
        destruct (Z.leb_spec (Z.of_nat k0 + 1) (Z.of_nat k)), (Z.ltb_spec (Z.of_nat k) (Z.of_nat k0 + 1 + Z.of_nat (length vs)));
        destruct (Z.leb_spec (Z.of_nat k0) (Z.of_nat k)), (Z.ltb_spec (Z.of_nat k) (Z.of_nat k0 + Z.of_nat (S (length vs)))); cbn [andb]; try lia.
        -- replace (Z.to_nat (Z.of_nat k - Z.of_nat k0)) with (S (Z.to_nat (Z.of_nat k - (Z.of_nat k0 + 1)))) by lia. reflexivity.
        -- destruct (Nat.eqb_spec k0 k); [lia|reflexivity].
        -- assert (k = k0) by lia. subst k. rewrite Nat.eqb_refl. rewrite Z.sub_diag. reflexivity.
        -- destruct (Nat.eqb_spec k0 k); [lia|reflexivity].
      * rewrite putN_length in *. right. split; [|reflexivity]. split; [discriminate|]. cbn [length]. lia.
    + right. split; [|reflexivity]. split; [discriminate|]. cbn [length]. lia.
Qed.

Lemma inside_cons w off n mb k vs t : inside w off n mb ((k, vs) :: t) -> inside w off n mb t.
Proof. intros H b j vs' Hs Hi. apply (H b j vs' Hs). right. exact Hi. Qed.

Lemma m2b_total w mb off mul : NoDup (map rj_name mb) -> forall t o, inside w off (length o) mb t ->
  exists r, map2bound mb t mul o off w = Ok r /\ length r = length o.
Proof.
  intros ND t. induction t as [|[n vs] t IH]; intros o Hin; cbn [map2bound]; [eauto|].
  destruct (jindex mb n) as [i|] eqn:Ei; [|apply IH; eapply inside_cons; eauto].
  destruct (jindexFrom_split _ _ _ _ Ei) as (b & j & a & Emb & Ek & En). cbn in Ek. subst i n. rewrite Emb, posOf_split. rewrite <- Emb.
  destruct (writes_cases vs o (Z.of_nat (sumOf w b) - Z.of_nat off) mul) as [[_ (r & -> & Hl & _)]|[[Hne Hb] _]].
  - cbn [bind]. rewrite <- Hl. apply IH. rewrite Hl. eapply inside_cons; eauto.
  - exfalso. apply Hb. destruct (Hin b j vs) as [H1 H2]; auto; [exists a; exact Emb|left; reflexivity|]. lia.
Qed.
Lemma m2b_inside w mb off mul : NoDup (map rj_name mb) -> forall t o r, map2bound mb t mul o off w = Ok r -> inside w off (length o) mb t.
Proof.
  intros ND t. induction t as [|[n vs] t IH]; intros o r; cbn [map2bound]; [intros _ b j vs' _ []|].
  destruct (jindex mb n) as [i|] eqn:Ei.
  - destruct (jindexFrom_split _ _ _ _ Ei) as (b & j & a & Emb & Ek & En). cbn in Ek. subst i n.
    intros Hr. rewrite Emb, posOf_split in Hr. rewrite <- Emb in Hr.
    destruct (writes_cases vs o (Z.of_nat (sumOf w b) - Z.of_nat off) mul) as [[Hb (o' & E & Hl & _)]|[_ E]]; rewrite E in Hr; [|discriminate].
    cbn [bind] in Hr. apply IH in Hr. rewrite Hl in Hr. intros b' j' vs' Hs [Heq|Hi] Hne; [|eapply Hr; eauto].
    injection Heq as Hname <-. destruct Hs as [a' Hs]. destruct (names_inj mb b j a b' j' a' ND Emb Hs Hname) as [<- <-].
    destruct Hb as [->|Hb]; [congruence|]. lia.
  - intros Hr. apply IH in Hr. intros b' j' vs' Hs [Heq|Hi] Hne; [|eapply Hr; eauto].
    injection Heq as Hname <-. destruct Hs as [a' Hs]. exfalso. eapply (jindexFrom_none _ _ _ Ei j'); auto. rewrite Hs. apply in_elt.
Qed.
Lemma m2b_entries w mb off mul : NoDup (map rj_name mb) -> forall t o r, fits w mb t -> map2bound mb t mul o off w = Ok r ->
  forall b j a c, mb = b ++ j :: a -> c < w j -> off <= sumOf w b ->
    (exists v, given t (rj_name j) c v /\ nth_error r (sumOf w b + c - off) = Some (mul * v)%Q) \/
    ((forall v, ~ given t (rj_name j) c v) /\ nth_error r (sumOf w b + c - off) = nth_error o (sumOf w b + c - off)).
Proof.
  intros ND t. induction t as [|[n vs] t IH]; intros o r [NK Hfit]; cbn [map2bound].
  - intros H b j a c _ _ _. injection H as <-. right. split; [|reflexivity]. intros v (vs & [] & _).
  - inversion NK as [|? ? HnK NK']; subst x l. cbn [fst map] in *.
    assert (Hfit' : fits w mb t) by (split; [exact NK'|intros j vs' Hj Hi; apply (Hfit j vs' Hj); right; exact Hi]).
    assert (Hrest : forall j c v, rj_name j <> n -> given ((n, vs) :: t) (rj_name j) c v -> given t (rj_name j) c v).
    { intros j c v Hne (vs' & [Heq|Hi] & Hv); [injection Heq as Hq _; congruence|]. exists vs'. auto. }
    assert (Hmore : forall j c v, given t (rj_name j) c v -> given ((n, vs) :: t) (rj_name j) c v).
    { intros j c v (vs' & Hi & Hv). exists vs'. split; [right; exact Hi|exact Hv]. }
    destruct (jindex mb n) as [i|] eqn:Ei; intros Hr b j a c Emb Hc Hoff.
    + destruct (jindexFrom_split _ _ _ _ Ei) as (b0 & j0 & a0 & Emb0 & Ek & En). cbn in Ek. subst i n.
      rewrite Emb0, posOf_split in Hr. rewrite <- Emb0 in Hr.
      destruct (writes_cases vs o (Z.of_nat (sumOf w b0) - Z.of_nat off) mul) as [[Hb (o' & E & Hl & Hnil & Ho')]|[_ E]]; rewrite E in Hr; [|discriminate].
      cbn [bind] in Hr. specialize (IH o' r Hfit' Hr b j a c Emb Hc Hoff).
      destruct (Nat.eq_dec (rj_name j) (rj_name j0)) as [En|En].
      * destruct (names_inj mb b j a b0 j0 a0 ND Emb Emb0 En) as [<- <-].
        destruct IH as [(v & (vs' & Hi & Hv) & _)|[Hno IH]].
        { exfalso. apply HnK. change (rj_name j) with (fst (rj_name j, vs')). apply in_map. exact Hi. }
        rewrite IH. rewrite Ho'.
        replace (Z.to_nat (Z.of_nat (sumOf w b + c - off) - (Z.of_nat (sumOf w b) - Z.of_nat off))) with c by lia.
        destruct (nth_error vs c) as [v|] eqn:Ev.
        -- left. exists v. split; [exists vs; split; [left; reflexivity|exact Ev]|].
           assert (c < length vs) by (apply nth_error_Some; rewrite Ev; discriminate).
           destruct (Z.leb_spec (Z.of_nat (sumOf w b) - Z.of_nat off) (Z.of_nat (sumOf w b + c - off))); [|lia].
           destruct (Z.ltb_spec (Z.of_nat (sumOf w b + c - off)) (Z.of_nat (sumOf w b) - Z.of_nat off + Z.of_nat (length vs))); [|lia]. reflexivity.
        -- right. apply nth_error_None in Ev. split.
           ++ intros v (vs' & [Heq|Hi] & Hv).
              ** injection Heq as <-. apply nth_error_None in Ev. congruence.
              ** apply (Hno v). exists vs'. auto.
           ++ destruct (Z.ltb_spec (Z.of_nat (sumOf w b + c - off)) (Z.of_nat (sumOf w b) - Z.of_nat off + Z.of_nat (length vs))); [lia|].
              rewrite andb_false_r. reflexivity.
      * assert (Hv : length vs <= w j0) by (apply (Hfit j0 vs); [rewrite Emb0; apply in_elt|left; reflexivity]).
        assert (Hout : nth_error o' (sumOf w b + c - off) = nth_error o (sumOf w b + c - off)).
        { rewrite Ho'. destruct (Z.leb_spec (Z.of_nat (sumOf w b0) - Z.of_nat off) (Z.of_nat (sumOf w b + c - off)));
            destruct (Z.ltb_spec (Z.of_nat (sumOf w b + c - off)) (Z.of_nat (sumOf w b0) - Z.of_nat off + Z.of_nat (length vs))); try reflexivity.
          exfalso. destruct (blocks w mb b j a b0 j0 a0 ND Emb Emb0 En) as [Hd|Hd]; lia. }
        destruct IH as [(v & Hg & IH)|[Hno IH]]; [left; exists v; split; [apply Hmore; exact Hg|exact IH]|].
        right. split; [intros v Hg; apply (Hno v); apply Hrest; auto|]. rewrite IH. exact Hout.
    + assert (En : rj_name j <> n) by (apply (jindexFrom_none _ _ _ Ei); rewrite Emb; apply in_elt).
      destruct (IH o r Hfit' Hr b j a c Emb Hc Hoff) as [(v & Hg & H)|[Hno H]]; [left; exists v; split; [apply Hmore; exact Hg|exact H]|].
      right. split; [intros v Hg; apply (Hno v); apply Hrest; auto|exact H].
Qed.

Lemma root_joints mb : mb = root mb ++ joints mb.
Proof. destruct mb as [|j l]; [reflexivity|]. cbn. destruct (rj_free j); reflexivity. Qed.
Lemma ff_sizes mb : proper mb -> ffParams mb = sumOf rj_np (root mb) /\ ffDofs mb = sumOf rj_nd (root mb) /\
  jointParams mb = sumOf rj_np (joints mb) /\ jointDofs mb = sumOf rj_nd (joints mb).
Proof.
  intros [_ Hp]. unfold jointParams, jointDofs, ffParams, ffDofs, hasFree. rewrite !total_sum. destruct mb as [|j l]; [cbn; auto|].
  cbn [root joints]. destruct (rj_free j) eqn:E.
  - destruct (Hp j (or_introl eq_refl)) as [_ Hf]. destruct (Hf E) as [H1 H2]. unfold sumOf. cbn [fold_right]. rewrite H1, H2. lia.
  - cbn [sumOf fold_right]. unfold sumOf. cbn [fold_right]. lia.
Qed.
Lemma nd_le_np mb : proper mb -> sumOf rj_nd (joints mb) <= sumOf rj_np (joints mb).
Proof.
  intros [_ Hp]. assert (H : forall j, In j (joints mb) -> rj_nd j <= rj_np j).
  { intros j Hj. apply Hp. rewrite (root_joints mb). apply in_or_app. right. exact Hj. }
  revert H. generalize (joints mb) as l. induction l as [|j l IH]; intros H; cbn; [lia|].
  pose proof (H j (or_introl eq_refl)). assert (sumOf rj_nd l <= sumOf rj_np l) by (apply IH; intros; apply H; right; auto). unfold sumOf in *. lia.
Qed.
(* a joint that is not the root comes after it *)
Lemma after_root mb b j : splits mb b j -> ~ isRoot b j -> root b = root mb /\ joints mb = joints b ++ skipn (length b) mb /\ sumOf rj_np b = sumOf rj_np (root mb) + sumOf rj_np (joints b) /\ sumOf rj_nd b = sumOf rj_nd (root mb) + sumOf rj_nd (joints b).
Proof.
  intros [a ->] Hn. assert (E : root b = root (b ++ j :: a)).
  { destruct b as [|k b]; [|reflexivity]. cbn. destruct (rj_free j) eqn:Ef; [|reflexivity]. exfalso. apply Hn. split; auto. }
  split; [exact E|]. split.
  - rewrite skipn_app, skipn_all, Nat.sub_diag. cbn [skipn app]. destruct b as [|k b].
    + cbn. destruct (rj_free j) eqn:Ef; [|reflexivity]. exfalso. apply Hn. split; auto.
    + cbn. destruct (rj_free k); reflexivity.
  - rewrite <- E. split; rewrite (root_joints b) at 1; apply sumOf_app.
Qed.
Lemma fits_inside_w w mb t n : NoDup (map rj_name mb) -> fits w mb t -> notRoot mb t -> sumOf w (joints mb) <= n ->
  inside w (sumOf w (root mb)) n mb t.
Proof.
  intros ND [_ Hfit] Hroot Hn b j vs Hs Hi Hne.
  assert (Hr : ~ isRoot b j).
  { intros [-> Hf]. destruct Hs as [a ->]. apply Hne. apply (Hroot j vs); auto. cbn. rewrite Hf. left. reflexivity. }
  assert (Hl : length vs <= w j) by (apply Hfit; [destruct Hs as [a ->]; apply in_elt|exact Hi]).
  destruct (after_root mb b j Hs Hr) as (E1 & E2 & _ & _). assert (E3 : sumOf w b = sumOf w (root mb) + sumOf w (joints b)) by (rewrite <- E1; rewrite (root_joints b) at 1; apply sumOf_app).
  destruct Hs as [a Ea]. rewrite Ea in E2 at 2. rewrite skipn_app, skipn_all, Nat.sub_diag in E2. cbn [skipn app] in E2.
  rewrite E2, sumOf_app in Hn. unfold sumOf in Hn at 2. cbn [fold_right] in Hn. fold (sumOf w a) in Hn. lia.
Qed.
Lemma fits_inside_tau mb t n : fits rj_nd mb t -> sumOf rj_nd mb <= n -> inside rj_nd 0 n mb t.
Proof.
  intros [_ Hfit] Hn b j vs [a Ea] Hi Hne. assert (Hl : length vs <= rj_nd j) by (apply Hfit; [rewrite Ea; apply in_elt|exact Hi]).
  rewrite Ea, sumOf_app in Hn. unfold sumOf in Hn at 2. cbn [fold_right] in Hn. lia.
Qed.

Lemma defined big mb l : proper mb ->
  (exists b, setBounds big mb l = Ok b) <->
  (inside rj_np (sumOf rj_np (root mb)) (sumOf rj_np (joints mb)) mb (l_lower l) /\
   inside rj_np (sumOf rj_np (root mb)) (sumOf rj_np (joints mb)) mb (l_upper l) /\
   inside rj_nd (sumOf rj_nd (root mb)) (sumOf rj_np (joints mb)) mb (l_velocity l) /\
   inside rj_nd 0 (sumOf rj_nd (root mb) + sumOf rj_np (joints mb)) mb (l_torque l)).
Proof.
  intros Hp. destruct (ff_sizes mb Hp) as (E1 & E2 & E3 & _). pose proof Hp as [ND _]. unfold setBounds. rewrite E1, E2, E3. split.
  - intros [bd H].
    repeat match type of H with
    | bind ?e _ = Ok _ => let E := fresh "E" in destruct e eqn:E; [cbn [bind] in H; apply (m2b_inside _ _ _ _ ND) in E|discriminate|discriminate]
    end.
    rewrite ?app_length, !repeat_length in *. auto.
  - intros (H1 & H2 & H3 & H4).
    edestruct (m2b_total rj_np mb (sumOf rj_np (root mb)) 1 ND (l_lower l) (repeat (- big)%Q (sumOf rj_np (joints mb)))) as (r1 & -> & _); [rewrite repeat_length; exact H1|].
    edestruct (m2b_total rj_np mb (sumOf rj_np (root mb)) 1 ND (l_upper l) (repeat (big)%Q (sumOf rj_np (joints mb)))) as (r2 & -> & _); [rewrite repeat_length; exact H2|].
    edestruct (m2b_total rj_nd mb (sumOf rj_nd (root mb)) (-1) ND (l_velocity l) (repeat (- big)%Q (sumOf rj_np (joints mb)))) as (r3 & -> & _); [rewrite repeat_length; exact H3|].
    edestruct (m2b_total rj_nd mb (sumOf rj_nd (root mb)) 1 ND (l_velocity l) (repeat (big)%Q (sumOf rj_np (joints mb)))) as (r4 & -> & _); [rewrite repeat_length; exact H3|].
    edestruct (m2b_total rj_nd mb 0 (-1) ND (l_torque l) (repeat 0%Q (sumOf rj_nd (root mb)) ++ repeat (- big)%Q (sumOf rj_np (joints mb)))) as (r5 & -> & _); [rewrite app_length, !repeat_length; exact H4|].
    edestruct (m2b_total rj_nd mb 0 1 ND (l_torque l) (repeat 0%Q (sumOf rj_nd (root mb)) ++ repeat (big)%Q (sumOf rj_np (joints mb)))) as (r6 & -> & _); [rewrite app_length, !repeat_length; exact H4|].
    cbn [bind]. eauto.
Qed.
Lemma m2b_length w mb off mul : forall t o r, map2bound mb t mul o off w = Ok r -> length r = length o.
Proof.
  intros t. induction t as [|[n vs] t IH]; intros o r; cbn [map2bound]; [intros H; injection H as <-; reflexivity|].
  destruct (jindex mb n) as [i|]; [|apply IH].
  destruct (writes_cases vs o (Z.of_nat (posOf w mb i) - Z.of_nat off) mul) as [[_ (o' & -> & Hl & _)]|[_ ->]]; [|discriminate].
  cbn [bind]. intros H. rewrite (IH _ _ H). exact Hl.
Qed.
Lemma lengths big mb l b : proper mb -> setBounds big mb l = Ok b ->
  (length (lQ b) = sumOf rj_np (joints mb) /\ length (uQ b) = sumOf rj_np (joints mb)) /\
  (length (lVel b) = sumOf rj_np (joints mb) /\ length (uVel b) = sumOf rj_np (joints mb)) /\
  (length (lTau b) = sumOf rj_nd (root mb) + sumOf rj_np (joints mb) /\ length (uTau b) = sumOf rj_nd (root mb) + sumOf rj_np (joints mb)).
Proof.
  intros Hp. destruct (ff_sizes mb Hp) as (E1 & E2 & E3 & _). unfold setBounds. rewrite E1, E2, E3. intros H.
  repeat match type of H with
  | bind ?e _ = Ok _ => let E := fresh "E" in destruct e eqn:E; [cbn [bind] in H; apply m2b_length in E|discriminate|discriminate]
  end.
  injection H as <-. cbn. rewrite ?app_length, ?repeat_length in *. auto 10.
Qed.
Lemma sums_equal mb : proper mb -> (sumOf rj_nd (joints mb) = sumOf rj_np (joints mb) <-> forall j, In j (joints mb) -> rj_nd j = rj_np j).
Proof.
  intros [_ Hp]. assert (H : forall j, In j (joints mb) -> rj_nd j <= rj_np j).
  { intros j Hj. apply Hp. rewrite (root_joints mb). apply in_or_app. right. exact Hj. }
  revert H. generalize (joints mb) as l. induction l as [|j l IH]; intros H; [cbn; tauto|].
  assert (Hl : forall j, In j l -> rj_nd j <= rj_np j) by (intros; apply H; right; auto). specialize (IH Hl).
  pose proof (H j (or_introl eq_refl)).
  assert (sumOf rj_nd l <= sumOf rj_np l).
  { clear -Hl. induction l as [|k l IH]; cbn; [lia|]. pose proof (Hl k (or_introl eq_refl)).
    assert (sumOf rj_nd l <= sumOf rj_np l) by (apply IH; intros; apply Hl; right; auto). unfold sumOf in *. lia. }
  change (sumOf rj_nd (j :: l)) with (rj_nd j + sumOf rj_nd l). change (sumOf rj_np (j :: l)) with (rj_np j + sumOf rj_np l). split.
  - intros E k [<-|Hk]; [lia|]. apply IH; [lia|exact Hk].
  - intros E. rewrite (E j (or_introl eq_refl)). f_equal. apply IH. intros k Hk. apply E. right. exact Hk.
Qed.
Lemma nth_error_repeat_lt {A} (x : A) n k : k < n -> nth_error (repeat x n) k = Some x.
Proof. revert k. induction n as [|n IH]; intros [|k] H; cbn; try lia; auto. apply IH. lia. Qed.
Lemma joint_range w mb b j c : splits mb b j -> ~ isRoot b j -> c < w j -> sumOf w (joints b) + c < sumOf w (joints mb).
Proof.
  intros Hs Hr Hc. destruct (after_root mb b j Hs Hr) as (_ & E2 & _). destruct Hs as [a Ea]. rewrite Ea in E2 at 2.
  rewrite skipn_app, skipn_all, Nat.sub_diag in E2. cbn [skipn app] in E2. rewrite E2, sumOf_app.
  change (sumOf w (j :: a)) with (w j + sumOf w a). lia.
Qed.
Lemma entry_joint w mb t m d n r b j c : NoDup (map rj_name mb) -> fits w mb t ->
  map2bound mb t m (repeat d n) (sumOf w (root mb)) w = Ok r -> sumOf w (joints mb) <= n ->
  splits mb b j -> ~ isRoot b j -> c < w j -> entry t m d j c (rank w b c) r.
Proof.
  intros ND Hf Hr Hn Hs Hnr Hc. pose proof (joint_range w mb b j c Hs Hnr Hc) as Hlt.
  destruct (after_root mb b j Hs Hnr) as (E1 & _).
  assert (E3 : sumOf w b = sumOf w (root mb) + sumOf w (joints b)) by (rewrite <- E1; rewrite (root_joints b) at 1; apply sumOf_app).
  destruct Hs as [a Ea]. destruct (m2b_entries w mb _ m ND t _ r Hf Hr b j a c Ea Hc) as [(v & Hg & E)|[Hno E]]; [lia| |].
  - exists (m * v)%Q. replace (rank w b c) with (sumOf w b + c - sumOf w (root mb)) by (unfold rank; lia). split; [exact E|]. left. eauto.
  - exists d. replace (rank w b c) with (sumOf w b + c - sumOf w (root mb)) by (unfold rank; lia). split; [|auto].
    rewrite E. apply nth_error_repeat_lt. lia.
Qed.
Lemma entry_tau mb t m d n r b j c : NoDup (map rj_name mb) -> fits rj_nd mb t ->
  map2bound mb t m (repeat 0%Q (sumOf rj_nd (root mb)) ++ repeat d n) 0 rj_nd = Ok r -> sumOf rj_nd (joints mb) <= n ->
  splits mb b j -> c < rj_nd j -> 
  (isRoot b j -> entry t m 0%Q j c (fullRank rj_nd b c) r) /\ (~ isRoot b j -> entry t m d j c (fullRank rj_nd b c) r).
Proof.
  intros ND Hf Hr Hn Hs Hc. pose proof Hs as [a Ea].
  destruct (m2b_entries rj_nd mb _ m ND t _ r Hf Hr b j a c Ea Hc) as [(v & Hg & E)|[Hno E]]; [lia| |]; rewrite Nat.sub_0_r in E.
  - split; intros _; exists (m * v)%Q; (split; [exact E|left; eauto]).
  - split; intros Hrt.
    + exists 0%Q. split; [|auto]. unfold fullRank. rewrite E. destruct Hrt as [-> Hfr]. cbn [sumOf fold_right plus].
      assert (Er : sumOf rj_nd (root mb) = rj_nd j) by (rewrite Ea; cbn; rewrite Hfr; cbn; lia).
      rewrite nth_error_app1 by (rewrite repeat_length; rewrite Er; unfold sumOf; cbn; lia). apply nth_error_repeat_lt. rewrite Er. unfold sumOf. cbn. lia.
    + exists d. split; [|auto]. unfold fullRank. rewrite E. pose proof (joint_range rj_nd mb b j c Hs Hrt Hc).
      destruct (after_root mb b j Hs Hrt) as (_ & _ & _ & E3).
      rewrite nth_error_app2 by (rewrite repeat_length; lia). rewrite repeat_length. apply nth_error_repeat_lt. lia.
Qed.
Lemma bounds_ok big mb l : proper mb ->
  fits rj_np mb (l_lower l) -> fits rj_np mb (l_upper l) -> fits rj_nd mb (l_velocity l) -> fits rj_nd mb (l_torque l) ->
  notRoot mb (l_lower l) -> notRoot mb (l_upper l) -> notRoot mb (l_velocity l) ->
  exists b, setBounds big mb l = Ok b /\
  forall before j, splits mb before j ->
    (~ isRoot before j -> forall c, c < rj_np j ->
       entry (l_lower l) 1 (- big) j c (rank rj_np before c) (lQ b) /\ entry (l_upper l) 1 big j c (rank rj_np before c) (uQ b)) /\
    (~ isRoot before j -> forall c, c < rj_nd j ->
       entry (l_velocity l) (-1) (- big) j c (rank rj_nd before c) (lVel b) /\ entry (l_velocity l) 1 big j c (rank rj_nd before c) (uVel b)) /\
    (forall c, c < rj_nd j ->
       (~ isRoot before j -> entry (l_torque l) (-1) (- big) j c (fullRank rj_nd before c) (lTau b) /\ entry (l_torque l) 1 big j c (fullRank rj_nd before c) (uTau b)) /\
       (isRoot before j -> entry (l_torque l) (-1) 0 j c (fullRank rj_nd before c) (lTau b) /\ entry (l_torque l) 1 0 j c (fullRank rj_nd before c) (uTau b))).
Proof.
  intros Hp F1 F2 F3 F4 N1 N2 N3. pose proof Hp as [ND _]. pose proof (nd_le_np mb Hp) as Hle.
  assert (Hd : exists b, setBounds big mb l = Ok b).
  { apply defined; [exact Hp|]. split; [|split; [|split]].
    - apply fits_inside_w; auto.
    - apply fits_inside_w; auto.
    - apply fits_inside_w; auto.
    - apply fits_inside_tau; [exact F4|]. rewrite (root_joints mb) at 1. rewrite sumOf_app. lia. }
  destruct Hd as [b Hb]. exists b. split; [exact Hb|]. destruct (ff_sizes mb Hp) as (E1 & E2 & E3 & _).
  unfold setBounds in Hb. rewrite E1, E2, E3 in Hb.
  repeat match type of Hb with
  | bind ?e _ = Ok _ => let E := fresh "W" in destruct e eqn:E; [cbn [bind] in Hb|discriminate|discriminate]
  end.
  injection Hb as <-. cbn [lQ uQ lVel uVel lTau uTau]. intros before j Hs. split; [|split].
  - intros Hr c Hc. split; eapply entry_joint; eauto.
  - intros Hr c Hc. split; eapply entry_joint; eauto.
  - intros c Hc.
    destruct (entry_tau mb _ _ _ _ _ before j c ND F4 W3 Hle Hs Hc), (entry_tau mb _ _ _ _ _ before j c ND F4 W4 Hle Hs Hc). tauto.
Qed.

(* Time *)
Lemma concat_length (p : list (list Q)) w (mb : rbody) : map (@length Q) p = map w mb -> length (concat p) = sumOf w mb.
Proof.
  revert mb. induction p as [|v p IH]; intros [|j mb]; cbn [map concat]; try discriminate; [reflexivity|].
  intros H. injection H as H1 H2. rewrite app_length, H1. change (sumOf w (j :: mb)) with (w j + sumOf w mb). rewrite (IH mb H2). reflexivity.
Qed.
Lemma p2v_ok p e w mb : map (@length Q) p = map w mb -> length e = sumOf w mb -> paramToVector p e = Ok (concat p).
Proof.
  intros H1 H2. unfold paramToVector. rewrite (concat_length p w mb H1), <- H2, Nat.leb_refl, skipn_all, app_nil_r. reflexivity.
Qed.
Lemma v2p_ok w mb : forall p e, map (@length Q) p = map w mb -> length e = sumOf w mb ->
  exists r, vectorToParam e p = Ok r /\ map (@length Q) r = map w mb /\ concat r = e.
Proof.
  induction mb as [|j mb IH]; intros [|v p] e; cbn [map vectorToParam]; try discriminate.
  - intros _ H. exists []. repeat split. destruct e; [reflexivity|discriminate].
  - intros H1 H2. injection H1 as H1 H3. change (sumOf w (j :: mb)) with (w j + sumOf w mb) in H2.
    destruct (Nat.leb_spec (length v) (length e)); [|lia].
    destruct (IH p (skipn (length v) e) H3) as (r & -> & Hr & Hc); [rewrite skipn_length; lia|]. cbn [bind].
    exists (firstn (length v) e :: r). split; [reflexivity|]. split.
    + cbn [map]. rewrite Hr. rewrite firstn_length. f_equal. lia.
    + cbn [concat]. rewrite Hc. apply firstn_skipn.
Qed.

Definition inv (mb : rbody) (r : robot) : Prop :=
  shaped mb (r_c r) /\ length (r_q r) = sumOf rj_np mb /\ length (r_dq r) = sumOf rj_nd mb /\ length (r_ddq r) = sumOf rj_nd mb.

Lemma construct_inv mb t q0 c : shaped mb c -> length q0 = sumOf rj_np mb ->
  exists r, construct mb t q0 c = Ok r /\ inv mb r /\ r_now r = t /\ r_last r = t /\ r_c r = c /\ r_q r = concat (c_q c) /\
    r_dq r = repeat 0%Q (sumOf rj_nd mb) /\ r_ddq r = repeat 0%Q (sumOf rj_nd mb).
Proof.
  intros Hs Hq. unfold construct. destruct Hs as (H1 & H2 & H3). rewrite (p2v_ok _ _ _ _ H1 Hq). cbn [bind].
  unfold setVar. rewrite (concat_length _ _ _ H1), Hq, Nat.eqb_refl. cbn [bind]. rewrite !total_sum. eexists. split; [reflexivity|]. cbn.
  repeat split; cbn; auto; [apply concat_length; exact H1|apply repeat_length|apply repeat_length].
Qed.

Section T.
  Variable integ : config -> config.
  Variable mb : rbody.
  Hypothesis Hint : keeps mb integ.

  Lemma updateTime_due r : inv mb r -> r_last r <> r_now r ->
    exists r' ad, updateTime integ r = Ok r' /\ concat ad = r_ddq r /\ map (@length Q) ad = map rj_nd mb /\
      r_c r' = integ (mkC (c_q (r_c r)) (c_alpha (r_c r)) ad) /\ r_q r' = concat (c_q (r_c r')) /\ r_dq r' = concat (c_alpha (r_c r')) /\
      r_ddq r' = r_ddq r /\ r_now r' = r_now r /\ r_last r' = r_now r /\ inv mb r'.
  Proof.
    intros ((H1 & H2 & H3) & Hq & Hdq & Hddq) Hne. unfold updateTime. destruct (Z.eqb_spec (r_last r) (r_now r)); [congruence|].
    destruct (v2p_ok rj_nd mb _ _ H3 Hddq) as (ad & -> & Had & Hcat). cbn [bind]. cbv zeta.
    assert (Hc : shaped mb (integ (mkC (c_q (r_c r)) (c_alpha (r_c r)) ad))) by (apply Hint; repeat split; auto).
    remember (integ (mkC (c_q (r_c r)) (c_alpha (r_c r)) ad)) as c eqn:Ec. pose proof Hc as (C1 & C2 & C3).
    rewrite (p2v_ok _ _ _ _ C2 Hdq). cbn [bind]. unfold setVar at 1. rewrite (concat_length _ _ _ C2), Hdq, Nat.eqb_refl. cbn [bind].
    rewrite (p2v_ok _ _ _ _ C1 Hq). cbn [bind]. unfold setVar at 1. rewrite (concat_length _ _ _ C1), Hq, Nat.eqb_refl. cbn [bind].
    eexists. exists ad. split; [reflexivity|]. cbn. repeat split; auto; cbn; auto; apply concat_length; auto.
  Qed.
  Lemma updateTime_idle r : r_last r = r_now r -> updateTime integ r = Ok r.
  Proof. intros H. unfold updateTime. rewrite H, Z.eqb_refl. reflexivity. Qed.
  Lemma setVar_ok old new n : length old = n -> length new = n -> setVar old new = Ok new.
  Proof. intros H1 H2. unfold setVar. rewrite H1, H2, Nat.eqb_refl. reflexivity. Qed.

  Lemma rstep_inv r o : inv mb r -> legal mb o -> exists r', rstep integ r o = Ok r' /\ inv mb r' /\
    match o with RTick => r_now r' = IdModel.advance (r_now r) /\ r_last r' = r_last r
               | RUpdate => r_now r' = r_now r /\ r_last r' = r_now r
               | _ => r_now r' = r_now r /\ r_last r' = r_last r end.
  Proof.
    intros HI Hl. pose proof HI as (Hs & Hq & Hdq & Hddq). destruct o; cbn [rstep legal] in *.
    - rewrite (setVar_ok _ _ _ Hq Hl). cbn [bind]. eexists. split; [reflexivity|]. repeat split; cbn; auto; apply Hs.
    - rewrite (setVar_ok _ _ _ Hdq Hl). cbn [bind]. eexists. split; [reflexivity|]. repeat split; cbn; auto; apply Hs.
    - rewrite (setVar_ok _ _ _ Hddq Hl). cbn [bind]. eexists. split; [reflexivity|]. repeat split; cbn; auto; apply Hs.
    - eexists. split; [reflexivity|]. repeat split; cbn; auto; apply Hl.
    - eexists. split; [reflexivity|]. repeat split; cbn; auto; apply Hs.
    - destruct (Z.eq_dec (r_last r) (r_now r)) as [E|E].
      + rewrite (updateTime_idle r E). exists r. auto.
      + destruct (updateTime_due r HI E) as (r' & ad & -> & _ & _ & _ & _ & _ & _ & E1 & E2 & HI'). exists r'. auto.
  Qed.
  Lemma rrun_app h1 h2 r : rrun integ r (h1 ++ h2) = bind (rrun integ r h1) (fun r' => rrun integ r' h2).
  Proof. revert r. induction h1 as [|o h1 IH]; intros r; cbn; [reflexivity|]. destruct (rstep integ r o); cbn; auto. Qed.
  Lemma ticksIn_app h1 h2 : ticksIn (h1 ++ h2) = (ticksIn h1 + ticksIn h2)%Z.
  Proof. induction h1 as [|o h1 IH]; cbn [app ticksIn]; [lia|]. destruct o; rewrite IH; lia. Qed.
  Lemma ticksIn_nonneg h : (0 <= ticksIn h)%Z.
  Proof. induction h as [|o h IH]; cbn [ticksIn]; [lia|]. destruct o; lia. Qed.
  Lemma due_snoc h o : due (h ++ [o]) <-> (o = RTick \/ (o <> RUpdate /\ due h)).
  Proof.
    split.
    - intros (h1 & h2 & E & Hn). destruct (@exists_last _ (RTick :: h2)) as (h3 & o' & E3); [discriminate|].
      rewrite E3, app_assoc in E. apply app_inj_tail in E as [E ->]. destruct h3 as [|o3 h3]; cbn in E3.
      + injection E3 as <- ->. auto.
      + injection E3 as <- ->. destruct o'; auto; right; (split; [discriminate|exists h1, h3; split; [exact E|intros H; apply Hn; apply in_or_app; auto]]) ||
          (exfalso; apply Hn; apply in_or_app; right; left; reflexivity).
    - intros [->|[Hne (h1 & h2 & -> & Hn)]].
      + exists h, []. split; [reflexivity|intros []].
      + exists h1, (h2 ++ [o]). split; [rewrite <- app_assoc; reflexivity|]. intros H. apply in_app_or in H as [H|[H|[]]]; auto.
  Qed.
  Lemma run_inv r0 t0 : inv mb r0 -> r_now r0 = t0 -> r_last r0 = t0 -> (0 <= t0 < IdModel.two64)%Z ->
    forall h, (forall o, In o h -> legal mb o) -> (ticksIn h < IdModel.two64)%Z ->
    exists r, rrun integ r0 h = Ok r /\ inv mb r /\ r_now r = ((t0 + ticksIn h) mod IdModel.two64)%Z /\
      exists k, (0 <= k <= ticksIn h)%Z /\ r_last r = ((t0 + k) mod IdModel.two64)%Z /\ (k <> ticksIn h <-> due h).
  Proof.
    intros HI En El Ht. induction h as [|o h IH] using rev_ind; intros Hl Htk.
    - exists r0. cbn [rrun ticksIn]. rewrite Z.add_0_r, Z.mod_small by exact Ht. split; [reflexivity|]. split; [exact HI|]. split; [exact En|].
      exists 0%Z. rewrite Z.add_0_r, Z.mod_small by exact Ht. split; [lia|]. split; [exact El|]. split; [congruence|]. intros (h1 & h2 & E & _). destruct h1; discriminate.
    - rewrite ticksIn_app in *. pose proof (ticksIn_nonneg [o]) as Ho. pose proof (ticksIn_nonneg h) as Hh.
      destruct IH as (r & Er & HIr & Hn & k & Hk & Hlast & Hdue); [intros; apply Hl; apply in_or_app; auto|lia|].
      destruct (rstep_inv r o HIr) as (r' & Er' & HI' & Hcl); [apply Hl; apply in_or_app; right; left; reflexivity|].
      exists r'. rewrite rrun_app, Er. cbn [bind rrun]. rewrite Er'. cbn [bind]. split; [reflexivity|]. split; [exact HI'|].
      destruct o; cbn [ticksIn] in *; destruct Hcl as [C1 C2]; rewrite C1, C2, Hn; rewrite ?Z.add_0_r in *.
      1-4: split; [reflexivity|]; exists k; split; [exact Hk|]; split; [exact Hlast|]; rewrite due_snoc, Hdue; split; [intros Hd; right; split; [discriminate|exact Hd]|intros [Hd|[_ Hd]]; [discriminate|exact Hd]].
      + split.
        * unfold IdModel.advance. rewrite Zplus_mod_idemp_l. f_equal. lia.
        * exists k. split; [lia|]. split; [exact Hlast|]. rewrite due_snoc. split; [intros _; left; reflexivity|lia].
      + split; [reflexivity|]. exists (ticksIn h). split; [lia|]. split; [reflexivity|]. rewrite due_snoc.
        split; [congruence|]. intros [Hd|[Hd _]]; [discriminate|congruence].
  Qed.
  Lemma due_ticks r0 t0 h r : inv mb r0 -> r_now r0 = t0 -> r_last r0 = t0 -> (0 <= t0 < IdModel.two64)%Z ->
    (forall o, In o h -> legal mb o) -> (ticksIn h < IdModel.two64)%Z -> rrun integ r0 h = Ok r ->
    inv mb r /\ (r_last r <> r_now r <-> due h).
  Proof.
    intros HI En El Ht Hl Htk Er. destruct (run_inv r0 t0 HI En El Ht h Hl Htk) as (r' & Er' & HI' & Hn & k & Hk & Hlast & Hdue).
    rewrite Er in Er'. injection Er' as <-. split; [exact HI'|]. rewrite <- Hdue, Hlast, Hn. split; [intros H E; apply H; rewrite E; reflexivity|].
    intros Hne E. apply Hne.
    assert (Hm : ((t0 + ticksIn h) mod IdModel.two64 - (t0 + k) mod IdModel.two64 = 0)%Z) by lia.
    assert (Hd : ((ticksIn h - k) mod IdModel.two64 = 0)%Z).
    { replace (ticksIn h - k)%Z with (t0 + ticksIn h - (t0 + k))%Z by lia. rewrite Zminus_mod. rewrite Hm. apply Z.mod_0_l. discriminate. }
    rewrite Z.mod_small in Hd by lia. lia.
  Qed.

  Definition sim (r r' : robot) : Prop := r_now r = r_now r' /\ r_last r = r_last r' /\ r_c r = r_c r' /\ r_ddq r = r_ddq r'.
  Lemma sim_step r r' o r1 : inv mb r -> inv mb r' -> sim r r' -> legal mb o -> rstep integ r o = Ok r1 ->
    if byHand o then sim r1 r' else exists r1', rstep integ r' o = Ok r1' /\ sim r1 r1'.
  Proof.
    intros HI HI' (S1 & S2 & S3 & S4) Hl E. pose proof HI as (Hs & Hq & Hdq & Hddq). pose proof HI' as (Hs' & Hq' & Hdq' & Hddq').
    destruct o; cbn [rstep legal byHand] in *.
    - rewrite (setVar_ok _ _ _ Hq Hl) in E. cbn [bind] in E. injection E as <-. repeat split; auto.
    - rewrite (setVar_ok _ _ _ Hdq Hl) in E. cbn [bind] in E. injection E as <-. repeat split; auto.
    - rewrite (setVar_ok _ _ _ Hddq Hl) in E. rewrite (setVar_ok _ _ _ Hddq' Hl). cbn [bind] in *. injection E as <-. eexists. split; [reflexivity|]. repeat split; auto.
    - injection E as <-. eexists. split; [reflexivity|]. repeat split; auto.
    - injection E as <-. eexists. split; [reflexivity|]. repeat split; cbn; auto. congruence.
    - destruct (Z.eq_dec (r_last r) (r_now r)) as [D|D].
      + rewrite (updateTime_idle r D) in E. injection E as <-. rewrite (updateTime_idle r') by congruence. exists r'. repeat split; auto.
      + destruct (updateTime_due r HI D) as (ra & ad & Ea & A1 & A2 & A3 & _ & _ & A4 & A5 & A6 & _). rewrite E in Ea. injection Ea as <-.
        destruct (updateTime_due r' HI') as (rb & bd & Eb & B1 & B2 & B3 & _ & _ & B4 & B5 & B6 & _); [congruence|].
        exists rb. split; [exact Eb|].
        assert (ad = bd) as <-.
        { assert (Hc : concat ad = concat bd) by congruence. assert (Hm : map (@length Q) ad = map (@length Q) bd) by congruence.
          clear -Hc Hm. revert bd Hc Hm. induction ad as [|x ad IH]; intros [|y bd] Hc Hm; cbn in *; try discriminate; [reflexivity|].
          injection Hm as Hx Hm. assert (x = y /\ concat ad = concat bd) as [-> Hc'].
          { clear -Hc Hx. revert y Hc Hx. induction x as [|a x IH]; intros [|b y]; cbn; try discriminate; [auto|].
            intros H1 H2. injection H1 as -> H1. injection H2 as H2. destruct (IH y H1 H2) as [-> ?]. auto. }
          f_equal. apply IH; auto. }
        repeat split; congruence.
  Qed.
  Lemma erase h : forall r r' r1, inv mb r -> inv mb r' -> sim r r' -> (forall o, In o h -> legal mb o) -> rrun integ r h = Ok r1 ->
    exists r1', rrun integ r' (filter (fun o => negb (byHand o)) h) = Ok r1' /\ sim r1 r1'.
  Proof.
    induction h as [|o h IH]; intros r r' r1 HI HI' HS Hl; cbn [rrun filter].
    - intros E. injection E as <-. eauto.
    - destruct (rstep_inv r o HI) as (ra & Ea & HIa & _); [apply Hl; left; reflexivity|]. rewrite Ea. cbn [bind]. intros E.
      pose proof (sim_step r r' o ra HI HI' HS (Hl o (or_introl eq_refl)) Ea) as Hst. destruct (byHand o) eqn:Eb; cbn [negb].
      + eapply IH; eauto. intros; apply Hl; right; auto.
      + destruct Hst as (rb & Eb' & HS'). cbn [rrun]. rewrite Eb'. cbn [bind].
        destruct (rstep_inv r' o HI') as (rc & Ec & HIc & _); [apply Hl; left; reflexivity|]. rewrite Eb' in Ec. injection Ec as <-.
        eapply (IH ra rb); eauto. intros; apply Hl; right; auto.
  Qed.
  Lemma follow h : forall r, inv mb r -> (forall o, In o h -> legal mb o /\ steady o) -> r_q r = concat (c_q (r_c r)) ->
    forall r1, rrun integ r h = Ok r1 -> r_q r1 = concat (c_q (r_c r1)) /\
      (r_dq r = concat (c_alpha (r_c r)) -> r_dq r1 = concat (c_alpha (r_c r1))).
  Proof.
    induction h as [|o h IH]; intros r HI Hl Hq r1; cbn [rrun]; [intros E; injection E as <-; auto|].
    destruct (Hl o (or_introl eq_refl)) as [Ho Hk]. destruct (rstep_inv r o HI Ho) as (ra & Ea & HIa & _). rewrite Ea. cbn [bind]. intros E.
    assert (Hra : r_q ra = concat (c_q (r_c ra)) /\ (r_dq r = concat (c_alpha (r_c r)) -> r_dq ra = concat (c_alpha (r_c ra)))).
    { destruct o; cbn [steady rstep legal] in *; try contradiction.
      - rewrite (setVar_ok _ _ _ (proj2 (proj2 (proj2 HI))) Ho) in Ea. cbn [bind] in Ea. injection Ea as <-. auto.
      - injection Ea as <-. auto.
      - destruct (Z.eq_dec (r_last r) (r_now r)) as [D|D].
        + rewrite (updateTime_idle r D) in Ea. injection Ea as <-. auto.
        + destruct (updateTime_due r HI D) as (rb & ad & Eb & _ & _ & _ & B1 & B2 & _). rewrite Ea in Eb. injection Eb as <-. auto. }
    destruct Hra as [H1 H2]. destruct (IH ra HIa (fun o' H => Hl o' (or_intror H)) H1 r1 E) as [H3 H4]. auto.
  Qed.
End T.

(* Normal accelerations *)
Section N.
  Context {X M : Type}.
  Variables (act : X -> M -> M) (plus cross : M -> M -> M).
  Lemma putM_length (l : list M) p x : length (putM l p x) = length l.
  Proof. revert p. induction l as [|h l IH]; intros [|p]; cbn; auto. Qed.
  Lemma putM_nth (l : list M) p x q : p < length l -> nth_error (putM l p x) q = if Nat.eqb p q then Some x else nth_error l q.
  Proof. revert p q. induction l as [|h l IH]; intros [|p] [|q]; cbn; intros; try lia; auto. apply IH. lia. Qed.
  Lemma get_lt {A} (l : list A) i : i < length l -> exists x, nth_error l i = Some x.
  Proof. intros H. destruct (nth_error l i) eqn:E; [eauto|]. apply nth_error_None in E. lia. Qed.

  Variables (n : nat) (pred : list (option nat)) (succ : list nat) (xs : list X) (vjs vbs : list M).
  Hypothesis Ht : tree n pred succ.
  Hypothesis Hx : length xs = n.
  Hypothesis Hj : length vjs = n.
  Hypothesis Hb : length vbs = n.
  Definition rec_at (a : list M) (i : nat) : Prop :=
    forall s x vj vb, nth_error succ i = Some s -> nth_error xs i = Some x -> nth_error vjs i = Some vj -> nth_error vbs i = Some vb ->
      (nth_error pred i = Some None -> nth_error a s = Some (cross vb vj)) /\
      (forall p, nth_error pred i = Some (Some p) -> exists ap, nth_error a p = Some ap /\ nth_error a s = Some (plus (act x ap) (cross vb vj))).

  Lemma succ_neq k i s t : k <> i -> nth_error succ k = Some s -> nth_error succ i = Some t -> s <> t.
  Proof.
    intros Hne E1 E2 ->. destruct Ht as (_ & _ & ND & _). apply Hne.
    apply (proj1 (NoDup_nth_error succ) ND); [apply nth_error_Some; rewrite E1; discriminate|congruence].
  Qed.
  Lemma accStep_ok a i : length a = n -> i < n ->
    exists a', accStep act plus cross pred succ xs vjs vbs a i = Ok a' /\ length a' = n /\ rec_at a' i /\
      (forall s q, nth_error succ i = Some s -> q <> s -> nth_error a' q = nth_error a q).
  Proof.
    intros Hl Hi. pose proof Ht as (T1 & T2 & T3 & T4 & T5).
    destruct (get_lt xs i) as [x Ex]; [lia|]. destruct (get_lt vjs i) as [vj Ej]; [lia|]. destruct (get_lt vbs i) as [vb Eb]; [lia|].
    destruct (get_lt pred i) as [p Ep]; [lia|]. destruct (get_lt succ i) as [s Es]; [lia|].
    assert (Hs : s < n) by (apply T4; eapply nth_error_In; exact Es).
    unfold accStep, getM. rewrite Ex, Ej, Eb, Ep, Es. cbn [bind]. unfold storeM. rewrite Hl. destruct (Nat.ltb_spec s n); [|lia].
    destruct p as [p|].
    - destruct (T5 i p Ep) as (k & Hk & Ek). assert (Hps : p <> s) by (eapply (succ_neq k i); eauto; lia).
      assert (Hpn : p < n) by (apply T4; eapply nth_error_In; exact Ek).
      destruct (get_lt a p) as [ap Eap]; [lia|]. rewrite Eap. cbn [bind].
      eexists. split; [reflexivity|]. split; [rewrite putM_length; exact Hl|]. split.
      + intros s' x' vj' vb' E1 E2 E3 E4. rewrite Es in E1. rewrite Ex in E2. rewrite Ej in E3. rewrite Eb in E4. injection E1 as <-. injection E2 as <-. injection E3 as <-. injection E4 as <-.
        split; [intros Ec; congruence|]. intros p' Ep'. rewrite Ep in Ep'. injection Ep' as <-. exists ap.
        rewrite !putM_nth by lia. rewrite Nat.eqb_refl. destruct (Nat.eqb_spec s p); [congruence|]. auto.
      + intros s' q E1 Hq. injection E1 as <-. rewrite putM_nth by lia. destruct (Nat.eqb_spec s q); [congruence|reflexivity].
    - eexists. split; [reflexivity|]. split; [rewrite putM_length; exact Hl|]. split.
      + intros s' x' vj' vb' E1 E2 E3 E4. rewrite Es in E1. rewrite Ex in E2. rewrite Ej in E3. rewrite Eb in E4. injection E1 as <-. injection E2 as <-. injection E3 as <-. injection E4 as <-.
        split; [|intros p' Ep'; congruence]. intros _. rewrite putM_nth by lia. rewrite Nat.eqb_refl. reflexivity.
      + intros s' q E1 Hq. injection E1 as <-. rewrite putM_nth by lia. destruct (Nat.eqb_spec s q); [congruence|reflexivity].
  Qed.
  Lemma accLoop_ok : forall m a i, i + m = n -> length a = n -> (forall k, k < i -> rec_at a k) ->
    exists a', accLoop act plus cross pred succ xs vjs vbs a (seq i m) = Ok a' /\ length a' = n /\ forall k, k < n -> rec_at a' k.
  Proof.
    pose proof Ht as (T1 & T2 & T3 & T4 & T5).
    induction m as [|m IH]; intros a i E Hl Hk; cbn [seq accLoop].
    - exists a. split; [reflexivity|]. split; [exact Hl|]. intros k Hkn. apply Hk. lia.
    - destruct (accStep_ok a i Hl) as (a' & -> & Hl' & Hi & Hsame); [lia|]. cbn [bind]. apply IH; [lia|exact Hl'|].
      intros k Hki. destruct (Nat.eq_dec k i) as [->|Hne]; [exact Hi|].
      destruct (get_lt succ i) as [si Esi]; [lia|].
      intros s x vj vb E1 E2 E3 E4. destruct (Hk k ltac:(lia) s x vj vb E1 E2 E3 E4) as [R1 R2].
      assert (Hs : s <> si) by (eapply succ_neq; eauto). split.
      + intros Ep. rewrite (Hsame si s Esi Hs). auto.
      + intros p Ep. destruct (R2 p Ep) as (ap & Ea & Es). exists ap. destruct (T5 k p Ep) as (k' & Hk' & Ek').
        assert (Hp : p <> si) by (eapply (succ_neq k' i); eauto; lia). rewrite (Hsame si p Esi Hp), (Hsame si s Esi Hs). auto.
  Qed.
End N.

(* Dependencies *)
Definition chain (u : upd) : list upd :=
  match u with
  | UTime => [UTime] | UFK => [UFK; UTime] | UCoM => [UCoM; UFK; UTime] | UFV => [UFV; UFK; UTime]
  | UH => [UH; UFV; UFK; UTime] | UC => [UC; UFV; UFK; UTime] | UFA => [UFA; UFV; UFK; UTime]
  | UNormalAcceleration => [UNormalAcceleration; UFV; UFK; UTime]
  end.
Lemma reaches_chain u w : reaches u w -> In w (chain u).
Proof.
  induction 1 as [u|u v w Hi _ IH]; [destruct u; cbn; auto|].
  cbn in Hi. repeat destruct Hi as [Hi|Hi]; try contradiction; injection Hi as <- <-; cbn in *; tauto.
Qed.
Lemma chain_reaches u w : In w (chain u) -> reaches u w.
Proof.
  assert (T : reaches UFK UTime) by (eapply reaches_step; [|apply reaches_self]; cbn; tauto).
  assert (K : reaches UFV UFK) by (eapply reaches_step; [|apply reaches_self]; cbn; tauto).
  assert (L : reaches UFV UTime) by (eapply reaches_step; [|apply T]; cbn; tauto).
  destruct u; cbn [chain In]; intros H; repeat destruct H as [<-|H]; try contradiction; try apply reaches_self; auto;
    first [eapply reaches_step; [|apply reaches_self]; cbn; tauto | eapply reaches_step; [|exact K]; cbn; tauto
          | eapply reaches_step; [|exact L]; cbn; tauto | eapply reaches_step; [|exact T]; cbn; tauto].
Qed.
Lemma computed_iff o u : computed o u <->
  In u match o with
       | Otau => []
       | OFK => [UTime; UFK]
       | OFV => [UTime; UFK; UFV]
       | OFA => [UTime; UFK; UFV; UFA]
       | ONormalAcceleration => [UTime; UFK; UFV; UNormalAcceleration]
       | OH => [UTime; UFK; UFV; UH]
       | OC => [UTime; UFK; UFV; UC]
       | OCoM | OGeometry => [UTime; UFK; UCoM]
       | ODynamics => [UTime; UFK; UFV; UFA; UNormalAcceleration; UH; UC]
       end.
Proof.
  split.
  - intros (v & Hi & Hr). apply reaches_chain in Hr. cbn in Hi.
    repeat destruct Hi as [Hi|Hi]; try contradiction; injection Hi as <- <-; cbn in *; tauto.
  - assert (C : forall v, In (o, v) outputDependencies -> In u (chain v) -> computed o u).
    { intros v H1 H2. exists v. split; [exact H1|apply chain_reaches; exact H2]. }
    destruct o; cbn [In]; intros H; repeat destruct H as [<-|H]; try contradiction;
      first [apply (C UFK); cbn; tauto | apply (C UFV); cbn; tauto | apply (C UFA); cbn; tauto | apply (C UNormalAcceleration); cbn; tauto
            | apply (C UCoM); cbn; tauto | apply (C UH); cbn; tauto | apply (C UC); cbn; tauto].
Qed.
