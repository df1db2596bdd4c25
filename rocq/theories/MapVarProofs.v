Require Import ZArith List Bool Lia.
Require Import Verif.Base Verif.RangeModel Verif.SpaceModel Verif.SpaceProps Verif.VariableModel Verif.VariableSpec Verif.VariableProofs Verif.VariableProofs2 Verif.MapVarModel Verif.MapVarSpec.
Import ListNotations.
Local Open Scope Z_scope.

Lemma nth_skipn {A} (l : list A) : forall s k, nth_error (skipn s l) k = nth_error l (s + k).
Proof. induction l as [|a l IH]; intros [|s] k; simpl; auto. destruct k; reflexivity. Qed.
Lemma nth_firstn {A} (l : list A) : forall n k, (k < n)%nat -> nth_error (firstn n l) k = nth_error l k.
Proof. induction l as [|a l IH]; intros [|n] k H; simpl; try lia; auto. destruct k; simpl; auto. apply IH. lia. Qed.
Lemma middle_ok {A} (M : list A) s d : 0 <= s -> 0 <= d -> s + d <= Z.of_nat (length M) ->
  exists N, middleCols M (mkRange s d) = Ok N /\ Z.of_nat (length N) = d /\ forall k, 0 <= k < d -> nth_error N (Z.to_nat k) = nth_error M (Z.to_nat (s + k)).
Proof.
  intros Hs Hd H. unfold middleCols, rend. simpl. rewrite !(proj2 (Z.leb_le _ _)) by lia. simpl. eexists; split; [reflexivity|]. split.
  - rewrite firstn_length, skipn_length. lia.
  - intros k Hk. rewrite nth_firstn by lia. rewrite nth_skipn. f_equal. lia.
Qed.

Lemma tsub_range h v o : hinv h -> nth_error (objs h) v = Some o -> tSubvariableRange h v = Ok (mkRange (tSize (v_shift o)) (tSize (v_space o))).
Proof.
  intros I E. destruct (super_cells h v o I E) as (w & wo & _ & _ & _ & _ & S). unfold tSubvariableRange. rewrite (proj2 (get_ok _ _ _) E). simpl bind. cbv beta. rewrite S. simpl bind. cbv beta.
  destruct (hi_obj _ I _ _ E) as [_ _ Sz Off _ _ _ _]. destruct (v_dn o); simpl in *; f_equal; f_equal; lia.
Qed.
Lemma sub_range h v o : hinv h -> nth_error (objs h) v = Some o -> subvariableRange h v = Ok (mkRange (v_off o) (v_size o)).
Proof. intros I E. destruct (super_cells h v o I E) as (w & wo & _ & _ & _ & _ & S). exact S. Qed.
Lemma columns_fun h v o t n : nth_error (objs h) v = Some o -> columns h v t n -> t = tSize (v_shift o) /\ n = tSize (v_space o).
Proof. intros E (o' & E' & A & B). rewrite E in E'. injection E' as <-. auto. Qed.
Lemma columns_of h v o : nth_error (objs h) v = Some o -> columns h v (tSize (v_shift o)) (tSize (v_space o)).
Proof. intros E. exists o. auto. Qed.

Lemma veq_range h u v : reachable h -> (u < length (objs h))%nat -> (v < length (objs h))%nat -> vcontains h u v = Ok true -> veq h u v = Ok true ->
  exists r, subvariableRange h u = Ok r /\ subvariableRange h v = Ok r.
Proof.
  intros R Hu Hv C E. destruct (vrange h u R Hu) as (ou & Eu & I). destruct (vrange h v R Hv) as (ov & Ev & _).
  rewrite (sub_range h u ou I Eu), (sub_range h v ov I Ev). unfold veq in E. rewrite (proj2 (get_ok _ _ _) Eu), (proj2 (get_ok _ _ _) Ev) in E. simpl in E.
  injection E as E. rewrite !andb_true_iff, !Z.eqb_eq in E. destruct E as [[_ ->] ->]. eexists; split; reflexivity.
Qed.

Section At.
Context {A : Type} (h : heap) (key : nat).
Hypothesis R : reachable h.
Hypothesis Hk : (key < length (objs h))%nat.

Lemma key_obj x : (x < length (objs h))%nat -> exists o, nth_error (objs h) x = Some o /\ hinv h.
Proof. apply vrange; exact R. Qed.
Lemma good_lt (m : vmap A) x J : goodMap h m -> In (x, J) m -> (x < length (objs h))%nat.
Proof. intros G H. destruct (G x J H) as (t & o & E & _). apply nth_error_Some. congruence. Qed.

(* with the right ranges *)
Definition ranges (tS : bool) (v : nat) : res Range := if tS then tSubvariableRange h v else subvariableRange h v.
Lemma step_part tS x (J : list A) : (tS = true \/ flat h x /\ flat h key) -> (exists t, columns h x t (Z.of_nat (length J))) ->
  vcontains h x key = Ok true ->
  (aligned h x key ->
   exists M, (do e <- veq h x key; if e then Ok J else do rx <- ranges tS x; do ry <- ranges tS key; middleCols J (relativeRange rx ry)) = Ok M /\ part h x J key M) /\
  (do e <- veq h x key; if e then Ok J else do rx <- ranges tS x; do ry <- ranges tS key; middleCols J (relativeRange rx ry)) <> Throw.
Proof.
  intros T (t & ox & Ex & Et & En) C.
  destruct (key_obj key Hk) as (oy & Ey & I). assert (Hx : (x < length (objs h))%nat) by (apply nth_error_Some; congruence).
  assert (Rg : forall v o, nth_error (objs h) v = Some o -> (v = x \/ v = key) -> ranges tS v = Ok (mkRange (tSize (v_shift o)) (tSize (v_space o)))).
  { intros v o E Hv. unfold ranges. destruct tS; [apply tsub_range; assumption|]. destruct T as [T|[F1 F2]]; [discriminate|].
    rewrite (sub_range h v o I E). assert (F : flat h v) by (destruct Hv as [->| ->]; assumption). destruct F as (o' & E' & F). rewrite E in E'. injection E' as <-.
    destruct (hi_obj _ I _ _ E) as [_ _ Sz Off _ _ _ _]. rewrite Sz, Off. destruct (v_dn o); simpl; [|reflexivity]. destruct F as [F|[-> ->]]; [congruence|reflexivity]. }
  destruct (veq h x key) as [e| |] eqn:Eq.
  2,3: unfold veq in Eq; rewrite (proj2 (get_ok _ _ _) Ex), (proj2 (get_ok _ _ _) Ey) in Eq; discriminate.
  simpl. rewrite (Rg x ox Ex), (Rg key oy Ey) by auto. simpl. unfold relativeRange, shiftR. simpl.
  pose proof (columns_of _ _ _ Ex) as Cx. pose proof (columns_of _ _ _ Ey) as Cy.
  assert (Py : 0 <= tSize (v_space oy)) by (destruct (hi_obj _ I _ _ Ey) as [Ap _ _ _ _ _ _ _]; destruct (api_inv _ Ap) as (Q1 & Q2 & Q3 & _); lia).
  split.
  - intros Al. destruct (Al _ _ _ _ Cx Cy) as (A1 & A2 & A3). destruct e.
    + exists J. split; [reflexivity|]. destruct (veq_range h x key R Hx Hk C Eq) as (r & R1 & R2). destruct (A3 r R1 R2) as [B1 B2].
      exists (tSize (v_shift ox)), (tSize (v_space ox)), (tSize (v_shift oy)), (tSize (v_space oy)). split; [exact Cx|]. split; [exact Cy|]. split; [lia|].
      intros k Hk'. do 2 f_equal. lia.
    + destruct (middle_ok J (tSize (v_shift oy) + - tSize (v_shift ox)) (tSize (v_space oy))) as (N & EN & LN & PN); try lia.
      exists N. split; [exact EN|]. exists (tSize (v_shift ox)), (tSize (v_space ox)), (tSize (v_shift oy)), (tSize (v_space oy)). split; [exact Cx|]. split; [exact Cy|]. split; [exact LN|].
      intros k Hk'. rewrite PN by assumption. do 2 f_equal. lia.
  - destruct e; [discriminate|]. unfold middleCols. destruct (_ && _); discriminate.
Qed.
Lemma loop_ok tS (m : vmap A) : (tS = true \/ flat h key /\ forall x J, In (x, J) m -> flat h x) -> goodMap h m ->
  match atLoop tS h m key with
  | Throw => forall x J, In (x, J) m -> vcontains h x key = Ok false
  | Ok M => exists x J, In (x, J) m /\ vcontains h x key = Ok true /\ (aligned h x key -> part h x J key M)
  | UB => exists x J, In (x, J) m /\ vcontains h x key = Ok true /\ ~ aligned h x key
  end.
Proof.
  induction m as [|[x J] m IH]; intros T G; simpl; [intros x J []|].
  assert (Hx : (x < length (objs h))%nat) by (eapply (good_lt ((x, J) :: m)); [exact G|left; reflexivity]).
  destruct (c07_contains h x key R Hx Hk) as (b & Eb & _). rewrite Eb. simpl. destruct b.
  - destruct (step_part tS x J) as [P Q]; [destruct T as [T|[T1 T2]]; [auto|right; split; [eapply T2; left; reflexivity|exact T1]]|apply G; left; reflexivity|exact Eb|].
    unfold ranges in P, Q. match goal with |- match ?e with Ok _ => _ | Throw => _ | UB => _ end => set (e0 := e) in * end. destruct e0 as [M| |] eqn:E0.
    + exists x, J. split; [left; reflexivity|]. split; [exact Eb|]. intros Al. destruct (P Al) as (M' & E' & P'). injection E' as <-. exact P'.
    + contradiction.
    + exists x, J. split; [left; reflexivity|]. split; [exact Eb|]. intros Al. destruct (P Al) as (M' & E' & _). discriminate.
  - assert (IH' : _) by (apply IH; [destruct T as [T|[T1 T2]]; [auto|right; split; [exact T1|intros; eapply T2; right; eassumption]]|intros y K Hy; apply G; right; exact Hy]).
    destruct (atLoop tS h m key).
    + destruct IH' as (y & K & H1 & H2). exists y, K. split; [right; exact H1|exact H2].
    + intros y K [[= <- <-]|Hy]; [exact Eb|eapply IH'; exact Hy].
    + destruct IH' as (y & K & H1 & H2). exists y, K. split; [right; exact H1|exact H2].
Qed.
Lemma find_in (m : vmap A) J : find m key = Some J -> In (key, J) m.
Proof. induction m as [|[x K] m IH]; simpl; [discriminate|]. destruct (Nat.eqb_spec x key) as [->|]; [intros [= ->]; auto|auto]. Qed.
Lemma find_none (m : vmap A) J : find m key = None -> ~ In (key, J) m.
Proof. induction m as [|[x K] m IH]; simpl; [auto|]. destruct (Nat.eqb_spec x key) as [->|]; [discriminate|]. intros H [[= -> ->]|H']; [congruence|]. exact (IH H H'). Qed.
Lemma part_self (J : list A) : (exists t, columns h key t (Z.of_nat (length J))) -> part h key J key J.
Proof. intros (t & C). exists t, (Z.of_nat (length J)), t, (Z.of_nat (length J)). split; [exact C|]. split; [exact C|]. split; [reflexivity|]. intros k H. do 2 f_equal. lia. Qed.
Lemma at_ok tS (m : vmap A) : (tS = true \/ flat h key /\ forall x J, In (x, J) m -> flat h x) -> goodMap h m ->
  match mapAt tS h m key with
  | Throw => forall x J, In (x, J) m -> x <> key /\ vcontains h x key = Ok false
  | Ok M => exists x J, In (x, J) m /\ (x = key \/ vcontains h x key = Ok true) /\ (x = key \/ aligned h x key -> part h x J key M)
  | UB => exists x J, In (x, J) m /\ vcontains h x key = Ok true /\ ~ aligned h x key
  end.
Proof.
  intros T G. unfold mapAt. destruct (find m key) as [J|] eqn:F.
  - apply find_in in F. exists key, J. split; [exact F|]. split; [auto|]. intros _. apply part_self. apply G. exact F.
  - pose proof (loop_ok tS m T G) as H. destruct (atLoop tS h m key).
    + destruct H as (x & J & H1 & H2 & H3). exists x, J. split; [exact H1|]. split; [auto|]. intros [->|Al]; [|apply H3; exact Al]. exfalso. exact (find_none m J F H1).
    + intros x J Hx. split; [|eapply H; exact Hx]. intros ->. exact (find_none m J F Hx).
    + exact H.
Qed.
End At.

(* Alignment *)
Lemma aligned_flat h x y : reachable h -> (x < length (objs h))%nat -> (y < length (objs h))%nat -> vcontains h x y = Ok true -> flat h x -> flat h y -> aligned h x y.
Proof.
  intros R Hx Hy C F G. destruct (vrange h x R Hx) as (ox & Ex & I). destruct (vrange h y R Hy) as (oy & Ey & _).
  destruct F as (o & E & F). rewrite Ex in E. injection E as <-. destruct G as (o & E & G). rewrite Ey in E. injection E as <-.
  pose proof (sub_range h x ox I Ex) as Sx. pose proof (sub_range h y oy I Ey) as Sy.
  destruct (hi_obj _ I _ _ Ex) as [_ _ Zx Ox _ _ _ _]. destruct (hi_obj _ I _ _ Ey) as [_ _ Zy Oy _ _ _ _].
  assert (Fx : v_off ox = tSize (v_shift ox) /\ v_size ox = tSize (v_space ox)) by (destruct (v_dn ox); simpl in *; [destruct F as [F|[F1 F2]]; [congruence|lia]|auto]).
  assert (Fy : v_off oy = tSize (v_shift oy) /\ v_size oy = tSize (v_space oy)) by (destruct (v_dn oy); simpl in *; [destruct G as [G|[G1 G2]]; [congruence|lia]|auto]).
  unfold vcontains in C. destruct (superOf h x); try discriminate. destruct (superOf h y); try discriminate. rewrite Sx, Sy in C. simpl in C. injection C as C.
  apply andb_prop in C as [_ C]. unfold containsR, containsI, rend in C. simpl in C. rewrite !andb_true_iff, Z.ltb_lt, !Z.leb_le in C.
  intros tx nx ty ny Cx Cy. apply (columns_fun _ _ _ _ _ Ex) in Cx as [-> ->]. apply (columns_fun _ _ _ _ _ Ey) in Cy as [-> ->].
  split; [lia|]. split; [lia|]. intros r H1 H2. rewrite Sx in H1. rewrite Sy in H2. rewrite <- H2 in H1. injection H1 as H1 H3. lia.
Qed.
Lemma api_ge s : api s -> 0 <= tSize s /\ 0 <= rSize s.
Proof. intros Ap. destruct (api_inv _ Ap) as (Q1 & Q2 & Q3 & _). lia. Qed.
Lemma subs_slice c : Forall onlySub c -> Forall valid_cop c -> forall n s r t y, chain_slice c (n, s, r, t) = Some y ->
  let '(n', s', r', t') := y in n' = n /\ r <= r' /\ r' + rSize s' <= r + rSize s /\ t <= t' /\ t' + tSize s' <= t + tSize s.
Proof.
  induction c as [|o c IH]; intros O V n s r t y H; simpl in H; [injection H as <-; lia|].
  inversion O; subst. inversion V; subst. destruct o as [a|s1 sh a]; [contradiction|]. destruct (_ && _) eqn:E; [|discriminate].
  specialize (IH H3 H5 _ _ _ _ _ H). destruct y as [[[n' s'] r'] t']. rewrite !andb_true_iff, !Z.leb_le in E. destruct H4 as [A1 A2]. apply api_ge in A1, A2. lia.
Qed.
Lemma Slice_columns h v root n s r t : Slice h v root (n, s, r, t) -> columns h v t (tSize s).
Proof. intros (o & w & ro & E & _ & <- & _ & <- & _). exists o. auto. Qed.
Lemma chain_reach c : Forall onlySub c -> Forall valid_cop c -> forall h x h' y, reachable h -> (x < length (objs h))%nat -> chain h x c = Ok (h', y) -> reachable h' /\ (y < length (objs h'))%nat.
Proof.
  induction c as [|o c IH]; intros O V h x h' y R Hx C; simpl in C; [injection C as <- <-; auto|].
  inversion O; subst. inversion V; subst. destruct o as [a|s sh a]; [contradiction|]. destruct H3 as [A1 A2].
  destruct (subvariable h x s sh a) as [[h1 u]| |] eqn:E; try discriminate. simpl in C. apply (IH H2 H4 h1 u); [| |exact C].
  - apply (r_step h (VSub x s sh a)); [exact R|simpl; auto|]. simpl. rewrite E. reflexivity.
  - destruct (vrange h x R Hx) as (ox & Ex & I). destruct (any_Slice h x ox I Ex) as [root S].
    destruct (subvariable_ok h x s sh a root _ _ _ _ I A1 A2 S) as [K1 K2]. destruct (_ && _).
    + destruct (K2 eq_refl) as (h2 & u2 & E2 & _ & _ & (o & w & ro & Eo & _)). rewrite E in E2. injection E2 as <- <-. apply nth_error_Some. congruence.
    + rewrite K1 in E by reflexivity. discriminate.
Qed.
Lemma aligned_chain h x c h' y ox oy : reachable h -> nth_error (objs h) x = Some ox -> Forall onlySub c -> Forall valid_cop c -> chain h x c = Ok (h', y) ->
  nth_error (objs h') y = Some oy -> (rSize (v_space oy) = rSize (v_space ox) -> tSize (v_space oy) = tSize (v_space ox)) ->
  reachable h' /\ aligned h' x y /\ (0 < v_size oy -> vcontains h' x y = Ok true).
Proof.
  intros R Ex O V C Ey Hr. pose proof (reach_hinv h R) as I. destruct (any_Slice h x ox I Ex) as [root S].
  assert (Hx : (x < length (objs h))%nat) by (apply nth_error_Some; congruence). destruct (chain_reach c O V h x h' y R Hx C) as [R' Hy].
  destruct (chain_ok c h x root _ V I S) as [K1 K2]. destruct (chain_slice c _) as [[[[n' s'] r'] t']|] eqn:E; [|rewrite K1 in C by reflexivity; discriminate].
  destruct (K2 _ eq_refl) as (h1 & u & E1 & I1 & X1 & S1). rewrite C in E1. injection E1 as <- <-.
  pose proof (subs_slice c O V _ _ _ _ _ E) as (-> & B1 & B2 & B3 & B4).
  pose proof (Slice_ext _ _ _ _ _ X1 S) as Sx. pose proof Sx as (ox' & wx & rox & Ex' & Dx & Px & Rx & Tx & Nx & Sux & _).
  pose proof S1 as (oy' & wy & roy & Ey' & Dy & Py & Ry & Ty & Ny & Suy & _). rewrite Ey in Ey'. injection Ey' as <-.
  assert (W : wx = wy) by (eapply nthDeriv_fun; eassumption).
  pose proof (sub_range h' x ox' I1 Ex') as Qx. pose proof (sub_range h' y oy I1 Ey) as Qy.
  destruct (hi_obj _ I1 _ _ Ex') as [Ax1 Ax2 Zx Ox _ _ _ _]. destruct (hi_obj _ I1 _ _ Ey) as [Ay1 Ay2 Zy Oy _ _ _ _]. apply api_ge in Ax1, Ax2, Ay1, Ay2.
  split; [exact R'|]. split.
  - intros tx nx ty ny Cx Cy. apply (columns_fun _ _ _ _ _ Ex') in Cx as [-> ->]. apply (columns_fun _ _ _ _ _ Ey) in Cy as [-> ->].
    rewrite Px, Tx, Py, Ty. split; [lia|]. split; [lia|]. intros r H1 H2. rewrite Qx in H1. rewrite Qy in H2. rewrite <- H2 in H1. injection H1 as H1 H3.
    rewrite Zx, Zy, Dx, Dy, Px, Py in H3. rewrite Py in Hr. assert (tSize s' = tSize (v_space ox)) by (destruct (v_dn ox); simpl in H3; [apply Hr; lia|lia]). split; lia.
  - intros P. unfold vcontains. assert (U1 : superOf h' x = Ok wx) by (unfold superOf; rewrite (proj2 (get_ok _ _ _) Ex'); simpl; destruct Sux as [->|[-> ->]]; reflexivity).
    assert (U2 : superOf h' y = Ok wx) by (unfold superOf; rewrite (proj2 (get_ok _ _ _) Ey); simpl; subst wy; destruct Suy as [->|[-> ->]]; reflexivity).
    rewrite U1, U2, Qx, Qy. simpl. rewrite Nat.eqb_refl. simpl. f_equal. unfold containsR, containsI, rend. simpl.
    rewrite Zx, Ox, Dx, Px. rewrite Zy in P. rewrite Zy, Oy, Dy, Py. rewrite Dy, Py in P.
    rewrite !andb_true_iff, Z.ltb_lt, !Z.leb_le. destruct (v_dn ox); simpl in *; lia.
Qed.
Lemma at_unique {A} h key tS (m : vmap A) x J : reachable h -> (key < length (objs h))%nat -> (tS = true \/ flat h key /\ forall x J, In (x, J) m -> flat h x) -> goodMap h m ->
  NoDup (map fst m) -> (forall x J y K, In (x, J) m -> In (y, K) m -> x <> y -> vintersects h x y = Ok false) -> (exists c, cell h key c) ->
  In (x, J) m -> x = key \/ vcontains h x key = Ok true /\ aligned h x key -> exists M, mapAt tS h m key = Ok M /\ part h x J key M.
Proof.
  intros R Hk T G ND D (c & Hc) Hx Al.
  assert (Cov : forall y K, In (y, K) m -> y = key \/ vcontains h y key = Ok true -> cell h y c).
  { intros y K Hy [->|Cy]; [exact Hc|]. destruct (c07_contains h y key R (good_lt h m y K G Hy) Hk) as (b & Eb & B). rewrite Eb in Cy. injection Cy as ->.
    destruct B as [B _]; [eauto|]. apply B; auto. }
  assert (U : forall y K, In (y, K) m -> y = key \/ vcontains h y key = Ok true -> y = x /\ K = J).
  { intros y K Hy Cy. assert (E : y = x).
    { destruct (Nat.eq_dec y x) as [E|N]; [exact E|]. exfalso. pose proof (D y K x J Hy Hx N) as I.
      destruct (c07_intersects h y x R (good_lt h m y K G Hy) (good_lt h m x J G Hx)) as (b & Eb & B). rewrite I in Eb. injection Eb as <-.
      assert (Cx : cell h x c) by (apply (Cov x J Hx); tauto). pose proof (Cov y K Hy Cy) as Cy'. destruct B as [_ B]; [eauto|eauto|]. discriminate B. eauto. }
    subst y. split; [reflexivity|]. clear - ND Hx Hy. induction m as [|[z L] m IH]; simpl in *; [contradiction|]. inversion ND; subst.
    destruct Hx as [Hx|Hx], Hy as [Hy|Hy]; [congruence| | |auto]; exfalso; apply H1; [injection Hx as -> _|injection Hy as -> _]; apply in_map_iff; [exists (x, K)|exists (x, J)]; auto. }
  pose proof (at_ok h key R Hk tS m T G) as P. destruct (mapAt tS h m key) as [M| |].
  - destruct P as (y & K & Hy & Cy & Py). destruct (U y K Hy Cy) as [-> ->]. exists M. split; [reflexivity|]. apply Py. tauto.
  - destruct (P x J Hx) as [P1 P2]. destruct Al as [Al|[Al _]]; congruence.
  - destruct P as (y & K & Hy & Cy & Py). destruct (U y K Hy (or_intror Cy)) as [-> ->]. destruct Al as [->|[_ Al]]; [|contradiction].
    exfalso. apply Py. destruct (vrange h key R Hk) as (o & E & I). intros tx nx ty ny Cx Cy'.
    apply (columns_fun _ _ _ _ _ E) in Cx as [-> ->]. apply (columns_fun _ _ _ _ _ E) in Cy' as [-> ->]. repeat split; lia.
Qed.
