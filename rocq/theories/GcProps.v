(* C64. GenericCalculator. *)
From Coq Require Import List Bool Arith QArith Lia.
Import ListNotations.
From Verif Require Import Base QSum DiagSpec GcModel GcSpec GcProofs.
From Verif Require SubstModel SubstSpec SubstProofs5.
Local Open Scope nat_scope.

(* A = (3 6 9; 4 8 12), rank 1. What is under the diagonal of matrixR() is not zero. *)
Definition rowsOf (l : list (list Q)) : mat := fun i j => nth j (nth i l []) 0%Q.
Definition A0 : mat := rowsOf [[3; 6; 9]; [4; 8; 12]]%Q.
Definition f0 : qr := mkQR 1 (rowsOf [[3 # 5; 4 # 5]; [-4 # 5; 3 # 5]]%Q) (rowsOf [[15; 10; 5]; [7; 0; 0]]%Q) (fun j => 2 - j).
Lemma f0_decomposes : decomposes 2 3 A0 f0.
Proof.
  unfold decomposes, f0; cbn [f_rank f_P f_R f_QT]. split; [lia|]. split; [lia|]. split; [intros; lia|]. split; [intros; lia|]. split.
  - intros k Hk. cbn in Hk. assert (k = 0) by lia. subst k. discriminate.
  - exists (rowsOf [[3 # 5; -4 # 5]; [4 # 5; 3 # 5]]%Q). split; [|split].
    + intros [|[|i]] [|[|j]] Hi Hj; try lia; reflexivity.
    + intros [|[|i]] [|[|j]] Hi Hj; try lia; reflexivity.
    + intros [|[|i]] [|[|[|j]]] Hi Hj; try lia; reflexivity.
Qed.

(* With the declared rank, the update succeeds and the calculator keeps the contract of SubstitutionCalculatorImpl.h. *)
Theorem C64_calculates m n A f N0 : decomposes m n A f ->
  exists N Ash S, update_ n (f_rank f) f N0 = Ok N /\ calculates m n (f_rank f) A Ash N S /\ multiplies m n (f_rank f) f N Ash N S.
Proof.
  intros D. destruct (NOf_ok m n A f N0 D) as (N & E & HN). exists N, (AshOf f), (S_ f). split; [exact E|]. split.
  - apply (calculates_ext m n _ A N (NOf n f)); [exact HN|apply calc_ok; exact D].
  - split; [intros i j _ _; reflexivity|]. intros minus outA inM. apply (products m n A f minus outA inM D).
Qed.
Print Assumptions C64_calculates.
Example C64_case : decomposes 2 3 A0 f0 /\
  match update_ 3 1 f0 (rowsOf []) with Ok N => map (fun i => map (fun j => Qred (N i j)) [0; 1]) [0; 1; 2] | _ => [] end
    = [[0; 1]; [1; 0]; [-2 # 3; -1 # 3]]%Q /\
  match premultiply 2 3 1 f0 true (rowsOf []) identity with
  | Ok (a, s) => (map (fun i => map (fun j => Qred (a i j)) [0; 1]) [0; 1; 2], map (fun j => Qred (s 0 j)) [0; 1]) | _ => ([], []) end
    = ([[0; 0]; [0; 0]; [-1 # 25; -4 # 75]], [-4 # 5; 3 # 5])%Q.
Proof. split; [apply f0_decomposes|]. split; vm_compute; reflexivity. Qed.

(* The update throws exactly when the declared rank is not the rank of A. *)
Theorem C64_rank m n A f r N0 : decomposes m n A f -> r <= n ->
  (update_ n r f N0 = Throw <-> ~ hasRank m n A r) /\ update_ n r f N0 <> UB.
Proof.
  intros D Hr. pose proof (rank_of m n A f r D Hr) as Hk. unfold hasRank. destruct (Nat.eq_dec (f_rank f) r) as [E|E].
  - destruct (NOf_ok m n A f N0 D) as (N & EN & _). rewrite E in EN. rewrite EN. split; [|discriminate]. split; [discriminate|]. intros H. exfalso. apply H. tauto.
  - unfold update_. destruct (Nat.eqb_spec (f_rank f) r); [congruence|]. cbn [negb]. split; [|discriminate]. split; [|reflexivity]. intros _ [_ H]. tauto.
Qed.
Print Assumptions C64_rank.
Example C64_rank_case : update_ 3 2 f0 (rowsOf []) = Throw.
Proof. reflexivity. Qed.

(* Products by N and by some of its rows. *)
Theorem C64_post n N start dim add out inM i j :
  (postMultiplyByNr n N start dim add out inM i j == (if add : bool then out i j else 0) + mul dim inM (fun a => N (start + a)%nat) i j)%Q.
Proof.
  unfold postMultiplyByNr. destruct (Nat.eqb_spec start 0) as [->|]; cbn [andb]; [destruct (Nat.eqb_spec dim n) as [->|]|];
    unfold postMultiplyByN, mul, mmul; destruct add; cbn [plus]; ring.
Qed.
Print Assumptions C64_post.
Example C64_post_case : Qred (postMultiplyByNr 3 A0 1 1 true A0 A0 0 0) = 15%Q.
Proof. vm_compute. reflexivity. Qed.

(* Updates one after the other, for matrices that do not change if the calculator takes them as constant: after an update that
   returned the calculator is the one of the last matrix, whatever happened before. *)
Theorem C64_updates m n r constant g hist A f bs g' : g_init g = true ->
  (forall A' f', In (A', f') (hist ++ [(A, f)]) -> decomposes m n A' f') ->
  (constant = true -> forall A' f', In (A', f') hist -> eqm m n A' A) ->
  updates constant n r (map snd (hist ++ [(A, f)])) g = Some (bs ++ [true], g') ->
  exists Ash S, calculates m n r A Ash (g_N g') S /\ multiplies m n r (g_qr g') (g_N g') Ash (g_N g') S.
Proof.
  intros Hg HD Hc E. destruct (updates_from _ _ _ _ _ _ _ Hg E) as (_ & _ & H). destruct (H bs eq_refl) as [[Hin [N0 EN]] Hl].
  pose proof (update_rank _ _ _ _ _ EN) as Hr.
  assert (D : decomposes m n A (g_qr g')).
  { destruct constant.
    - apply in_map_iff in Hin as ((A' & f') & Ef & Hin). cbn in Ef. rewrite <- Ef. pose proof (HD A' f' Hin) as D. apply in_app_or in Hin as [Hin|[Hin|[]]].
      + apply (decomposes_ext m n A' A f' (Hc eq_refl A' f' Hin) D).
      + injection Hin as <- <-. exact D.
    - rewrite (Hl eq_refl (map snd hist) f ltac:(rewrite map_app; reflexivity)). apply HD. apply in_or_app. right. left. reflexivity. }
  destruct (NOf_ok m n A (g_qr g') N0 D) as (N & E' & HN). rewrite Hr in *. rewrite EN in E'. injection E' as <-.
  pose proof (calc_ok m n A (g_qr g') D) as Hk. rewrite Hr in Hk.
  exists (AshOf (g_qr g')), (S_ (g_qr g')). split; [exact (calculates_ext m n r A _ _ _ _ HN Hk)|]. split; [intros i j _ _; reflexivity|].
  intros minus outA inM. pose proof (products m n A (g_qr g') minus outA inM D) as Hp. rewrite Hr in Hp. exact Hp.
Qed.
Print Assumptions C64_updates.
Definition f1 : qr := mkQR 2 identity (rowsOf [[2; 0; 0]; [0; 1; 0]]%Q) (fun j => j).
Definition start : calculator := mkGC f1 (rowsOf []) true.
Example C64_updates_case : exists g', updates false 3 1 [f0; f1; f0] start = Some ([true; false; true], g') /\ g_qr g' = f0.
Proof. eexists. split; reflexivity. Qed.
(* Constant matrices are decomposed until an update returns, and never again: the calculator is left as it is, whatever comes. *)
Theorem C64_constant_once n r fs g bs g' : g_init g = true -> updates true n r fs g = Some (bs ++ [true], g') ->
  forall fs', updates true n r fs' g' = Some (map (fun _ => true) fs', g').
Proof.
  intros Hg E. assert (I : g_init g' = false).
  { revert g bs g' Hg E. induction fs as [|f fs IH]; intros g bs g' Hg E; cbn [updates] in E.
    - injection E as E _. destruct bs; discriminate.
    - unfold update in E. rewrite Hg in E. cbn [negb orb] in E. destruct (update_ n r f (g_N g)) as [N| |]; [| |discriminate].
      + assert (K : forall fs0 h b h', g_init h = false -> updates true n r fs0 h = Some (b, h') -> g_init h' = false).
        { clear. induction fs0 as [|f0 fs0 IH]; intros h b h' Hh E; cbn [updates] in E; [injection E as _ <-; exact Hh|].
          unfold update in E. rewrite Hh in E. cbn [negb orb] in E. destruct (updates true n r fs0 h) as [[b1 h1]|] eqn:E1; [|discriminate].
          cbn in E. injection E as _ <-. exact (IH h b1 h1 Hh E1). }
        destruct (updates true n r fs (mkGC f N false)) as [[b1 h1]|] eqn:E1; [|discriminate]. cbn in E. injection E as _ <-.
        exact (K fs (mkGC f N false) b1 h1 eq_refl E1).
      + destruct (updates true n r fs (mkGC f (g_N g) true)) as [[b1 h1]|] eqn:E1; [|discriminate]. cbn in E. injection E as Eb <-.
        destruct bs as [|b0 bs]; cbn in Eb; [discriminate|]. injection Eb as _ Eb. rewrite Eb in E1. exact (IH (mkGC f (g_N g) true) bs h1 eq_refl E1). }
  induction fs' as [|f fs' IH]; [reflexivity|]. cbn [updates]. unfold update. rewrite I. cbn [negb orb]. rewrite IH. reflexivity.
Qed.
Print Assumptions C64_constant_once.
Example C64_constant_once_case : exists g', updates true 3 1 [f1; f0; f1] start = Some ([false; true] ++ [true], g') /\ g_qr g' = f0.
Proof. eexists. split; reflexivity. Qed.
(* After an update that threw, the products are not defined, although they were before. *)
Theorem C64_throw_refuted : exists m n r A f A' f' g g', decomposes m n A f /\ decomposes m n A' f' /\
  updates false n r [f; f'] g = Some ([true; false], g') /\ forall outA inM, premultiply m n r (g_qr g') false outA inM = UB.
Proof.
  exists 1, 1, 1, (rowsOf [[2%Q]]), (mkQR 1 identity (rowsOf [[2%Q]]) (fun j => j)), (rowsOf []), (mkQR 0 identity (rowsOf []) (fun j => j)), start. eexists.
  assert (G : forall (A : mat) k R, (k <= 1) -> (forall i, i < k -> ~ (R i i == 0)%Q) -> (A 0%nat 0%nat == upper k R 0%nat 0%nat)%Q -> decomposes 1 1 A (mkQR k identity R (fun j => j))).
  { intros A k R Hk Hd HA. split; [exact Hk|]. split; [exact Hk|]. split; [auto|]. split; [auto|]. split; [exact Hd|].
    exists identity. split; [|split]; intros [|i] [|j] Hi Hj; try lia; try reflexivity. cbn [f_P f_rank f_R]. unfold mul, qsumn. cbn [seq qsum]. rewrite HA. unfold identity. cbn. ring. }
  split; [apply G; [lia|intros [|i] Hi; [discriminate|lia]|reflexivity]|]. split; [apply G; [lia|intros i Hi; lia|reflexivity]|].
  split; [reflexivity|]. intros outA inM. reflexivity.
Qed.
Print Assumptions C64_throw_refuted.

(* With these calculators and the declared ranks, the contract supposed in C33 and C54 is met. *)
Theorem C64_contracts sz jac l fs :
  (forall k s, nth_error l k = Some s ->
     decomposes (SubstModel.rows (SubstModel.s_cs s)) (SubstModel.total sz (SubstModel.s_xs s)) (SubstModel.fillA sz (jac k) s) (fs k) /\
     f_rank (fs k) = SubstModel.s_rank s) ->
  exists cal, SubstSpec.contracts sz jac cal 0 l /\
  forall k s, nth_error l k = Some s -> forall N0, exists N,
    update_ (SubstModel.total sz (SubstModel.s_xs s)) (SubstModel.s_rank s) (fs k) N0 = Ok N /\
    multiplies (SubstModel.rows (SubstModel.s_cs s)) (SubstModel.total sz (SubstModel.s_xs s)) (SubstModel.s_rank s) (fs k) N
      (SubstModel.k_Ash (cal k)) (SubstModel.k_N (cal k)) (SubstModel.k_S (cal k)).
Proof.
  intros H. exists (fun k => match nth_error l k with
    | Some s => SubstModel.mkCalc (AshOf (fs k)) (NOf (SubstModel.total sz (SubstModel.s_xs s)) (fs k)) (S_ (fs k))
    | None => SubstModel.mkCalc identity identity identity end). split.
  - intros k s Es. cbn [plus]. rewrite Es. destruct (H k s Es) as [D Er]. pose proof (calc_ok _ _ _ _ D) as Hk. rewrite Er in Hk. exact Hk.
  - intros k s Es N0. destruct (H k s Es) as [D Er]. destruct (NOf_ok _ _ _ _ N0 D) as (N & E & HN). exists N. rewrite Er in E, HN. split; [exact E|].
    rewrite Es. split; [exact HN|]. intros minus outA inM. pose proof (products _ _ _ _ minus outA inM D) as Hp. rewrite Er in Hp. exact Hp.
Qed.
Print Assumptions C64_contracts.
(* hence the elimination, with nothing supposed of the calculators but the decompositions *)
Theorem C64_elimination_partial sz l jac e fs :
  SubstSpec.wellFormed l ->
  (forall k s, nth_error l k = Some s ->
     decomposes (SubstModel.rows (SubstModel.s_cs s)) (SubstModel.total sz (SubstModel.s_xs s)) (SubstModel.fillA sz (jac k) s) (fs k) /\
     f_rank (fs k) = SubstModel.s_rank s) ->
  exists cal, SubstSpec.contracts sz jac cal 0 l /\
  forall s0 ds s val, SubstSpec.unitAfter sz l s0 (ds ++ [SubstSpec.mkD jac e cal]) = Ok s ->
  (SubstSpec.satisfied sz jac e 0 l val <->
   exists zv, (forall v f, In (v, f) (SubstModel.varSubstitutions sz cal (SubstModel.scan sz SubstModel.start l) s) -> forall b, b < sz v -> (val v b == f val zv b)%Q) /\
              (forall n g, In (n, g) (SubstModel.remaining sz (SubstModel.scan sz SubstModel.start l) s) -> forall a, a < n -> (g val zv a == 0)%Q)).
Proof.
  intros W H. destruct (C64_contracts sz jac l fs H) as (cal & Hc & _). exists cal. split; [exact Hc|].
  intros s0 ds s val E. exact (SubstProofs5.equivalence sz l s0 ds (SubstSpec.mkD jac e cal) s val W Hc E).
Qed.
Print Assumptions C64_elimination_partial.
(* one constraint 3 x + 6 y + 9 z + ... = e of rank 1 on two rows *)
Example C64_contracts_case : let l := [SubstModel.mkSub [SubstModel.mkCst 2 [0; 1] SubstModel.AS_GIVEN] [0] 1] in
  let sz := fun v => match v with 0 => 3 | _ => 1 end in
  SubstSpec.wellFormed l /\
  forall k s, nth_error l k = Some s ->
     decomposes (SubstModel.rows (SubstModel.s_cs s)) (SubstModel.total sz (SubstModel.s_xs s)) (SubstModel.fillA sz (fun _ _ => A0) s) f0 /\
     f_rank f0 = SubstModel.s_rank s.
Proof.
  cbv zeta. split.
  - split; [repeat constructor; cbn; tauto|]. intros s c [<-|[]] [<-|[]]. repeat constructor; cbn; intuition discriminate.
  - intros [|[|k]] s E; try discriminate. injection E as <-. split; [|reflexivity]. cbn [SubstModel.rows SubstModel.total fold_right SubstModel.s_cs SubstModel.s_xs SubstModel.c_size plus].
    apply (decomposes_ext 2 3 A0); [|apply f0_decomposes]. intros [|[|i]] [|[|[|j]]] Hi Hj; try lia; reflexivity.
Qed.
