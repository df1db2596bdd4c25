(* C35: callbacks run exactly while their registration is alive. *)
From Coq Require Import List Bool Arith.
Import ListNotations.
From Verif Require Import Base TokenModel TokenSpec TokenProofs CallbackModel CallbackSpec CallbackProofs.

(* Three registrations with two reallocations; the token of the first is moved, that of the second
   destroyed, a fourth registration is assigned to the token of the third, the first callback
   destroys the token of the fourth when it runs. *)
Definition q (n : nat) : cb := mkCb n [].
Definition al (t p : nat) (l : list nat) : alloc := mkAl t p (match l with [] => None | _ => Some l end).
Definition cex : list iop :=
  [RegNew 0 (mkCb 10 [CDelete 2]) (al 100 200 []); RegNew 1 (q 11) (al 100 301 [300]); RegNew 2 (q 12) (al 100 402 [400; 401]);
   Client (CMoveNew 3 0); Client (CDelete 0); RegNew 4 (q 13) (al 100 403 []); Client (CDelete 1);
   RegAssign 2 (q 14) (al 100 504 [500; 501; 502; 503]); Run].
Definition client (a : nat) : bool := a <? 100.
Example cex_runs : match isteps iempty cex with Ok (out, i) => Some (out, map label (cbs i), addrs i) | _ => None end
  = Some ([10; 13], [10; 13], [500; 501]).
Proof. vm_compute. reflexivity. Qed.
Example cex_placed : placed client iempty cex.
Proof. apply placedb_ok. vm_compute. reflexivity. Qed.
(* A history of the specification with quiet callbacks. *)
Definition cex' : list iop :=
  [RegNew 0 (q 10) (al 100 200 []); RegNew 1 (q 11) (al 100 301 [300]); RegNew 2 (q 12) (al 100 402 [400; 401]);
   Client (CMoveNew 3 0); Client (CDelete 0); Client (CDelete 1); RegAssign 2 (q 14) (al 100 504 [500; 501; 502])].
Example cex'_spec : exists s, ssteps sempty cex' [] s /\ regs s = [(q 10, Some 3); (q 11, None); (q 12, None); (q 14, Some 2)] /\ placed client iempty cex'.
Proof.
  eexists. split; [|split].
  - repeat (change (@nil nat) with (@nil nat ++ @nil nat); eapply sss_cons; [first [apply ss_regnew; reflexivity|apply ss_regassign; reflexivity|apply ss_client; reflexivity]|]). apply sss_nil.
  - reflexivity.
  - apply placedb_ok. vm_compute. reflexivity.
Qed.
Example cex'_run : match isteps iempty (cex' ++ [Run]) with Ok (out, i) => Some (out, map label (cbs i)) | _ => None end = Some ([10; 14], [10; 14]).
Proof. vm_compute. reflexivity. Qed.

(* For every history that makes sense for the clients, wherever the allocator places the elements
   and whatever the callbacks do to the tokens and to later registrations, the model is defined, it
   invokes the callbacks the specification says, and the vector holds the same registrations. *)
Theorem C35_history : forall U l out s, ssteps sempty l out s -> placed U iempty l ->
  exists i, isteps iempty l = Ok (out, i) /\ cbs i = map fst (regs s) /\
    (forall k, option_map (mm i) (nth_error (addrs i) k) = option_map (fun r => Some (snd r)) (nth_error (regs s) k)).
Proof. exact history. Qed.
Print Assumptions C35_history.

(* After any history, when the registered callbacks leave tokens and manager alone, run invokes those
   whose token is alive, once each, in the order of registration. *)
Theorem C35_run : forall U l out s, ssteps sempty l out s -> Forall (fun r => script (fst r) = []) (regs s) -> placed U iempty l ->
  exists i, isteps iempty (l ++ [Run]) =
    Ok (out ++ map (fun r => label (fst r)) (filter (fun r => match snd r with Some _ => true | None => false end) (regs s)), i).
Proof. exact run_after. Qed.
Print Assumptions C35_run.

(* In general a run is determined by the registrations, and in the quiet case it is what C35_run says. *)
Theorem C35_run_spec : (forall i s out s', runs i s out s' -> forall out2 s2, runs i s out2 s2 -> out = out2 /\ s' = s2) /\
  (forall s, Forall (fun r => script (fst r) = []) (regs s) -> forall out s', runs 0 s out s' <->
    out = map (fun r => label (fst r)) (filter owned (regs s)) /\ s' = mkS (filter owned (regs s)) (clients s)).
Proof. split; [exact runs_det|exact runs_quiet]. Qed.
Print Assumptions C35_run_spec.

(* Unregistering with a token that keeps no registration throws. *)
Theorem C35_unregister_throws : forall U l out s a, ssteps sempty l out s -> placed U iempty l -> clients s a = true ->
  ownerIndex a (regs s) = None -> isteps iempty (l ++ [Client (CUnregister a)]) = Throw.
Proof. exact throw_same. Qed.
Print Assumptions C35_unregister_throws.

(* The handle must be converted before another registration: if the vector is reallocated in
   between the handle dangles, and the conversion writes to an element that lives no more. *)
Theorem C35_late_handle_refuted : exists i1 i2, registerCb iempty (q 10) (al 100 200 []) = Ok i1 /\ registerCb i1 (q 11) (al 100 301 [300]) = Ok i2 /\
  fromHandle (mm i2) 1 (Some 301) <> UB /\ fromHandle (mm i2) 0 (Some 200) = UB.
Proof. eexists. eexists. split; [reflexivity|]. split; [reflexivity|]. split; [discriminate|reflexivity]. Qed.
Print Assumptions C35_late_handle_refuted.
(* A callback must not unregister itself. *)
Theorem C35_self_unregister_refuted : isteps iempty [RegNew 0 (mkCb 10 [CUnregister 0]) (al 100 200 []); Run] = UB.
Proof. vm_compute. reflexivity. Qed.
Print Assumptions C35_self_unregister_refuted.
