(** Properties of the memo store: C28 and C29. *)
From Verif Require Import Base Cap CapFacts StoreSpec StoreFacts.

(** C28: whatever the operations, the ids and the capacities chosen by the runtime, an id is reported
    exactly when the last operation on it was a set *)
Theorem C28_exact_set h s : idRun h s -> forall id, cHas s id = lastOp id h false.
Proof. intros H id. destruct (idRun_refines h s H) as (l & Hl & HH). rewrite (sim_has _ _ _ Hl). apply HH. Qed.
(** the 64-bit words of the set never overflow *)
Theorem C28_words h s : idRun h s -> Forall (fun w => (w < 2 ^ 64)%N) (elems s).
Proof.
  intros H. destruct (idRun_refines h s H) as (l & Hl & _). rewrite (isSl_elems _ _ _ Hl). exact (idRun_words h s H l Hl).
Qed.
(** the set operations can always be carried out *)
Theorem C28_total h s id : idRun h s -> exists s', idRun (h ++ [(id, true)]) s'.
Proof.
  intros H. destruct (idRun_refines h s H) as (l & Hl & _). destruct (ensured_exists 0%N s l (id / 64) Hl) as [s' Hs].
  eexists. eapply run_set; [exact H|]. constructor. exact Hs.
Qed.

(** ids 3 and 130 are set: the slice grows from nothing to one word with room for four, then the
    third word becomes visible by reslicing; 3 is unset again *)
Example C28_nontrivial : exists s,
  idRun [(3, true); (130, true); (3, false)] s /\ capOf s = 4 /\ slLen s = 3 /\
  cHas s 130 = true /\ cHas s 3 = false /\ cHas s 64 = false.
Proof.
  eexists. split.
  - eapply (run_unset [(3, true); (130, true)] _ 3). eapply (run_set [(3, true)] _ 130).
    + eapply (run_set [] _ 3); [constructor|]. constructor. apply en_grow; [cbn; lia|cbn; lia|].
      eapply at_step; [|constructor]. apply (app_grows _ _ _ 4); cbn; lia.
    + constructor. apply en_cap; cbn; lia.
  - vm_compute. auto 10.
Qed.

(** C29: after any history of calls, with any capacities, the table answers like the sets *)
Theorem C29_map h c : memoRun h c -> answers c (storeRun h).
Proof. exact (run_answers h c). Qed.
(** so two tables with the same history and different capacities give the same answers *)
Theorem C29_capacity h c1 c2 : memoRun h c1 -> memoRun h c2 ->
  (forall o id t, cHasMatchTo c1 o id t = cHasMatchTo c2 o id t) /\
  (forall o id t, cLongestResult c1 o id = (Z.of_nat t, true, true) <-> cLongestResult c2 o id = (Z.of_nat t, true, true)) /\
  (forall o id, cLongestResult c1 o id = (0%Z, false, true) <-> cLongestResult c2 o id = (0%Z, false, true)) /\
  (forall o id, cPendingAt c1 o id = cPendingAt c2 o id).
Proof.
  intros H1 H2. destruct (run_answers h c1 H1) as [A1 _ _ F1 R1 _ P1]. destruct (run_answers h c2 H2) as [A2 _ _ F2 R2 _ P2].
  assert (B : forall a b : bool, (a = true <-> b = true) -> a = b)
    by (intros a b Hab; destruct a, b; try reflexivity; destruct Hab as [Ha Hb]; try (discriminate (Ha eq_refl)); discriminate (Hb eq_refl)).
  split; [|split; [|split]]; intros.
  - apply B. now rewrite A1, A2.
  - now rewrite R1, R2.
  - now rewrite F1, F2.
  - apply B. now rewrite P1, P2.
Qed.
(** every call can be carried out; the two that index the table without growing it, when they drop
    or unmark something present *)
Theorem C29_total h c op : memoRun h c ->
  match op with OpDrop o id t => sMatch (storeRun h) o id t | OpUnmark o id => 0 < sMarks (storeRun h) o id | _ => True end ->
  exists c', memoCall op c c'.
Proof. exact (run_total h c op). Qed.

(** a history with a match, a shorter one, a drop, a failure and a mark is possible *)
Example C29_nontrivial : exists c,
  memoRun [OpMatch 2 5 4; OpMatch 2 5 3; OpDrop 2 5 4; OpNoMatch 2 7; OpMark 2 9] c /\
  cLongestResult c 2 5 = (3%Z, true, true) /\ cLongestResult c 2 7 = (0%Z, false, true) /\ cPendingAt c 2 9 = true.
Proof.
  assert (H0 : memoRun [] cEmpty) by constructor.
  destruct (run_total _ _ (OpMatch 2 5 4) H0 I) as [c1 H1]. pose proof (mr_call _ _ _ _ H0 H1) as R1.
  destruct (run_total _ _ (OpMatch 2 5 3) R1 I) as [c2 H2]. pose proof (mr_call _ _ _ _ R1 H2) as R2.
  destruct (run_total _ _ (OpDrop 2 5 4) R2) as [c3 H3]; [simpl; auto|]. pose proof (mr_call _ _ _ _ R2 H3) as R3.
  destruct (run_total _ _ (OpNoMatch 2 7) R3 I) as [c4 H4]. pose proof (mr_call _ _ _ _ R3 H4) as R4.
  destruct (run_total _ _ (OpMark 2 9) R4 I) as [c5 H5]. pose proof (mr_call _ _ _ _ R4 H5) as R5.
  exists c5. split; [exact R5|]. destruct (run_answers _ _ R5) as [_ _ _ F R _ P].
  split; [|split].
  - apply (R 2 5 3). simpl. split; [|split].
    + intros [H|(_ & H & _)]; [contradiction|discriminate].
    + split; [auto|]. intros (_ & _ & H). discriminate.
    + intros t' [[[[]|(_ & _ & ->)]|(_ & _ & ->)] H]; auto. exfalso. apply H. auto.
  - apply F. simpl. right. split; auto. split; auto. intros t [[[[]|(_ & H & _)]|(_ & H & _)] _]; discriminate.
  - apply P. simpl. auto.
Qed.

Print Assumptions C28_exact_set.
Print Assumptions C28_words.
Print Assumptions C28_total.
Print Assumptions C29_map.
Print Assumptions C29_capacity.
Print Assumptions C29_total.
