(** Facts about a whole run of parseInput. *)
From Verif Require Import Base Utf8 IdSet Results Parser Build ListFacts ResultsFacts ReaderFacts ParseFacts
  FuelFacts TermFacts BuildFacts Lang Sound.

Definition GT : nat -> nat -> nat -> Prop := fun _ _ _ => True.

Lemma parse_cinv P kws input e n p c : parse P kws n p (newContext input e) = Ok c -> cinv input e GT c.
Proof.
  intros H. eapply (parse_spec P kws input e GT) in H; [apply H| | |apply cinv_new].
  - intros. split; [exact I|]. intros; exact I.
  - intros. exact I.
Qed.

Lemma parse_more P kws n m p c r : n <= m -> parse P kws n p c = r -> r <> NoFuel -> parse P kws m p c = r.
Proof. intros H <- Hr. apply (parse_mono P kws n m H p c); auto. Qed.

Lemma read_eof input e c c' ok : rinv input e c -> cReadErr c = None -> read c = (c', ok) -> cEof c' = true ->
  e = REof /\ cTokens c' = input /\ cTokens c = input /\ cResults c' = cResults c /\ cReadErr c' = None.
Proof.
  intros [A1 A2 A3] Hre. rewrite Hre in A3. destruct A3 as (A3 & A4 & A5). unfold read. rewrite Hre.
  destruct (cEof c) eqn:Ee.
  - intros H He. inversion H; subst. destruct (A5 eq_refl) as [-> ->]. rewrite app_nil_r in *. auto.
  - destruct (cInput c) as [|t rest] eqn:Ei.
    + rewrite app_nil_r in A3. rewrite A2. destruct e.
      * intros H _. inversion H; subst. auto.
      * intros H He. inversion H; subst. simpl in He. congruence.
    + destruct (Z.eqb t runeError); intros H He; inversion H; subst; simpl in He; congruence.
Qed.

(** what finalizeParse accepts *)
Lemma finalize_ok P input e c root c' : cinv input e GT c -> cReadErr c = None ->
  finalizeParse P c root = Ok (c', None) ->
  exists ob, nth_error P root = Some ob /\ e = REof /\ cTokens c' = input /\ cResults c' = cResults c /\
    stored (cResults c) 0 (nodeID ob) (List.length input) /\
    (forall t, stored (cResults c) 0 (nodeID ob) t -> t <= List.length input) /\
    noMatchHas (cResults c) 0 (nodeID ob) = false /\ ~ In runeError input.
Proof.
  intros Hc Hre H. unfold finalizeParse in H. destruct (nth_error P root) as [ob|] eqn:Hp; [|discriminate].
  unfold longestResult in H. destruct (noMatchHas _ _ _) eqn:Enm; [binv H; discriminate|].
  destruct (longestMatch _ _ _) as [to|] eqn:El; [|binv H; discriminate].
  apply longestMatch_some in El. destruct El as [El1 El2].
  destruct (to <? cReadOffset c) eqn:Elt; [binv H; discriminate|]. apply Nat.ltb_ge in Elt.
  pose proof (read_eof input e c) as HR.
  destruct (read c) as [c1 ok]. 
  destruct (cEof c1) eqn:Eeof; [|destruct (cReadErr c1); [discriminate|binv H; discriminate]].
  inversion H; subst c1; clear H.
  destruct (HR c' ok (ci_r _ _ _ _ Hc) Hre eq_refl Eeof) as (R1 & R2 & R3 & R4 & R5).
  pose proof (ci_stored _ _ _ _ Hc _ _ _ El1) as [_ Hle].
  pose proof (rinv_readOffset _ _ _ (ci_r _ _ _ _ Hc)) as Hro.
  assert (to = List.length input) by (rewrite R3 in Hle, Hro; lia). subst to.
  exists ob. split; auto. split; auto. split; auto. split; auto. split; auto. split; auto. split; auto.  rewrite <- R3. apply (ri_tokens _ _ _ (ci_r _ _ _ _ Hc)).
Qed.

Lemma finalize_noFuel P c root : finalizeParse P c root <> NoFuel.
Proof.
  unfold finalizeParse.
  destruct (nth_error P root) as [o|]; [|discriminate].
  assert (HE : forall c p, bind (parseError P c p) (fun e => Ok (c, Some e)) <> NoFuel).
  { intros c0 p. apply bind_noFuel; [|discriminate]. unfold parseError. destruct (nth_error P p); [|discriminate].
    apply bind_noFuel; [|discriminate]. unfold findLine. destruct (_ || _)%bool; discriminate. }
  destruct (longestResult _ _ _); try apply HE.
  destruct (_ <? _); try apply HE. destruct (read c) as [c1 ok]. destruct (cEof c1); [discriminate|].
  destruct (cReadErr c1); [discriminate|]. apply HE.
Qed.

(** what a returned tree tells about the run *)
Theorem run_tree P B kws root rootB fuel input e n toks :
  parseInputPB P B kws root rootB fuel input e = Ok (Tree n toks) ->
  e = REof /\ toks = input /\ ~ In runeError input /\
  exists c ob c1 rest ok c2,
    parse P kws fuel root (newContext input e) = Ok c /\ cReadErr c = None /\
    nth_error P root = Some ob /\
    stored (cResults c) 0 (nodeID ob) (List.length input) /\
    cOffset c1 = 0 /\ cTokens c1 = input /\ cResults c1 = resetPending (cResults c) /\
    build B fuel rootB c1 = Ok (n :: rest, ok, c2) /\ binv (List.length input) c1.
Proof.
  intros H. unfold parseInputPB in H. binv H. destruct (cReadErr x) eqn:Ere; [discriminate|].
  binv H. destruct x0 as [c1 [err|]]; [discriminate|].
  pose proof (parse_cinv _ _ _ _ _ _ _ E) as Hc.
  destruct (finalize_ok _ _ _ _ _ _ Hc Ere E0) as (ob & F1 & F2 & F3 & F4 & F5 & F6 & F7 & F8).
  binv H. destruct x0 as [[ns ok] c2]. destruct ns as [|n0 rest]; [discriminate|].
  inversion H; subst n0 toks; clear H.
  set (cb := setResults _ _) in *.
  assert (Hb : binv (List.length input) cb).
  { split; simpl; [lia|]. rewrite F4. intros o i t Hs. apply (ci_stored _ _ _ _ Hc o i t) in Hs.
    pose proof (cinv_len _ _ _ _ Hc). lia. }
  pose proof E1 as E1'. apply (build_spec B (List.length input) (cResults cb)) in E1; auto.
  destruct E1 as [E1 _]. simpl in E1. pose proof (bs_tokens _ _ _ E1) as Ht. simpl in Ht.
  split; auto. split; [congruence|]. split; auto.
  exists x, ob, cb, rest, ok, c2. repeat (split; auto); simpl; congruence.
Qed.

(** termination of the whole run *)
Theorem parseInput_terminates P B kws root rootB input e : allCharsOk P -> kwOk P kws ->
  exists fuel0, forall fuel, fuel0 <= fuel -> parseInputPB P B kws root rootB fuel input e <> NoFuel.
Proof.
  intros Hac Hkw. set (f1 := parseFuel P input).
  pose proof (parse_terminates P kws input e Hac Hkw root f1 (Nat.le_refl _)) as Ht.
  destruct (parse P kws f1 root (newContext input e)) as [c|why|] eqn:Ep; [| |contradiction].
  2:{ exists f1. intros fuel Hf. unfold parseInputPB.
      rewrite (parse_more P kws _ _ _ _ _ Hf Ep) by discriminate. discriminate. }
  pose proof (parse_cinv _ _ _ _ _ _ _ Ep) as Hc.
  destruct (finalizeParse P c root) as [[c1 [err|]]|why|] eqn:Ef.
  - exists f1. intros fuel Hf. unfold parseInputPB.
    rewrite (parse_more P kws _ _ _ _ _ Hf Ep) by discriminate. cbn [bind].
    destruct (cReadErr c); [discriminate|]. rewrite Ef. discriminate.
  - destruct (cReadErr c) eqn:Ere.
    { exists f1. intros fuel Hf. unfold parseInputPB.
      rewrite (parse_more P kws _ _ _ _ _ Hf Ep) by discriminate. cbn [bind]. rewrite Ere. discriminate. }
    destruct (finalize_ok _ _ _ _ _ _ Hc Ere Ef) as (ob & F1 & F2 & F3 & F4 & F5 & F6 & F7 & F8).
    set (cb := setResults (setOffset c1 0) (resetPending (cResults (setOffset c1 0)))).
    assert (Hb : binv (List.length input) cb).
    { split; simpl; [lia|]. rewrite F4. intros o i t Hs. apply (ci_stored _ _ _ _ Hc o i t) in Hs.
      pose proof (cinv_len _ _ _ _ Hc). lia. }
    set (f2 := bmeas B (List.length input) cb + maxItems B + List.length input + 3).
    exists (f1 + f2). intros fuel Hf. unfold parseInputPB.
    assert (Hf1 : f1 <= fuel) by lia.
    rewrite (parse_more P kws _ _ _ _ _ Hf1 Ep) by discriminate. cbn [bind].
    rewrite Ere, Ef. cbn [bind]. fold cb.
    apply bind_noFuel.
    + apply (build_noFuel B (List.length input) (cResults cb) (bmeas B (List.length input) cb)); auto. lia.
    + intros [[[|] ok] c2] _; discriminate.
  - exists f1. intros fuel Hf. unfold parseInputPB.
    rewrite (parse_more P kws _ _ _ _ _ Hf Ep) by discriminate. cbn [bind].
    destruct (cReadErr c); [discriminate|]. rewrite Ef. discriminate.
  - exfalso. now apply finalize_noFuel in Ef.
Qed.
