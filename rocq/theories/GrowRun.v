(** A whole run computes the reference outcome of the root, with definitions that start with themselves. *)
From Verif Require Import Base Utf8 IdSet Results Parser Build ListFacts ResultsFacts ReaderFacts ParseFacts
  FuelFacts TermFacts BuildFacts StoreFacts OnceFacts Lang Sound RunFacts NoPanic RefSpec RefFuel RefParse RefBuild RefRun GrowSpec GrowFuel GrowParse GrowBuild.

Section RUN.
Variable P : pheap.
Variable kws : list addr.
Variable K : list (list rune).
Variable input : list rune.
Hypothesis Hids : uniqueIds P.
Hypothesis Hgens : gensOk P.
Hypothesis HK1 : forall w, In w K -> exists kw, In kw kws /\ literal P kw w.
Hypothesis HK2 : forall kw, In kw kws -> exists w, In w K /\ literal P kw w.
Hypothesis Hnk : nokwSequences P.
Hypothesis Hvalid : ~ In runeError input.
Hypothesis Hac : allCharsOk P.
Hypothesis Hkw : kwOk P kws.
Hypothesis Hwf : wfHeap P kws.
Hypothesis Hapart : charsApart P.
Variable root : addr.
Variable ro : pobj.
Hypothesis Hroot : nth_error P root = Some ro.
Hypothesis Hro : nonChar ro.

Notation Ev := (GivesL Nat.eqb (heapGraph P) K input).
Notation tinv := (GrowParse.tinv P K input).
Notation agrees := (GrowParse.agrees P).
Notation tres := (GrowParse.tres P K input).

Lemma finalize_full c : tinv c -> stored (cResults c) 0 (nodeID ro) (List.length input) -> noMatchHas (cResults c) 0 (nodeID ro) = false ->
  exists c', finalizeParse P c root = Ok (c', None) /\ cResults c' = cResults c /\ cTokens c' = input.
Proof.
  intros [H Ht] A3 En.
  unfold finalizeParse. rewrite Hroot. unfold longestResult. rewrite En.
  assert (Hlen : List.length (cTokens c) <= List.length input) by (apply cinv_len in H; auto).
  assert (Hl : longestMatch (cResults c) 0 (nodeID ro) = Some (List.length input)).
  { apply longestMatch_some. split; auto. intros t' Hs. apply (ci_stored _ _ _ _ H) in Hs. lia. }
  rewrite Hl. pose proof (ci_stored _ _ _ _ H _ _ _ A3) as [_ Hle].
  pose proof (rinv_readOffset_ok _ _ _ (ci_r _ _ _ _ H) Hvalid) as Hro'.
  pose proof (tinv_noErr input Hvalid c H) as Hre.
  destruct (ci_r _ _ _ _ H) as [R1 R2 R3]. rewrite Hre in R3. destruct R3 as (R3 & R4 & R5).
  assert (Hci : cInput c = []).
  { assert (List.length input = List.length (cTokens c ++ cInput c)) by (rewrite <- R3; auto). rewrite app_length in H0. destruct (cInput c); auto. simpl in H0. lia. }
  rewrite Hci, app_nil_r in R3.
  destruct (Nat.ltb_spec (List.length input) (cReadOffset c)); [lia|].
  unfold read. rewrite Hre, Hci, R2. destruct (cEof c) eqn:Ee.
  - rewrite Ee. exists c. auto.
  - cbn [cEof]. eexists. split; [reflexivity|]. simpl. auto.
Qed.
Lemma finalize_ref c ns : tinv c -> agrees root (newContext input REof) c (Match (List.length input) ns) ->
  Ev root 0 (Match (List.length input) ns) ->
  exists c', finalizeParse P c root = Ok (c', None) /\ cResults c' = cResults c /\ cTokens c' = input.
Proof.
  intros Ht (A1 & A2 & A3) He. apply finalize_full; [auto|exact (A3 _ Hroot Hro)|].
  destruct (noMatchHas (cResults c) 0 (nodeID ro)) eqn:En; auto.
  pose proof (GrowParse.ti_3 _ _ _ _ (proj2 Ht) _ _ _ _ Hroot Hro En He). discriminate.
Qed.

Theorem run_accept ns : Ev root 0 (Match (List.length input) ns) ->
  exists fuel0, forall fuel, fuel0 <= fuel ->
    parseInput P kws root fuel input REof = match ns with n :: _ => Ok (Tree n input) | [] => Panic PanicIndex end.
Proof.
  intros He. set (f1 := parseFuel P input).
  pose proof (parse_terminates P kws input REof Hac Hkw root f1 (Nat.le_refl _)) as Hterm.
  assert (Hrl : root < List.length P) by (apply nth_error_Some; congruence).
  pose proof (parse_noPanic P kws input REof Hwf Hvalid f1 root Hrl) as Hnp.
  destruct (parse P kws f1 root (newContext input REof)) as [c|why|] eqn:Ep; [|exfalso; eapply Hnp; eauto|contradiction].
  destruct (GrowParse.root_ref P kws K input Hids Hgens HK1 HK2 Hnk Hvalid Hac _ _ _ _ He Ep) as [Ht Ha].
  destruct (finalize_ref c ns Ht Ha He) as (c1 & F1 & F2 & F3).
  pose proof (post_of P kws input REof _ _ _ _ (cinv_new input REof GT) Ep) as (Hcv & _ & Hpd & _).
  assert (Hpc : forall o i, pcount (cResults c) o i = 0).
  { intros o i. rewrite Hpd. unfold pcount. simpl. destruct i; auto. }
  set (R0 := resetPending (cResults c)).
  assert (HR0 : tres R0).
  { apply (GrowParse.tres_ext P K input (cResults c)); try apply Ht; auto; intros; reflexivity. }
  assert (Hp0 : forall o i, pcount R0 o i = 0) by (intros o i; unfold pcount; simpl; destruct i; auto).
  set (cb := setResults (setOffset c1 0) (resetPending (cResults (setOffset c1 0)))).
  assert (Ecb : cResults cb = R0) by (unfold cb; simpl; rewrite F2; auto).
  destruct He as [_ (n & En)].
  assert (Honce : once R0) by (eapply (parse_once P kws) in Ep; [exact Ep|intros o i t; destruct o; vm_compute; lia]).
  destruct (GrowBuild.build_ref P K input Hids Hgens Hac (proj1 Hapart) (proj2 Hapart)
              (fun a name id commit items ranges gs ac Hs => proj2 (proj1 Hwf a name id commit items ranges gs ac Hs))
              R0 HR0 Hp0 (List.length input) 0 ltac:(lia) n root ro cb (List.length input) ns) as (m & c2 & B1 & B2); auto.
  { apply (ready_new P K input R0 Hp0); auto. }
  { destruct Ha as (_ & _ & Ha). exact (Ha _ Hroot Hro). }
  exists (f1 + m). intros fuel Hf. unfold parseInput, parseInputPB.
  assert (Hf1 : f1 <= fuel) by lia. rewrite (parse_more P kws _ _ _ _ _ Hf1 Ep) by discriminate. cbn [bind].
  rewrite (tinv_noErr input Hvalid c Hcv), F1. cbn [bind]. fold cb.
  rewrite (GrowBuild.build_up P m fuel root cb _ B1) by lia. cbn [bind]. destruct ns; auto.
  rewrite (GrowBuild.bt_tokens _ _ _ B2). simpl. rewrite F3. auto.
Qed.

Theorem run_only r fuel n toks : Ev root 0 r -> parseInput P kws root fuel input REof = Ok (Tree n toks) ->
  exists ns, r = Match (List.length input) ns.
Proof.
  intros He H. apply run_tree in H. destruct H as (_ & -> & _ & c & ob & c1 & rest & ok & c2 & Hp & _ & Hob & Hst & _).
  rewrite Hroot in Hob. inversion Hob; subst ob.
  destruct (GrowParse.root_ref P kws K input Hids Hgens HK1 HK2 Hnk Hvalid Hac _ _ _ _ He Hp) as [Ht Ha].
  destruct (GrowParse.ti_2 _ _ _ _ (proj2 Ht) _ _ _ _ _ Hroot Hro Hst He) as (t' & ns & -> & Hle & _).
  destruct Ha as (_ & _ & Ha). specialize (Ha _ Hroot Hro).
  apply (ci_stored _ _ _ _ (proj1 Ht)) in Ha. pose proof (cinv_len _ _ _ _ (proj1 Ht)).
  exists ns. f_equal. lia.
Qed.
End RUN.
