(** A whole run on a root that starts with itself. *)
From Verif Require Import Base Utf8 IdSet Results Parser Build ListFacts ResultsFacts ReaderFacts ParseFacts
  FuelFacts TermFacts BuildFacts Lang Sound RunFacts NoPanic StoreFacts RefSpec RefFuel RefParse RefBuild RefRun
  LeftSpec LeftFrame OnceFacts LeftFacts LeftParse.

Section RUN.
Variable P : pheap.
Variable kws : list addr.
Variable K : list (list rune).
Variable input : list rune.
Hypothesis Hids : uniqueIds P.
Hypothesis Hgens : gensOk P.
Hypothesis HK1 : forall w, In w K -> exists kw, In kw kws /\ literal P kw w.
Hypothesis HK2 : forall kw, In kw kws -> exists w, In w K /\ literal P kw w.
Hypothesis Hnk : nokwSequences P.
Hypothesis Hvalid : ~ In runeError input.
Hypothesis Hac : allCharsOk P.
Hypothesis Hkw : kwOk P kws.
Hypothesis Hwf : wfHeap P kws.
Hypothesis Hapart : charsApart P.
Variables (e : addr) (nm : string) (ide : nat) (cte : commitType) (opts : list addr) (gse : list nat).
Hypothesis He : nth_error P e = Some (PChoice nm ide cte opts gse).
Variables recs bases : list addr.
Hypothesis Hopts : opts = recs ++ bases \/ opts = bases ++ recs.
Hypothesis Hsome : recs <> [].
Hypothesis Hbases : forall b, In b bases -> Dt P e b.
Hypothesis Hrecs : forall x, In x recs -> exists n id ct items ranges gs,
  nth_error P x = Some (PSeq n id ct (e :: items) ((1, 1)%Z :: ranges) gs false) /\ hasFlag ct CNoKeyword = false /\
  forall y, In y items -> Dt P e y.
Notation G := (heapGraph P).
Notation lab := (heapLabel nm cte).
Hypothesis Hgrow : growing G K input lab recs bases 0.

Let Hranges := fun a name id commit items ranges gs ac Hs => proj2 (proj1 Hwf a name id commit items ranges gs ac Hs).

Lemma new_empty : empty P ide recs 0 (cResults (newContext input REof)).
Proof.
  assert (H : forall o i t, ~ stored emptyResults o i t) by (intros o i t Hs; unfold stored, matchRow in Hs; simpl in Hs; destruct o; contradiction).
  split; [intros v; apply H|intros x v _; apply H|reflexivity].
Qed.
Lemma new_pcount o i : pcount (cResults (newContext input REof)) o i = 0.
Proof. unfold pcount. simpl. destruct i; auto. Qed.

Theorem left_run : exists r, leftGives G K input lab recs bases 0 r /\
  (forall fuel n toks, parseInput P kws e fuel input REof = Ok (Tree n toks) -> toks = input /\ exists ns, r = Match (List.length input) ns) /\
  (forall ns, r = Match (List.length input) ns -> exists fuel0, forall fuel, fuel0 <= fuel ->
    parseInput P kws e fuel input REof = match ns with n :: _ => Ok (Tree n input) | [] => Panic PanicIndex end).
Proof.
  destruct (gw_begins _ _ _ _ _ _ _ Hgrow) as (rb & Hrb).
  assert (LP : forall T0 m c', parse P kws m e (newContext input REof) = Ok c' ->
    match rb with
    | Match t nb => t = T0 -> tinv P K input c' /\ samePending (newContext input REof) c' /\ cMatchLast c' = true /\
      exists S t' ns', chain P K input nm cte recs bases 0 S t' ns' /\ rounds G K input lab recs 0 T0 (named lab 0 T0 nb) t' ns' /\ cOffset c' = t' /\
        grow P K input e ide recs 0 T0 S t' (cResults c') /\ basesIn P K input bases 0 (cResults c')
    | _ => cMatchLast c' = false /\ forall v, ~ stored (cResults c') 0 ide v
    end).
  { intros T0 m c' Hk.
    eapply (left_parse P kws K input Hids Hgens HK1 HK2 Hnk Hvalid Hranges e nm ide cte opts gse He recs bases Hopts Hsome Hbases Hrecs 0 Hgrow T0 m (newContext input REof) c' rb); auto.
    - apply tinv_new.
    - intros n b ob o _ _ Hc. rewrite new_pcount in Hc. lia.
    - apply new_pcount.
    - intros x _. apply new_pcount.
    - apply new_empty. }
  destruct rb as [| |T0 nb].
  - destruct Hrb. contradiction.
  - exists NoMatch. split; auto. split; [|discriminate].
    intros fuel n toks H. apply run_tree in H. destruct H as (_ & -> & _ & c & ob & c1 & rest & ok & c2 & Hp & _ & Hob & Hst & _).
    rewrite He in Hob. inversion Hob; subst ob. destruct (LP 0 _ _ Hp) as [_ Hn]. destruct (Hn _ Hst).
  - set (f1 := parseFuel P input).
    pose proof (parse_terminates P kws input REof Hac Hkw e f1 (Nat.le_refl _)) as Hterm.
    assert (Hrl : e < List.length P) by (apply nth_error_Some; congruence).
    pose proof (parse_noPanic P kws input REof Hwf Hvalid f1 e Hrl) as Hnp.
    destruct (parse P kws f1 e (newContext input REof)) as [c|why|] eqn:Ep; [|exfalso; eapply Hnp; eauto|contradiction].
    destruct (LP T0 _ _ Ep eq_refl) as (Ht & Hsp & _ & S & t & ns & Hch & Hrs & Ho & Hg & Hbi).
    assert (Hba : based P K input bases 0 T0) by (exists nb; auto).
    exists (Match t ns). split; [exists T0, nb; auto|].
    assert (Htl : t <= List.length input).
    { pose proof (ci_stored _ _ _ _ (proj1 Ht) _ _ _ (g_top _ _ _ _ _ _ _ _ _ _ _ Hg)). pose proof (cinv_len _ _ _ _ (proj1 Ht)). lia. }
    split.
    + intros fuel n toks H. apply run_tree in H. destruct H as (_ & -> & _ & c0 & ob & c1 & rest & ok & c2 & Hp & _ & Hob & Hst & _). split; auto.
      rewrite He in Hob. inversion Hob; subst ob. simpl in Hst.
      assert (Ec : c0 = c).
      { pose proof (parse_more P kws f1 (f1 + fuel) _ _ _ ltac:(lia) Ep ltac:(discriminate)) as X1.
        pose proof (parse_more P kws fuel (f1 + fuel) _ _ _ ltac:(lia) Hp ltac:(discriminate)) as X2. congruence. }
      subst c0. assert (Hle : List.length input <= t).
      { eapply (grow_max P K input); eauto. }
      exists ns. f_equal. lia.
    + intros ns1 E. injection E as Et <-. rewrite Et in *.
      assert (Hst : stored (cResults c) 0 ide (List.length input)) by (eapply g_top; eauto).
      destruct (finalize_full P K input Hvalid e _ He c Ht Hst (g_none _ _ _ _ _ _ _ _ _ _ _ Hg)) as (c1 & F1 & F2 & F3).
      pose proof (post_of P kws input REof _ _ _ _ (cinv_new input REof GT) Ep) as (Hcv & _ & Hpd & _).
      set (R0 := resetPending (cResults c)).
      assert (HR0 : tres P K input R0).
      { apply (tres_ext P K input (cResults c)); try apply Ht; auto; intros; try reflexivity. rewrite Hpd. apply new_pcount. }
      assert (Hp0 : forall o i, pcount R0 o i = 0) by (intros o i; unfold pcount; simpl; destruct i; auto).
      set (cb := setResults (setOffset c1 0) (resetPending (cResults (setOffset c1 0)))).
      assert (Ecb : cResults cb = R0) by (unfold cb; simpl; rewrite F2; auto).
      assert (Hg0 : grow P K input e ide recs 0 T0 S (List.length input) R0) by (eapply grow_ext; [| |exact Hg]; intros; reflexivity).
      assert (Hon : once R0).
      { pose proof (parse_once P kws f1 e _ _ Ep (rs_once _ _ relS_empty)) as X. exact X. }
      destruct (left_build P K input Hids Hgens Hranges e nm ide cte opts gse He recs bases Hopts Hsome Hrecs 0 Hgrow T0
        Hac (proj1 Hapart) (proj2 Hapart) R0 HR0 Hp0 S (List.length input) ns Hba Hch Hg0 Hbi S (List.length input) ns Hch) as (M & HM).
      { exists []. split; auto. intros ? ? ? []. }
      exists (f1 + M). intros fuel Hf. unfold parseInput, parseInputPB.
      assert (Hf1 : f1 <= fuel) by lia. rewrite (parse_more P kws _ _ _ _ _ Hf1 Ep) by discriminate. cbn [bind].
      rewrite (tinv_noErr input Hvalid c Hcv), F1. cbn [bind]. fold cb.
      destruct (HM fuel cb) as (c2 & B1 & B2).
      * lia.
      * intros n. split; rewrite ?Ecb; try (intros; reflexivity). intros b ob o _ _ Hc. rewrite Hp0 in Hc. lia.
      * rewrite Ecb. auto.
      * reflexivity.
      * eapply upTo_top; eauto.
      * rewrite B1. cbn [bind]. destruct ns; auto. rewrite (bt_tokens _ _ _ B2). simpl. rewrite F3. auto.
Qed.
End RUN.
