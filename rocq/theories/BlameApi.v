(** The definition that a ParseError names, for definition calls and for syntax texts. *)
From Verif Require Import Base Utf8 IdSet Results Parser Build ListFacts ResultsFacts ReaderFacts ParseFacts
  FuelFacts TermFacts BuildFacts Lang Sound RunFacts ErrFacts NoPanic Syntax Restrict Grammar WsLang ApiSpec InitWalk InitRun InitOk SyntaxFacts InitCore InitSpec InitFuel Rep Live LangGen Api
  WsNames WsApi ApiFacts GenFacts RefSpec RefFuel RefParse RefBuild RefRun RefTotal RefApi RefCheck RefTail BlameFacts
  Define SelfLang SelfWords ReadSpec ReadLang ReadDefs ReadUse ReadMeans.
Local Open Scope string_scope.

(** the part of a name before the first colon *)
Lemma index_app p r : colonFree p -> String.index 0 ":" (p ++ String ":"%char r) = Some (String.length p).
Proof.
  induction p as [|c p IH]; intros H.
  - simpl. destruct r; reflexivity.
  - unfold colonFree in *. cbn [list_ascii_of_string In] in H. change (String c p ++ String ":"%char r) with (String c (p ++ String ":"%char r)).
    cbn [String.index]. destruct (prefix ":" (String c (p ++ String ":"%char r))) eqn:E.
    + exfalso. cbn [prefix] in E. destruct (Ascii.ascii_dec ":" c) as [<-|]; [|discriminate]. apply H. left; auto.
    + rewrite IH by tauto. reflexivity.
Qed.
Lemma substring_app p r : String.substring 0 (String.length p) (p ++ r) = p.
Proof. induction p as [|c p IH]; simpl; [destruct r; auto|]. f_equal. exact IH. Qed.
Lemma definitionName_cut p r : colonFree p -> p <> "" -> definitionName (p ++ String ":"%char r) = p.
Proof.
  intros H Hp. unfold definitionName. rewrite index_app by auto. destruct p as [|c p]; [congruence|]. cbn [String.length].
  apply (substring_app (String c p)).
Qed.

Section CALLS.
Variable calls : list defcall.
Variable s : syntax.
Hypothesis Hraw : rawAll emptySyntax calls = (s, None).
Let Hrep : rep (flat_map callObjs calls) s := rep_rawAll calls [] emptySyntax s rep_empty Hraw.

Definition fitCall (c : defcall) : Prop :=
  hasFlag (callFlags c) CWhitespace = false /\ hasFlag (callFlags c) CFailPass = false /\
  (hasFlag (callFlags c) CUserDefined = true \/ rootName calls = Some (callName c)).
Definition fits (n : string) : Prop :=
  exists c rest, In c calls /\ fitCall c /\ n = callName c ++ rest /\ (rest = "" \/ exists r, rest = String ":"%char r).

Lemma fits_root n : fits n -> fits (patchName [n; "wsroot"]).
Proof.
  intros (c & rest & Hc & Hf & -> & Hr). exists c, (rest ++ ":wsroot"). split; auto. split; auto. split.
  - unfold patchName. simpl. change (":" ++ "wsroot") with ":wsroot". clear. generalize (callName c) as p.
    assert (A : forall a b c : string, (a ++ b) ++ c = a ++ b ++ c) by (induction a; intros; simpl; [auto|f_equal; auto]). intros p. apply A.
  - right. destruct Hr as [->|(r & ->)]; simpl; eauto.
Qed.

(** the commit type of the root *)
Lemma rootCheck d : checkCommitType d = None -> hasFlag (dCommit d) CRoot = true -> hasFlag (dCommit d) CWhitespace = false /\ hasFlag (dCommit d) CFailPass = false.
Proof.
  unfold checkCommitType, incompatibleCommitTypes. cbn [checkCommitTypeIn find]. intros H Hr. rewrite Hr in H.
  destruct (hasFlag (dCommit d) CWhitespace); [exfalso; repeat match type of H with context [if ?b then _ else _] => destruct b; try discriminate end|].
  split; auto. destruct (hasFlag (dCommit d) CFailPass); auto. exfalso. repeat match type of H with context [if ?b then _ else _] => destruct b; try discriminate end.
Qed.

Lemma heap_told : (forall r d, sRoot s = Some r -> nth_error (sHeap s) r = Some d -> checkCommitType d = None) ->
  Forall (told fits) (sHeap s).
Proof.
  intros Hk. apply Forall_forall. intros d Hd. apply In_nth_error in Hd. destruct Hd as (a & Ha).
  assert (Ho : exists o, nth_error (flat_map callObjs calls) a = Some o).
  { destruct (nth_error (flat_map callObjs calls) a) eqn:E; eauto. apply nth_error_None in E. rewrite <- (rp_len _ _ Hrep) in E. apply nth_error_None in E. congruence. }
  destruct Ho as (o & Ho). destruct (rp_obj _ _ Hrep _ _ Ho) as (d' & Hd' & Nm & Kd & _ & Hch & Hnc). rewrite Ha in Hd'. injection Hd' as <-.
  destruct (isCharK (dKind o)) eqn:Ek.
  - intros X. exfalso. rewrite (Hch eq_refl) in X. destruct (rp_fresh _ _ Hrep o (nth_error_In _ _ Ho)) as (_ & _ & Ec). rewrite (Ec Ek) in X. destruct X; discriminate.
  - destruct (Hnc eq_refl) as [Hs Hr]. pose proof (nth_error_In _ _ Ho) as Hi. apply in_flat_map in Hi. destruct Hi as (c & Hc & Hi).
    destruct (callObjs_main c o Hi Ek) as [Nc Fc].
    assert (Fl : forall k, k <> 3%N -> k <> 7%N -> hasFlag (dCommit d) (2 ^ k)%N = hasFlag (callFlags c) (2 ^ k)%N).
    { intros k H3 H7. rewrite (sameBut_flag [7%N] (dCommit o)); [apply Fc; auto| |auto]. simpl. intros [E|[]]; congruence. }
    intros X. exists c, "". split; auto. split; [|split; [rewrite Nm, Nc; clear; induction (callName c); simpl; [auto|f_equal; auto]|auto]].
    change CWhitespace with (2 ^ 2)%N. change CFailPass with (2 ^ 6)%N. change CUserDefined with (2 ^ 8)%N. unfold fitCall.
    change CWhitespace with (2 ^ 2)%N. change CFailPass with (2 ^ 6)%N. change CUserDefined with (2 ^ 8)%N.
    rewrite <- !Fl by discriminate. change (2 ^ 2)%N with CWhitespace. change (2 ^ 6)%N with CFailPass. change (2 ^ 8)%N with CUserDefined.
    destruct X as [X|X].
    + unfold blamable in X. apply andb_prop in X. destruct X as [X X3]. apply andb_prop in X. destruct X as [X1 X2]. apply negb_true_iff in X2, X3. auto.
    + pose proof (proj1 Hr X) as Hroot. destruct (rootCheck d (Hk _ _ Hroot Ha) X) as [R1 R2]. split; auto. split; auto. right.
      rewrite (rp_root _ _ Hrep) in Hroot. destruct (root_name calls a Hroot) as (o' & Ho' & Rn & _). rewrite Ho in Ho'. injection Ho' as <-. congruence.
Qed.

Theorem raw_blame input e s' off line col def : (forall c, In c calls -> callName c <> "") -> (forall c, In c calls -> fitCall c -> colonFree (callName c)) ->
  Parses s input e s' (Failed (ErrParse off line col def)) -> exists c, In c calls /\ callName c = def /\ fitCall c.
Proof.
  intros Hne Hcf HP. apply Parses_run in HP. destruct HP as (fuel & [err|] & HI & H).
  { injection H as <-. apply Init_err in HI. contradiction. }
  destruct H as (root & Er & H).
  assert (Hk : forall r d, sRoot s = Some r -> nth_error (sHeap s) r = Some d -> checkCommitType d = None).
  { intros r d Hr Hd. unfold Init in HI. rewrite (rp_failed _ _ Hrep), (rp_init _ _ Hrep), Hr, Hd in HI. destruct (sRegistry s); [|discriminate].
    destruct (checkCommitType d); [discriminate|auto]. }
  assert (Hrt : forall r d, sRoot s = Some r -> nth_error (sHeap s) r = Some d -> hasFlag (dCommit d) CRoot = true).
  { intros r d Hr Hd. pose proof Hr as Hr'. rewrite (rp_root _ _ Hrep) in Hr'. destruct (root_name calls r Hr') as (o & Ho & _ & Ek).
    destruct (rp_obj _ _ Hrep _ _ Ho) as (d' & Hd' & _ & _ & _ & _ & Hnc). rewrite Hd in Hd'. injection Hd' as <-. apply (Hnc Ek). auto. }
  destruct (init_told fits fits_root fuel s s' (heap_told Hk) Hrt (rp_init _ _ Hrep) HI) as (Ht & root' & rd & Er' & Hrd & Hrf).
  rewrite Er in Er'. injection Er' as <-.
  destruct (run_blame _ _ _ _ _ _ _ _ _ _ H) as (a & o & Ho & -> & Hb).
  unfold parsers in Ho. rewrite nth_error_map in Ho. destruct (nth_error (sHeap s') a) as [d|] eqn:Ed; [|discriminate]. injection Ho as <-.
  rewrite Forall_forall in Ht. pose proof (Ht d (nth_error_In _ _ Ed)) as Td.
  assert (F : fits (dName d)).
  { apply Td. destruct Hb as [->|Hb].
    - right. congruence.
    - left. unfold toParser in Hb. destruct (dKind d); try exact Hb. discriminate. }
  destruct F as (c & rest & Hc & Hf & En & Hr). exists c. split; auto. split; auto.
  replace (nodeName (toParser d)) with (dName d) by (unfold toParser; destruct (dKind d); reflexivity). rewrite En. symmetry.
  destruct Hr as [->|(r & ->)].
  - replace (callName c ++ "") with (callName c) by (clear; induction (callName c); simpl; [auto|f_equal; auto]). apply definitionName_free. auto.
  - apply definitionName_cut; auto.
Qed.
End CALLS.

(** ** definitions made with the methods *)
Theorem calls_blame calls s input e s' off line col def : Defined calls s -> (forall c, In c calls -> callName c <> "") ->
  Parses s input e s' (Failed (ErrParse off line col def)) ->
  exists c, In c calls /\ callName c = def /\ hasFlag (callFlags c) CWhitespace = false /\ hasFlag (callFlags c) CFailPass = false.
Proof.
  intros Hd Hne HP. destruct (defineAll_raw _ _ _ Hd) as [Hraw Hv].
  destruct (raw_blame _ _ Hraw input e s' off line col def) as (c & Hc & En & H1 & H2 & _); auto.
  - intros c Hc. apply in_map_iff in Hc. destruct Hc as (c0 & <- & Hc). rewrite userDefined_name. auto.
  - intros c Hc _. apply in_map_iff in Hc. destruct Hc as (c0 & <- & Hc). rewrite userDefined_name. apply valid_colonFree. auto.
  - apply in_map_iff in Hc. destruct Hc as (c0 & <- & Hc). rewrite userDefined_name in En. change CWhitespace with (2 ^ 2)%N in *. change CFailPass with (2 ^ 6)%N in *.
    rewrite userDefined_flags in H1, H2 by discriminate. eauto.
Qed.

(** ** definitions of a syntax text *)
Lemma innerFlags_ud ct : hasFlag (innerFlags ct) CUserDefined = false /\ hasFlag (innerFlags ct) CRoot = false.
Proof.
  change CUserDefined with (2 ^ 8)%N. change CRoot with (2 ^ 7)%N. rewrite !hasFlag_bit. unfold innerFlags. rewrite !N.lor_spec, !N.land_spec.
  change CNoWhitespace with (2 ^ 3)%N. rewrite !N.pow2_bits_false by discriminate. rewrite !andb_false_r. auto.
Qed.
Definition colonIn (n : string) : Prop := In ":"%char (list_ascii_of_string n).
Lemma childName_colon n i : colonIn (childName n i).
Proof. unfold childName, colonIn. induction n as [|c n IH]; simpl; auto. Qed.
Lemma colonIn_dec n : colonIn n \/ colonFree n.
Proof. unfold colonFree, colonIn. destruct (in_dec Ascii.ascii_dec ":"%char (list_ascii_of_string n)); auto. Qed.

(** one of the calls of a definition is the definition itself, the others are of names with a colon *)
Lemma callsOf_cases e : forall name ct c, In c (callsOf name ct e) ->
  (callName c = name /\ callFlags c = ct) \/ (colonIn (callName c) /\ hasFlag (callFlags c) CUserDefined = false /\ hasFlag (callFlags c) CRoot = false).
Proof.
  induction e as [|cn cs rs|cs|n|items IH|options IH] using expr_rec'; intros name ct d Hd; rewrite callsOf_eq in Hd;
    try (destruct Hd as [<-|[]]; left; split; reflexivity).
  - apply in_app_or in Hd. destruct Hd as [Hd|[<-|[]]]; [|left; split; reflexivity]. revert Hd. generalize 0.
    induction IH as [|[x b] l Hx _ IHl]; intros i Hd; [destruct Hd|]. cbn [innerItems fst] in *. apply in_app_or in Hd. destruct Hd as [Hd|Hd]; [|eauto].
    destruct (isSymbol x); [destruct Hd|]. destruct (Hx _ _ _ Hd) as [[-> ->]|H]; auto. right. split; [apply childName_colon|apply innerFlags_ud].
  - apply in_app_or in Hd. destruct Hd as [Hd|[<-|[]]]; [|left; split; reflexivity]. revert Hd. generalize 0.
    induction IH as [|x l Hx _ IHl]; intros i Hd; [destruct Hd|]. cbn [innerOptions] in *. apply in_app_or in Hd. destruct Hd as [Hd|Hd]; [|eauto].
    destruct (isSymbol x); [destruct Hd|]. destruct (Hx _ _ _ Hd) as [[-> ->]|H]; auto. right. split; [apply childName_colon|apply innerFlags_ud].
Qed.

Lemma rev_cases {A} (l : list A) : l = [] \/ exists k x, l = (k ++ [x])%list.
Proof. induction l as [|y l IH] using rev_ind; eauto. Qed.
Theorem names_nonempty input t defs : ~ In runeError input -> isSyntax input t -> defsOf input t = Some defs -> forall d, In d defs -> tdName d <> "".
Proof.
  intros Hv Hs Hd d Hin. destruct (defsOf_in _ _ _ _ Hd Hin) as (n & Hn & E). destruct (self_fine _ _ Hv Hs) as [Ht Hf].
  assert (Nn : nName n = "definition").
  { pose proof (syntax_parts _ _ Hf Ht) as X. rewrite Forall_forall in X. auto. }
  destruct (def_ok input n (fine_parts _ _ _ Hf Hn) Nn) as [(x & Hx & Nx & Ex) _]. rewrite (Ex _ E). unfold nodeText.
  pose proof (self_words input t Hv Hs x (inTree_trans _ _ _ (parts_in _ _ Hx) (parts_in _ _ Hn))) as W. rewrite Nx in W. apply symbol_text in W. destruct W as [W _].
  intros X. apply W. destruct (nodeRunes input x) as [|r l] eqn:El; auto. exfalso. unfold runesString, encodeUtf8 in X. cbn [map List.concat] in X.
  assert (Y : encodeRune r <> []) by (unfold encodeRune; cbv zeta; repeat match goal with |- context [Z.ltb ?a ?b] => destruct (Z.ltb a b) end; discriminate).
  destruct (encodeRune r) as [|b bs]; [congruence|]. discriminate.
Qed.
Lemma callsOf_last e name ct : exists l c, callsOf name ct e = (l ++ [c])%list /\ callName c = name.
Proof. rewrite callsOf_eq. destruct e; try (eexists [], _; split; reflexivity); (eexists _, _; split; [reflexivity|reflexivity]). Qed.
Lemma text_root defs n : (forall d, In d defs -> colonFree (tdName d)) -> rootName (flat_map textCalls defs) = Some n -> colonFree n.
Proof.
  intros Hf H. unfold rootName in H. destruct (find isRoot (flat_map textCalls defs)) as [c|] eqn:E.
  - injection H as <-. apply find_some in E. destruct E as [E1 E2]. apply in_flat_map in E1. destruct E1 as (d & Hd & Hc).
    destruct (callsOf_cases _ _ _ _ Hc) as [[-> _]|(_ & _ & X)]; auto. unfold isRoot in E2. congruence.
  - clear E. destruct (rev_cases defs) as [->|(l & d & ->)]; [discriminate|]. rewrite flat_map_app in H. simpl in H. rewrite app_nil_r in H.
    destruct (callsOf_last (tdExpr d) (tdName d) (N.lor (tdFlags d) CUserDefined)) as (k & c & E & En). unfold textCalls in H at 2. rewrite E, app_assoc, map_app in H. simpl in H.
    rewrite last_last in H. injection H as <-. rewrite En. apply Hf. apply in_or_app. right. left. auto.
Qed.
Theorem text_blame text defs s input e s' off line col def : spells text defs -> ReadLang.Reads emptySyntax text REof s None ->
  Parses s input e s' (Failed (ErrParse off line col def)) ->
  exists d, In d defs /\ tdName d = def /\ hasFlag (tdFlags d) CWhitespace = false /\ hasFlag (tdFlags d) CFailPass = false.
Proof.
  intros Hs HR HP. apply (spells_means emptySyntax text defs eq_refl Hs) in HR. destruct Hs as (Hv & t & Hs & Hd).
  pose proof (names_colonFree text t defs Hv Hs Hd) as Hcf. pose proof (names_nonempty text t defs Hv Hs Hd) as Hne.
  assert (Hin : forall c, In c (flat_map textCalls defs) -> fitCall (flat_map textCalls defs) c -> exists d, In d defs /\ callName c = tdName d /\ callFlags c = N.lor (tdFlags d) CUserDefined).
  { intros c Hc (_ & _ & Hf). pose proof Hc as Hc'. apply in_flat_map in Hc. destruct Hc as (d & Hin & Hc).
    destruct (callsOf_cases _ _ _ _ Hc) as [[X1 X2]|(X1 & X2 & _)]; [eauto|]. exfalso. destruct Hf as [Hf|Hf]; [congruence|].
    apply (text_root defs (callName c) Hcf Hf). exact X1. }
  destruct (raw_blame _ _ HR input e s' off line col def) as (c & Hc & En & Hf); auto.
  - intros c Hc E. apply in_flat_map in Hc. destruct Hc as (d & Hin' & Hc). destruct (callsOf_cases _ _ _ _ Hc) as [[X1 _]|(X1 & _)].
    + apply (Hne d Hin'). congruence.
    + rewrite E in X1. destruct X1.
  - intros c Hc Hf. destruct (Hin c Hc Hf) as (d & Hd' & -> & _). auto.
  - destruct (Hin c Hc Hf) as (d & Hd' & E1 & E2). exists d. split; auto. split; [congruence|]. destruct Hf as (F1 & F2 & _). rewrite E2 in F1, F2.
    change CWhitespace with (2 ^ 2)%N in *. change CFailPass with (2 ^ 6)%N in *. rewrite userDefined_flag in F1, F2 by discriminate. auto.
Qed.
Theorem text_after text defs s s' name input t ns off line col def : 
  let calls := flat_map textCalls defs in
  spells text defs -> ReadLang.Reads emptySyntax text REof s None -> textReady defs ->
  refersToDefs calls -> literalKeywords calls -> nokwOnSequences calls ->
  rootName calls = Some name -> ~ In runeError input -> Means calls input name 0 (Match t ns) ->
  Parses s input REof s' (Failed (ErrParse off line col def)) -> (t <= off)%nat.
Proof. intros calls Hs HR Hw. apply u_error_after. eapply spells_usable; eauto. Qed.
