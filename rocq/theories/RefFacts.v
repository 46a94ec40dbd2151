(** Init and undefined references (C18), in the vocabulary of DefSpec.v. *)
From Verif Require Import TextSpec Base Utf8 Escape IdSet Results Parser Build Syntax Define ListFacts Lang Sound Grammar WsLang ApiSpec DefSpec InitWalk InitRun InitOk SyntaxFacts InitCore InitSpec InitFuel Rep ParseFacts Restrict Live LangGen Api Utf8Facts WsApi ApiFacts DefineFacts.

Lemma sameRule_refs a b : sameRule a b -> ruleRefs a = ruleRefs b.
Proof. intros H. destruct H; simpl; auto. induction H0 as [|i j l l' [E _] H0 IH]; simpl; auto. f_equal; auto. Qed.
Lemma objRule_refs d : ruleRefs (objRule d) = refs (dKind d).
Proof. unfold objRule. destruct (dKind d); auto. Qed.

Section CORE.
Variables (m : list (string * addr)) (h0 : dheap) (R : string -> option rule) (l : list addr).
Hypothesis Hrule : forall n, sameOpt (heapRule m h0 n) (R n).
Hypothesis Hnames : forall n a, lookup m n = Some a -> exists d, nth_error h0 a = Some d /\ dName d = n.
Hypothesis Hl : forall a, In a l -> exists d, nth_error h0 a = Some d /\ lookup m (dName d) = Some a.
Inductive needs : string -> Prop :=
| needs_start a d : In a l -> nth_error h0 a = Some d -> needs (dName d)
| needs_ref n r x : needs n -> R n = Some r -> In x (ruleRefs r) -> needs x.
Lemma rule_at n a d : lookup m n = Some a -> nth_error h0 a = Some d -> exists r, R n = Some r /\ ruleRefs r = refs (dKind d).
Proof.
  intros H1 H2. specialize (Hrule n). unfold heapRule in Hrule. rewrite H1, H2 in Hrule. simpl in Hrule. destruct (R n) as [r|]; [|destruct Hrule].
  exists r. split; auto. rewrite <- objRule_refs. symmetry. apply sameRule_refs. auto.
Qed.
Lemma reach_needs a b : reach m h0 a b -> forall d, nth_error h0 a = Some d -> lookup m (dName d) = Some a -> needs (dName d) ->
  exists d', nth_error h0 b = Some d' /\ lookup m (dName d') = Some b /\ needs (dName d').
Proof.
  induction 1 as [a|a d0 r x b Hd0 Hr Hx H IH]; intros d Hd Hn N; [eauto|].
  rewrite Hd0 in Hd. inversion Hd; subst d0. destruct (Hnames _ _ Hx) as (dx & Hdx & E). apply (IH dx); auto; [congruence|].
  rewrite E. destruct (rule_at _ _ _ Hn Hd0) as (ru & H1 & H2). eapply needs_ref; eauto. rewrite H2. auto.
Qed.
Lemma R_none n : lookup m n = None -> R n = None.
Proof. intros H. specialize (Hrule n). unfold heapRule in Hrule. rewrite H in Hrule. destruct (R n); auto. destruct Hrule. Qed.
Lemma undefined_needs a err : In a l -> undefinedRef m h0 a err -> exists n, err = ErrParserNotFound n /\ needs n /\ R n = None.
Proof.
  intros Ha (b & d & r & Hr & Hd & Hin & Hx & ->). destruct (Hl a Ha) as (da & Hda & Hla).
  destruct (reach_needs _ _ Hr da Hda Hla) as (d' & Hd' & Hn & N); [eapply needs_start; eauto|]. rewrite Hd in Hd'. inversion Hd'; subst d'.
  exists r. split; auto. split; [|apply R_none; auto]. destruct (rule_at _ _ _ Hn Hd) as (ru & H1 & H2). eapply needs_ref; eauto. rewrite H2. auto.
Qed.
Lemma defined_needs h' : (forall b, finalAt m h0 h' b) -> (forall a, In a l -> inited h' a) -> forall n, needs n -> exists a, lookup m n = Some a /\ inited h' a.
Proof.
  intros F A n N. induction N as [a d Ha Hd|n r x N (a & Hla & Hi) Hr Hx].
  - destruct (Hl a Ha) as (da & Hda & Hla). rewrite Hd in Hda. inversion Hda; subst. eauto.
  - destruct (Hnames _ _ Hla) as (d & Hd & E). destruct (rule_at _ _ _ Hla Hd) as (ru & H1 & H2). rewrite H1 in Hr. inversion Hr; subst ru.
    rewrite H2 in Hx. pose proof (F a) as Fa. unfold finalAt in Fa. rewrite Hd in Fa. destruct Fa as (d' & Hd' & Fa). destruct Hi as (d'' & Hd'' & Hi). rewrite Hd' in Hd''. inversion Hd''; subst d''.
    destruct (dKind d) as [cn ch rs|oi items ranges i1 i2 i3 i4 i5|options o1 o2 o3 o4] eqn:Ek; simpl in Hx; [destruct Hx| |].
    + destruct Fa as (gs & [[Fa _]|(_ & F1 & F2 & _)]); [congruence|]. destruct (lookup m x) as [y|] eqn:Ey; [|exfalso; exact (F1 x Hx Ey)].
      exists y. split; auto. apply F2. apply lookups_In. eauto.
    + destruct Fa as (gs & [[Fa _]|(_ & F1 & F2 & _)]); [congruence|]. destruct (lookup m x) as [y|] eqn:Ey; [|exfalso; exact (F1 x Hx Ey)].
      exists y. split; auto. apply F2. apply lookups_In. eauto.
Qed.
End CORE.

Definition rootRefused (calls : list defcall) (err : gerr) : Prop :=
  match err with
  | ErrIncompatible n a b => b = CRoot /\ exists d, In d calls /\ callName d = n /\ rootName calls = Some n /\ isRoot d = false /\
      In (a, b) incompatiblePairs /\ hasFlag (callFlags d) a = true
  | _ => False
  end.
Lemma root_refused calls s root rd e : rep (flat_map callObjs calls) s -> sRoot s = Some root -> nth_error (sHeap s) root = Some rd ->
  checkCommitType rd = Some e -> rootRefused calls e.
Proof.
  intros Hr Er Ed Ecc. set (objs := flat_map callObjs calls) in *. pose proof Hr as [R1 R2 R3 R4 R5 R6 R7 R8 R9 R10 R11]. rewrite Er in R9.
  destruct (root_name calls root) as (ro & Hro & Hn & Hc); [fold objs; rewrite <- R9; auto|]. fold objs in Hro.
  destruct (R4 root ro Hro) as (rd' & Ed' & N1 & N2 & _ & _ & N5). rewrite Ed in Ed'. inversion Ed'; subst rd'. destruct (N5 Hc) as [S1 S2]. clear N5.
  unfold checkCommitType in Ecc. apply checkIn_some in Ecc. destruct Ecc as (a & ict & b & T1 & T2 & F1 & F2 & ->).
  assert (P1 : In (a, b) incompatiblePairs) by (apply table_pairs; eauto).
  assert (Hco : checkCommitType ro = None) by (apply R5; eapply nth_error_In; eauto). unfold checkCommitType in Hco.
  pose proof (checkIn_none _ _ Hco a ict b T1 T2) as Hno.
  assert (Same : forall c, In c [CAlias; CWhitespace; CNoWhitespace; CKeyword; CNoKeyword; CFailPass] -> hasFlag (dCommit rd) c = hasFlag (dCommit ro) c).
  { intros c Hcc. repeat (destruct Hcc as [<-|Hcc]; [|]); [ | | | | | |destruct Hcc];
    [apply (sameBut_flag [7%N] (dCommit ro) (dCommit rd) 1)|apply (sameBut_flag [7%N] (dCommit ro) (dCommit rd) 2)|apply (sameBut_flag [7%N] (dCommit ro) (dCommit rd) 3)
    |apply (sameBut_flag [7%N] (dCommit ro) (dCommit rd) 4)|apply (sameBut_flag [7%N] (dCommit ro) (dCommit rd) 5)|apply (sameBut_flag [7%N] (dCommit ro) (dCommit rd) 6)]; auto; intros [H|[]]; discriminate. }
  assert (Hd : exists d, In d calls /\ callName d = dName ro /\ isRoot d = hasFlag (dCommit ro) CRoot /\ forall a, In a [CAlias; CWhitespace; CKeyword; CFailPass] -> hasFlag (callFlags d) a = hasFlag (dCommit ro) a).
  { apply nth_error_In in Hro. apply call_objs_in in Hro. destruct Hro as (c & Hcc & Ho). exists c. split; auto.
    assert (Eq : forall ct k, (k = CAlias \/ k = CWhitespace \/ k = CKeyword \/ k = CFailPass \/ k = CRoot) -> hasFlag (N.lor ct CNoWhitespace) k = hasFlag ct k).
    { intros ct k [->|[->|[->|[->| ->]]]]; [apply (flag_lor_other ct 3 1)|apply (flag_lor_other ct 3 2)|apply (flag_lor_other ct 3 4)|apply (flag_lor_other ct 3 6)|apply (flag_lor_other ct 3 7)]; discriminate. }
    unfold isRoot. destruct c as [nm ct|nm ct cn ch rs|nm ct chars|nm ct items|nm ct opts]; simpl in Ho |- *;
      [destruct Ho as [<-|[<-|[]]]; [discriminate|]|destruct Ho as [<-|[<-|[]]]; [discriminate|]| |destruct Ho as [<-|[]]|destruct Ho as [<-|[]]]; simpl; auto.
    apply in_app_or in Ho. destruct Ho as [Ho|[<-|[]]]; [apply in_map_iff in Ho; destruct Ho as (z & <- & _); discriminate|]. simpl. split; auto. split; [symmetry; apply Eq; auto 10|].
    intros a0 Ha0. symmetry. apply Eq. simpl in Ha0. intuition auto. }
  assert (Hb : b = CRoot).
  { unfold incompatiblePairs in P1. simpl in P1. repeat (destruct P1 as [P1|P1]; [inversion P1; subst; auto; rewrite Same in F1, F2 by (simpl; auto 10); rewrite (Hno F1) in F2; discriminate|]). destruct P1. }
  split; auto. destruct Hd as (d & D1 & D2 & D3 & D4). exists d. split; auto. split; [congruence|]. split; [congruence|]. subst b.
  assert (Ha : In a [CAlias; CWhitespace; CKeyword; CFailPass]).
  { unfold incompatiblePairs in P1. simpl in P1. repeat (destruct P1 as [P1|P1]; [inversion P1; subst; simpl; auto 10|]). destruct P1. }
  assert (Fa : hasFlag (dCommit ro) a = true) by (rewrite <- Same; auto; simpl in Ha |- *; intuition auto).
  split; [rewrite D3; apply Hno; auto|]. split; auto. rewrite D4; auto.
Qed.
Theorem init_refs_raw calls s s' err : rawAll emptySyntax calls = (s, None) -> noWhitespaceDefs calls -> Inits s s' err ->
  match err with
  | None => forall n, needed calls n -> grammarOf calls n <> None
  | Some (ErrParserNotFound n) => needed calls n /\ grammarOf calls n = None
  | Some ErrNoParsersDefined => calls = []
  | Some (ErrIncompatible n a b) => b = CRoot /\ exists d, In d calls /\ callName d = n /\ rootName calls = Some n /\ isRoot d = false /\
      In (a, b) incompatiblePairs /\ hasFlag (callFlags d) a = true
  | Some _ => False
  end.
Proof.
  intros Hdef Hws [fuel HI]. pose proof (rep_rawAll calls [] _ _ rep_empty Hdef) as Hr. simpl in Hr. set (objs := flat_map callObjs calls) in *.
  pose proof Hr as [R1 R2 R3 R4 R5 R6 R7 R8 R9 R10 R11].
  rewrite Init_split, R1, R2 in HI.
  destruct (sRoot s) as [root|] eqn:Er.
  2:{ inversion HI; subst. symmetry in R9. unfold rootIdx in R9. destruct (findIdx 0 objs); [discriminate|]. destruct objs as [|x objs'] eqn:Eo; [|discriminate].
      destruct calls as [|c calls]; auto. exfalso. unfold objs in Eo. simpl in Eo. destruct (callObjs_split c) as (chs & o & E & _). rewrite E in Eo. destruct chs; discriminate. }
  assert (Hobj : forall a d, nth_error (sHeap s) a = Some d -> exists o, nth_error objs a = Some o /\ dName d = dName o /\ dKind d = dKind o /\
     sameBut [7%N] (dCommit o) (dCommit d)).
  { intros a d Hd. destruct (nth_error objs a) as [o|] eqn:Eo; [|apply nth_error_None in Eo; assert (a < List.length (sHeap s)) by (apply nth_error_Some; congruence); lia].
    destruct (R4 a o Eo) as (d1 & Hd1 & N1 & N2 & N3 & N4 & N5). exists o. rewrite Hd in Hd1. inversion Hd1; subst d1. split; auto. split; auto. split; auto.
    destruct (isCharK (dKind o)); [rewrite N4 by auto; apply sameBut_refl|apply N5; auto]. }
  destruct (root_name calls root) as (ro & Hro & Hn & Hc); [fold objs; rewrite <- R9; auto|]. fold objs in Hro.
  destruct (R4 root ro Hro) as (rd & Ed & N1 & N2 & _ & _ & N5). rewrite Ed in HI. destruct (N5 Hc) as [S1 S2]. clear N5.
  destruct (sRegistry s) as [reg|] eqn:Eg; [|discriminate].
  destruct (checkCommitType rd) as [e|] eqn:Ecc.
  { inversion HI; subst. pose proof (root_refused calls s' root rd e Hr Er Ed Ecc) as X. destruct e; try contradiction; exact X. }
  assert (Ereg : regOf s = reg) by (unfold regOf; rewrite Eg; auto). rewrite Ereg in *.
  binv HI. destruct x as [[h0 reg1] root1]. binv HI. destruct x as [h' e].
  unfold prepare in E. rewrite R6, <- R3, preinitAll_map in E.
  assert (Hnows : hasWhitespace (map preinit (sHeap s)) (seq 0 (List.length (sHeap s))) = false).
  { unfold hasWhitespace. apply existsb_false. intros a _. unfold commitAt. rewrite nth_error_map'. destruct (nth_error (sHeap s) a) as [d|] eqn:Hd; [|reflexivity].
    simpl. rewrite preinit_commit. destruct (Hobj a d Hd) as (o & Ho & _ & _ & Hs).
    replace (hasFlag (dCommit d) CWhitespace) with (hasFlag (dCommit o) CWhitespace) by (symmetry; apply (sameBut_flag [7%N] (dCommit o) (dCommit d) 2); auto; intros [H|[]]; discriminate).
    apply nth_error_In in Ho. apply call_objs_in in Ho. destruct Ho as (c & Hcc & Ho).
    destruct (callObjs_split c) as (chs & o1 & Ec & Hch & _ & _ & _ & Ew & _). rewrite Ec in Ho. apply in_app_or in Ho. destruct Ho as [Ho|[<-|[]]].
    - apply Hch; auto.
    - rewrite Ew. apply Hws; auto. }
  rewrite Hnows in E. inversion E; subst h0 reg1 root1. clear E.
  set (h0 := map preinit (sHeap s)) in *.
  assert (Hnth : forall a d, nth_error h0 a = Some d -> exists d0, nth_error (sHeap s) a = Some d0 /\ d = preinit d0).
  { intros a d. unfold h0. rewrite nth_error_map'. destruct (nth_error (sHeap s) a) as [d0|]; simpl; [|discriminate]. intros H; inversion H. eauto. }
  assert (Hfr : forall a d, nth_error (sHeap s) a = Some d -> freshK (dKind d)).
  { intros a d Hd. destruct (Hobj a d Hd) as (o & Ho & _ & Ek & _). rewrite Ek. apply R5. eapply nth_error_In; eauto. }
  assert (Hun : forall a d, nth_error h0 a = Some d -> unwalkedK (dKind d)).
  { intros a d Hd. destruct (Hnth a d Hd) as (d0 & Hd0 & ->). apply unwalked_preinit. apply (Hfr a d0 Hd0). }
  assert (Hpre : forall d, dName (preinit d) = dName d /\ dId (preinit d) = dId d).
  { intros d. unfold preinit, initRanges. destruct (dKind d); auto. }
  assert (Hkw : forall a, In a (sKeywords s) -> exists o, nth_error objs a = Some o /\ hasFlag (dCommit o) CKeyword = true).
  { intros a Ha. rewrite R10 in Ha. apply kwIdx_In in Ha. destruct Ha as (j & o & -> & Ho & Hf). simpl. eauto. }
  assert (Hrule : forall n, sameOpt (heapRule (gDefinition reg) h0 n) (grammarOf calls n)).
  { intros nm. eapply sameOpt_trans; [|apply ruleIn_same, callsRules_same]. rewrite <- Ereg. apply heapRule_objs. exact Hr. }
  assert (Hnames : forall n a, lookup (gDefinition reg) n = Some a -> exists d, nth_error h0 a = Some d /\ dName d = n).
  { intros n a H. destruct (ri_map _ _ R7 n a H) as (_ & d & Hd & En). exists (preinit d). unfold h0. rewrite nth_error_map', Hd. simpl. destruct (Hpre d) as [-> _]. auto. }
  assert (Hobjn : forall a o, nth_error objs a = Some o -> exists d, nth_error h0 a = Some d /\ dName d = dName o /\ lookup (gDefinition reg) (dName o) = Some a).
  { intros a o Ho. destruct (R4 a o Ho) as (d & Hd & M1 & _). exists (preinit d). unfold h0. rewrite nth_error_map', Hd. simpl. destruct (Hpre d) as [-> _]. split; auto. split; auto.
    rewrite <- Ereg. eapply rep_lookup; eauto. }
  assert (Hl : forall a, In a (sKeywords s ++ [root]) -> exists d, nth_error h0 a = Some d /\ lookup (gDefinition reg) (dName d) = Some a).
  { intros a Ha. apply in_app_or in Ha. destruct Ha as [Ha|[<-|[]]].
    - destruct (Hkw a Ha) as (o & Ho & _). destruct (Hobjn a o Ho) as (d & Hd & M1 & M2). exists d. rewrite M1. auto.
    - destruct (Hobjn root ro Hro) as (d & Hd & M1 & M2). exists d. rewrite M1. auto. }
  assert (Hneed1 : forall n, needs h0 (grammarOf calls) (sKeywords s ++ [root]) n -> needed calls n).
  { induction 1 as [a d Ha Hd|n r x N IH Hru Hx].
    - apply in_app_or in Ha. destruct Ha as [Ha|[<-|[]]].
      + destruct (Hkw a Ha) as (o & Ho & Hf). destruct (Hobjn a o Ho) as (d' & Hd' & M1 & _). rewrite Hd in Hd'. inversion Hd'; subst d'. rewrite M1.
        pose proof Ho as Ho2. apply nth_error_In in Ho. apply call_objs_in in Ho. destruct Ho as (c & Hcc & Ho).
        destruct (callObjs_split c) as (chs & o1 & Ec & Hch & En & _ & _ & _ & Ekw). rewrite Ec in Ho. apply in_app_or in Ho. destruct Ho as [Ho|[<-|[]]].
        * apply Hch in Ho. destruct Ho as (_ & _ & Ho & _). congruence.
        * rewrite En. apply need_keyword; auto. congruence.
      + destruct (Hobjn root ro Hro) as (d' & Hd' & M1 & _). rewrite Hd in Hd'. inversion Hd'; subst d'. rewrite M1. apply need_root; auto.
    - eapply need_ref; eauto. }
  assert (Hneed2 : forall n, needed calls n -> needs h0 (grammarOf calls) (sKeywords s ++ [root]) n).
  { induction 1 as [n Hnn|d Hdc Hf|d Hdc Hf|n r x N IH Hru Hx].
    - rewrite Hn in Hnn. inversion Hnn; subst n. destruct (Hobjn root ro Hro) as (d' & Hd' & M1 & _). rewrite <- M1. eapply needs_start; eauto. apply in_or_app; right; left; auto.
    - destruct (callObjs_split d) as (chs & o1 & Ec & Hch & En & _ & _ & _ & Ekw).
      assert (Ho : In o1 objs). { unfold objs. apply in_flat_map. exists d. split; auto. rewrite Ec. apply in_or_app; right; left; auto. }
      apply In_nth_error in Ho. destruct Ho as (j & Ho). destruct (Hobjn j o1 Ho) as (d' & Hd' & M1 & _). rewrite <- En, <- M1. eapply needs_start; eauto.
      apply in_or_app. left. rewrite R10. apply kwIdx_In. exists j, o1. split; auto. split; auto. congruence.
    - exfalso. rewrite (Hws d Hdc) in Hf. discriminate.
    - eapply needs_ref; eauto. }
  apply initCore_ok in E0; auto. destruct e as [e|]; inversion HI; subst.
  - destruct E0 as (a & Ha & Hu). destruct (undefined_needs _ _ _ _ Hrule Hnames Hl a e Ha Hu) as (n & -> & N & Hnone). auto.
  - destruct E0 as (F & A & _). intros n N. apply Hneed2 in N. destruct (defined_needs _ _ _ _ Hrule Hnames Hl h' F A n N) as (a & Hla & _).
    specialize (Hrule n). unfold heapRule in Hrule. rewrite Hla in Hrule. destruct (Hnames _ _ Hla) as (d & Hd & _). rewrite Hd in Hrule. simpl in Hrule. destruct (grammarOf calls n); [discriminate|destruct Hrule].
Qed.

Lemma needed_user calls n : needed (map withUserDefined calls) n <-> needed calls n.
Proof.
  split; induction 1 as [n Hn|d Hd Hf|d Hd Hf|n r x N IH Hr Hx].
  - apply need_root. rewrite userDefined_root in Hn. auto.
  - apply in_map_iff in Hd. destruct Hd as (d0 & <- & Hd). rewrite userDefined_name. apply need_keyword; auto.
    rewrite <- Hf. symmetry. apply (userDefined_flags d0 4). discriminate.
  - apply in_map_iff in Hd. destruct Hd as (d0 & <- & Hd). rewrite userDefined_name. apply need_whitespace; auto.
    rewrite <- Hf. symmetry. apply (userDefined_flags d0 2). discriminate.
  - pose proof (userDefined_grammar calls n) as S. rewrite Hr in S. destruct (grammarOf calls n) as [r'|] eqn:E; [|destruct S]. eapply need_ref; eauto.
    rewrite <- (sameRule_refs _ _ S). auto.
  - apply need_root. rewrite userDefined_root. auto.
  - rewrite <- userDefined_name. apply need_keyword; [apply in_map; auto|]. rewrite <- Hf. apply (userDefined_flags d 4). discriminate.
  - rewrite <- userDefined_name. apply need_whitespace; [apply in_map; auto|]. rewrite <- Hf. apply (userDefined_flags d 2). discriminate.
  - pose proof (userDefined_grammar calls n) as S. rewrite Hr in S. destruct (grammarOf (map withUserDefined calls) n) as [r'|] eqn:E; [|destruct S]. eapply need_ref; eauto.
    rewrite (sameRule_refs _ _ S). auto.
Qed.
Theorem init_refs calls s s' err : Defined calls s -> noWhitespaceDefs calls -> Inits s s' err ->
  match err with
  | None => forall n, needed calls n -> grammarOf calls n <> None
  | Some (ErrParserNotFound n) => needed calls n /\ grammarOf calls n = None
  | Some ErrNoParsersDefined => calls = []
  | Some (ErrIncompatible n a b) => b = CRoot /\ exists d, In d calls /\ callName d = n /\ rootName calls = Some n /\ isRoot d = false /\
      In (a, b) incompatiblePairs /\ hasFlag (callFlags d) a = true
  | Some _ => False
  end.
Proof.
  intros Hd Hw HI. apply defineAll_raw in Hd. destruct Hd as [Hd _]. pose proof (init_refs_raw _ _ _ _ Hd (userDefined_ws _ Hw) HI) as H.
  assert (HG : forall n, grammarOf (map withUserDefined calls) n = None <-> grammarOf calls n = None).
  { intros n. pose proof (userDefined_grammar calls n) as S. destruct (grammarOf (map withUserDefined calls) n), (grammarOf calls n); simpl in S; split; intros; auto; try discriminate; destruct S. }
  destruct err as [e|].
  - destruct e; auto.
    + destruct calls; auto. discriminate.
    + destruct H as [N G]. split; [apply needed_user; exact N|apply HG; exact G].
    + destruct H as (-> & d & D1 & D2 & D3 & D4 & D5 & D6). split; auto. apply in_map_iff in D1. destruct D1 as (d0 & <- & D1). exists d0. rewrite userDefined_name in D2. rewrite userDefined_root in D3.
      split; auto. split; auto. split; auto. unfold isRoot in D4. change CRoot with (2 ^ 7)%N in D4. rewrite userDefined_flags in D4 by discriminate. split; auto. split; auto.
      rewrite <- D6. symmetry. unfold incompatiblePairs in D5. simpl in D5.
      repeat (destruct D5 as [D5|D5]; [inversion D5; subst; first [apply (userDefined_flags d0 1)|apply (userDefined_flags d0 2)|apply (userDefined_flags d0 4)|apply (userDefined_flags d0 6)]; discriminate|]). destruct D5.
  - intros n N G. apply needed_user in N. apply HG in G. exact (H n N G).
Qed.

(** ** roots *)
Lemma rootIdx_none objs : rootIdx objs = None -> objs = [].
Proof. unfold rootIdx. destruct (findIdx 0 objs); [discriminate|]. destruct objs; auto. discriminate. Qed.
Lemma callObjs_nil calls : flat_map callObjs calls = [] -> calls = [].
Proof. destruct calls as [|d calls]; auto. simpl. destruct (callObjs_split d) as (chs & o & -> & _). destruct chs; discriminate. Qed.
Theorem root_selection calls s : Defined calls s -> rootDefName s = rootName calls /\ rootMarks s = match rootName calls with Some n => [n] | None => [] end.
Proof.
  intros Hd. apply rep_defineAll in Hd. pose proof Hd as [R1 R2 R3 R4 R5 R6 R7 R8 R9 R10 R11]. set (objs := flat_map callObjs (map withUserDefined calls)) in *.
  assert (Hreg : forall P, P [] -> P (flat_map (fun a => match nth_error (sHeap s) a with Some d => if hasFlag (dCommit d) CRoot then [dName d] else [] | None => [] end) (gDefinitions (regOf s))) -> P (rootMarks s)).
  { intros P P0 P1. unfold rootMarks, regOf in *. destruct (sRegistry s); auto. }
  unfold rootDefName. destruct (sRoot s) as [root|] eqn:Er.
  - destruct (root_name (map withUserDefined calls) root) as (ro & Hro & Hn & Hc); [fold objs; rewrite <- R9; auto|]. fold objs in Hro. rewrite userDefined_root in Hn.
    destruct (R4 root ro Hro) as (rd & Hrd & N1 & _). rewrite Hrd. simpl. rewrite Hn, N1. split; auto. unfold rootMarks.
    assert (sRegistry s <> None) by (apply R11; intros E; rewrite E in Hro; destruct root; discriminate). unfold regOf in R6. destruct (sRegistry s) as [reg|]; [|congruence].
    rewrite R6.
    assert (Hs : forall k i, i + k = List.length objs -> flat_map (fun a => match nth_error (sHeap s) a with Some d => if hasFlag (dCommit d) CRoot then [dName d] else [] | None => [] end) (seq i k) =
       if (i <=? root) && (root <? i + k) then [dName ro] else []).
    { induction k as [|k IH]; intros i Hi; simpl.
      - destruct (Nat.leb_spec i root), (Nat.ltb_spec root (i + 0)); auto; lia.
      - rewrite IH by lia. destruct (nth_error objs i) as [o|] eqn:Eo; [|apply nth_error_None in Eo; lia]. destruct (R4 i o Eo) as (d & Hd' & M1 & M2 & M3 & M4 & M5). rewrite Hd'.
        assert (Hf : hasFlag (dCommit d) CRoot = (i =? root)).
        { destruct (isCharK (dKind o)) eqn:Ek.
          - rewrite M4 by auto. destruct (R5 o (nth_error_In _ _ Eo)) as (_ & _ & Ha). rewrite (Ha Ek). destruct (Nat.eqb_spec i root) as [->|]; auto. congruence.
          - destruct (M5 eq_refl) as [_ M6]. destruct (Nat.eqb_spec i root) as [->|Hne]; [apply M6; auto|]. destruct (hasFlag (dCommit d) CRoot); auto. exfalso. assert (X : Some root = Some i) by (apply M6; auto). congruence. }
        rewrite Hf. destruct (Nat.eqb_spec i root) as [->|Hne].
        + assert (o = ro) by congruence. subst o. rewrite M1. destruct (Nat.leb_spec (S root) root), (Nat.leb_spec root root), (Nat.ltb_spec root (root + S k)); try lia; simpl. auto.
        + destruct (Nat.leb_spec (S i) root), (Nat.leb_spec i root), (Nat.ltb_spec root (S i + k)), (Nat.ltb_spec root (i + S k)); simpl; try reflexivity; exfalso; lia. }
    rewrite Hs by lia. assert (root < List.length objs) by (apply nth_error_Some; congruence). destruct (Nat.leb_spec 0 root), (Nat.ltb_spec root (0 + List.length objs)); try lia; auto.
  - symmetry in R9. apply rootIdx_none in R9. assert (calls = []).
    { apply callObjs_nil in R9. destruct calls; auto. discriminate. }
    subst. simpl. split; auto. unfold rootMarks. destruct (sRegistry s) as [reg|] eqn:Eg; auto. unfold regOf in R6. rewrite Eg in R6. unfold objs in R6. simpl in R6. rewrite R6. auto.
Qed.

Lemma register_root s d : sInitialized s = false -> sExplicitRoot s = true -> hasFlag (dCommit d) CRoot = true ->
  exists s' err, register s d = (s', Some err) /\ (err = ErrMultipleRoots \/ exists a b, err = ErrIncompatible (dName d) a b /\ incompatibleFlags (dCommit d) a b).
Proof.
  intros Hi He Hf. unfold register. rewrite Hi. destruct (checkCommitType d) as [e|] eqn:Ec.
  - eexists _, e. split; [reflexivity|]. right. unfold checkCommitType in Ec. apply checkIn_some in Ec. destruct Ec as (a & ict & b & T1 & T2 & F1 & F2 & ->).
    exists a, b. split; auto. split; auto. apply table_pairs; eauto.
  - unfold applyRoot. cbn [sHeap sExplicitRoot]. rewrite nth_error_app2, Nat.sub_diag by lia. cbn [nth_error]. rewrite Hf, He. simpl. eauto.
Qed.
Lemma register_keepsRoot s d s' e : hasFlag (dCommit d) CRoot = false -> register s d = (s', e) -> sExplicitRoot s' = sExplicitRoot s.
Proof.
  intros Hf. unfold register. destruct (sInitialized s); [intros H; inversion H; auto|]. destruct (checkCommitType d); [intros H; inversion H; auto|].
  unfold applyRoot. cbn [sHeap sExplicitRoot]. rewrite nth_error_app2, Nat.sub_diag by lia. cbn [nth_error]. rewrite Hf. cbn [andb orb]. destruct (sExplicitRoot s) eqn:Ex; cbn [negb].
  - destruct (sRoot _); destruct (setDefinition _ _ _) as [[h1 r1] e1]; intros H; inversion H; auto.
  - destruct (sRoot _); destruct (setDefinition _ _ _) as [[h1 r1] e1]; intros H; inversion H; auto.
Qed.
Lemma explicit_calls calls s : Defined calls s -> sExplicitRoot s = existsb isRoot calls.
Proof.
  intros H. apply rep_defineAll in H. rewrite (rp_expl _ _ H). clear. induction calls as [|d l IH]; simpl; auto. rewrite existsb_app, IH.
  destruct (callObjs_split (withUserDefined d)) as (chs & o & -> & Hc & _ & Er & _). rewrite existsb_app. simpl.
  assert (existsb rootFlag chs = false) as ->. { apply existsb_false. intros c Hcc. apply Hc in Hcc. tauto. }
  rewrite Er. unfold isRoot at 1. change CRoot with (2 ^ 7)%N. rewrite userDefined_flags by discriminate. rewrite orb_false_r. auto.
Qed.
Lemma notInit_calls calls s : Defined calls s -> sInitialized s = false /\ sInitFailed s = false.
Proof. intros H. apply rep_defineAll in H. destruct H; auto. Qed.
Theorem second_root calls s d : Defined calls s -> existsb isRoot calls = true -> isRoot d = true -> isValidSymbol (callName d) = true ->
  exists s' err, defineCall s d = (s', Some err) /\
  (err = ErrMultipleRoots \/ (exists a b, err = ErrIncompatible (callName d) a b /\ incompatibleFlags (callFlags d) a b) \/
   exists n, err = ErrDuplicateDefinition n /\ In n (callNames d) /\ In n (map fst (registered s))).
Proof.
  intros Hd Hr Hf Hv. destruct (defineCall s d) as [s' e] eqn:E. pose proof (notInit_calls _ _ Hd) as [Hi Hfa]. pose proof (explicit_calls _ _ Hd) as Hex. rewrite Hr in Hex.
  assert (Hrea : reachable s) by (eapply defineAll_reachable; [apply re_new|exact Hd]).
  pose proof (define_names s d s' e Hrea Hfa Hi E) as Hn.
  unfold defineCall in E. rewrite Hv in E. rewrite defineRaw_all in E. destruct (callObjs_split (withUserDefined d)) as (chs & o & Ec & Hc & En & Er & _). rewrite Ec, registerAll_app in E.
  destruct (registerAll s chs) as [s1 [e1|]] eqn:E1.
  - inversion E; subst. exists s', e1. split; auto. right. right. clear E Hex Hr Hd.
    assert (Hch : exists sx c s2, In c chs /\ sInitialized sx = false /\ register sx c = (s2, Some e1)).
    { clear Ec. revert s Hi Hn Hfa Hrea E1. induction chs as [|c chs IH]; intros s Hi Hn Hfa Hrea E1; simpl in E1; [discriminate|]. destruct (register s c) as [s2 [e2|]] eqn:E2.
      - inversion E1; subst. exists s, c, s'. split; [left; auto|auto].
      - clear Hn Hfa Hrea. revert E1. assert (Hi2 : sInitialized s2 = false) by (apply register_flags in E2; destruct E2 as (_ & -> & _); auto). clear E2 Hi.
        assert (Hc2 : forall c0, In c0 chs -> isCharK (dKind c0) = true /\ rootFlag c0 = false /\ hasFlag (dCommit c0) CKeyword = false /\ hasFlag (dCommit c0) CWhitespace = false) by (intros; apply Hc; right; auto).
        clear IH Hc s. revert s2 Hi2. induction chs as [|c1 chs IH]; intros s Hi E1; simpl in E1; [discriminate|]. destruct (register s c1) as [s2 [e2|]] eqn:E2.
        + inversion E1; subst. exists s, c1, s'. split; [right; left; auto|auto].
        + destruct (IH (fun c0 H0 => Hc2 c0 (or_intror H0)) s2) as (sx & c3 & s3 & H1 & H2); auto.
          * apply register_flags in E2. destruct E2 as (_ & -> & _); auto.
          * exists sx, c3, s3. split; auto. destruct H1 as [->|H1]; [left|right; right]; auto. }
    destruct Hch as (sx & c & s2 & Hin & Hix & Hre).
    assert (Hnc : exists cn ch rs, c = newChar (dName c) cn ch rs).
    { assert (Hin2 : In c (callObjs (withUserDefined d))) by (rewrite Ec; apply in_or_app; auto). clear Hre. destruct (Hc c Hin) as (Hk & _).
      destruct d as [nm ct|nm ct cn ch rs|nm ct chars|nm ct items|nm ct opts]; simpl in Hin2;
        [destruct Hin2 as [<-|[<-|[]]]; [simpl; eauto|discriminate]|destruct Hin2 as [<-|[<-|[]]]; [simpl; eauto|discriminate]| |destruct Hin2 as [<-|[]]; discriminate|destruct Hin2 as [<-|[]]; discriminate].
      apply in_app_or in Hin2. destruct Hin2 as [Hin2|[<-|[]]]; [|discriminate]. apply in_map_iff in Hin2. destruct Hin2 as (z & <- & _). simpl. eauto. }
    destruct Hnc as (cn & ch & rs & Ecc). rewrite Ecc in Hre. apply char_err in Hre; auto. destruct Hre as (m & ->). exists m. split; auto. destruct Hn as [_ Hn]. auto.
  - simpl in E. assert (Hk : sExplicitRoot s1 = true /\ sInitialized s1 = false).
    { clear Ec E Hd Hfa Hrea Hn. revert s Hi Hex E1. clear - Hc. induction chs as [|c chs IH]; intros s Hi Hex E1; simpl in E1; [inversion E1; subst; auto|]. destruct (register s c) as [s2 [e2|]] eqn:E2; [discriminate|].
      apply IH with (s := s2); auto; [intros; apply Hc; right; auto| |].
      - pose proof (register_flags _ _ _ _ E2) as (_ & -> & _); auto.
      - destruct (Hc c (or_introl eq_refl)) as (_ & Hrf & _). rewrite (register_keepsRoot _ _ _ _ Hrf E2). auto. }
    destruct Hk as [K1 K2].
    assert (Hro : hasFlag (dCommit o) CRoot = true).
    { unfold rootFlag in Er. rewrite Er. unfold isRoot in *. change CRoot with (2 ^ 7)%N. rewrite userDefined_flags by discriminate. auto. }
    destruct (register_root s1 o K2 K1 Hro) as (s2 & err & E2 & Hor). rewrite E2 in E. inversion E; subst. exists s', err. split; auto.
    destruct Hor as [->|(a & b & -> & Hin)]; auto. right. left. exists a, b. rewrite En, userDefined_name. split; auto.
    assert (X : defineCall s d = (s', Some (ErrIncompatible (callName d) a b))).
    { unfold defineCall. rewrite Hv, defineRaw_all, Ec, registerAll_app, E1. simpl. rewrite E2. rewrite En, userDefined_name. auto. }
    apply define_incompat in X. tauto.
Qed.

(** ** parsing leaves no trace *)
Lemma Init_later n n' s x : Init n s = Ok x -> n <= n' -> Init n' s = Ok x.
Proof. intros H Hle. rewrite (Init_mono n n' s Hle); auto. congruence. Qed.
Theorem Parses_after_Init s s' input e s2 out : Inits s s' None -> (Parses s input e s2 out <-> Parses s' input e s2 out).
Proof.
  intros HI. pose proof (Init_again _ _ HI) as Ha. destruct HI as [k HI]. split; intros [n H]; exists (Nat.max k n).
  - pose proof (Parse_mono n (Nat.max k n) s input e (Nat.le_max_r _ _)) as M. rewrite <- M in H by congruence.
    unfold Parse in H |- *. rewrite (Init_later _ (Nat.max k n) _ _ HI) in H by lia. rewrite Ha. exact H.
  - pose proof (Parse_mono n (Nat.max k n) s' input e (Nat.le_max_r _ _)) as M. rewrite <- M in H by congruence.
    unfold Parse in H |- *. rewrite (Init_later _ (Nat.max k n) _ _ HI) by lia. rewrite Ha in H. exact H.
Qed.

(** ** texts of classes and literals *)
Lemma rule_in_call calls s d n r : Defined calls s -> In d calls -> In (n, r) (callRules d) -> grammarOf calls n = Some r.
Proof. intros H Hd Hr. eapply grammar_rule; eauto. apply in_flat_map. eauto. Qed.
Lemma childName_notRoot calls s root n i : Defined calls s -> rootName calls = Some root -> In root (map callName calls) /\ root <> childName n i.
Proof.
  intros Hd Hr. assert (In root (map callName calls)).
  { unfold rootName in Hr. destruct (find isRoot calls) as [d|] eqn:E.
    - apply find_some in E. inversion Hr; subst. apply in_map. tauto.
    - clear - Hr. induction calls as [|d calls IH]; simpl in Hr; [discriminate|]. destruct calls as [|d1 calls]; [inversion Hr; left; auto|]. right. apply IH. exact Hr. }
  split; auto. apply defineAll_raw in Hd. destruct Hd as [_ Hv]. apply in_map_iff in H. destruct H as (d & <- & Hin). apply valid_no_child. auto.
Qed.

Lemma witems_once R K ws root cs : forall w, witems R K ws root (map once cs) w <-> exists us, w = List.concat us /\ Forall2 (wgen R K ws root) cs us.
Proof.
  induction cs as [|c cs IH]; intros w; simpl; split.
  - intros H. inversion H; subst. exists []. auto.
  - intros (us & -> & H). inversion H; subst. constructor.
  - intros H. inversion H; subst. simpl in *. assert (k = 1) by (unfold quantity in *; simpl in *; lia). subst k. match goal with H : wrep _ _ _ _ _ 1 _ |- _ => inversion H; subst end.
    match goal with H : wrep _ _ _ _ _ 0 _ |- _ => inversion H; subst end.
    match goal with H : witems _ _ _ _ (map once cs) _ |- _ => apply IH in H; destruct H as (us & -> & H) end. eexists (_ :: us). rewrite app_nil_r. simpl. split; [reflexivity|]. constructor; auto.
  - intros (us & -> & H). inversion H; subst. simpl. apply witems_cons with (k := 1); [unfold quantity; simpl; lia| |apply IH; eauto].
    simpl. rewrite <- (app_nil_r y) at 1. apply wrep_S; auto. constructor.
Qed.
Lemma wspaced_once R K ws root c : forall w, wspaced R K ws root true [once c] w <-> wgen R K ws root c w.
Proof.
  intros w. split.
  - intros H. inversion H; subst; simpl in *.
    + exfalso. unfold quantity in *. simpl in *. lia.
    + assert (k = 0) by (unfold quantity in *; simpl in *; lia). subst k.
      match goal with H : wmore _ _ _ _ _ 0 _ |- _ => inversion H; subst end. match goal with H : wspaced _ _ _ _ _ [] _ |- _ => inversion H; subst end. rewrite !app_nil_r. auto.
  - intros H. replace w with (w ++ [] ++ []) by (rewrite !app_nil_r; auto). apply wspaced_first with (k := 0); [right; simpl; lia|exact H|constructor|constructor].
Qed.
Lemma def_texts calls root n w : n <> root -> (texts calls root n w <-> wbody (grammarOf calls) (keywordTexts calls) (whitespaceNames calls) root n w).
Proof. intros H. unfold texts. split; [intros G; inversion G; subst; auto; congruence|apply wgen_def; auto]. Qed.
Lemma char_texts calls root c cnot chars ranges w : c <> root -> grammarOf calls c = Some (RChar cnot chars ranges) ->
  (texts calls root c w <-> exists r, w = [r] /\ inClass cnot chars ranges r).
Proof.
  intros H G. rewrite def_texts by auto. split.
  - intros B. inversion B; subst; try congruence. match goal with H : grammarOf calls c = Some (RChar _ _ _) |- _ => rewrite H in G; inversion G; subst end. eauto.
  - intros (r & -> & Hr). eapply wbody_char; eauto.
Qed.
Lemma seq_texts calls root n ct items w : n <> root -> grammarOf calls n = Some (RSeq ct items) ->
  (texts calls root n w <-> (hasFlag ct CNoKeyword = true -> ~ In w (keywordTexts calls)) /\
    if compact ct then witems (grammarOf calls) (keywordTexts calls) (whitespaceNames calls) root items w
    else wspaced (grammarOf calls) (keywordTexts calls) (whitespaceNames calls) root true items w).
Proof.
  intros H G. rewrite def_texts by auto. split.
  - intros B. inversion B; subst; try congruence; match goal with H : grammarOf calls n = Some (RSeq _ _) |- _ => rewrite H in G; inversion G; subst end;
      match goal with H : compact _ = _ |- _ => rewrite H end; auto.
  - intros [H1 H2]. destruct (compact ct) eqn:E; [eapply wbody_compact; eauto|eapply wbody_spaced; eauto].
Qed.
Theorem class_texts calls s root n ct cnot chars ranges w : Defined calls s -> rootName calls = Some root ->
  In (DClass n ct cnot chars ranges) calls -> n <> root -> hasFlag ct CNoKeyword = false ->
  (texts calls root n w <-> exists r, w = [r] /\ inClass cnot chars ranges r).
Proof.
  intros Hd Hr Hin Hne Hk. destruct (childName_notRoot _ _ _ n 0 Hd Hr) as [_ Hc].
  rewrite (seq_texts calls root n ct [once (childName n 0)]); auto; [|eapply rule_in_call; eauto; right; left; auto].
  rewrite <- (char_texts calls root (childName n 0)); auto; [|eapply rule_in_call; eauto; left; auto]. unfold texts.
  rewrite Hk. change [once (childName n 0)] with (map once [childName n 0]). destruct (compact ct).
  - rewrite witems_once. split.
    + intros [_ (us & -> & H)]. inversion H; subst. inversion H4; subst. simpl. rewrite app_nil_r. auto.
    + intros H. split; [discriminate|]. exists [w]. simpl. rewrite app_nil_r. auto.
  - simpl. rewrite wspaced_once. intuition discriminate.
Qed.
Theorem any_texts calls s root n ct w : Defined calls s -> rootName calls = Some root ->
  In (DAnyChar n ct) calls -> n <> root -> hasFlag ct CNoKeyword = false ->
  (texts calls root n w <-> exists r, w = [r]).
Proof.
  intros Hd Hr Hin Hne Hk. destruct (childName_notRoot _ _ _ n 0 Hd Hr) as [_ Hc].
  rewrite (seq_texts calls root n ct [once (childName n 0)]); auto; [|eapply rule_in_call; eauto; right; left; auto].
  assert (E : (exists r, w = [r]) <-> texts calls root (childName n 0) w).
  { rewrite (char_texts calls root (childName n 0)) by (auto; eapply rule_in_call; eauto; left; auto). split; [intros (r & ->)|intros (r & -> & _)]; exists r; auto.
    split; auto. simpl. intros [[]|(lo & hi & [] & _)]. }
  rewrite E. unfold texts. rewrite Hk. change [once (childName n 0)] with (map once [childName n 0]). destruct (compact ct).
  - rewrite witems_once. split.
    + intros [_ (us & -> & H)]. inversion H; subst. inversion H4; subst. simpl. rewrite app_nil_r. auto.
    + intros H. split; [discriminate|]. exists [w]. simpl. rewrite app_nil_r. auto.
  - simpl. rewrite wspaced_once. intuition discriminate.
Qed.
Lemma charRules_in n chars : forall i c r, nth_error chars i = Some r -> In (childName n (c + i), RChar false [r] []) (charRules n c chars).
Proof.
  induction chars as [|x chars IH]; intros [|i] c r H; simpl in *; try discriminate.
  - inversion H; subst. left. rewrite Nat.add_0_r. auto.
  - right. replace (c + S i) with (S c + i) by lia. apply IH; auto.
Qed.
Theorem literal_texts calls s root n ct chars w : Defined calls s -> rootName calls = Some root ->
  In (DCharSequence n ct chars) calls -> n <> root -> hasFlag ct CNoKeyword = false ->
  (texts calls root n w <-> w = chars).
Proof.
  intros Hd Hr Hin Hne Hk.
  rewrite (seq_texts calls root n (N.lor ct CNoWhitespace) (map (fun i => once (childName n i)) (seq 0 (List.length chars)))); auto; [|eapply rule_in_call; eauto; simpl; apply in_or_app; right; left; auto].
  assert (Ec : compact (N.lor ct CNoWhitespace) = true).
  { unfold compact. assert (hasFlag (N.lor ct CNoWhitespace) CNoWhitespace = true) as ->; auto. change CNoWhitespace with (2 ^ 3)%N. rewrite hasFlag_bit, N.lor_spec, N.pow2_bits_true, orb_true_r. auto. }
  rewrite Ec. replace (hasFlag (N.lor ct CNoWhitespace) CNoKeyword) with false by (symmetry; rewrite <- Hk; apply (flag_lor_other ct 3 5); discriminate).
  rewrite <- (map_map (childName n) once). rewrite witems_once.
  assert (Hch : forall i r u, nth_error chars i = Some r -> (wgen (grammarOf calls) (keywordTexts calls) (whitespaceNames calls) root (childName n i) u <-> u = [r])).
  { intros i r u Hi. destruct (childName_notRoot _ _ _ n i Hd Hr) as [_ Hc]. assert (G : grammarOf calls (childName n i) = Some (RChar false [r] [])).
    { eapply rule_in_call; eauto. simpl. apply in_or_app. left. apply (charRules_in n chars i 0 r Hi). }
    change (texts calls root (childName n i) u <-> u = [r]). rewrite (char_texts calls root (childName n i) false [r] [] u); auto. simpl. split.
    - intros (r' & -> & [[<-|[]]|(lo & hi & [] & _)]). auto.
    - intros ->. exists r. auto. }
  assert (Hall : forall k l us, skipn k chars = l -> (Forall2 (wgen (grammarOf calls) (keywordTexts calls) (whitespaceNames calls) root) (map (childName n) (seq k (List.length l))) us <-> us = map (fun r => [r]) l)).
  { intros k l. revert k. induction l as [|r l IH]; intros k us Hs; simpl.
    - split; [intros H; inversion H; auto|intros ->; constructor].
    - assert (Hn : nth_error chars k = Some r). { clear - Hs. revert k Hs. induction chars as [|x ch IHc]; intros [|k] Hs; simpl in *; try discriminate; [inversion Hs; auto|apply IHc; auto]. }
      assert (Hs2 : skipn (S k) chars = l). { clear - Hs. revert k Hs. induction chars as [|x ch IHc]; intros [|k] Hs; simpl in *; try discriminate; [inversion Hs; auto|apply IHc in Hs; auto]. }
      split.
      + intros H. inversion H; subst. apply (Hch k r) in H2; auto. subst. apply (IH (S k)) in H4; auto. subst. auto.
      + intros ->. constructor; [apply (Hch k r); auto|apply (IH (S k)); auto]. }
  split.
  - intros [_ (us & -> & H)]. apply (Hall 0) in H; auto. subst. clear. induction chars; simpl; auto. f_equal; auto.
  - intros ->. split; [discriminate|]. exists (map (fun r => [r]) chars). split; [clear; induction chars; simpl; auto; f_equal; auto|]. apply (Hall 0); auto.
Qed.
