(** The names that Generate writes; the root keeps its name when there is no whitespace. *)
From Verif Require Import Base Utf8 IdSet Results Parser Build Syntax ListFacts ResultsFacts ParseFacts TermFacts NoPanic Lang Sound RunFacts Restrict Grammar WsLang ApiSpec InitWalk InitRun InitOk SyntaxFacts InitCore InitSpec InitFuel Rep Live LangGen Api WsObjs WsGen WsShape WsNames WsDistinct Utf8Facts WsApi ApiFacts RefSpec RefFuel RefParse RefBuild RefRun RefSim RefApi DefineFacts.
From Verif Require Import DefSpec Generate GoSpec GoRead GenSpec GenWalk GenSim GenRun GenApi GenText.

Lemma bytes_app a b : bytesOf (a ++ b)%string = bytesOf a ++ bytesOf b.
Proof. induction a; simpl; auto. f_equal; auto. Qed.
Lemma encode_app a b : encodeUtf8 (a ++ b) = encodeUtf8 a ++ encodeUtf8 b.
Proof. unfold encodeUtf8. rewrite map_app, concat_app. auto. Qed.
Lemma bytes_range s : Forall (fun b => 0 <= b < 256)%Z (bytesOf s).
Proof.
  induction s as [|c s IH]; simpl; constructor; auto. destruct c as [[] [] [] [] [] [] [] []]; cbn; lia.
Qed.
Lemma decodeFuel_scalar n : forall bs, Forall (fun b => 0 <= b < 256)%Z bs -> Forall scalar (decodeFuel n bs).
Proof.
  induction n as [|n IH]; intros bs H; simpl; [constructor|]. destruct (decodeRune bs) as [[r k]|] eqn:E; [|constructor].
  constructor; [eapply decodeRune_scalar; eauto|]. apply IH. rewrite <- (firstn_skipn k bs) in H. apply Forall_app in H. apply H.
Qed.
Lemma runes_scalar s : Forall scalar (stringRunes s).
Proof. apply decodeFuel_scalar, bytes_range. Qed.
Lemma source_spec s : sourceText s = true <-> encodeUtf8 (stringRunes s) = bytesOf s /\ forall r, In r (stringRunes s) -> r <> 0%Z /\ r <> 65279%Z.
Proof.
  unfold sourceText. rewrite andb_true_iff, forallb_forall. split.
  - intros [H1 H2]. split; [destruct (list_eq_dec _ _ _); [auto|discriminate]|]. intros r Hr. specialize (H2 r Hr). rewrite negb_true_iff, orb_false_iff, !Z.eqb_neq in H2. auto.
  - intros [H1 H2]. split; [destruct (list_eq_dec _ _ _); [auto|contradiction]|]. intros r Hr. rewrite negb_true_iff, orb_false_iff, !Z.eqb_neq. auto.
Qed.
Lemma source_app a b : sourceText a = true -> sourceText b = true -> sourceText (a ++ b)%string = true.
Proof.
  rewrite !source_spec. intros [A1 A2] [B1 B2].
  assert (E : stringRunes (a ++ b)%string = stringRunes a ++ stringRunes b).
  { unfold stringRunes at 1. rewrite bytes_app, <- A1, <- B1, <- encode_app. apply decode_encode. apply Forall_app. split; apply runes_scalar. }
  rewrite E, encode_app, A1, B1, bytes_app. split; auto. intros r Hr. apply in_app_or in Hr. destruct Hr; auto.
Qed.
Lemma nameOk_app a b : nameOk a -> nameOk b -> nameOk (a ++ b)%string.
Proof. intros [A1 A2] [B1 B2]. split; [rewrite list_ascii_app, forallb_app, A1, B1; auto|apply source_app; auto]. Qed.
Lemma nameOk_digits s : forallb digit (list_ascii_of_string s) = true -> nameOk s.
Proof.
  induction s as [|c s IH]; intros H; [split; reflexivity|]. simpl in H. apply andb_true_iff in H. destruct H as [Hc Hs].
  change (String c s) with (String c "" ++ s)%string. apply nameOk_app; auto. clear - Hc. destruct c as [[] [] [] [] [] [] [] []]; vm_compute in Hc; try discriminate; split; reflexivity.
Qed.
Lemma nameOk_itoa k : nameOk (itoaNat k).
Proof. apply nameOk_digits, itoaNat_digits. Qed.
Lemma nameOk_valid n : isValidSymbol n = true -> sourceText n = true -> nameOk n.
Proof.
  intros Hv Hs. split; auto. apply forallb_forall. intros c Hc. pose proof (valid_bytes n (Z.of_N (N_of_ascii c)) Hv) as H.
  assert (Hin : In (Z.of_N (N_of_ascii c)) (bytesOf n)). { clear - Hc. induction n as [|d n IH]; simpl in *; auto. destruct Hc as [->|Hc]; auto. }
  specialize (H Hin). unfold plainByte. rewrite negb_true_iff. apply Bool.not_true_is_false. intros X. apply H. unfold reserved.
  rewrite !orb_true_iff, !Ascii.eqb_eq in X. destruct X as [[-> | ->]| ->]; vm_compute; tauto.
Qed.
Lemma nameOk_child n i : nameOk n -> nameOk (childName n i).
Proof. intros H. unfold childName. apply nameOk_app; auto. apply nameOk_app; [split; reflexivity|apply nameOk_itoa]. Qed.
Lemma nameOk_patch l : l <> [] -> (forall s, In s l -> nameOk s) -> nameOk (patchName l).
Proof.
  unfold patchName. induction l as [|a l IH]; intros Hn H; [congruence|]. destruct l as [|b l]; [simpl; apply H; left; auto|].
  rewrite cat_cons by discriminate. apply nameOk_app; [apply H; left; auto|]. apply nameOk_app; [split; reflexivity|]. apply IH; [discriminate|]. intros; apply H; right; auto.
Qed.

Section NAMES.
Variables (calls : list defcall) (s s' : syntax) (PL : pheap) (root : addr) (name : string) (R1 : string -> option rule).
Hypothesis Hdef : Defined calls s.
Hypothesis Hws : wsReady calls.
Hypothesis Hsrc : sourceNames calls.
Hypothesis Su : setup calls s' PL root name R1.
Let Hvalid : forall d, In d calls -> isValidSymbol (callName d) = true := proj2 (defineAll_raw _ _ _ Hdef).

Lemma grammar_name n : grammarOf calls n <> None -> nameOk n.
Proof.
  intros H. destruct (grammarOf calls n) as [r|] eqn:E; [|congruence]. apply ruleIn_pair, in_flat_map in E. destruct E as (d & Hd & Hin).
  pose proof (nameOk_valid _ (Hvalid d Hd) (Hsrc d Hd)) as Ho.
  destruct d as [nm c|nm c cn ch rs|nm c chars|nm c items|nm c opts]; simpl in Hin, Ho.
  - destruct Hin as [X|[X|[]]]; inversion X; subst; auto. apply nameOk_child; auto.
  - destruct Hin as [X|[X|[]]]; inversion X; subst; auto. apply nameOk_child; auto.
  - apply in_app_or in Hin. destruct Hin as [Hin|[X|[]]]; [|inversion X; subst; auto].
    apply charRules_child in Hin. destruct Hin as (j & ->). apply nameOk_child; auto.
  - destruct Hin as [X|[]]; inversion X; subst; auto.
  - destruct Hin as [X|[]]; inversion X; subst; auto.
Qed.
Lemma rule_name n : R1 n <> None -> nameOk n.
Proof.
  destruct (su_rules _ _ _ _ _ _ Su) as [[Hno E]|(Hw & R0 & Hs & Hsh)]; [rewrite E; apply grammar_name|].
  assert (Hr : forall m, R0 m <> None -> nameOk m) by (intros m Hm; apply grammar_name; apply (defined_R0 calls R0 Hs); auto).
  intros Hn. destruct (sh_only _ _ _ _ _ Hsh n Hn) as [->|[->|[(m & Hm & Enn)|(m & ct & items & x & Hm & Hc & Hx & Enn)]]].
  - split; reflexivity.
  - apply grammar_name. apply Su.
  - subst n. destruct (String.eqb m name); auto. apply nameOk_patch; [discriminate|]. intros q [<-|[<-|[]]]; [apply grammar_name, Su|split; reflexivity].
  - subst n. assert (Hm' : R0 m <> None) by congruence.
    destruct (wsItems_only _ _ _ _ Hx) as (j & it & Hj & H1 & [E|[Hmin E]]); rewrite E; apply nameOk_patch; try discriminate; intros q Hq.
    + destruct Hq as [<-|[<-|[<-|[<-|[]]]]]; [|auto|split; reflexivity|apply nameOk_itoa]. apply Hr. eapply ws_refs; [apply Hws; auto|exact Hs|exact Hm|eapply nth_error_In; eauto].
    + destruct Hq as [<-|[<-|[<-|[<-|[]]]]]; [|auto|split; reflexivity|apply nameOk_itoa]. apply Hr. eapply ws_refs; [apply Hws; auto|exact Hs|exact Hm|eapply nth_error_In; eauto].
Qed.
Lemma live_nameOf b a o : usedIn PL a -> nth_error PL a = Some o -> nameOf b o.
Proof.
  intros Ha Ho. assert (Hr : isCh o = true \/ nonChar o) by (destruct o; simpl; auto). destruct Hr as [Hr|No]; [destruct o; try discriminate; exact I|].
  destruct (ao_rule _ _ _ _ _ (su_ok _ _ _ _ _ _ Su) _ _ Ho No) as [H _]. unfold ruleOk in H. rewrite Ho in H.
  assert (Hn : nameOk (nodeName o)).
  { apply rule_name. destruct o as [|nm i c it rs gs ac|nm i c os gs]; [destruct No| |]; simpl.
    - destruct H as (ct' & its & rest & E & _). congruence.
    - destruct H as (ct' & os' & E & _). congruence. }
  destruct o; simpl; auto.
Qed.
End NAMES.

(** without whitespace definitions the root parser has its name in the generated code *)
Theorem root_userDefined calls s fuel s' root : Defined calls s -> noWhitespaceDefs calls -> Init fuel s = Ok (s', None) -> sRoot s' = Some root ->
  rootNamed (parsers s') root.
Proof.
  intros Hd Hw HI Hroot. apply defineAll_raw in Hd. destruct Hd as [Hdef _]. apply userDefined_ws in Hw.
  pose proof (rep_rawAll (map withUserDefined calls) [] _ _ rep_empty Hdef) as Hr. simpl in Hr. set (objs := flat_map callObjs (map withUserDefined calls)) in *.
  pose proof Hr as [R1 R2 R3 R4 R5 R6 R7 R8 R9 R10 R11].
  rewrite Init_split, R1, R2 in HI.
  destruct (sRoot s) as [rt|] eqn:Er; [|discriminate]. destruct (nth_error (sHeap s) rt) as [rd|] eqn:Ed; [|discriminate].
  destruct (sRegistry s) as [reg|] eqn:Eg; [|discriminate]. destruct (checkCommitType rd) eqn:Ecc; [discriminate|].
  assert (Ereg : regOf s = reg) by (unfold regOf; rewrite Eg; auto). rewrite Ereg in *.
  binv HI. destruct x as [[h0 reg1] root1]. binv HI. destruct x as [h' [e|]]; [discriminate|]. inversion HI; subst s'. clear HI. cbn [sRoot sKeywords] in *. inversion Hroot; subst root1. clear Hroot.
  unfold prepare in E. rewrite R6, <- R3, preinitAll_map in E.
  assert (Hnows : hasWhitespace (map preinit (sHeap s)) (seq 0 (List.length (sHeap s))) = false).
  { unfold hasWhitespace. apply existsb_false. intros a _. unfold commitAt. rewrite nth_error_map'. destruct (nth_error (sHeap s) a) as [d|] eqn:Hd; [|reflexivity].
    simpl. rewrite preinit_commit. destruct (nth_error objs a) as [o|] eqn:Eo; [|apply nth_error_None in Eo; assert (a < List.length (sHeap s)) by (apply nth_error_Some; congruence); lia].
    destruct (R4 a o Eo) as (d1 & Hd1 & N1 & N2 & N3 & N4 & N5). rewrite Hd in Hd1. inversion Hd1; subst d1.
    assert (Hs : sameBut [7%N] (dCommit o) (dCommit d)) by (destruct (isCharK (dKind o)); [rewrite N4 by auto; apply sameBut_refl|apply N5; auto]).
    replace (hasFlag (dCommit d) CWhitespace) with (hasFlag (dCommit o) CWhitespace) by (symmetry; apply (sameBut_flag [7%N] (dCommit o) (dCommit d) 2); auto; intros [H|[]]; discriminate).
    apply nth_error_In in Eo. apply call_objs_in in Eo. destruct Eo as (c & Hc & Ho).
    destruct (callObjs_split c) as (chs & o1 & Ec & Hch & _ & _ & _ & Ew & _). rewrite Ec in Ho. apply in_app_or in Ho. destruct Ho as [Ho|[<-|[]]].
    - apply Hch; auto.
    - rewrite Ew. apply Hw; auto. }
  rewrite Hnows in E. inversion E; subst h0 reg1 root. clear E.
  destruct (root_name (map withUserDefined calls) rt) as (o & Ho & Hn & Hc); [fold objs; rewrite <- R9; auto|]. fold objs in Ho.
  destruct (R4 rt o Ho) as (d & Hd & N1 & N2 & _ & _ & N5). rewrite Ed in Hd. inversion Hd; subst d. clear Hd. destruct (N5 Hc) as [S1 _].
  assert (Hf : hasFlag (dCommit rd) CUserDefined = true).
  { change CUserDefined with (2 ^ 8)%N. replace (hasFlag (dCommit rd) (2 ^ 8)%N) with (hasFlag (dCommit o) (2 ^ 8)%N) by (symmetry; apply (sameBut_flag [7%N] (dCommit o) (dCommit rd) 8); auto; intros [H|[]]; discriminate).
    apply nth_error_In in Ho. apply call_objs_in in Ho. destruct Ho as (c & Hcin & Ho). destruct (callObjs_main c o Ho Hc) as [_ Hk]. rewrite Hk by discriminate.
    apply in_map_iff in Hcin. destruct Hcin as (c0 & <- & _). change (2 ^ 8)%N with CUserDefined. clear. assert (X : forall ct, hasFlag (N.lor ct CUserDefined) CUserDefined = true).
    { intros ct. change CUserDefined with (2 ^ 8)%N. rewrite hasFlag_bit, N.lor_spec, N.pow2_bits_true, orb_true_r. auto. }
    destruct c0; apply X. }
  assert (Hun : forall a d, nth_error (map preinit (sHeap s)) a = Some d -> unwalkedK (dKind d)).
  { intros a d. rewrite nth_error_map'. destruct (nth_error (sHeap s) a) as [d0|] eqn:Hd0; simpl; [|discriminate]. intros H; inversion H; subst. apply unwalked_preinit.
    destruct (nth_error objs a) as [o1|] eqn:Eo; [|apply nth_error_None in Eo; assert (a < List.length (sHeap s)) by (apply nth_error_Some; congruence); lia].
    destruct (R4 a o1 Eo) as (d1 & Hd1 & _ & M2 & _). rewrite Hd0 in Hd1. inversion Hd1; subst d1. rewrite M2. apply R5. eapply nth_error_In; eauto. }
  destruct (initCore_ok _ _ Hun _ _ _ _ E0) as (Hfin & _). specialize (Hfin rt). unfold finalAt in Hfin. rewrite nth_error_map', Ed in Hfin. cbn [option_map] in Hfin.
  destruct Hfin as (d' & Hd' & Hk). exists (toParser d'). unfold parsers. cbn [sHeap]. rewrite nth_error_map', Hd'. split; auto.
  rewrite <- N2 in Hc. rewrite preinit_commit in Hk. assert (Hk' : isCharK (dKind (preinit rd)) = false) by (unfold preinit, initRanges; destruct (dKind rd) eqn:Ek; simpl in *; try rewrite Ek; auto).
  destruct (dKind (preinit rd)); [discriminate| |].
  - destruct Hk as (gs & [(_ & ->)|(_ & _ & _ & ->)]); auto.
  - destruct Hk as (gs & [(_ & ->)|(_ & _ & _ & ->)]); auto.
Qed.
