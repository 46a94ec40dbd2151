(** The printed definitions of a syntax, read as syntax. *)
From Coq Require Import DecimalString Decimal.
From Verif Require Import Base Utf8 Utf8Facts Parser Build Syntax SyntaxFacts Escape Grammar RefSpec RefFuel RefApi RefCheck LeftCheck ReadSpec SelfGrammar SelfLang ReadLang ReadMeans DefSpec DefineFacts Rep Api ApiSpec ApiFacts Format FormatSpec AbsEval AbsText FormatClass FormatWords FormatNum FormatItems FormatSeq FormatDef.
Local Open Scope string_scope.
Local Open Scope list_scope.
Local Open Scope nat_scope.

(** ** strings of runes *)
Lemma stringOfBytes_app a b : stringOfBytes (a ++ b) = (stringOfBytes a ++ stringOfBytes b)%string.
Proof. induction a as [|x a IH]; cbn [app stringOfBytes append]; auto. rewrite IH. auto. Qed.
Lemma runesString_app a b : runesString (a ++ b) = (runesString a ++ runesString b)%string.
Proof. unfold runesString, encodeUtf8. rewrite map_app, concat_app. apply stringOfBytes_app. Qed.
Lemma append_nil s : (s ++ "")%string = s.
Proof. induction s as [|a s IH]; cbn [append]; auto. rewrite IH. auto. Qed.
Lemma append_assoc a b c : ((a ++ b) ++ c)%string = (a ++ b ++ c)%string.
Proof. induction a as [|x a IH]; cbn [append]; auto. rewrite IH. auto. Qed.
Lemma encodeRune_nonempty r : encodeRune r <> [].
Proof. unfold encodeRune. destruct (_ || _)%bool; repeat destruct (Z.ltb _ _); discriminate. Qed.
Lemma runesString_nonempty w : w <> [] -> runesString w <> "".
Proof.
  destruct w as [|r w]; [congruence|]. intros _. unfold runesString, encodeUtf8. cbn [map concat]. pose proof (encodeRune_nonempty r). destruct (encodeRune r); [congruence|]. discriminate.
Qed.
Lemma runesString_num z : (0 <= z)%Z -> runesString (numText z) = itoa z.
Proof.
  intros H. destruct (itoa_uint z H) as (u & E & _). unfold numText. rewrite E. clear E H z.
  induction u as [|u IH|u IH|u IH|u IH|u IH|u IH|u IH|u IH|u IH|u IH]; cbn [NilEmpty.string_of_uint]; auto;
  match goal with |- runesString (runesOf (String ?a ?s)) = _ => change (runesOf (String a s)) with ([Z.of_N (Ascii.N_of_ascii a)] ++ runesOf s); rewrite runesString_app, IH; reflexivity end.
Qed.
Lemma quant_string mn mx : fine mn mx -> runesString (quantText mn mx) = formatQuantifier mn mx.
Proof.
  intros [H1 H2]. unfold quantText, formatQuantifier. repeat (destruct (_ && _)%bool; [reflexivity|]).
  rewrite !runesString_app. f_equal. f_equal. destruct (Z.eqb mn mx); [apply runesString_num; lia|]. rewrite !runesString_app. f_equal.
  - destruct (Z.ltb_spec 0 mn); [apply runesString_num; lia|reflexivity].
  - f_equal. destruct (Z.leb_spec 0 mx); [apply runesString_num; lia|reflexivity].
Qed.

(** ** characters that survive in a text *)
Lemma fair_ascii r : (0 <= r < 128)%Z -> fair r.
Proof. unfold fair, scalar, runeError. lia. Qed.
Lemma fair_esc1 c : fair c -> Forall fair (esc1 c).
Proof.
  intros H. assert (H92 : fair 92%Z) by (apply fair_ascii; lia). destruct (esc1_form c) as [Hc|x E Hx].
  - constructor; [exact H|constructor].
  - constructor; [exact H92|constructor; [|constructor]]. destruct Hx as [->|Hx]; [exact H|]. apply fair_ascii. simpl in Hx. intuition lia.
Qed.
Lemma fair_esc cs : Forall fair cs -> Forall fair (esc cs).
Proof. induction 1 as [|c cs Hc H IH]; [constructor|]. rewrite esc_cons. apply Forall_app. split; auto. apply fair_esc1; auto. Qed.
Lemma fair_app a b : Forall fair a -> Forall fair b -> Forall fair (a ++ b).
Proof. intros. apply Forall_app. auto. Qed.
Definition fairAtom (a : atom) : Prop :=
  match a with
  | PSym w => Forall fair w
  | PAny => True
  | PClass _ chars ranges => Forall fair chars /\ Forall (fun r => fair (fst r) /\ fair (snd r)) ranges
  | PText chars => Forall fair chars
  end.
Lemma fair_ranges l : Forall (fun r => fair (fst r) /\ fair (snd r)) l -> Forall fair (escRanges l).
Proof.
  induction 1 as [|[a b] l [H1 H2] H IH]; [constructor|]. cbn [escRanges]. cbn [fst snd] in *. repeat apply fair_app; auto; try (apply fair_esc1; auto).
  constructor; [apply fair_ascii; lia|constructor].
Qed.
Lemma fair_one r : (0 <= r < 128)%Z -> Forall fair [r].
Proof. intros. constructor; [apply fair_ascii; auto|constructor]. Qed.
Lemma fair_atom a : fairAtom a -> Forall fair (atomText a).
Proof.
  destruct a as [w| |cnot chars ranges|chars]; cbn [fairAtom atomText]; auto.
  - intros _. apply fair_one. lia.
  - intros [H1 H2]. unfold classText. repeat apply fair_app; try (apply fair_one; lia); [destruct cnot; [apply fair_one; lia|constructor]|apply fair_esc; auto|apply fair_ranges; auto].
  - intros H. unfold literalText. repeat apply fair_app; try (apply fair_one; lia). apply fair_esc. auto.
Qed.
Lemma fair_num z : (0 <= z)%Z -> Forall fair (numText z).
Proof. intros H. destruct (numText_ok z H) as (H1 & _). eapply Forall_impl; [|exact H1]. intros r Hr. apply fair_ascii. unfold digit in Hr. lia. Qed.
Lemma fair_quant mn mx : fine mn mx -> Forall fair (quantText mn mx).
Proof.
  intros [H1 H2]. unfold quantText. repeat (destruct (_ && _)%bool; [first [constructor; fail | apply fair_one; lia | constructor]|]).
  repeat apply fair_app; try (apply fair_one; lia). destruct (Z.eqb mn mx); [apply fair_num; lia|]. repeat apply fair_app; try (apply fair_one; lia).
  - destruct (Z.ltb_spec 0 mn); [apply fair_num; lia|constructor].
  - destruct (Z.leb_spec 0 mx); [apply fair_num; lia|constructor].
Qed.
Lemma fair_item p : fairAtom (pAtom p) -> fine (pMin p) (pMax p) -> Forall fair (itemText p).
Proof. intros. apply fair_app; [apply fair_atom|apply fair_quant]; auto. Qed.
Lemma fair_rest l : Forall (fun p => fairAtom (pAtom p) /\ fine (pMin p) (pMax p)) l -> Forall fair (restText l).
Proof.
  induction 1 as [|p l [H1 H2] H IH]; [constructor|]. cbn [restText]. apply fair_app; [apply fair_one; lia|]. apply fair_app; [apply fair_item; auto|auto].
Qed.
Lemma fair_scalar l : Forall fair l -> Forall scalar l.
Proof. apply Forall_impl. intros r [H _]. auto. Qed.
Lemma fair_error l : Forall fair l -> ~ In runeError l.
Proof. intros H X. rewrite Forall_forall in H. destruct (H _ X) as [_ E]. auto. Qed.

(** ** names *)
Lemma plainName_word n : plainName n -> (Forall symbolRune (stringRunes n) /\ stringRunes n <> []) /\ Forall fair (stringRunes n) /\ runesString (stringRunes n) = n.
Proof.
  intros (Hn & Hv & w & Hw & ->). rewrite (runes_string w) in * by (apply fair_scalar; auto). repeat split; auto.
  - apply Forall_forall. intros r Hr. rewrite valid_symbol in Hv. specialize (Hv r). rewrite (runes_string w) in Hv by (apply fair_scalar; auto). exact (Hv Hr).
  - intros ->. apply Hn. reflexivity.
Qed.

(** ** the objects of a syntax *)
Section OBJS.
Variables (calls : list defcall) (s : syntax).
Hypothesis Hraw : rawAll emptySyntax calls = (s, None).
Let Hrep : rep (flat_map callObjs calls) s := rep_rawAll calls [] emptySyntax s rep_empty Hraw.
Let H := sHeap s.
Let M := gDefinition (regOf s).

Lemma obj_at o : In o (flat_map callObjs calls) ->
  exists d, definitionAt H M (dName o) = Some d /\ dName d = dName o /\ dKind d = dKind o /\ hasFlag (dCommit d) CUserDefined = hasFlag (dCommit o) CUserDefined.
Proof.
  intros Hi. apply In_nth_error in Hi. destruct Hi as [a Ha]. destruct (rp_obj _ _ Hrep a o Ha) as (d & Hd & En & Ek & _ & Hc & Hs).
  assert (Hg : nth_error (gDefinitions (regOf s)) a = Some a).
  { rewrite (rp_defs _ _ Hrep). assert (a < List.length (flat_map callObjs calls)) by (apply nth_error_Some; congruence). rewrite nth_error_nth' with (d := 0) by (rewrite seq_length; auto). rewrite seq_nth; auto. }
  destruct (ri_defs _ _ (rp_reg _ _ Hrep) a a Hg) as (d' & Hd' & _ & El). rewrite Hd in Hd'. inversion Hd'; subst d'. clear Hd'.
  exists d. unfold definitionAt, H, M. rewrite <- En, El. split; auto. split; auto. split; auto. destruct (isCharK (dKind o)); [rewrite Hc; auto|].
  destruct (Hs eq_refl) as [Hb _]. change CUserDefined with (2 ^ 8)%N. rewrite !hasFlag_bit. apply Hb. simpl. lia.
Qed.
Lemma objs_in c o : In c calls -> In o (callObjs c) -> In o (flat_map callObjs calls).
Proof. intros. apply in_flat_map. eauto. Qed.
Lemma formatOf_at n name : formatOf n s name = match definitionAt H M name with None => Panic PanicNil | Some d => format n H M d end.
Proof.
  unfold formatOf, M, regOf. destruct (sRegistry s); auto.
Qed.

(** classes *)
Lemma single_char cnot chars ranges : isSingleChar cnot chars ranges = true -> exists c, cnot = false /\ chars = [c] /\ ranges = [].
Proof.
  unfold isSingleChar. intros E. apply andb_true_iff in E. destruct E as [E E3]. apply andb_true_iff in E. destruct E as [E1 E2]. apply negb_true_iff in E1. apply Nat.eqb_eq in E2, E3.
  destruct chars as [|c [|? ?]]; try discriminate. destruct ranges; try discriminate. eauto.
Qed.
Lemma class_kind k d n ct cnot chars ranges : In (newChar (childName n 0) cnot chars ranges) (flat_map callObjs calls) ->
  dKind d = dKind (newSequence n ct [mkItem (childName n 0) 0 0]) ->
  format (S (S k)) H M d = Ok (formatChar cnot chars ranges).
Proof.
  intros Hc Ek. destruct (obj_at _ Hc) as (c & Ec & En & Ekc & Eu). cbn [newChar dName dKind dCommit] in *.
  remember (S k) as k' eqn:Ek'. cbn [format]. rewrite Ek. cbn [newSequence dKind isCharSequence forallb siName siMin siMax normalizeItemRange Z.eqb andb]. rewrite Ec, Ekc.
  destruct (isSingleChar cnot chars ranges); cbn [andb]; [auto|]. cbn [formatItems formatItem siName]. unfold formatItem. rewrite Ec, Eu, Ekc.
  change (hasFlag CAlias CUserDefined) with false. cbv iota. subst k'. cbn [format]. rewrite Ekc. cbn [bind normalizeItemRange siMin siMax Z.eqb andb].
  change (formatQuantifier 1 1) with "". rewrite append_nil. reflexivity.
Qed.

(** literals *)
Definition literalAtom (chars : list rune) : atom := match chars with [c] => PClass false [c] [] | _ => PText chars end.
Lemma formatChar_single c : formatChar false [c] [] = runesString (classText false [c] []).
Proof. reflexivity. Qed.
Definition charItems (n : string) (i : nat) (chars : list rune) : list seqItem := namesToSequenceItems (map (childName n) (seq i (List.length chars))).
Lemma literal_children n chars : (forall o, In o (map (fun ic => newChar (childName n (fst ic)) false [snd ic] []) (combine (seq 0 (List.length chars)) chars)) -> In o (flat_map callObjs calls)) ->
  isCharSequence H M (charItems n 0 chars) = true /\ firstChars H M (charItems n 0 chars) = chars.
Proof.
  unfold charItems. generalize 0. induction chars as [|c chars IH]; intros i Hin; [split; reflexivity|].
  cbn [List.length seq combine map] in Hin |- *. destruct (IH (S i)) as [H1 H2]; [intros; apply Hin; right; auto|].
  destruct (obj_at _ (Hin _ (or_introl eq_refl))) as (d & Ed & _ & Ek & _). cbn [fst snd newChar dName dKind] in *.
  unfold namesToSequenceItems in *. cbn [map isCharSequence forallb firstChars flat_map siName siMin siMax normalizeItemRange Z.eqb andb] in *. rewrite Ed, Ek.
  split; [exact H1|]. cbn [app]. f_equal. exact H2.
Qed.
Lemma literal_kind k d n ct chars : In (DCharSequence n ct chars) calls ->
  dKind d = dKind (newSequence n (N.lor ct CNoWhitespace) (charItems n 0 chars)) ->
  format (S k) H M d = Ok (runesString (atomText (literalAtom chars))).
Proof.
  intros Hc Ek. destruct (literal_children n chars) as [H1 H2].
  { intros o Ho. apply (objs_in _ _ Hc). cbn [callObjs]. apply in_or_app. left. exact Ho. }
  cbn [format]. rewrite Ek. cbn [newSequence dKind]. rewrite H1, H2.
  destruct chars as [|c [|c' chars]]; try reflexivity.
  assert (Hi : In (newChar (childName n 0) false [c] []) (flat_map callObjs calls)) by (apply (objs_in _ _ Hc); left; reflexivity).
  destruct (obj_at _ Hi) as (x & Ex & _ & Ekx & _). cbn [newChar dName dKind] in *. cbn [charItems namesToSequenceItems List.length seq map siName]. rewrite Ex, Ekx. reflexivity.
Qed.

(** ** the items of sequences: references to the definitions of a user, classes and literals *)
Definition classAtom (cnot : bool) (chars : list rune) (ranges : list (rune * rune)) : atom :=
  if cnot && Nat.eqb (List.length chars) 0 && Nat.eqb (List.length ranges) 0 then PAny else PClass cnot chars ranges.
Lemma classAtom_text cnot chars ranges : runesString (atomText (classAtom cnot chars ranges)) = formatChar cnot chars ranges.
Proof. unfold classAtom, formatChar. destruct (_ && _)%bool; [reflexivity|]. cbn [atomText]. unfold classText, notText. reflexivity. Qed.
Definition printed (x : expr) : atom :=
  match x with
  | EAny => PAny
  | EClass cnot chars ranges => classAtom cnot chars ranges
  | EText chars => literalAtom chars
  | ESymbol m => PSym (stringRunes m)
  | _ => PAny
  end.
Definition shows (n : string) (x : expr) : Prop :=
  match x with
  | ESymbol m => n = m /\ plainName m /\ exists d, In d calls /\ callName d = m /\ hasFlag (callFlags d) CUserDefined = true
  | EAny => exists ct, In (DAnyChar n ct) calls /\ hasFlag ct CUserDefined = false
  | EClass cnot chars ranges => exists ct, In (DClass n ct cnot chars ranges) calls /\ hasFlag ct CUserDefined = false
  | EText chars => exists ct, In (DCharSequence n ct chars) calls /\ hasFlag ct CUserDefined = false
  | _ => False
  end.
Lemma call_obj d : In d calls -> exists o, In o (flat_map callObjs calls) /\ dName o = callName d /\ isCharK (dKind o) = false /\ hasFlag (dCommit o) CUserDefined = hasFlag (callFlags d) CUserDefined.
Proof.
  intros Hd. destruct d as [n ct|n ct cn ch rs|n ct chars|n ct items|n ct opts].
  1,2: exists (newSequence n ct [mkItem (childName n 0) 0 0]); repeat split; auto; apply (objs_in _ _ Hd); right; left; reflexivity.
  - exists (newSequence n (N.lor ct CNoWhitespace) (charItems n 0 chars)). repeat split; auto; [apply (objs_in _ _ Hd); apply in_or_app; right; left; reflexivity|].
    cbn [newSequence dCommit callFlags]. change CUserDefined with (2 ^ 8)%N. rewrite !hasFlag_bit, N.lor_spec. apply orb_false_r.
  - exists (newSequence n ct items). repeat split; auto; apply (objs_in _ _ Hd); left; reflexivity.
  - exists (newChoice n ct opts). repeat split; auto; apply (objs_in _ _ Hd); left; reflexivity.
Qed.
Lemma shows_seq n x : shows n x -> exists d, definitionAt H M n = Some d /\ isCharK (dKind d) = false.
Proof.
  intros Hs. assert (Hc : exists d, In d calls /\ callName d = n).
  { destruct x as [|cn ch rs|cs|m|items|opts]; cbn [shows] in Hs; try tauto; try (destruct Hs as (ct & Hs & _); eexists; split; [exact Hs|reflexivity]).
    destruct Hs as (-> & _ & d & Hd & E & _). eauto. }
  destruct Hc as (d & Hd & <-). destruct (call_obj d Hd) as (o & Ho & En & Ek & _). destruct (obj_at o Ho) as (d' & E & _ & Ek' & _). rewrite En in E. exists d'. rewrite Ek'. auto.
Qed.

Lemma class_at n ct cnot chars ranges : In (DClass n ct cnot chars ranges) calls -> exists d, definitionAt H M n = Some d /\
  hasFlag (dCommit d) CUserDefined = hasFlag ct CUserDefined /\ dKind d = dKind (newSequence n ct [mkItem (childName n 0) 0 0]) /\
  In (newChar (childName n 0) cnot chars ranges) (flat_map callObjs calls).
Proof.
  intros Hd. assert (Ho : In (newSequence n ct [mkItem (childName n 0) 0 0]) (flat_map callObjs calls)) by (apply (objs_in _ _ Hd); right; left; reflexivity).
  destruct (obj_at _ Ho) as (d & Ed & _ & Ek & Eu). exists d. repeat split; auto. apply (objs_in _ _ Hd); left; reflexivity.
Qed.
Lemma any_at n ct : In (DAnyChar n ct) calls -> exists d, definitionAt H M n = Some d /\
  hasFlag (dCommit d) CUserDefined = hasFlag ct CUserDefined /\ dKind d = dKind (newSequence n ct [mkItem (childName n 0) 0 0]) /\
  In (newChar (childName n 0) true [] []) (flat_map callObjs calls).
Proof.
  intros Hd. assert (Ho : In (newSequence n ct [mkItem (childName n 0) 0 0]) (flat_map callObjs calls)) by (apply (objs_in _ _ Hd); right; left; reflexivity).
  destruct (obj_at _ Ho) as (d & Ed & _ & Ek & Eu). exists d. repeat split; auto. apply (objs_in _ _ Hd); left; reflexivity.
Qed.
Lemma literal_at n ct chars : In (DCharSequence n ct chars) calls -> exists d, definitionAt H M n = Some d /\
  hasFlag (dCommit d) CUserDefined = hasFlag ct CUserDefined /\ dKind d = dKind (newSequence n (N.lor ct CNoWhitespace) (charItems n 0 chars)).
Proof.
  intros Hd. assert (Ho : In (newSequence n (N.lor ct CNoWhitespace) (charItems n 0 chars)) (flat_map callObjs calls)) by (apply (objs_in _ _ Hd); apply in_or_app; right; left; reflexivity).
  destruct (obj_at _ Ho) as (d & Ed & _ & Ek & Eu). exists d. repeat split; auto. rewrite Eu. cbn [newSequence dCommit]. change CUserDefined with (2 ^ 8)%N. rewrite !hasFlag_bit, N.lor_spec. apply orb_false_r.
Qed.
Lemma seq_at n ct items : In (DSequence n ct items) calls -> exists d, definitionAt H M n = Some d /\ dKind d = dKind (newSequence n ct items).
Proof.
  intros Hd. assert (Ho : In (newSequence n ct items) (flat_map callObjs calls)) by (apply (objs_in _ _ Hd); left; reflexivity).
  destruct (obj_at _ Ho) as (d & Ed & _ & Ek & _). eauto.
Qed.
Lemma format_item k n x : shows n x -> formatItem H M (format (S (S k)) H M) n = Ok (runesString (atomText (printed x))).
Proof.
  intros Hs. unfold formatItem. destruct x as [|cn ch rs|cs|m|items|opts]; cbn [shows] in Hs; try tauto.
  - destruct Hs as (ct & Hd & Hu). destruct (any_at _ _ Hd) as (d & -> & E1 & E2 & E3). rewrite E1, Hu, (class_kind k d n ct true [] []) by auto. rewrite E2. reflexivity.
  - destruct Hs as (ct & Hd & Hu). destruct (class_at _ _ _ _ _ Hd) as (d & -> & E1 & E2 & E3). rewrite E1, Hu, (class_kind k d n ct cn ch rs) by auto. rewrite E2.
    cbn [newSequence dKind List.length Nat.ltb Nat.leb andb bind printed]. rewrite classAtom_text. reflexivity.
  - destruct Hs as (ct & Hd & Hu). destruct (literal_at _ _ _ Hd) as (d & -> & E1 & E2). rewrite E1, Hu, (literal_kind (S k) d n ct cs) by auto. rewrite E2. cbn [newSequence dKind bind printed].
    destruct (literal_children n cs) as [-> _]; [|rewrite andb_false_r; auto]. intros o Ho. apply (objs_in _ _ Hd). cbn [callObjs]. apply in_or_app. left. exact Ho.
  - destruct Hs as (-> & Hn & d & Hd & En & Hu). destruct (call_obj d Hd) as (o & Ho & Eo & _ & Eu). destruct (obj_at o Ho) as (d' & E & En' & _ & Eu'). rewrite Eo, En in E. rewrite E, Eu', Eu, Hu.
    rewrite En', Eo, En. cbn [printed atomText]. destruct (plainName_word m Hn) as (_ & _ & ->). auto.
Qed.
Definition pitemOf (it : seqItem) (x : expr) : pitem := mkP (printed x) (siMin (normalizeItemRange it)) (siMax (normalizeItemRange it)).
Definition pitems (items : list seqItem) (xs : list expr) : list pitem := map (fun ix => pitemOf (fst ix) (snd ix)) (combine items xs).
Lemma normal_fine it : intRange it -> fine (siMin (normalizeItemRange it)) (siMax (normalizeItemRange it)).
Proof.
  intros [H1 H2]. unfold fine, normalizeItemRange. destruct (_ && _)%bool; [cbn [siMin siMax]; lia|]. cbn [siMin siMax]. destruct (Z.leb_spec (siMin it) 0), (Z.leb_spec (siMax it) 0); lia.
Qed.
Lemma pitem_text k it x : intRange it -> shows (siName it) x ->
  formatItem H M (format (S (S k)) H M) (siName it) = Ok (runesString (atomText (printed x))) /\
  (runesString (atomText (printed x)) ++ formatQuantifier (siMin (normalizeItemRange it)) (siMax (normalizeItemRange it)))%string = runesString (itemText (pitemOf it x)).
Proof. intros Hi Hs. split; [apply format_item; auto|]. unfold itemText. cbn [pitemOf pAtom pMin pMax]. rewrite runesString_app, quant_string by (apply normal_fine; auto). auto. Qed.
Lemma format_rest k items : forall xs w, Forall intRange items -> Forall2 (fun it x => shows (siName it) x) items xs -> w <> [] ->
  formatItems H M (format (S (S k)) H M) (runesString w) items = Ok (runesString (w ++ restText (pitems items xs))).
Proof.
  induction items as [|it items IH]; intros xs w Hr Hs Hw; inversion Hs as [|? x ? xs' H1 H2]; subst; cbn [formatItems pitems combine map restText]; [rewrite app_nil_r; auto|].
  inversion Hr as [|? ? R1 R2]; subst. destruct (pitem_text k it x R1 H1) as [-> E]. cbn [bind]. pose proof (runesString_nonempty w Hw) as Hne. destruct (runesString w) as [|a t] eqn:Ew; [congruence|]. rewrite <- Ew. clear Hne.
  rewrite E. change " " with (runesString [32%Z]). rewrite <- !runesString_app, (IH xs'); auto; [|destruct w; [congruence|discriminate]].
  rewrite <- !app_assoc. reflexivity.
Qed.
Definition seqTextOf (ps : list pitem) : list rune := match ps with [] => [] | p :: l => seqText p l end.
Lemma format_seq k d n ct it items x xs : dKind d = dKind (newSequence n ct (it :: items)) -> itemText (pitemOf it x) <> [] ->
  Forall intRange (it :: items) -> Forall2 (fun it x => shows (siName it) x) (it :: items) (x :: xs) ->
  format (S (S (S k))) H M d = Ok (runesString (seqText (pitemOf it x) (pitems items xs))).
Proof.
  intros Ek Hne Hr Hs. remember (S (S k)) as k' eqn:Ek'. cbn [format]. rewrite Ek. cbn [newSequence dKind]. inversion Hs as [|? ? ? ? H1 H2]; subst. inversion Hr as [|? ? R1 R2]; subst.
  assert (E : isCharSequence H M (it :: items) = false).
  { destruct (shows_seq _ _ H1) as (d1 & Ed & Ek1). cbn [isCharSequence forallb]. rewrite Ed. destruct (dKind d1); try discriminate; rewrite !andb_false_r; auto. }
  rewrite E. cbn [formatItems]. destruct (pitem_text k it x R1 H1) as [-> E1]. cbn [bind append]. rewrite E1, (format_rest k items xs) by auto. auto.
Qed.
End OBJS.

(** ** reading *)
Lemma readable_ok x : readable x -> atomOk (printed x) /\ fairAtom (printed x).
Proof.
  destruct x as [|cn ch rs|cs|m|items|opts]; cbn [readable printed]; try tauto.
  - intros [H1 H2]. unfold classAtom. destruct (_ && _)%bool; cbn [atomOk fairAtom]; auto.
  - intros [H1 H2]. unfold literalAtom. destruct cs as [|c [|c' cs]]; cbn [atomOk fairAtom]; [split; [intros []|auto]|auto|]. split; auto. destruct H2 as [H2|H2]; [discriminate|exact H2].
  - intros Hn. destruct (plainName_word m Hn) as (H1 & H2 & _). cbn [atomOk fairAtom]. auto.
Qed.
Lemma readable_expr x : readable x -> atomExpr (printed x) = normal x.
Proof.
  destruct x as [|cn ch rs|cs|m|items|opts]; cbn [readable printed normal]; try tauto.
  - intros _. unfold classAtom. destruct cn, ch, rs; reflexivity.
  - intros _. unfold literalAtom. destruct cs as [|c [|c' cs]]; reflexivity.
  - intros Hn. destruct (plainName_word m Hn) as (_ & _ & E). cbn [atomExpr]. rewrite E. auto.
Qed.
Lemma text_runes name w : plainName name -> Forall fair w -> stringRunes (name ++ "=" ++ runesString w) = stringRunes name ++ [61%Z] ++ w /\ ~ In runeError (stringRunes name ++ [61%Z] ++ w).
Proof.
  intros Hn Hw. destruct (plainName_word name Hn) as (_ & Hf & E). assert (Ha : Forall fair (stringRunes name ++ [61%Z] ++ w)) by (apply fair_app; [auto|apply fair_app; [apply fair_one; lia|auto]]).
  split; [|apply fair_error; auto]. rewrite <- E at 1. change "=" with (runesString [61%Z]). rewrite <- !runesString_app, runes_string; [auto|]. apply fair_scalar. auto.
Qed.
Theorem atom_spells name x : plainName name -> readable x -> spells (stringRunes (name ++ "=" ++ runesString (atomText (printed x)))) [mkTextDef name 0%N (normal x)].
Proof.
  intros Hn Hx. destruct (readable_ok x Hx) as [H1 H2]. destruct (text_runes name (atomText (printed x)) Hn (fair_atom _ H2)) as [-> Hv]. destruct (plainName_word name Hn) as (Hw & _ & E).
  rewrite <- (readable_expr x Hx). rewrite <- E at 2. apply spells_atom; auto.
Qed.
Lemma pitem_ok it x : readable x -> intRange it -> itemOk (pitemOf it x) /\ (fairAtom (pAtom (pitemOf it x)) /\ fine (pMin (pitemOf it x)) (pMax (pitemOf it x))).
Proof. intros Hx Hi. destruct (readable_ok x Hx). unfold itemOk, pitemOf. cbn [pAtom pMin pMax]. pose proof (normal_fine it Hi). auto. Qed.
Definition boundsPair (it : seqItem) : Z * Z := (siMin it, siMax it).
Lemma pitem_expr it x : readable x -> pexpr (pitemOf it x) = (normal x, normalBounds (boundsPair it)).
Proof.
  intros Hx. unfold pexpr, pitemOf, itemBounds, once, normalBounds, boundsPair. cbn [pAtom pMin pMax fst snd]. rewrite readable_expr by auto. f_equal.
  unfold normalizeItemRange. cbn [siMin siMax siName]. destruct (Z.eqb (siMin it) 0 && Z.eqb (siMax it) 0)%bool; cbn [siMin siMax]; reflexivity.
Qed.
Lemma bounds_zero it : normalBounds (boundsPair it) = (0, 0)%Z <-> quantText (siMin (normalizeItemRange it)) (siMax (normalizeItemRange it)) = [].
Proof.
  unfold normalBounds, boundsPair. cbn [fst snd].
  assert (E : siMin (normalizeItemRange (mkItem "" (siMin it) (siMax it))) = siMin (normalizeItemRange it) /\ siMax (normalizeItemRange (mkItem "" (siMin it) (siMax it))) = siMax (normalizeItemRange it)).
  { unfold normalizeItemRange. cbn [siMin siMax siName]. destruct (Z.eqb (siMin it) 0 && Z.eqb (siMax it) 0)%bool; auto. }
  destruct E as [-> ->]. unfold quantText. destruct (Z.eqb _ 1 && Z.eqb _ 1)%bool eqn:E; [tauto|]. split.
  - intros X. exfalso. assert (E0 : siMax (normalizeItemRange it) = 0%Z) by congruence. clear E X. revert E0. unfold normalizeItemRange. destruct (_ && _)%bool; cbn [siMax]; [lia|]. destruct (Z.leb_spec (siMax it) 0); lia.
  - clear E. repeat (destruct (_ && _)%bool; [discriminate|]). discriminate.
Qed.
Definition exprItems (items : list seqItem) (xs : list expr) : list (expr * (Z * Z)) := map (fun ix => (snd ix, boundsPair (fst ix))) (combine items xs).
Theorem seq_spells name it items x xs : plainName name -> Forall intRange (it :: items) -> Forall readable (x :: xs) -> List.length items = List.length xs ->
  spells (stringRunes (name ++ "=" ++ runesString (seqText (pitemOf it x) (pitems items xs)))) [mkTextDef name 0%N (normalSeq (exprItems (it :: items) (x :: xs)))].
Proof.
  intros Hn Hr Hx Hl. inversion Hr as [|? ? R1 R2]; subst. inversion Hx as [|? ? X1 X2]; subst.
  destruct (pitem_ok it x X1 R1) as [P1 P2].
  assert (Ps : Forall itemOk (pitems items xs) /\ Forall (fun p => fairAtom (pAtom p) /\ fine (pMin p) (pMax p)) (pitems items xs) /\
    map pexpr (pitems items xs) = map (fun xb => (normal (fst xb), normalBounds (snd xb))) (exprItems items xs)).
  { clear - R2 X2. revert xs X2. induction R2 as [|i l R Rs IH]; intros [|y xs] X2; cbn [pitems combine exprItems map]; auto. inversion X2; subst.
    destruct (pitem_ok i y) as [A1 A2]; auto. destruct (IH xs) as (B1 & B2 & B3); auto. split; [constructor; auto|]. split; [constructor; auto|]. cbn [fst snd]. rewrite pitem_expr by auto. f_equal. exact B3. }
  destruct Ps as (P3 & P4 & P5).
  assert (Hf : Forall fair (seqText (pitemOf it x) (pitems items xs))) by (apply fair_app; [apply fair_item; tauto|apply fair_rest; auto]).
  destruct (text_runes name _ Hn Hf) as [E Hv]. destruct (plainName_word name Hn) as (Hw & _ & En).
  destruct (tailText (pitemOf it x) (pitems items xs)) as [|r t] eqn:Et.
  - (* a single item without a quantifier *)
    unfold tailText in Et. apply app_eq_nil in Et. destruct Et as [E1 E2]. destruct items as [|i items]; [|destruct xs as [|y xs]; [discriminate|discriminate]]. destruct xs; [|discriminate].
    assert (E3 : normalSeq (exprItems [it] [x]) = normal x).
    { cbn [exprItems combine map fst snd]. unfold normalSeq. cbn [map fst snd]. apply bounds_zero in E1. rewrite E1. auto. }
    rewrite E3. replace (seqText (pitemOf it x) (pitems [] [])) with (atomText (printed x)); [apply atom_spells; auto|].
    unfold seqText, itemText. cbn [pitemOf pAtom pMin pMax] in *. rewrite E1, E2, !app_nil_r. auto.
  - assert (Ht : tailText (pitemOf it x) (pitems items xs) <> []) by (rewrite Et; discriminate).
    assert (E3 : normalSeq (exprItems (it :: items) (x :: xs)) = ESequence (map pexpr (pitemOf it x :: pitems items xs))).
    { cbn [map]. rewrite P5, pitem_expr by auto. cbn [exprItems combine map fst snd]. unfold normalSeq. cbn [map fst snd]. fold (exprItems items xs).
      destruct (normalBounds (boundsPair it)) as [a b] eqn:Eb. destruct items as [|i items]; [|destruct xs as [|y xs]; [discriminate|]; cbn [exprItems combine map]; destruct a, b; reflexivity].
      destruct xs; [|discriminate]. cbn [exprItems combine map]. destruct a; [|reflexivity|reflexivity]. destruct b; [|reflexivity|reflexivity].
      exfalso. apply Ht. apply bounds_zero in Eb. unfold tailText. cbn [pitemOf pMin pMax]. rewrite Eb. reflexivity. }
    rewrite E3, E. rewrite <- En at 2. apply spells_seq; auto.
Qed.
