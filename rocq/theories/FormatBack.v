(** The textual form of definitions, read back. *)
From Verif Require Import Base Utf8 Utf8Facts Parser Build Syntax SyntaxFacts Grammar RefSpec RefApi ReadSpec ReadUse SelfLang ReadLang ReadMeans DefSpec DefineFacts Rep Api ApiSpec ApiFacts Format FormatSpec FormatItems FormatSeq FormatDef FormatRead.
Local Open Scope string_scope.
Local Open Scope list_scope.
Local Open Scope nat_scope.

Lemma spelled_rereads name t e : spells (stringRunes (name ++ "=" ++ t)) [mkTextDef name 0%N e] -> plainExpr e -> rereads name t (methodCall (mkTextDef name 0%N e)).
Proof.
  intros Hs Hp s s' err Hi. rewrite (spells_methods s _ _ Hi Hs); [|intros d [<-|[]]; exact Hp]. cbn [map defineAll]. destruct (defineCall s _) as [s1 [e1|]]; tauto.
Qed.
Lemma user_flag d : hasFlag (callFlags (withUserDefined d)) CUserDefined = true.
Proof. destruct d; cbn [withUserDefined callFlags]; change CUserDefined with (2 ^ 8)%N; rewrite hasFlag_bit, N.lor_spec, N.pow2_bits_true; apply orb_true_r. Qed.
Lemma user_name d : callName (withUserDefined d) = callName d.
Proof. destruct d; reflexivity. Qed.

Section DEFINED.
Variables (calls : list defcall) (s : syntax).
Hypothesis Hdef : Defined calls s.
Let Hraw : rawAll emptySyntax (map withUserDefined calls) = (s, None) := proj1 (defineAll_raw _ _ _ Hdef).

Theorem class_back k name ct cnot chars ranges : In (DClass name ct cnot chars ranges) calls -> plainName name ->
  Forall fair chars -> Forall (fun r => fair (fst r) /\ fair (snd r)) ranges ->
  exists t, formatOf (S (S k)) s name = Ok t /\ rereads name t (DClass name 0%N cnot chars ranges).
Proof.
  intros Hd Hn Hc Hr. apply (in_map withUserDefined) in Hd. destruct (class_at _ _ Hraw _ _ _ _ _ Hd) as (d & Ed & _ & Ek & Ec).
  exists (formatChar cnot chars ranges). rewrite (formatOf_at s), Ed. split; [eapply class_kind; eauto|].
  pose proof (atom_spells name (EClass cnot chars ranges) Hn (conj Hc Hr)) as X. cbn [printed] in X. rewrite classAtom_text in X.
  assert (Y : forall s0, defineCall s0 (methodCall (mkTextDef name 0%N (normal (EClass cnot chars ranges)))) = defineCall s0 (DClass name 0%N cnot chars ranges)).
  { intros s0. destruct cnot, chars, ranges; reflexivity. }
  intros s0 s1 err Hi. rewrite <- Y. apply spelled_rereads; auto. destruct cnot, chars, ranges; exact I.
Qed.
Theorem any_back k name ct : In (DAnyChar name ct) calls -> plainName name ->
  exists t, formatOf (S (S k)) s name = Ok t /\ rereads name t (DAnyChar name 0%N).
Proof.
  intros Hd Hn. apply (in_map withUserDefined) in Hd. destruct (any_at _ _ Hraw _ _ Hd) as (d & Ed & _ & Ek & Ec).
  exists (formatChar true [] []). rewrite (formatOf_at s), Ed. split; [eapply class_kind; eauto|].
  apply (spelled_rereads name _ EAny); [|exact I]. apply (atom_spells name EAny Hn I).
Qed.
Theorem literal_back k name ct chars : In (DCharSequence name ct chars) calls -> plainName name ->
  Forall fair chars -> List.length chars = 1 \/ ~ In 34%Z chars ->
  exists t, formatOf (S (S k)) s name = Ok t /\
    rereads name t (if Nat.eqb (List.length chars) 1 then DClass name 0%N false chars [] else DCharSequence name 0%N chars).
Proof.
  intros Hd Hn Hc Hq. apply (in_map withUserDefined) in Hd. destruct (literal_at _ _ Hraw _ _ _ Hd) as (d & Ed & _ & Ek).
  exists (runesString (atomText (literalAtom chars))). rewrite (formatOf_at s), Ed. split; [eapply literal_kind; eauto|].
  pose proof (spelled_rereads name _ _ (atom_spells name (EText chars) Hn (conj Hc Hq))) as X. cbn [printed] in X. destruct chars as [|c [|c' chars]]; apply X; exact I.
Qed.
Definition backItem (it : seqItem) : seqItem := mkItem (siName it) (fst (normalBounds (boundsPair it))) (snd (normalBounds (boundsPair it))).
Lemma backItem_bounds it : bounds (backItem it) = bounds it.
Proof.
  unfold backItem, bounds, normalBounds, boundsPair, normalizeItemRange. cbn [fst snd siMin siMax siName].
  destruct (Z.eqb_spec (siMin it) 0) as [E1|E1], (Z.eqb_spec (siMax it) 0) as [E2|E2]; cbn [andb siMin siMax Z.eqb fst snd]; try reflexivity.
  all: destruct (Z.leb_spec (siMin it) 0) as [L1|L1], (Z.leb_spec (siMax it) 0) as [L2|L2]; try lia.
  all: match goal with |- context [(Z.eqb ?a 1 && Z.eqb ?b 1)%bool] => destruct (Z.eqb_spec a 1) as [A|A], (Z.eqb_spec b 1) as [B|B]; try lia; cbn [andb fst snd] end.
  all: rewrite ?A, ?B; try reflexivity.
  all: match goal with |- context [(Z.eqb ?a 0 && Z.eqb ?b 0)%bool] => destruct (Z.eqb_spec a 0) as [A0|A0], (Z.eqb_spec b 0) as [B0|B0]; try lia; cbn [andb fst snd] end.
  all: repeat match goal with |- context [Z.ltb ?a ?b] => destruct (Z.ltb_spec a b); try lia end; try reflexivity; f_equal; try lia; try (f_equal; lia).
Qed.
Theorem sequence_back k name ct items : In (DSequence name ct items) calls -> plainName name -> items <> [] -> Forall intRange items ->
  (forall it, In it items -> plainName (siName it) /\ In (siName it) (map callName calls)) ->
  exists t items', formatOf (S (S (S k))) s name = Ok t /\ map siName items' = map siName items /\ map bounds items' = map bounds items /\
    rereads name t (DSequence name 0%N items').
Proof.
  intros Hd Hn Hne Hr Hi. apply (in_map withUserDefined) in Hd. cbn [withUserDefined] in Hd. destruct (seq_at _ _ Hraw _ _ _ Hd) as (d & Ed & Ek).
  set (xs := map (fun it => ESymbol (siName it)) items).
  assert (Hx : Forall readable xs) by (apply Forall_map, Forall_forall; intros it Hit; exact (proj1 (Hi it Hit))).
  assert (Hsh : Forall2 (fun it x => shows (map withUserDefined calls) (siName it) x) items xs).
  { unfold xs. clear - Hi. induction items as [|it items IH]; cbn [map]; constructor; [|apply IH; intros; apply Hi; right; auto].
    destruct (Hi it (or_introl eq_refl)) as [H1 H2]. apply in_map_iff in H2. destruct H2 as (c & E & Hc). cbn [shows]. repeat split; auto; try apply H1.
    exists (withUserDefined c). split; [apply in_map; auto|]. rewrite user_name. split; [auto|apply user_flag]. }
  destruct items as [|it items]; [congruence|]. cbn [map] in xs. subst xs. set (xs := map (fun it => ESymbol (siName it)) items) in *.
  assert (Hl : List.length items = List.length xs) by (unfold xs; rewrite map_length; auto).
  pose proof (seq_spells name it items (ESymbol (siName it)) xs Hn Hr Hx Hl) as Hsp.
  exists (runesString (seqText (pitemOf it (ESymbol (siName it))) (pitems items xs))), (map backItem (it :: items)). rewrite (formatOf_at s), Ed.
  split; [eapply format_seq; eauto|].
  { inversion Hr; subst. inversion Hx; subst. destruct (pitem_ok it (ESymbol (siName it))) as [[HA _] _]; auto. unfold itemText. pose proof (atom_nonempty _ HA). destruct (atomText _); [congruence|discriminate]. }
  split; [rewrite map_map; reflexivity|]. split; [rewrite map_map; apply map_ext; intros; apply backItem_bounds|].
  assert (E : exprItems (it :: items) (ESymbol (siName it) :: xs) = map (fun it => (ESymbol (siName it), boundsPair it)) (it :: items)).
  { unfold exprItems, xs. cbn [combine map fst snd]. f_equal. clear. induction items as [|i items IH]; cbn [combine map]; auto. f_equal. auto. }
  rewrite E in Hsp.
  assert (M : methodCall (mkTextDef name 0%N (normalSeq (map (fun it => (ESymbol (siName it), boundsPair it)) (it :: items)))) = DSequence name 0%N (map backItem (it :: items)) /\
    plainExpr (normalSeq (map (fun it => (ESymbol (siName it), boundsPair it)) (it :: items)))).
  { unfold normalSeq. rewrite map_map. cbn [fst snd normal].
    assert (G : forall l, map (fun it => mkItem (symbolOf (fst it)) (fst (snd it)) (snd (snd it))) (map (fun x => (ESymbol (siName x), normalBounds (boundsPair x))) l) = map backItem l) by (intros; rewrite map_map; reflexivity).
    assert (P : plainExpr (ESequence (map (fun x => (ESymbol (siName x), normalBounds (boundsPair x))) (it :: items)))).
    { intros x b Hin. apply in_map_iff in Hin. destruct Hin as (y & Ey & _). inversion Ey; subst. eauto. }
    cbn [map] in *. destruct (normalBounds (boundsPair it)) as [a b] eqn:Eb. destruct a; [destruct b; [destruct items|..]|..]; cbn [map] in *.
    all: change (backItem it :: map backItem ?l) with (map backItem (it :: l)); try change (backItem it :: backItem ?y :: map backItem ?l) with (map backItem (it :: y :: l)).
    all: try (split; [rewrite <- G; cbn [map]; rewrite Eb; reflexivity|exact P]).
    all: split; [cbn [methodCall tdExpr tdName tdFlags map]; unfold backItem; rewrite Eb; reflexivity|exact I]. }
  destruct M as [M1 M2]. rewrite <- M1. apply spelled_rereads; auto.
Qed.
End DEFINED.

(** ** definitions read from a text *)
Section READ.
Variables (text : list rune) (defs : list textDef) (s : syntax).
Hypothesis Hsp : spells text defs.
Hypothesis Hread : Reads emptySyntax text REof s None.
Let calls := flat_map textCalls defs.
Let Hraw : rawAll emptySyntax calls = (s, None) := proj1 (spells_means emptySyntax text defs eq_refl Hsp s None) Hread.

Definition flatItems (items : list (expr * (Z * Z))) : Prop :=
  forall x b, In (x, b) items -> readable x /\ intRange (mkItem "" (fst b) (snd b)) /\ forall m, x = ESymbol m -> In m (map tdName defs).
Lemma inner_flag ct : hasFlag (innerFlags ct) CUserDefined = false.
Proof. unfold innerFlags. change CUserDefined with (2 ^ 8)%N. rewrite hasFlag_bit, N.lor_spec, N.land_spec. simpl. apply andb_false_r. Qed.
Lemma last_call d : exists c, In c (textCalls d) /\ callName c = tdName d /\ hasFlag (callFlags c) CUserDefined = true.
Proof.
  assert (F : hasFlag (N.lor (tdFlags d) CUserDefined) CUserDefined = true) by (change CUserDefined with (2 ^ 8)%N; rewrite hasFlag_bit, N.lor_spec, N.pow2_bits_true; apply orb_true_r).
  unfold textCalls. rewrite callsOf_eq. destruct (tdExpr d); try (eexists; split; [left; reflexivity|split; [reflexivity|exact F]]).
  all: eexists; split; [apply in_or_app; right; left; reflexivity|split; [reflexivity|exact F]].
Qed.
Lemma items_show name ct items : flatItems items -> forall i, (forall c, In c (innerItems name ct i items) -> In c calls) ->
  Forall2 (fun it x => shows calls (siName it) x) (itemRefs name i items) (map fst items).
Proof.
  induction items as [|[x [mn mx]] items IH]; intros Hf i Hc; cbn [itemRefs map fst]; constructor.
  - destruct (Hf x (mn, mx) (or_introl eq_refl)) as (Hr & _ & Hm). cbn [innerItems siName] in *.
    destruct x as [|cn ch rs|cs|m|its|os]; cbn [isSymbol refTo shows] in *; try tauto; try (exists (innerFlags ct); split; [apply Hc; left; reflexivity|apply inner_flag]).
    split; auto. split; auto. specialize (Hm m eq_refl). apply in_map_iff in Hm. destruct Hm as (d & E & Hd). destruct (last_call d) as (c & H1 & H2 & H3). exists c. split; [apply in_flat_map; eauto|]. rewrite H2. auto.
  - apply IH; [intros y b Hy; apply Hf; right; auto|]. intros c Hin. apply Hc. cbn [innerItems]. apply in_or_app. right. auto.
Qed.
Theorem text_back k name flags items : In (mkTextDef name flags (ESequence items)) defs -> plainName name -> items <> [] -> flatItems items ->
  exists t, formatOf (S (S (S k))) s name = Ok t /\ spells (stringRunes (name ++ "=" ++ t)) [mkTextDef name 0%N (normalSeq items)].
Proof.
  intros Hd Hn Hne Hf. set (ct := N.lor flags CUserDefined).
  assert (Hin : forall c, In c (innerItems name ct 0 items ++ [DSequence name ct (itemRefs name 0 items)]) -> In c calls).
  { intros c Hc. apply in_flat_map. exists (mkTextDef name flags (ESequence items)). split; auto. unfold textCalls. cbn [tdName tdFlags tdExpr]. rewrite callsOf_eq. exact Hc. }
  pose proof (items_show name ct items Hf 0 (fun c Hc => Hin c (in_or_app _ _ _ (or_introl Hc)))) as Hsh.
  destruct (seq_at _ _ Hraw name ct (itemRefs name 0 items)) as (d & Ed & Ek); [apply Hin; apply in_or_app; right; left; reflexivity|].
  assert (Hr : forall i, Forall intRange (itemRefs name i items)).
  { clear - Hf. induction items as [|[x [mn mx]] items IH]; intros i; cbn [itemRefs]; constructor; [|apply IH; intros y b Hy; apply Hf; right; auto]. destruct (Hf x (mn, mx) (or_introl eq_refl)) as (_ & H & _). exact H. }
  assert (Hx : Forall readable (map fst items)).
  { apply Forall_map, Forall_forall. intros [x b] Hi. destruct (Hf x b Hi) as (H & _). exact H. }
  assert (Eb : forall i, exprItems (itemRefs name i items) (map fst items) = items).
  { clear. induction items as [|[x [mn mx]] items IH]; intros i; auto. cbn [itemRefs map fst]. unfold exprItems in *. cbn [combine map fst snd]. f_equal. apply IH. }
  specialize (Hr 0). specialize (Eb 0). destruct items as [|[x [mn mx]] items]; [congruence|]. cbn [itemRefs map fst] in *. rewrite <- Eb.
  eexists. rewrite (formatOf_at s), Ed. split; [eapply format_seq; eauto|].
  { inversion Hr; subst. inversion Hx; subst. destruct (pitem_ok (mkItem (refTo name 0 x) mn mx) x) as [[H1' _] _]; auto. unfold itemText. pose proof (atom_nonempty _ H1'). destruct (atomText _); [congruence|discriminate]. }
  apply seq_spells; auto. apply Forall2_len in Hsh. simpl in Hsh. lia.
Qed.
End READ.
