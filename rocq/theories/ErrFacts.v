(** Errors of a run: positions, reader errors, and independence of the unread input. *)
From Verif Require Import TextSpec Base Utf8 IdSet Results Parser Build ListFacts ResultsFacts ReaderFacts ParseFacts
  FuelFacts TermFacts BuildFacts Lang Sound RunFacts.

Lemma findLineLoop_spec l : forall line col, exists col',
  findLineLoop l line col = (line + newlines l, col') /\
  ((~ In 10%Z l /\ col' = col + List.length l) \/
   exists e s, l = e ++ [10%Z] ++ s /\ ~ In 10%Z s /\ col' = List.length s).
Proof.
  induction l as [|t l IH]; intros line col; cbn [findLineLoop].
  - exists col. unfold newlines. simpl. rewrite !Nat.add_0_r. split; auto.
  - unfold newlines. simpl. destruct (Z.eqb_spec t 10) as [->|Hne].
    + destruct (IH (S line) 0) as (col' & E & H). exists col'. split.
      * rewrite E. simpl. f_equal. unfold newlines. lia.
      * right. destruct H as [[H1 H2]|(e & s & H1 & H2 & H3)].
        -- exists [], l. simpl in *. auto.
        -- exists (10%Z :: e), s. subst l. auto.
    + destruct (IH line (S col)) as (col' & E & H). exists col'. split; auto.
      destruct H as [[H1 H2]|(e & s & H1 & H2 & H3)].
      * left. split; [|lia]. intros [|]; auto.
      * right. exists (t :: e), s. subst l. auto.
Qed.

Lemma findLine_spec toks off line col : findLine toks off = Ok (line, col) ->
  (0 <= off <= Z.of_nat (List.length toks))%Z /\
  line = newlines (firstn (Z.to_nat off) toks) /\ columnOf (firstn (Z.to_nat off) toks) col.
Proof.
  unfold findLine. destruct (_ || _)%bool eqn:E; [discriminate|]. apply orb_false_iff in E.
  destruct E as [E1 E2]. apply Z.ltb_ge in E1, E2. intros H.
  destruct (findLineLoop_spec (firstn (Z.to_nat off) toks) 0 0) as (col' & El & Hc).
  rewrite El in H. inversion H; subst. split; auto. split; auto.
  destruct Hc as [[H1 H2]|(e & s & H1 & H2 & H3)].
  - exists [], (firstn (Z.to_nat off) toks). split; auto.
  - exists (e ++ [10%Z]), s. rewrite <- app_assoc. split; auto. split; auto. split; auto. right. eauto.
Qed.

Lemma firstn_prefix {A} n (l r : list A) : n <= List.length l -> firstn n (l ++ r) = firstn n l.
Proof. intros H. rewrite firstn_app. replace (n - List.length l) with 0 by lia. simpl. apply app_nil_r. Qed.

(** the error of parseError is about a prefix of the input *)
Lemma parseError_spec P input e c p err : cinv input e GT c -> parseError P c p = Ok err ->
  exists off line col ob, err = ErrParse off line col (definitionName (nodeName ob)) /\
    nth_error P p = Some ob /\
    off <= List.length (cTokens c) /\ off <= List.length input /\
    line = newlines (firstn off input) /\ columnOf (firstn off input) col.
Proof.
  intros Hc H. unfold parseError in H. destruct (nth_error P p) as [ob|] eqn:Hp; [|discriminate].
  binv H. destruct x as [line col]. inversion H; subst; clear H.
  apply findLine_spec in E. destruct E as (E1 & E2 & E3).
  set (fo := match cFailingParser c with None => _ | Some _ => _ end) in *.
  pose proof (rinv_prefix _ _ _ (ci_r _ _ _ _ Hc)) as [rest Hin].
  assert (Hle : Z.to_nat fo <= List.length (cTokens c)) by lia.
  exists (Z.to_nat fo), line, col, ob. simpl. split; auto. split; auto. split; auto.
  rewrite Hin, firstn_prefix, app_length by auto. split; [lia|]. auto.
Qed.

(** which errors a run returns *)
Lemma rinv_readErr input e c err : rinv input e c -> cReadErr c = Some err ->
  (err = ErrInvalidUnicodeCharacter /\ In runeError input) \/ exists k, err = ErrReader k /\ e = RFail k.
Proof.
  intros [_ _ H] He. rewrite He in H. destruct err; try contradiction.
  - left. split; auto. destruct H as [-> _]. apply in_or_app. right. left. auto.
  - right. exists code. destruct H as (_ & H & _). auto.
Qed.

Lemma read_err input e c c' ok : rinv input e c -> read c = (c', ok) -> rinv input e c'.
Proof. intros H E. pose proof (read_spec input e c H) as (R & _). rewrite E in R. auto. Qed.

Lemma cinv_read input e c c' ok : cinv input e GT c -> read c = (c', ok) -> cinv input e GT c'.
Proof.
  intros Hc E. pose proof (read_spec input e c (ci_r _ _ _ _ Hc)) as (R1 & R2 & R3). rewrite E in *. simpl in *.
  destruct R2 as (S1 & S2 & S3 & S4 & S5 & S6 & S7).
  assert (Hlen : List.length (cTokens c) <= List.length (cTokens c')).
  { destruct ok.
    - destruct R3 as (r & R3 & _). rewrite R3, app_length. lia.
    - destruct R3 as [-> _]. auto. }
  destruct Hc as [A B C D F G]. split; auto; rewrite ?S1, ?S2, ?S4, ?S6; auto; try lia.
  intros o i t Hs. apply F in Hs. lia.
Qed.

Theorem run_error P B kws root rootB fuel input e err :
  parseInputPB P B kws root rootB fuel input e = Ok (Failed err) ->
  (err = ErrInvalidUnicodeCharacter /\ In runeError input) \/
  (exists k, err = ErrReader k /\ e = RFail k) \/
  (exists off line col a ob, err = ErrParse off line col (definitionName (nodeName ob)) /\
     nth_error P a = Some ob /\ off <= List.length input /\
     line = newlines (firstn off input) /\ columnOf (firstn off input) col).
Proof.
  intros H. unfold parseInputPB in H. binv H. pose proof (parse_cinv _ _ _ _ _ _ _ E) as Hc.
  destruct (cReadErr x) eqn:Ere.
  { inversion H; subst. apply (rinv_readErr _ _ _ _ (ci_r _ _ _ _ Hc)) in Ere. destruct Ere; auto. }
  binv H. destruct x0 as [c1 [err'|]].
  2:{ binv H. destruct x0 as [[[|] ok] c2]; discriminate. }
  inversion H; subst err'; clear H.
  assert (HP : forall c p, cinv input e GT c -> forall c1 err', bind (parseError P c p) (fun e => Ok (c, Some e)) = Ok (c1, Some err') ->
    exists off line col a ob, err' = ErrParse off line col (definitionName (nodeName ob)) /\
     nth_error P a = Some ob /\ off <= List.length input /\
     line = newlines (firstn off input) /\ columnOf (firstn off input) col).
  { intros c p Hcc c2 err' Hb. binv Hb. inversion Hb; subst. eapply parseError_spec in E1; eauto.
    destruct E1 as (off & line & col & ob & E1 & E2 & _ & E3 & E4 & E5). exists off, line, col, p, ob. auto. }
  unfold finalizeParse in E0. destruct (nth_error P root) as [ob|]; [|discriminate].
  destruct (longestResult _ _ _); try (right; right; eapply HP; eauto; fail).
  destruct (_ <? _); [right; right; eapply HP; eauto|].
  destruct (read x) as [c2 ok] eqn:Er. pose proof (cinv_read _ _ _ _ _ Hc Er) as Hc2.
  destruct (cEof c2); [discriminate|].
  destruct (cReadErr c2) eqn:Ere2; [|right; right; eapply HP; eauto].
  inversion E0; subst. apply (rinv_readErr _ _ _ _ (ci_r _ _ _ _ Hc2)) in Ere2. destruct Ere2; auto.
Qed.

(** ** Input that was not read does not matter *)

(** the same context with other unread input *)
Definition extend (c : context) (more : list rune) (e : rend) : context :=
  mkContext (cInput c ++ more) e (cOffset c) (cReadOffset c) (cConsumed c) (cOffsetLimit c) (cFailOffset c)
            (cFailingParser c) (cReadErr c) (cEof c) (cResults c) (cTokens c) (cMatchLast c).
Definition stopped (c : context) : bool :=
  match cReadErr c with Some _ => true | None => cEof c end.

Section EXT.
Variable more : list rune.
Variable e' : rend.
Notation ext c := (extend c more e').

Definition localTo (f g : context -> res context) : Prop :=
  forall c c', f c = Ok c' -> (stopped c = true -> stopped c' = true) /\
               (stopped c' = false -> g (ext c) = Ok (ext c')).

Lemma read_local c c' ok : read c = (c', ok) ->
  (stopped c = true -> stopped c' = true) /\
  (stopped c' = false -> read (ext c) = (ext c', ok)).
Proof.
  unfold read, stopped. simpl. destruct (cEof c) eqn:Ee.
  - intros H; inversion H; subst. rewrite Ee. destruct (cReadErr c'); split; auto; discriminate.
  - destruct (cReadErr c) eqn:Er.
    + intros H; inversion H; subst. rewrite Er. split; auto; discriminate.
    + destruct (cInput c) as [|t rest] eqn:Ei.
      * destruct (cEnd c); intros H; inversion H; subst; simpl; rewrite ?Er; split; auto; discriminate.
      * destruct (Z.eqb t runeError) eqn:Et; intros H; inversion H; subst; simpl; rewrite ?Et; split; auto; try discriminate;
        intros _; unfold extend; simpl; rewrite Er, Ee; auto.
Qed.

Lemma token_local c c' tok : token c = Ok (c', tok) ->
  (stopped c = true -> stopped c' = true) /\
  (stopped c' = false -> token (ext c) = Ok (ext c', tok)).
Proof.
  unfold token. simpl. destruct (match cOffsetLimit c with Some l => _ | None => _ end).
  - intros H; inversion H; subst; auto.
  - destruct (cOffset c =? cReadOffset c).
    + destruct (read c) as [c1 ok] eqn:Er. apply read_local in Er. destruct Er as [R1 R2].
      destruct ok.
      * destruct (nth_error (cTokens c1) (cOffset c1)) eqn:En; [|discriminate].
        intros H; inversion H; subst. split; auto. intros Hs. rewrite (R2 Hs). simpl. rewrite En. auto.
      * intros H; inversion H; subst. split; auto. intros Hs. rewrite (R2 Hs). auto.
    + destruct (nth_error (cTokens c) (cOffset c)) eqn:En; [|discriminate].
      intros H; inversion H; subst. split; auto. intros _. simpl. rewrite En. auto.
Qed.

Lemma charParse_local cnot chars ranges : localTo (charParse cnot chars ranges) (charParse cnot chars ranges).
Proof.
  intros c c' H. unfold charParse in *. binv H. destruct x as [c1 tok]. apply token_local in E. destruct E as [E1 E2].
  destruct (match tok with Some t => _ | None => _ end) eqn:Em.
  - inversion H; subst. unfold stopped in *. simpl in *. split; auto. intros Hs. rewrite (E2 Hs). simpl. rewrite Em. auto.
  - inversion H; subst. destruct (Z.ltb (cFailOffset c1) (Z.of_nat (cOffset c1))) eqn:El;
      unfold stopped in *; simpl in *; (split; auto); intros Hs; rewrite (E2 Hs); simpl; rewrite Em, El; auto.
Qed.

Section REC.
Variables rec : addr -> context -> res context.
Hypothesis Hrec : forall p, localTo (rec p) (rec p).

Lemma keywordLoop_local kws : forall from to c c' b, keywordLoop rec kws from to c = Ok (c', b) ->
  (stopped c = true -> stopped c' = true) /\
  (stopped c' = false -> keywordLoop rec kws from to (ext c) = Ok (ext c', b)).
Proof.
  induction kws as [|kw kws IH]; intros from to c c' b H; cbn [keywordLoop] in *.
  - inversion H; subst; auto.
  - binv H. apply Hrec in E. destruct E as [E1 E2].
    destruct (_ && _)%bool eqn:Eb.
    + inversion H; subst. split; auto. intros Hs. specialize (E2 Hs). unfold extend in E2 at 1. simpl in E2.
      change (setOffset (ext c) from) with (ext (setOffset c from)). unfold extend at 1. simpl. rewrite E2. simpl. rewrite Eb. auto.
    + apply IH in H. destruct H as [H1 H2]. split; auto. intros Hs.
      assert (Hx : stopped x = false) by (destruct (stopped x); auto; specialize (H1 eq_refl); congruence).
      specialize (E2 Hx). change (setOffset (ext c) from) with (ext (setOffset c from)).
      rewrite E2. cbn [bind]. simpl. rewrite Eb. auto.
Qed.
Lemma isKeyword_local kws from to c c' b : isKeyword rec kws from to c = Ok (c', b) ->
  (stopped c = true -> stopped c' = true) /\
  (stopped c' = false -> isKeyword rec kws from to (ext c) = Ok (ext c', b)).
Proof.
  unfold isKeyword. intros H. binv H. destruct x as [c1 b1]. inversion H; subst; clear H.
  apply keywordLoop_local in E. destruct E as [E1 E2]. simpl. split; [auto|]. intros Hs.
  change (setLimit (ext c) (Some to)) with (ext (setLimit c (Some to))). rewrite E2 by auto. auto.
Qed.

Lemma stopped_blame p ct c : stopped (blame p ct c) = stopped c.
Proof. unfold blame. destruct (cFailingParser c); auto. destruct (_ && _)%bool; auto. Qed.
Lemma stopped_clearFail to c : stopped (clearFail to c) = stopped c.
Proof. unfold clearFail. destruct (_ <? _)%Z; auto. Qed.
Lemma ext_blame p ct c : blame p ct (ext c) = ext (blame p ct c).
Proof. unfold blame. simpl. destruct (cFailingParser c); auto. destruct (_ && _)%bool; auto. Qed.
Lemma ext_clearFail to c : clearFail to (ext c) = ext (clearFail to c).
Proof. unfold clearFail. simpl. destruct (_ <? _)%Z; auto. Qed.
Lemma unmarkUnless_local ac from id : localTo (unmarkUnless ac from id) (unmarkUnless ac from id).
Proof.
  intros c c' H. unfold unmarkUnless, mapResults in *. destruct ac.
  - inversion H; subst; auto.
  - binv H. inversion H; subst. split; auto. intros _. simpl. rewrite E. auto.
Qed.
Lemma fromResults_local c id : match fromResults c id with
  | Some c' => fromResults (ext c) id = Some (ext c') /\ stopped c' = stopped c
  | None => fromResults (ext c) id = None end.
Proof. unfold fromResults. simpl. destruct (longestResult _ _ _); auto. Qed.

Definition extOut (o : seqOut) : seqOut := match o with SLoop t c => SLoop t (ext c) | SReturn c => SReturn (ext c) end.
Definition outCtx (o : seqOut) : context := match o with SLoop t c => c | SReturn c => c end.

Lemma stopped_false a b : (stopped a = true -> stopped b = true) -> stopped b = false -> stopped a = false.
Proof. intros H Hb. destruct (stopped a); auto. specialize (H eq_refl). congruence. Qed.

Lemma seqLoop_local k p id ct items ranges ac from : forall to ii cnt c out,
  seqLoop rec k p id ct items ranges ac from to ii cnt c = Ok out ->
  (stopped c = true -> stopped (outCtx out) = true) /\
  (stopped (outCtx out) = false ->
   seqLoop rec k p id ct items ranges ac from to ii cnt (ext c) = Ok (extOut out)).
Proof.
  induction k as [|k IH]; intros to ii cnt c out H; [discriminate|]. cbn [seqLoop] in *.
  destruct (nth_error items ii) as [item|].
  2:{ inversion H; subst. auto. }
  binv H. apply Hrec in E. destruct E as [E1 E2].
  destruct (nth_error ranges ii) as [[mn mx]|]; [|discriminate].
  destruct (cMatchLast x) eqn:Em; cbn [negb] in H.
  - destruct (negb (to <? cOffset x) || _)%bool eqn:Eb; apply IH in H; destruct H as [H1 H2];
      (split; [auto|]); intros Hs; pose proof (stopped_false _ _ H1 Hs) as Hx; rewrite (E2 Hx); cbn [bind];
      change (cMatchLast (ext x)) with (cMatchLast x); change (cOffset (ext x)) with (cOffset x);
      rewrite Em; cbn [negb]; rewrite Eb; auto.
  - destruct (mn <=? Z.of_nat cnt)%Z eqn:Emn.
    + apply IH in H; destruct H as [H1 H2]. split; [auto|]. intros Hs.
      pose proof (stopped_false _ _ H1 Hs) as Hx. rewrite (E2 Hx). cbn [bind]. change (cMatchLast (ext x)) with (cMatchLast x). rewrite Em. cbn [negb].
      auto.
    + pose proof (fromResults_local (setOffset x from) id) as Hf.
      destruct (fromResults (setOffset x from) id) as [c1|].
      * destruct Hf as [Hf1 Hf2]. binv H. inversion H; subst. apply unmarkUnless_local in E.
        destruct E as [E3 E4]. rewrite stopped_clearFail, Hf2 in E3. simpl. split; [auto|]. intros Hs.
        assert (Hx : stopped x = false) by (destruct (stopped x) eqn:Ex; auto; rewrite E3 in Hs; auto).
        rewrite (E2 Hx). cbn [bind]. change (cMatchLast (ext x)) with (cMatchLast x). rewrite Em. cbn [negb].
        change (setOffset (ext x) from) with (ext (setOffset x from)). rewrite Hf1.
        rewrite ext_clearFail, (E4 Hs). auto.
      * binv H. inversion H; subst. apply unmarkUnless_local in E. destruct E as [E3 E4].
        assert (E5 : stopped x = true -> stopped x0 = true).
        { intros Hx. apply E3. transitivity (stopped (blame p ct (setOffset x from))); [auto|]. rewrite stopped_blame. auto. }
        simpl. split; [auto|]. intros Hs. pose proof (stopped_false _ _ E5 Hs) as Hx.
        rewrite (E2 Hx). cbn [bind]. change (cMatchLast (ext x)) with (cMatchLast x). rewrite Em. cbn [negb].
        change (setOffset (ext x) from) with (ext (setOffset x from)). rewrite Hf, ext_blame.
        change (fail (ext (blame p ct (setOffset x from))) from) with (ext (fail (blame p ct (setOffset x from)) from)).
        rewrite (E4 Hs). auto.
Qed.

Lemma seqParse_local k kws p id ct items ranges gs ac :
  localTo (seqParse rec k kws p id ct items ranges gs ac) (seqParse rec k kws p id ct items ranges gs ac).
Proof.
  intros c c' H. unfold seqParse in *.
  change (cResults (ext c)) with (cResults c). change (cOffset (ext c)) with (cOffset c).
  destruct (negb ac && _)%bool.
  { inversion H; subst. auto. }
  set (c0 := if ac then c else _) in *.
  replace (if ac then ext c else setResults (ext c) (markPending (cResults c) (cOffset c) id)) with (ext c0)
    by (unfold c0; destruct ac; auto).
  assert (Hst : stopped c0 = stopped c) by (unfold c0; destruct ac; auto). clearbody c0.
  binv H. apply seqLoop_local in E. destruct E as [E1 E2]. rewrite Hst in E1.
  destruct x as [to c1|c1]; simpl in *.
  2:{ inversion H; subst. split; auto. intros Hs. rewrite (E2 Hs). auto. }
  binv H. destruct x as [c2 kw].
  assert (Hk : (stopped c1 = true -> stopped c2 = true) /\
      (stopped c2 = false -> (if hasFlag ct CNoKeyword then isKeyword rec kws (cOffset c) to (ext c1) else Ok (ext c1, false)) = Ok (ext c2, kw))).
  { destruct (hasFlag ct CNoKeyword); [now apply isKeyword_local|]. inversion E; subst; auto. }
  destruct Hk as [K1 K2]. destruct kw.
  - apply unmarkUnless_local in H. destruct H as [U1 U2].
    assert (U3 : stopped c2 = true -> stopped c' = true).
    { intros Hx. apply U1. transitivity (stopped (blame p ct c2)); [auto|]. rewrite stopped_blame. auto. }
    split; [auto|]. intros Hs. pose proof (stopped_false _ _ U3 Hs) as Hx2. pose proof (stopped_false _ _ K1 Hx2) as Hx1.
    rewrite (E2 Hx1). cbn [bind extOut]. rewrite (K2 Hx2). cbn [bind]. rewrite ext_blame. apply (U2 Hs).
  - apply unmarkUnless_local in H. destruct H as [U1 U2].
    set (c3 := clearFail _ _) in *.
    assert (Hc3 : stopped c3 = stopped c2) by (unfold c3; rewrite stopped_clearFail; auto).
    assert (U3 : stopped c2 = true -> stopped c' = true).
    { intros Hx. apply U1. transitivity (stopped c3); [auto|]. congruence. }
    split; [auto|]. intros Hs. pose proof (stopped_false _ _ U3 Hs) as Hx2. pose proof (stopped_false _ _ K1 Hx2) as Hx1.
    rewrite (E2 Hx1). cbn [bind extOut]. rewrite (K2 Hx2). cbn [bind].
    change (setResults (ext c2) (setGeneralizations (cOffset c) to gs (cResults (ext c2))))
      with (ext (setResults c2 (setGeneralizations (cOffset c) to gs (cResults c2)))).
    rewrite ext_clearFail. fold c3. apply (U2 Hs).
Qed.

Lemma choicePass_local id from options : forall s c s' c',
  choicePass rec id from options s c = Ok (s', c') ->
  (stopped c = true -> stopped c' = true) /\
  (stopped c' = false -> choicePass rec id from options s (ext c) = Ok (s', ext c')).
Proof.
  induction options as [|op options IH]; intros s c s' c' H; cbn [choicePass] in *.
  - inversion H; subst; auto.
  - binv H. apply Hrec in E. destruct E as [E1 E2].
    set (s1 := if (negb (cMatchLast x) && _)%bool then _ else s) in *.
    destruct (negb (cMatchLast x) || (chMatch s1 && (cOffset x <=? chTo s1)))%bool eqn:Eb.
    + apply IH in H. destruct H as [H1 H2]. split; [auto|]. intros Hs.
      assert (Hx : stopped x = false) by (apply (stopped_false x c'); auto).
      rewrite (E2 Hx). cbn [bind]. change (cMatchLast (ext x)) with (cMatchLast x).
      change (cFailOffset (ext x)) with (cFailOffset x). change (cFailingParser (ext x)) with (cFailingParser x).
      change (cOffset (ext x)) with (cOffset x). fold s1. rewrite Eb. apply (H2 Hs).
    + apply IH in H. destruct H as [H1 H2]. split; [auto|]. intros Hs.
      assert (Hx : stopped x = false) by (apply (stopped_false x c'); auto).
      rewrite (E2 Hx). cbn [bind]. change (cMatchLast (ext x)) with (cMatchLast x).
      change (cFailOffset (ext x)) with (cFailOffset x). change (cFailingParser (ext x)) with (cFailingParser x).
      change (cOffset (ext x)) with (cOffset x). fold s1. rewrite Eb. apply (H2 Hs).
Qed.
Lemma choiceLoop_local id from options k : forall s c s' c',
  choiceLoop rec k id from options s c = Ok (s', c') ->
  (stopped c = true -> stopped c' = true) /\
  (stopped c' = false -> choiceLoop rec k id from options s (ext c) = Ok (s', ext c')).
Proof.
  induction k as [|k IH]; intros s c s' c' H; [discriminate|]. cbn [choiceLoop] in *.
  binv H. destruct x as [s1 c1]. apply choicePass_local in E. destruct E as [E1 E2].
  destruct (chFound s1) eqn:Ef.
  - apply IH in H. destruct H as [H1 H2]. split; [auto|]. intros Hs.
    pose proof (stopped_false _ _ H1 Hs) as Hx. rewrite (E2 Hx). cbn [bind]. rewrite Ef. auto.
  - inversion H; subst. split; auto. intros Hs. rewrite (E2 Hs). cbn [bind]. rewrite Ef. auto.
Qed.

Lemma choiceParse_local k kws p id ct options :
  localTo (choiceParse rec k kws p id ct options) (choiceParse rec k kws p id ct options).
Proof.
  intros c c' H. unfold choiceParse in *.
  pose proof (fromResults_local c id) as Hf. destruct (fromResults c id) as [c1|].
  { destruct Hf as [Hf1 Hf2]. inversion H; subst. rewrite Hf1, Hf2. auto. }
  rewrite Hf. change (cResults (ext c)) with (cResults c). change (cOffset (ext c)) with (cOffset c).
  destruct (pending _ _ _).
  { inversion H; subst. auto. }
  change (setResults (ext c) (markPending (cResults c) (cOffset c) id))
    with (ext (setResults c (markPending (cResults c) (cOffset c) id))).
  set (c0 := setResults c _) in *.
  change (cFailOffset (ext c0)) with (cFailOffset c0). change (cOffset (ext c0)) with (cOffset c0).
  change (cFailingParser (ext c0)) with (cFailingParser c0).
  assert (Hst : stopped c0 = stopped c) by auto. clearbody c0.
  binv H. destruct x as [s c1]. apply choiceLoop_local in E. destruct E as [E1 E2]. rewrite Hst in E1.
  assert (HU : forall c2 c3, mapResults (fun r => unmarkPending r (cOffset c0) id) c2 = Ok c3 ->
     stopped c3 = stopped c2 /\ mapResults (fun r => unmarkPending r (cOffset c0) id) (ext c2) = Ok (ext c3)).
  { intros c2 c3 Hm. unfold mapResults in *. binv Hm. inversion Hm; subst. simpl. rewrite E. auto. }
  destruct (chMatch s) eqn:Em.
  - binv H. destruct x as [c2 kw].
    assert (Hk : (stopped c1 = true -> stopped c2 = true) /\
        (stopped c2 = false -> (if hasFlag ct CNoKeyword then isKeyword rec kws (cOffset c0) (chTo s) (ext c1) else Ok (ext c1, false)) = Ok (ext c2, kw))).
    { destruct (hasFlag ct CNoKeyword); [now apply isKeyword_local|]. inversion E; subst; auto. }
    destruct Hk as [K1 K2]. destruct kw; apply HU in H; destruct H as [U1 U2].
    + change (stopped (fail (blame p ct c2) (cOffset c0))) with (stopped (blame p ct c2)) in U1.
      rewrite stopped_blame in U1. split; [rewrite U1; auto|]. intros Hs. rewrite U1 in Hs.
      pose proof (stopped_false _ _ K1 Hs) as Hx1. rewrite (E2 Hx1). cbn [bind]. rewrite Em, (K2 Hs). cbn [bind].
      rewrite ext_blame. apply U2.
    + set (c3 := if Z.ltb _ _ then setFail c2 (chFailOffset s) _ else _) in *.
      assert (Hc3 : stopped c3 = stopped c2) by (unfold c3; destruct (_ <? _)%Z; [|destruct (_ <? _)%Z]; auto).
      change (stopped (success c3 (chTo s))) with (stopped c3) in U1. rewrite Hc3 in U1.
      split; [rewrite U1; auto|]. intros Hs. rewrite U1 in Hs.
      pose proof (stopped_false _ _ K1 Hs) as Hx1. rewrite (E2 Hx1). cbn [bind]. rewrite Em, (K2 Hs). cbn [bind].
      rewrite <- U2. f_equal. unfold c3. destruct (_ <? _)%Z; [|destruct (_ <? _)%Z]; auto.
  - apply HU in H. destruct H as [U1 U2].
    set (c2 := if Z.ltb _ _ then blame p ct _ else c1) in *.
    assert (Hc2 : stopped c2 = stopped c1) by (unfold c2; destruct (_ <? _)%Z; auto; rewrite stopped_blame; auto).
    change (stopped c' = stopped c2) in U1. rewrite Hc2 in U1. split; [rewrite U1; auto|]. intros Hs. rewrite U1 in Hs.
    rewrite (E2 Hs). cbn [bind]. rewrite Em. rewrite <- U2. f_equal. unfold c2. destruct (_ <? _)%Z; auto.
    change (setFail (ext c1) (chFailOffset s) (chFailing s)) with (ext (setFail c1 (chFailOffset s) (chFailing s))).
    rewrite ext_blame. auto.
Qed.
End REC.

Lemma parse_local P kws n : forall p, localTo (parse P kws n p) (parse P kws n p).
Proof.
  induction n as [|n IH]; intros p; [intros c c' H; discriminate|].
  cbn [parse]. destruct (nth_error P p) as [[]|].
  - apply charParse_local.
  - now apply seqParse_local.
  - now apply choiceParse_local.
  - intros c c' H. discriminate.
Qed.
End EXT.

Lemma parseError_ext P c more e p : parseError P (extend c more e) p = parseError P c p.
Proof. reflexivity. Qed.

(** a ParseError from a failing reader would be the same for every other continuation of the input *)
Theorem run_local P B kws root rootB fuel input k off line col def more e' :
  parseInputPB P B kws root rootB fuel input (RFail k) = Ok (Failed (ErrParse off line col def)) ->
  parseInputPB P B kws root rootB fuel (input ++ more) e' = Ok (Failed (ErrParse off line col def)).
Proof.
  intros H. unfold parseInputPB in *. binv H. pose proof (parse_cinv _ _ _ _ _ _ _ E) as Hc.
  destruct (cReadErr x) eqn:Ere.
  { inversion H; subst. pose proof (ri_case _ _ _ (ci_r _ _ _ _ Hc)) as Hr. rewrite Ere in Hr. contradiction. }
  assert (Hst : stopped x = false).
  { unfold stopped. rewrite Ere. destruct (cEof x) eqn:Ee; auto.
    pose proof (ri_case _ _ _ (ci_r _ _ _ _ Hc)) as Hr. rewrite Ere in Hr. destruct Hr as (_ & _ & Hr).
    destruct (Hr Ee). discriminate. }
  apply (parse_local more e') in E. destruct E as [_ E].
  change (newContext (input ++ more) e') with (extend (newContext input (RFail k)) more e').
  rewrite (E Hst). cbn [bind]. change (cReadErr (extend x more e')) with (cReadErr x). rewrite Ere.
  binv H. destruct x0 as [c1 [err|]].
  2:{ binv H. destruct x0 as [[[|] ok] c2]; discriminate. }
  inversion H; subst err; clear H.
  enough (Hf : exists c2, finalizeParse P (extend x more e') root = Ok (c2, Some (ErrParse off line col def))).
  { destruct Hf as [c2 Hf]. rewrite Hf. reflexivity. }
  unfold finalizeParse in *. change (cFailingParser (extend x more e')) with (cFailingParser x).
  change (cResults (extend x more e')) with (cResults x). change (cReadOffset (extend x more e')) with (cReadOffset x).
  destruct (nth_error P root) as [ob|]; [|discriminate].
  set (fp := match cFailingParser x with Some p => p | None => root end) in *.
  rewrite parseError_ext.
  destruct (longestResult _ _ _).
  - binv E0. inversion E0; subst. rewrite E1. cbn [bind]. eauto.
  - destruct (_ <? _).
    + binv E0. inversion E0; subst. rewrite E1. cbn [bind]. eauto.
    + destruct (read x) as [c2 ok] eqn:Er.
      pose proof (cinv_read _ _ _ _ _ Hc Er) as Hc2.
      destruct (cEof c2) eqn:Ee2; [discriminate|]. destruct (cReadErr c2) eqn:Ere2.
      { inversion E0; subst. pose proof (ri_case _ _ _ (ci_r _ _ _ _ Hc2)) as Hr. rewrite Ere2 in Hr. contradiction. }
      apply (read_local more e') in Er. destruct Er as [_ Er].
      assert (Hs2 : stopped c2 = false) by (unfold stopped; rewrite Ere2; auto).
      rewrite (Er Hs2). change (cEof (extend c2 more e')) with (cEof c2). rewrite Ee2.
      change (cReadErr (extend c2 more e')) with (cReadErr c2). rewrite Ere2, parseError_ext.
      binv E0. inversion E0; subst. rewrite E1. cbn [bind]. eauto.
  - binv E0. inversion E0; subst. rewrite E1. cbn [bind]. eauto.
Qed.
