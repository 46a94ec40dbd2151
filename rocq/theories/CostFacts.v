(** Measuring does not change a run; the number of calls and their depth. *)
From Verif Require Import Base Utf8 IdSet Results Parser Build ListFacts ResultsFacts ReaderFacts ParseFacts
  FuelFacts TermFacts Restrict Syntax Cost.

(** without the counter *)
Definition er {A} (x : res (A * nat)) : res A :=
  match x with Ok (a, _) => Ok a | Panic w => Panic w | NoFuel => NoFuel end.
Lemma er_bind {A} (op : nat -> nat -> nat) (x : res (A * nat)) m : er (y <- x ;; Ok (fst y, op m (snd y))) = er x.
Proof. destruct x as [[a k]|w|]; reflexivity. Qed.
Lemma er_bind0 {A} (x : res (A * nat)) : er (y <- x ;; Ok (fst y, S (snd y))) = er x.
Proof. destruct x as [[a k]|w|]; reflexivity. Qed.
Lemma er_pure {A} (x : res A) m : er (y <- x ;; Ok (y, m)) = x.
Proof. destruct x; reflexivity. Qed.

Section REC.
Variable op : nat -> nat -> nat.
Variable rec : addr -> context -> res context.
Variable recN : addr -> context -> res (context * nat).
Hypothesis Hrec : forall p c, er (recN p c) = rec p c.

Ltac step p c := rewrite <- (Hrec p c); destruct (recN p c) as [[? ?]|?|]; cbn [er bind]; try reflexivity.

Lemma keywordLoop_er kws : forall from to c, er (keywordLoopN op recN kws from to c) = keywordLoop rec kws from to c.
Proof.
  induction kws as [|kw kws IH]; intros from to c; cbn [keywordLoopN keywordLoop]; [reflexivity|]. step kw (setOffset c from).
  destruct (_ && _)%bool; [reflexivity|]. rewrite er_bind. auto.
Qed.
Lemma isKeyword_er kws from to c : er (isKeywordN op recN kws from to c) = isKeyword rec kws from to c.
Proof. unfold isKeywordN, isKeyword. rewrite <- keywordLoop_er. destruct (keywordLoopN _ _ _ _ _ _) as [[[c1 b] k]|w|]; reflexivity. Qed.
Lemma seqLoop_er p id ct items ranges ac from k : forall to ii cnt c,
  er (seqLoopN op recN k p id ct items ranges ac from to ii cnt c) = seqLoop rec k p id ct items ranges ac from to ii cnt c.
Proof.
  induction k as [|k IH]; intros to ii cnt c; cbn [seqLoopN seqLoop]; [reflexivity|]. destruct (nth_error items ii) as [item|]; [|reflexivity].
  step item c. destruct (nth_error ranges ii) as [[mn mx]|]; [|reflexivity]. destruct (negb _).
  - destruct (Z.leb _ _); [rewrite er_bind; auto|]. cbv zeta. destruct (fromResults _ _); destruct (unmarkUnless _ _ _ _); reflexivity.
  - cbv zeta. rewrite er_bind. destruct (_ || _)%bool; auto.
Qed.
Lemma seqParse_er k kws p id ct items ranges gs ac c : er (seqParseN op recN k kws p id ct items ranges gs ac c) = seqParse rec k kws p id ct items ranges gs ac c.
Proof.
  unfold seqParseN, seqParse. destruct (_ && _)%bool; [reflexivity|]. cbv zeta. rewrite <- seqLoop_er. destruct (seqLoopN _ _ _ _ _ _ _ _ _ _ _ _ _ _) as [[[to c1|c1] m]|w|]; cbn [er bind]; try reflexivity.
  destruct (hasFlag ct CNoKeyword).
  - rewrite <- isKeyword_er. destruct (isKeywordN _ _ _ _ _ _) as [[[c2 b] k2]|w|]; cbn [er bind]; try reflexivity. rewrite er_pure. reflexivity.
  - cbn [bind]. rewrite er_pure. reflexivity.
Qed.
Lemma choicePass_er id from options : forall s c, er (choicePassN op recN id from options s c) = choicePass rec id from options s c.
Proof.
  induction options as [|o options IH]; intros s c; cbn [choicePassN choicePass]; [reflexivity|]. step o c. cbv zeta. rewrite er_bind. destruct (_ || _)%bool; auto.
Qed.
Lemma choiceLoop_er id from options k : forall s c, er (choiceLoopN op recN k id from options s c) = choiceLoop rec k id from options s c.
Proof.
  induction k as [|k IH]; intros s c; cbn [choiceLoopN choiceLoop]; [reflexivity|]. rewrite <- choicePass_er. destruct (choicePassN _ _ _ _ _ _ _) as [[[s1 c1] m]|w|]; cbn [er bind]; try reflexivity.
  destruct (chFound s1); [rewrite er_bind; auto|reflexivity].
Qed.
Lemma choiceParse_er k kws p id ct options c : er (choiceParseN op recN k kws p id ct options c) = choiceParse rec k kws p id ct options c.
Proof.
  unfold choiceParseN, choiceParse. destruct (fromResults c id); [reflexivity|]. destruct (pending _ _ _); [reflexivity|]. cbv zeta. rewrite <- choiceLoop_er.
  destruct (choiceLoopN _ _ _ _ _ _ _ _) as [[[s c1] m]|w|]; cbn [er bind]; try reflexivity. destruct (chMatch s); [|rewrite er_pure; reflexivity].
  destruct (hasFlag ct CNoKeyword).
  - rewrite <- isKeyword_er. destruct (isKeywordN _ _ _ _ _ _) as [[[c2 b] k2]|w|]; cbn [er bind]; try reflexivity. rewrite er_pure. reflexivity.
  - cbn [bind]. rewrite er_pure. reflexivity.
Qed.
End REC.

(** the run is the same *)
Theorem parse_counts op P kws n : forall p c, er (parseN op P kws n p c) = parse P kws n p c.
Proof.
  induction n as [|n IH]; intros p c; cbn [parseN parse]; [reflexivity|]. rewrite er_bind0. destruct (nth_error P p) as [[| |]|]; [| | |reflexivity].
  - apply er_pure.
  - apply seqParse_er; auto.
  - apply choiceParse_er; auto.
Qed.
Lemma parseN_run op P kws n p c c' k : parseN op P kws n p c = Ok (c', k) -> parse P kws n p c = Ok c'.
Proof. intros H. rewrite <- (parse_counts op), H. reflexivity. Qed.
Lemma parse_runN op P kws n p c c' : parse P kws n p c = Ok c' -> exists k, parseN op P kws n p c = Ok (c', k).
Proof. rewrite <- (parse_counts op). destruct (parseN op P kws n p c) as [[c1 k]|w|]; simpl; intros H; inversion H; eauto. Qed.

(** ** more fuel *)
Section MONO.
Variable op : nat -> nat -> nat.
Variables rec rec' : addr -> context -> res (context * nat).
Hypothesis Hrec : forall p c, leRes (rec p c) (rec' p c).

Lemma keywordLoopN_mono l : forall from to c, leRes (keywordLoopN op rec l from to c) (keywordLoopN op rec' l from to c).
Proof.
  induction l; intros; cbn [keywordLoopN]; [apply leRes_refl|]. apply leRes_bind; auto. intros [x k].
  destruct (_ && _)%bool; [apply leRes_refl|]. apply leRes_bind; auto. intros; apply leRes_refl.
Qed.
Lemma isKeywordN_mono kws from to c : leRes (isKeywordN op rec kws from to c) (isKeywordN op rec' kws from to c).
Proof. unfold isKeywordN. apply leRes_bind; [apply keywordLoopN_mono|]. intros; apply leRes_refl. Qed.
Lemma seqLoopN_mono p id commit items ranges ac from k : forall k', k <= k' -> forall to ii n c,
  leRes (seqLoopN op rec k p id commit items ranges ac from to ii n c)
        (seqLoopN op rec' k' p id commit items ranges ac from to ii n c).
Proof.
  induction k as [|k IH]; intros k' Hk to ii n c; [apply leRes_noFuel|].
  destruct k' as [|k']; [lia|]. cbn [seqLoopN].
  destruct (nth_error items ii); [|apply leRes_refl].
  apply leRes_bind; auto. intros [x j]. destruct (nth_error ranges ii) as [[mn mx]|]; [|apply leRes_refl].
  destruct (negb _).
  - destruct (_ <=? _)%Z; [apply leRes_bind; [apply IH; lia|intros; apply leRes_refl]|]. apply leRes_refl.
  - apply leRes_bind; [destruct (_ || _)%bool; apply IH; lia|intros; apply leRes_refl].
Qed.
Lemma seqParseN_mono k k' kws p id commit items ranges gs ac c : k <= k' ->
  leRes (seqParseN op rec k kws p id commit items ranges gs ac c)
        (seqParseN op rec' k' kws p id commit items ranges gs ac c).
Proof.
  intros Hk. unfold seqParseN. destruct (_ && _)%bool; [apply leRes_refl|].
  apply leRes_bind; [now apply seqLoopN_mono|]. intros [[to c1|c1] m]; [|apply leRes_refl].
  apply leRes_bind.
  - destruct (hasFlag _ _); [apply isKeywordN_mono | apply leRes_refl].
  - intros [[c2 []] m']; apply leRes_refl.
Qed.
Lemma choicePassN_mono id from options : forall s c,
  leRes (choicePassN op rec id from options s c) (choicePassN op rec' id from options s c).
Proof.
  induction options; intros; cbn [choicePassN]; [apply leRes_refl|].
  apply leRes_bind; auto. intros [x j]. apply leRes_bind; [destruct (_ || _)%bool; auto|intros; apply leRes_refl].
Qed.
Lemma choiceLoopN_mono id from options k : forall k', k <= k' -> forall s c,
  leRes (choiceLoopN op rec k id from options s c) (choiceLoopN op rec' k' id from options s c).
Proof.
  induction k as [|k IH]; intros k' Hk s c; [apply leRes_noFuel|].
  destruct k' as [|k']; [lia|]. cbn [choiceLoopN].
  apply leRes_bind; [apply choicePassN_mono|]. intros [[s1 c1] m]. destruct (chFound s1); [|apply leRes_refl].
  apply leRes_bind; [apply IH; lia|intros; apply leRes_refl].
Qed.
Lemma choiceParseN_mono k k' kws p id commit options c : k <= k' ->
  leRes (choiceParseN op rec k kws p id commit options c) (choiceParseN op rec' k' kws p id commit options c).
Proof.
  intros Hk. unfold choiceParseN. destruct (fromResults _ _); [apply leRes_refl|].
  destruct (pending _ _ _); [apply leRes_refl|].
  apply leRes_bind; [now apply choiceLoopN_mono|]. intros [[s c1] m]. destruct (chMatch s); [|apply leRes_refl].
  apply leRes_bind.
  - destruct (hasFlag _ _); [apply isKeywordN_mono | apply leRes_refl].
  - intros [[c2 []] m']; apply leRes_refl.
Qed.
End MONO.
Theorem parseN_mono op P kws n : forall m, n <= m -> forall p c, leRes (parseN op P kws n p c) (parseN op P kws m p c).
Proof.
  induction n as [|n IH]; intros m Hm p c; [apply leRes_noFuel|].
  destruct m as [|m]; [lia|]. cbn [parseN]. apply leRes_bind; [|intros; apply leRes_refl]. destruct (nth_error P p) as [[]|]; try apply leRes_refl.
  - apply seqParseN_mono; [|lia]. intros; apply IH; lia.
  - apply choiceParseN_mono; [|lia]. intros; apply IH; lia.
Qed.
Theorem parseMeasure_mono op n m s input e k : n <= m -> parseMeasure op n s input e = Ok k -> parseMeasure op m s input e = Ok k.
Proof.
  unfold parseMeasure. destruct (sRoot s); [|discriminate]. intros Hm H. binv H. rewrite (parseN_mono _ _ _ _ _ Hm); [rewrite E; auto|congruence].
Qed.
Theorem parseCalls_mono n m s input e k : n <= m -> parseCalls n s input e = Ok k -> parseCalls m s input e = Ok k.
Proof. apply parseMeasure_mono. Qed.

(** ** the parsers that can be reached *)
Section EXT.
Variable op : nat -> nat -> nat.
Variable L : addr -> Prop.
Variables rec rec' : addr -> context -> res (context * nat).
Hypothesis Hrec : forall p c, L p -> rec p c = rec' p c.

Lemma keywordLoopN_ext l : (forall k, In k l -> L k) -> forall from to c, keywordLoopN op rec l from to c = keywordLoopN op rec' l from to c.
Proof.
  induction l; intros Hl from to c; cbn [keywordLoopN]; auto. apply bind_ext; [apply Hrec, Hl; left; auto|]. intros [x j].
  destruct (_ && _)%bool; auto. apply bind_ext; auto. apply IHl. intros; apply Hl; right; auto.
Qed.
Lemma isKeywordN_ext kws from to c : (forall k, In k kws -> L k) -> isKeywordN op rec kws from to c = isKeywordN op rec' kws from to c.
Proof. intros. unfold isKeywordN. apply bind_ext; auto. apply keywordLoopN_ext; auto. Qed.
Lemma seqLoopN_ext p id commit items ranges ac from k : (forall x, In x items -> L x) -> forall to ii n c,
  seqLoopN op rec k p id commit items ranges ac from to ii n c = seqLoopN op rec' k p id commit items ranges ac from to ii n c.
Proof.
  intros Hi. induction k as [|k IH]; intros to ii n c; auto. cbn [seqLoopN].
  destruct (nth_error items ii) as [item|] eqn:E; auto. apply bind_ext; [apply Hrec, Hi; eapply nth_error_In; eauto|].
  intros [x j]. destruct (nth_error ranges ii) as [[mn mx]|]; auto. destruct (negb _).
  - destruct (_ <=? _)%Z; auto. apply bind_ext; auto.
  - apply bind_ext; auto. destruct (_ || _)%bool; auto.
Qed.
Lemma seqParseN_ext k kws p id commit items ranges gs ac c : (forall k, In k kws -> L k) -> (forall x, In x items -> L x) ->
  seqParseN op rec k kws p id commit items ranges gs ac c = seqParseN op rec' k kws p id commit items ranges gs ac c.
Proof.
  intros Hk Hi. unfold seqParseN. destruct (_ && _)%bool; auto. apply bind_ext; [apply seqLoopN_ext; auto|].
  intros [[to c1|c1] m]; auto. apply bind_ext; [destruct (hasFlag _ _); auto; apply isKeywordN_ext; auto|]. auto.
Qed.
Lemma choicePassN_ext id from options : (forall x, In x options -> L x) -> forall s c,
  choicePassN op rec id from options s c = choicePassN op rec' id from options s c.
Proof.
  induction options; intros Ho s c; cbn [choicePassN]; auto. apply bind_ext; [apply Hrec, Ho; left; auto|].
  assert (forall x, In x options -> L x) by (intros; apply Ho; right; auto). intros [x j]. apply bind_ext; auto. destruct (_ || _)%bool; auto.
Qed.
Lemma choiceLoopN_ext id from options k : (forall x, In x options -> L x) -> forall s c,
  choiceLoopN op rec k id from options s c = choiceLoopN op rec' k id from options s c.
Proof.
  intros Ho. induction k as [|k IH]; intros s c; auto. cbn [choiceLoopN]. apply bind_ext; [apply choicePassN_ext; auto|].
  intros [[s1 c1] m]. destruct (chFound s1); auto. apply bind_ext; auto.
Qed.
Lemma choiceParseN_ext k kws p id commit options c : (forall k, In k kws -> L k) -> (forall x, In x options -> L x) ->
  choiceParseN op rec k kws p id commit options c = choiceParseN op rec' k kws p id commit options c.
Proof.
  intros Hk Ho. unfold choiceParseN. destruct (fromResults _ _); auto. destruct (pending _ _ _); auto.
  apply bind_ext; [apply choiceLoopN_ext; auto|]. intros [[s c1] m]. destruct (chMatch s); auto.
  apply bind_ext; [destruct (hasFlag _ _); auto; apply isKeywordN_ext; auto|]. auto.
Qed.
End EXT.
Lemma parseN_restrict op P live kws n : closedLive P live kws -> forall p c, live p = true -> parseN op P kws n p c = parseN op (restrict P live) kws n p c.
Proof.
  intros (C1 & C2 & C3). induction n as [|n IH]; intros p c Hp; auto. cbn [parseN]. rewrite (restrict_live P live p Hp). apply bind_ext; auto.
  destruct (nth_error P p) as [[|name id commit items ranges gs ac|name id commit options gs]|] eqn:E; auto.
  - apply (seqParseN_ext op (fun a => live a = true)); auto. eauto.
  - apply (choiceParseN_ext op (fun a => live a = true)); auto. eauto.
Qed.
