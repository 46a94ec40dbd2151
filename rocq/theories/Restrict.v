(** Parsing and building only look at the objects that can be reached from the root and the
    keywords: a set closed under items and options. *)
From Verif Require Import Base Utf8 IdSet Results Parser Build.

Section EXT.
Variable L : addr -> Prop.
Variables rec rec' : addr -> context -> res context.
Hypothesis Hrec : forall p c, L p -> rec p c = rec' p c.

Lemma bind_ext {A B} (m m' : res A) (f f' : A -> res B) : m = m' -> (forall x, f x = f' x) -> bind m f = bind m' f'.
Proof. intros -> H. destruct m'; simpl; auto. Qed.

Lemma keywordLoop_ext l : (forall k, In k l -> L k) -> forall from to c, keywordLoop rec l from to c = keywordLoop rec' l from to c.
Proof.
  induction l; intros Hl from to c; simpl; auto. apply bind_ext; [apply Hrec, Hl; left; auto|]. intros x.
  destruct (_ && _)%bool; auto. apply IHl. intros; apply Hl; right; auto.
Qed.
Lemma isKeyword_ext kws from to c : (forall k, In k kws -> L k) -> isKeyword rec kws from to c = isKeyword rec' kws from to c.
Proof. intros. unfold isKeyword. apply bind_ext; auto. apply keywordLoop_ext; auto. Qed.
Lemma seqLoop_ext p id commit items ranges ac from k : (forall x, In x items -> L x) -> forall to ii n c,
  seqLoop rec k p id commit items ranges ac from to ii n c = seqLoop rec' k p id commit items ranges ac from to ii n c.
Proof.
  intros Hi. induction k as [|k IH]; intros to ii n c; auto. cbn [seqLoop].
  destruct (nth_error items ii) as [item|] eqn:E; auto. apply bind_ext; [apply Hrec, Hi; eapply nth_error_In; eauto|].
  intros x. destruct (nth_error ranges ii) as [[mn mx]|]; auto. destruct (negb _).
  - destruct (_ <=? _)%Z; auto.
  - destruct (_ || _)%bool; auto.
Qed.
Lemma seqParse_ext k kws p id commit items ranges gs ac c : (forall k, In k kws -> L k) -> (forall x, In x items -> L x) ->
  seqParse rec k kws p id commit items ranges gs ac c = seqParse rec' k kws p id commit items ranges gs ac c.
Proof.
  intros Hk Hi. unfold seqParse. destruct (_ && _)%bool; auto. apply bind_ext; [apply seqLoop_ext; auto|].
  intros [to c1|c1]; auto. apply bind_ext; [destruct (hasFlag _ _); auto; apply isKeyword_ext; auto|]. auto.
Qed.
Lemma choicePass_ext id from options : (forall x, In x options -> L x) -> forall s c,
  choicePass rec id from options s c = choicePass rec' id from options s c.
Proof.
  induction options; intros Ho s c; cbn [choicePass]; auto. apply bind_ext; [apply Hrec, Ho; left; auto|].
  assert (forall x, In x options -> L x) by (intros; apply Ho; right; auto). intros x. destruct (_ || _)%bool; auto.
Qed.
Lemma choiceLoop_ext id from options k : (forall x, In x options -> L x) -> forall s c,
  choiceLoop rec k id from options s c = choiceLoop rec' k id from options s c.
Proof.
  intros Ho. induction k as [|k IH]; intros s c; auto. cbn [choiceLoop]. apply bind_ext; [apply choicePass_ext; auto|].
  intros [s1 c1]. destruct (chFound s1); auto.
Qed.
Lemma choiceParse_ext k kws p id commit options c : (forall k, In k kws -> L k) -> (forall x, In x options -> L x) ->
  choiceParse rec k kws p id commit options c = choiceParse rec' k kws p id commit options c.
Proof.
  intros Hk Ho. unfold choiceParse. destruct (fromResults _ _); auto. destruct (pending _ _ _); auto.
  apply bind_ext; [apply choiceLoop_ext; auto|]. intros [s c1]. destruct (chMatch s); auto.
  apply bind_ext; [destruct (hasFlag _ _); auto; apply isKeyword_ext; auto|]. auto.
Qed.
End EXT.

Section RESTRICT.
Variables (P : pheap) (live : addr -> bool).

(** every object outside [live] is replaced by a character parser of the same name *)
Fixpoint restrictFrom (i : nat) (l : pheap) : pheap :=
  match l with
  | [] => []
  | o :: l' => (if live i then o else PChar (nodeName o) 0 false [] []) :: restrictFrom (S i) l'
  end.
Definition restrict : pheap := restrictFrom 0 P.

Lemma restrictFrom_nth l : forall i a, nth_error (restrictFrom i l) a =
  option_map (fun o => if live (i + a) then o else PChar (nodeName o) 0 false [] []) (nth_error l a).
Proof.
  induction l as [|o l IH]; intros i [|a]; simpl; auto; [rewrite Nat.add_0_r; auto|]. rewrite IH.
  replace (S i + a) with (i + S a) by lia. auto.
Qed.
Lemma restrict_nth a : nth_error restrict a = option_map (fun o => if live a then o else PChar (nodeName o) 0 false [] []) (nth_error P a).
Proof. unfold restrict. rewrite restrictFrom_nth. auto. Qed.
Lemma restrict_live a : live a = true -> nth_error restrict a = nth_error P a.
Proof. intros H. rewrite restrict_nth, H. destruct (nth_error P a); auto. Qed.
Lemma restrict_len : List.length restrict = List.length P.
Proof. unfold restrict. generalize 0. induction P; simpl; auto. Qed.
Lemma restrict_seq a n i c it rs gs ac : nth_error restrict a = Some (PSeq n i c it rs gs ac) -> nth_error P a = Some (PSeq n i c it rs gs ac) /\ live a = true.
Proof. rewrite restrict_nth. destruct (nth_error P a); simpl; [|discriminate]. destruct (live a); [auto|discriminate]. Qed.
Lemma restrict_choice a n i c os gs : nth_error restrict a = Some (PChoice n i c os gs) -> nth_error P a = Some (PChoice n i c os gs) /\ live a = true.
Proof. rewrite restrict_nth. destruct (nth_error P a); simpl; [|discriminate]. destruct (live a); [auto|discriminate]. Qed.

Variable kws : list addr.
Definition closedLive : Prop :=
  (forall a n i c items rs gs ac, live a = true -> nth_error P a = Some (PSeq n i c items rs gs ac) -> forall x, In x items -> live x = true) /\
  (forall a n i c options gs, live a = true -> nth_error P a = Some (PChoice n i c options gs) -> forall x, In x options -> live x = true) /\
  (forall k, In k kws -> live k = true).
Hypothesis Hcl : closedLive.

Lemma parse_restrict n : forall p c, live p = true -> parse P kws n p c = parse restrict kws n p c.
Proof.
  destruct Hcl as (C1 & C2 & C3). induction n as [|n IH]; intros p c Hp; auto. cbn [parse]. rewrite (restrict_live p Hp).
  destruct (nth_error P p) as [[|name id commit items ranges gs ac|name id commit options gs]|] eqn:E; auto.
  - apply (seqParse_ext (fun a => live a = true)); auto. eauto.
  - apply (choiceParse_ext (fun a => live a = true)); auto. eauto.
Qed.

Lemma buildLoop_ext rec rec' items ranges k : (forall x c, In x items -> rec x c = rec' x c) -> forall ii n ns c,
  buildLoop rec k items ranges ii n ns c = buildLoop rec' k items ranges ii n ns c.
Proof.
  intros Hi. induction k as [|k IH]; intros ii n ns c; auto. cbn [buildLoop].
  destruct (nth_error items ii) as [item|] eqn:E; auto. apply bind_ext; [apply Hi; eapply nth_error_In; eauto|].
  intros [[nn []] c1]; auto. destruct (nth_error ranges ii) as [[mn mx]|]; auto. destruct (_ <? _); auto. destruct (_ && _)%bool; auto.
Qed.
Lemma pickOption_restrict r o t options : (forall x, In x options -> live x = true) ->
  pickOption P r o t options = pickOption restrict r o t options.
Proof.
  induction options as [|x l IH]; intros H; auto. cbn [pickOption]. rewrite restrict_live by (apply H; left; auto).
  rewrite IH by (intros; apply H; right; auto). auto.
Qed.
Lemma pickOption_In Q r o t options x : pickOption Q r o t options = Ok (Some x) -> In x options.
Proof.
  induction options as [|y l IH]; cbn [pickOption]; [discriminate|]. destruct (nth_error Q y); [|discriminate].
  destruct (hasMatchTo _ _ _ _); [intros H; inversion H; left; auto|right; auto].
Qed.
Lemma build_restrict n : forall p c, live p = true -> build P n p c = build restrict n p c.
Proof.
  destruct Hcl as (C1 & C2 & _). induction n as [|n IH]; intros p c Hp; auto. cbn [build]. rewrite (restrict_live p Hp).
  destruct (nth_error P p) as [[|name id commit items ranges gs ac|name id commit options gs]|] eqn:E; auto.
  - unfold seqBuild. destruct (longestMatch _ _ _); auto. destruct ac; auto. apply bind_ext; auto. intros [c1|]; auto.
    apply bind_ext; auto. apply buildLoop_ext. intros x c2 Hx. apply IH. eauto.
  - unfold choiceBuild. destruct (longestMatch _ _ _); auto. apply bind_ext; auto. intros [c1|]; auto.
    rewrite <- pickOption_restrict by eauto.
    destruct (pickOption P _ _ _ options) as [[o|]|w|] eqn:Ep; cbn [bind]; auto. apply pickOption_In in Ep.
    apply bind_ext; auto. apply IH. eauto.
Qed.

Lemma parseError_restrict c p : parseError P c p = parseError restrict c p.
Proof.
  unfold parseError. rewrite restrict_nth. destruct (nth_error P p) as [o|]; simpl; auto. destruct (live p); auto.
Qed.
Lemma finalize_restrict c root : live root = true -> finalizeParse P c root = finalizeParse restrict c root.
Proof.
  intros Hr. unfold finalizeParse. rewrite (restrict_live root Hr). rewrite !parseError_restrict.
  destruct (nth_error P root); auto. destruct (longestResult _ _ _); auto. destruct (_ <? _); auto. destruct (read c) as [c1 b].
  rewrite !parseError_restrict. auto.
Qed.
Theorem parseInput_restrict root fuel input e : live root = true ->
  parseInput P kws root fuel input e = parseInput restrict kws root fuel input e.
Proof.
  intros Hr. unfold parseInput, parseInputPB. rewrite <- parse_restrict by auto. apply bind_ext; auto. intros c.
  destruct (cReadErr c); auto. rewrite <- finalize_restrict by auto. apply bind_ext; auto. intros [c1 [err|]]; auto.
  rewrite <- build_restrict by auto. auto.
Qed.
End RESTRICT.

(** [PL] are the parsers [P] with those left out that cannot take part in a parse *)
Definition liveParsers (P : pheap) (kws : list addr) (root : addr) (PL : pheap) : Prop :=
  exists live, PL = restrict P live /\ closedLive P live kws /\ live root = true.
Lemma live_run P kws root PL : liveParsers P kws root PL ->
  forall fuel input e, parseInput P kws root fuel input e = parseInput PL kws root fuel input e.
Proof. intros (live & -> & H1 & H2) fuel input e. apply parseInput_restrict; auto. Qed.
