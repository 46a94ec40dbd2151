(** More fuel does not change an outcome: fuel is a technical device of the model only. *)
From Verif Require Import Base Utf8 IdSet Results Parser Build.

Definition leRes {A} (a b : res A) : Prop := a <> NoFuel -> b = a.

Lemma leRes_refl {A} (a : res A) : leRes a a.
Proof. intros _. auto. Qed.
Lemma leRes_noFuel {A} (b : res A) : leRes NoFuel b.
Proof. intros H. congruence. Qed.
Lemma leRes_bind {A B} (m m' : res A) (f f' : A -> res B) :
  leRes m m' -> (forall x, leRes (f x) (f' x)) -> leRes (bind m f) (bind m' f').
Proof.
  intros Hm Hf H. destruct m; simpl in *; try (rewrite Hm by discriminate; simpl; auto); try congruence.
  apply Hf. auto.
Qed.

Section MONO.
Variables rec rec' : addr -> context -> res context.
Hypothesis Hrec : forall p c, leRes (rec p c) (rec' p c).

Lemma keywordLoop_mono l : forall from to c, leRes (keywordLoop rec l from to c) (keywordLoop rec' l from to c).
Proof.
  induction l; intros; simpl; [apply leRes_refl|]. apply leRes_bind; auto. intros x.
  destruct (_ && _)%bool; auto. apply leRes_refl.
Qed.
Lemma isKeyword_mono kws from to c : leRes (isKeyword rec kws from to c) (isKeyword rec' kws from to c).
Proof. unfold isKeyword. apply leRes_bind; [apply keywordLoop_mono|]. intros; apply leRes_refl. Qed.

Lemma seqLoop_mono p id commit items ranges ac from k : forall k', k <= k' -> forall to ii n c,
  leRes (seqLoop rec k p id commit items ranges ac from to ii n c)
        (seqLoop rec' k' p id commit items ranges ac from to ii n c).
Proof.
  induction k as [|k IH]; intros k' Hk to ii n c; [apply leRes_noFuel|].
  destruct k' as [|k']; [lia|]. cbn [seqLoop].
  destruct (nth_error items ii); [|apply leRes_refl].
  apply leRes_bind; auto. intros x. destruct (nth_error ranges ii) as [[mn mx]|]; [|apply leRes_refl].
  destruct (negb _).
  - destruct (_ <=? _)%Z; [apply IH; lia|]. apply leRes_refl.
  - destruct (_ || _)%bool; apply IH; lia.
Qed.
Lemma seqParse_mono k k' kws p id commit items ranges gs ac c : k <= k' ->
  leRes (seqParse rec k kws p id commit items ranges gs ac c)
        (seqParse rec' k' kws p id commit items ranges gs ac c).
Proof.
  intros Hk. unfold seqParse. destruct (_ && _)%bool; [apply leRes_refl|].
  apply leRes_bind; [now apply seqLoop_mono|]. intros [to c1|c1]; [|apply leRes_refl].
  apply leRes_bind.
  - destruct (hasFlag _ _); [apply isKeyword_mono | apply leRes_refl].
  - intros [c2 []]; apply leRes_refl.
Qed.
Lemma choicePass_mono id from options : forall s c,
  leRes (choicePass rec id from options s c) (choicePass rec' id from options s c).
Proof.
  induction options; intros; cbn [choicePass]; [apply leRes_refl|].
  apply leRes_bind; auto. intros x. destruct (_ || _)%bool; auto.
Qed.
Lemma choiceLoop_mono id from options k : forall k', k <= k' -> forall s c,
  leRes (choiceLoop rec k id from options s c) (choiceLoop rec' k' id from options s c).
Proof.
  induction k as [|k IH]; intros k' Hk s c; [apply leRes_noFuel|].
  destruct k' as [|k']; [lia|]. cbn [choiceLoop].
  apply leRes_bind; [apply choicePass_mono|]. intros [s1 c1]. destruct (chFound s1); [|apply leRes_refl].
  apply IH. lia.
Qed.
Lemma choiceParse_mono k k' kws p id commit options c : k <= k' ->
  leRes (choiceParse rec k kws p id commit options c) (choiceParse rec' k' kws p id commit options c).
Proof.
  intros Hk. unfold choiceParse. destruct (fromResults _ _); [apply leRes_refl|].
  destruct (pending _ _ _); [apply leRes_refl|].
  apply leRes_bind; [now apply choiceLoop_mono|]. intros [s c1]. destruct (chMatch s); [|apply leRes_refl].
  apply leRes_bind.
  - destruct (hasFlag _ _); [apply isKeyword_mono | apply leRes_refl].
  - intros [c2 []]; apply leRes_refl.
Qed.
End MONO.

Theorem parse_mono P kws n : forall m, n <= m -> forall p c, leRes (parse P kws n p c) (parse P kws m p c).
Proof.
  induction n as [|n IH]; intros m Hm p c; [apply leRes_noFuel|].
  destruct m as [|m]; [lia|]. cbn [parse]. destruct (nth_error P p) as [[]|]; try apply leRes_refl.
  - apply seqParse_mono; [|lia]. intros; apply IH; lia.
  - apply choiceParse_mono; [|lia]. intros; apply IH; lia.
Qed.

Section BMONO.
Variables rec rec' : addr -> context -> res (list node * bool * context).
Hypothesis Hrec : forall p c, leRes (rec p c) (rec' p c).
Lemma buildLoop_mono items ranges k : forall k', k <= k' -> forall ii n nodes c,
  leRes (buildLoop rec k items ranges ii n nodes c) (buildLoop rec' k' items ranges ii n nodes c).
Proof.
  induction k as [|k IH]; intros k' Hk ii n nodes c; [apply leRes_noFuel|].
  destruct k' as [|k']; [lia|]. cbn [buildLoop]. destruct (nth_error items ii); [|apply leRes_refl].
  apply leRes_bind; auto. intros [[x []] c1]; [|apply IH; lia].
  destruct (nth_error ranges ii) as [[mn mx]|]; [|apply leRes_refl].
  destruct (_ <? _); [|apply IH; lia]. destruct (_ && _)%bool; apply IH; lia.
Qed.
End BMONO.

Theorem build_mono P n : forall m, n <= m -> forall b c, leRes (build P n b c) (build P m b c).
Proof.
  induction n as [|n IH]; intros m Hm b c; [apply leRes_noFuel|].
  destruct m as [|m]; [lia|]. assert (Hr : forall p c, leRes (build P n p c) (build P m p c)) by (intros; apply IH; lia).
  cbn [build]. destruct (nth_error P b) as [[]|]; try apply leRes_refl.
  - unfold seqBuild. destruct (longestMatch _ _ _); [|apply leRes_refl].
    destruct allChars; [apply leRes_refl|]. apply leRes_bind; [apply leRes_refl|].
    intros [c1|]; [|apply leRes_refl]. apply leRes_bind; [apply buildLoop_mono; auto; lia|].
    intros [nodes c2]. apply leRes_refl.
  - unfold choiceBuild. destruct (longestMatch _ _ _); [|apply leRes_refl].
    apply leRes_bind; [apply leRes_refl|]. intros [c1|]; [|apply leRes_refl].
    apply leRes_bind; [apply leRes_refl|]. intros [o|]; [|apply leRes_refl].
    apply leRes_bind; auto. intros [[x y] c2]. apply leRes_refl.
Qed.

Theorem parseInputPB_mono P B kws root rootB n m input e : n <= m ->
  leRes (parseInputPB P B kws root rootB n input e) (parseInputPB P B kws root rootB m input e).
Proof.
  intros H. unfold parseInputPB. apply leRes_bind; [now apply parse_mono|].
  intros c. destruct (cReadErr c); [apply leRes_refl|].
  apply leRes_bind; [apply leRes_refl|]. intros [c1 [er|]]; [apply leRes_refl|].
  apply leRes_bind; [now apply build_mono|]. intros [[x y] c2]. apply leRes_refl.
Qed.
Theorem parseInput_mono P kws root n m input e : n <= m ->
  leRes (parseInput P kws root n input e) (parseInput P kws root m input e).
Proof. apply parseInputPB_mono. Qed.
