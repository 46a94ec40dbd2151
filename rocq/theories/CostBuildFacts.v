(** Measuring does not change a run of the builders; the number of their calls and the depth. *)
From Verif Require Import Base Utf8 IdSet Results Parser Build ListFacts ResultsFacts ReaderFacts ParseFacts
  FuelFacts TermFacts BuildFacts Restrict Syntax Cost CostFacts CostBuild.

Section REC.
Variable op : nat -> nat -> nat.
Variable rec : addr -> context -> res (list node * bool * context).
Variable recN : addr -> context -> res (list node * bool * context * nat).
Hypothesis Hrec : forall p c, er (recN p c) = rec p c.

Ltac step p c := rewrite <- (Hrec p c); destruct (recN p c) as [[? ?]|?|]; cbn [er bind]; try reflexivity.

Lemma buildLoop_er items ranges k : forall ii cnt nodes c,
  er (buildLoopN op recN k items ranges ii cnt nodes c) = buildLoop rec k items ranges ii cnt nodes c.
Proof.
  induction k as [|k IH]; intros ii cnt nodes c; cbn [buildLoopN buildLoop]; [reflexivity|]. destruct (nth_error items ii) as [item|]; [|reflexivity].
  cbv zeta. step item c. destruct p as [[ns []] c1].
  - destruct (nth_error ranges ii) as [[mn mx]|]; [|reflexivity]. rewrite er_bind. destruct (_ <? _); [destruct (_ && _)%bool|]; auto.
  - rewrite er_bind. auto.
Qed.
Lemma seqBuild_er k name id ct items ranges gs ac c : er (seqBuildN op recN k name id ct items ranges gs ac c) = seqBuild rec k name id ct items ranges gs ac c.
Proof.
  unfold seqBuildN, seqBuild. destruct (longestMatch _ _ _); [|reflexivity]. cbv zeta. destruct ac; [destruct (hasFlag _ _); reflexivity|].
  destruct (enterBuild _ _ _ _) as [[c1|]|w|]; cbn [bind]; try reflexivity. rewrite <- buildLoop_er.
  destruct (buildLoopN _ _ _ _ _ _ _ _ _) as [[[nodes c2] m]|w|]; cbn [er bind]; try reflexivity.
  destruct (leaveBuild _ _ _ _ _); cbn [bind]; try reflexivity. destruct (hasFlag _ _); reflexivity.
Qed.
Lemma choiceBuild_er P name id ct options gs c : er (choiceBuildN recN P name id ct options gs c) = choiceBuild rec P name id ct options gs c.
Proof.
  unfold choiceBuildN, choiceBuild. destruct (longestMatch _ _ _); [|reflexivity]. cbv zeta.
  destruct (enterBuild _ _ _ _) as [[c1|]|w|]; cbn [bind]; try reflexivity.
  destruct (pickOption _ _ _ _ _) as [[o|]|w|]; cbn [bind]; try reflexivity. step o c1. destruct p as [[ns b] c2].
  destruct (leaveBuild _ _ _ _ _); cbn [bind]; try reflexivity. destruct (hasFlag _ _); reflexivity.
Qed.
End REC.

(** the run is the same *)
Theorem build_counts op P n : forall b c, er (buildN op P n b c) = build P n b c.
Proof.
  induction n as [|n IH]; intros b c; cbn [buildN build]; [reflexivity|]. rewrite er_bind0. destruct (nth_error P b) as [[| |]|]; try reflexivity.
  - apply seqBuild_er; auto.
  - apply choiceBuild_er; auto.
Qed.
Lemma buildN_run op P n b c x k : buildN op P n b c = Ok (x, k) -> build P n b c = Ok x.
Proof. intros H. rewrite <- (build_counts op), H. reflexivity. Qed.
Lemma build_runN op P n b c x : build P n b c = Ok x -> exists k, buildN op P n b c = Ok (x, k).
Proof. rewrite <- (build_counts op). destruct (buildN op P n b c) as [[x1 k]|w|]; simpl; intros H; inversion H; eauto. Qed.

(** more fuel *)
Lemma buildLoopN_mono op rec rec' items ranges k : (forall p c, leRes (rec p c) (rec' p c)) -> forall k', k <= k' -> forall ii n nodes c,
  leRes (buildLoopN op rec k items ranges ii n nodes c) (buildLoopN op rec' k' items ranges ii n nodes c).
Proof.
  intros Hrec. induction k as [|k IH]; intros k' Hk ii n nodes c; [apply leRes_noFuel|].
  destruct k' as [|k']; [lia|]. cbn [buildLoopN]. destruct (nth_error items ii); [|apply leRes_refl].
  apply leRes_bind; auto. intros [[[x []] c1] m].
  - destruct (nth_error ranges ii) as [[mn mx]|]; [|apply leRes_refl]. apply leRes_bind; [|intros; apply leRes_refl].
    destruct (_ <? _); [destruct (_ && _)%bool|]; apply IH; lia.
  - apply leRes_bind; [apply IH; lia|intros; apply leRes_refl].
Qed.
Theorem buildN_mono op P n : forall m, n <= m -> forall b c, leRes (buildN op P n b c) (buildN op P m b c).
Proof.
  induction n as [|n IH]; intros m Hm b c; [apply leRes_noFuel|].
  destruct m as [|m]; [lia|]. assert (Hr : forall p c, leRes (buildN op P n p c) (buildN op P m p c)) by (intros; apply IH; lia).
  cbn [buildN]. apply leRes_bind; [|intros; apply leRes_refl]. destruct (nth_error P b) as [[]|]; try apply leRes_refl.
  - unfold seqBuildN. destruct (longestMatch _ _ _); [|apply leRes_refl]. destruct allChars; [apply leRes_refl|].
    apply leRes_bind; [apply leRes_refl|]. intros [c1|]; [|apply leRes_refl]. apply leRes_bind; [apply buildLoopN_mono; auto; lia|].
    intros [[ns c2] k]. apply leRes_refl.
  - unfold choiceBuildN. destruct (longestMatch _ _ _); [|apply leRes_refl].
    apply leRes_bind; [apply leRes_refl|]. intros [c1|]; [|apply leRes_refl]. apply leRes_bind; [apply leRes_refl|].
    intros [o|]; [|apply leRes_refl]. apply leRes_bind; auto. intros [[[ns b0] c2] k]. apply leRes_refl.
Qed.
Theorem buildMeasure_mono op n m s input e k : n <= m -> buildMeasure op n s input e = Ok k -> buildMeasure op m s input e = Ok k.
Proof.
  unfold buildMeasure. destruct (sRoot s); [|discriminate]. intros Hm H. binv H. rewrite (parse_mono _ _ _ _ Hm); [|congruence]. rewrite E. cbn [bind].
  destruct (cReadErr x); auto. binv H. rewrite E0. cbn [bind]. destruct x0 as [c1 [err|]]; auto. binv H.
  rewrite (buildN_mono _ _ _ _ Hm); [|congruence]. rewrite E1. auto.
Qed.

(** the builders that can be reached *)
Lemma buildLoopN_ext op rec rec' items ranges k : (forall x c, In x items -> rec x c = rec' x c) -> forall ii n ns c,
  buildLoopN op rec k items ranges ii n ns c = buildLoopN op rec' k items ranges ii n ns c.
Proof.
  intros Hi. induction k as [|k IH]; intros ii n ns c; auto. cbn [buildLoopN].
  destruct (nth_error items ii) as [item|] eqn:E; auto. apply bind_ext; [apply Hi; eapply nth_error_In; eauto|].
  intros [[[x []] c1] m].
  - destruct (nth_error ranges ii) as [[mn mx]|]; auto. apply bind_ext; auto. destruct (_ <? _); [destruct (_ && _)%bool|]; auto.
  - apply bind_ext; auto.
Qed.
Lemma buildN_restrict op P live kws n : closedLive P live kws -> forall p c, live p = true -> buildN op P n p c = buildN op (restrict P live) n p c.
Proof.
  intros Hcl. pose proof Hcl as (C1 & C2 & _). induction n as [|n IH]; intros p c Hp; auto. cbn [buildN]. rewrite (restrict_live P live p Hp). apply bind_ext; auto.
  destruct (nth_error P p) as [[|name id commit items ranges gs ac|name id commit options gs]|] eqn:E; auto.
  - unfold seqBuildN. destruct (longestMatch _ _ _); auto. destruct ac; auto. apply bind_ext; auto. intros [c1|]; auto.
    apply bind_ext; auto. apply buildLoopN_ext. intros x c2 Hx. apply IH. eauto.
  - unfold choiceBuildN. destruct (longestMatch _ _ _); auto. apply bind_ext; auto. intros [c1|]; auto.
    rewrite <- (pickOption_restrict P live) by eauto.
    destruct (pickOption P _ _ _ options) as [[o|]|w|] eqn:Ep; cbn [bind]; auto. apply pickOption_In in Ep.
    apply bind_ext; auto. apply IH. eauto.
Qed.
