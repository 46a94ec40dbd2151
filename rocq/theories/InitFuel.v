(** More fuel does not change the outcome of Init and Parse; both stop. *)
From Verif Require Import Base Utf8 IdSet Results Parser Build Syntax ListFacts ParseFacts FuelFacts TermFacts NoPanic Sound RunFacts InitWalk InitRun InitOk SyntaxFacts InitCore InitSpec.

Lemma validateNames_mono m rec rec' names : (forall h a, leRes (rec h a) (rec' h a)) ->
  forall h, leRes (validateNames m rec names h) (validateNames m rec' names h).
Proof.
  intros Hr. induction names as [|n names IH]; intros h; cbn [validateNames]; [apply leRes_refl|].
  destruct (lookup m n); [|apply leRes_refl]. apply leRes_bind; auto. intros [h1 [e|]]; [apply leRes_refl|auto].
Qed.
Lemma validate_mono m n : forall n', n <= n' -> forall h a, leRes (validate m n h a) (validate m n' h a).
Proof.
  induction n as [|n IH]; intros n' Hn h a; [apply leRes_noFuel|]. destruct n' as [|n']; [lia|]. cbn [validate].
  destruct (nth_error h a) as [d|]; [|apply leRes_refl].
  destruct (dKind d); [apply leRes_refl| |]; destruct validated; try apply leRes_refl; apply validateNames_mono; intros; apply IH; lia.
Qed.
Lemma validateAll_mono m n n' l : n <= n' -> forall h, leRes (validateAll m n l h) (validateAll m n' l h).
Proof.
  intros Hn. induction l as [|a l IH]; intros h; cbn [validateAll]; [apply leRes_refl|].
  apply leRes_bind; [apply validate_mono; auto|]. intros [h1 [e|]]; [apply leRes_refl|auto].
Qed.
Lemma forAddrs_mono rec rec' l : (forall h a, leRes (rec h a) (rec' h a)) -> forall h, leRes (forAddrs rec l h) (forAddrs rec' l h).
Proof.
  intros Hr. induction l as [|a l IH]; intros h; cbn [forAddrs]; [apply leRes_refl|]. apply leRes_bind; auto.
Qed.
Lemma addGeneralization_mono g n : forall n', n <= n' -> forall h a, leRes (addGeneralization n g h a) (addGeneralization n' g h a).
Proof.
  induction n as [|n IH]; intros n' Hn h a; [apply leRes_noFuel|]. destruct n' as [|n']; [lia|]. cbn [addGeneralization].
  destruct (nth_error h a) as [d|]; [|apply leRes_refl].
  destruct (dKind d); [apply leRes_refl| |]; destruct (intsContain _ _); try apply leRes_refl. apply forAddrs_mono. intros; apply IH; lia.
Qed.
Lemma initItemsLoop_mono m rec rec' a names : (forall h a, leRes (rec h a) (rec' h a)) ->
  forall ac h, leRes (initItemsLoop m rec a names ac h) (initItemsLoop m rec' a names ac h).
Proof.
  intros Hr. induction names as [|n names IH]; intros ac h; cbn [initItemsLoop]; [apply leRes_refl|].
  destruct (lookup m n); [|apply leRes_refl]. apply leRes_bind; auto.
Qed.
Lemma initOptionsLoop_mono m rec rec' gf gf' a id names : (forall h a, leRes (rec h a) (rec' h a)) -> gf <= gf' ->
  forall h, leRes (initOptionsLoop m rec gf a id names h) (initOptionsLoop m rec' gf' a id names h).
Proof.
  intros Hr Hg. induction names as [|n names IH]; intros h; cbn [initOptionsLoop]; [apply leRes_refl|].
  destruct (lookup m n); [|apply leRes_refl]. apply leRes_bind; auto. intros x. apply leRes_bind; auto.
  apply addGeneralization_mono; auto.
Qed.
Lemma initDef_mono m n : forall n' gf gf', n <= n' -> gf <= gf' -> forall h a, leRes (initDef m n gf h a) (initDef m n' gf' h a).
Proof.
  induction n as [|n IH]; intros n' gf gf' Hn Hg h a; [apply leRes_noFuel|]. destruct n' as [|n']; [lia|]. cbn [initDef].
  destruct (nth_error h a) as [d|]; [|apply leRes_refl].
  destruct (dKind d); [apply leRes_refl| |]; destruct initialized; try apply leRes_refl.
  - apply leRes_bind; [|intros; apply leRes_refl]. apply initItemsLoop_mono. intros; apply IH; lia.
  - apply initOptionsLoop_mono; auto. intros; apply IH; lia.
Qed.
Theorem Init_mono n n' s : n <= n' -> leRes (Init n s) (Init n' s).
Proof.
  intros Hn. unfold Init. destruct (sInitFailed s); [apply leRes_refl|]. destruct (sInitialized s); [apply leRes_refl|].
  destruct (sRoot s) as [root|]; [|apply leRes_refl]. destruct (nth_error _ root) as [rd|]; [|apply leRes_refl].
  destruct (sRegistry s) as [reg|]; [|apply leRes_refl]. destruct (checkCommitType rd); [apply leRes_refl|].
  apply leRes_bind; [apply leRes_refl|]. intros [[h r] rt]. apply leRes_bind; [apply validateAll_mono; auto|].
  intros [h1 [e|]]; [apply leRes_refl|]. apply leRes_bind; [|intros; apply leRes_refl].
  apply forAddrs_mono. intros. apply initDef_mono; auto.
Qed.
Theorem Parse_mono n n' s input e : n <= n' -> leRes (Parse n s input e) (Parse n' s input e).
Proof.
  intros Hn. unfold Parse. apply leRes_bind; [apply Init_mono; auto|]. intros [s1 [err|]]; [apply leRes_refl|].
  destruct (sRoot s1) as [r|]; [|apply leRes_refl]. apply leRes_bind; [apply parseInput_mono; auto|]. intros; apply leRes_refl.
Qed.

(** a successful Init leaves a usable syntax *)
Lemma Init_iinv n s s' : sinv s -> Init n s = Ok (s', None) -> sInitialized s' = true /\ sInitFailed s' = false /\ iinv s'.
Proof.
  intros Hs H. pose proof H as H0. unfold sinv in Hs.
  destruct (sInitFailed s) eqn:Ef. { unfold Init in H. rewrite Ef in H. discriminate. }
  destruct (sInitialized s) eqn:Ei. { unfold Init in H. rewrite Ef, Ei in H. inversion H; subst. auto. }
  apply Init_dinv in H; auto. destruct H as [H1 H2]. split; auto. split; auto.
  rewrite Init_split, Ef, Ei in H0. destruct (sRoot s); [|discriminate]. destruct (nth_error _ a); [|discriminate].
  destruct (sRegistry s); [|discriminate]. destruct (checkCommitType d); [discriminate|].
  binv H0. destruct x as [[h1 reg1] root1]. binv H0. destruct x as [h2 [e|]]; inversion H0; subst. auto.
Qed.

Theorem Init_terminates s : reachable s -> exists fuel0, forall fuel, fuel0 <= fuel -> Init fuel s <> NoFuel.
Proof. apply Init_fuel. Qed.

Theorem Parse_terminates s input e : reachable s -> exists fuel0, forall fuel, fuel0 <= fuel -> Parse fuel s input e <> NoFuel.
Proof.
  intros Hr. destruct (Init_fuel s Hr) as [n1 H1]. pose proof (H1 n1 (Nat.le_refl _)) as H1n.
  destruct (Init n1 s) as [[s' [err|]]|p|] eqn:Ei; [| | |congruence].
  - exists n1. intros n Hn. unfold Parse. rewrite (Init_mono _ _ s Hn) by congruence. rewrite Ei. discriminate.
  - pose proof (Init_iinv _ _ _ (reachable_sinv _ Hr) Ei) as (_ & _ & [(root & Er & Pw)]). destruct Pw as [A1 A2 A3 A4].
    destruct (parseInput_terminates (parsers s') (parsers s') (sKeywords s') root root input e A1 A2) as [n2 H2].
    exists (n1 + n2). intros n Hn. unfold Parse. assert (Hn1 : n1 <= n) by lia. rewrite (Init_mono _ _ s Hn1) by congruence. rewrite Ei. cbn [bind].
    rewrite Er. unfold parseInput. assert (Hn2 : n2 <= n) by lia. specialize (H2 n Hn2).
    destruct (parseInputPB _ _ _ _ _ _ _ _); cbn [bind]; try discriminate. congruence.
  - exists n1. intros n Hn. unfold Parse. rewrite (Init_mono _ _ s Hn) by congruence. rewrite Ei. discriminate.
Qed.

(** the outcome does not depend on the fuel *)
Theorem Parse_deterministic s input e n n' : Parse n s input e <> NoFuel -> Parse n' s input e <> NoFuel ->
  Parse n s input e = Parse n' s input e.
Proof.
  intros H H'. destruct (Nat.le_ge_cases n n') as [Hl|Hl].
  - symmetry. apply Parse_mono; auto.
  - apply Parse_mono; auto.
Qed.
