(** The reference semantics with extensions does not depend on its depth bound. *)
From Verif Require Import Base Parser Build RefSpec RefFuel RefTotal LeftSpec GrowSpec.

Lemma ascending_split {X} (p : X -> bool) l : ascending (map p l) = true -> l = filter (fun x => negb (p x)) l ++ filter p l.
Proof.
  induction l as [|x l IH]; simpl; auto. destruct (p x) eqn:E; simpl.
  - intros H. assert (H1 : filter (fun x0 => negb (p x0)) l = [] /\ filter p l = l).
    { clear -H. induction l as [|y l IH]; simpl in *; auto. apply andb_true_iff in H. destruct H as [H1 H2]. rewrite H1. simpl.
      destruct (IH H2) as [-> ->]. auto. }
    destruct H1 as [-> ->]. auto.
  - intros H. f_equal. auto.
Qed.
Lemma filter_negneg {X} (p : X -> bool) l : filter (fun x => negb (negb (p x))) l = filter p l.
Proof. induction l as [|x l IH]; simpl; auto. rewrite negb_involutive, IH. auto. Qed.

Section FUEL.
Context {A : Type}.
Variable eqA : A -> A -> bool.
Variable G : A -> option (gobj A).
Variable K : list (list rune).
Variable input : list rune.
Notation ev := (evalL eqA G K input).

Lemma inBlocks_split e options : inBlocks eqA G e options = true ->
  options = extensionsOf eqA G e options ++ basesOf eqA G e options \/ options = basesOf eqA G e options ++ extensionsOf eqA G e options.
Proof.
  unfold inBlocks, extensionsOf, basesOf. intros H. apply orb_true_iff in H. destruct H as [H|H].
  - right. apply ascending_split; auto.
  - left. apply ascending_split in H. rewrite filter_negneg in H. auto.
Qed.
Lemma in_split_options e options x : In x options <-> In x (extensionsOf eqA G e options) \/ In x (basesOf eqA G e options).
Proof.
  unfold extensionsOf, basesOf. rewrite !filter_In. destruct (isExtension eqA G e x); simpl; intuition congruence.
Qed.

Section GROW.
Variable label : option string.
Variable from : nat.
Lemma evalRound_mono rec rec' k k' : (forall x o, leO (rec x o) (rec' x o)) -> k <= k' ->
  forall xs t ns, leO (evalRound G rec k label from xs t ns) (evalRound G rec' k' label from xs t ns).
Proof.
  intros Hr Hk. induction xs as [|x xs IH]; intros t ns H; cbn [evalRound] in *; auto.
  destruct (G x) as [[cn ch rs|l nk [|first rest]|l os]|]; auto.
  assert (Hi : evalItems rec k rest 0 t <> Unfinished) by (intros E; rewrite E in H; auto).
  rewrite (evalItems_mono rec rec' Hr k k' rest 0 t Hk Hi).
  destruct (evalItems rec k rest 0 t) as [| |t' ns']; auto; [apply IH; auto|]. destruct (t <? t'); auto. apply IH; auto.
Qed.
Lemma evalGrow_mono rec rec' k k' : (forall x o, leO (rec x o) (rec' x o)) -> k <= k' ->
  forall j j' xs t ns, j <= j' -> leO (evalGrow G rec k label from j xs t ns) (evalGrow G rec' k' label from j' xs t ns).
Proof.
  intros Hr Hk. induction j as [|j IH]; intros j' xs t ns Hj H; [exfalso; apply H; auto|].
  destruct j' as [|j']; [lia|]. cbn [evalGrow] in *.
  assert (Hi : evalRound G rec k label from xs t ns <> Unfinished) by (intros E; rewrite E in H; auto).
  rewrite (evalRound_mono rec rec' k k' Hr Hk xs t ns Hi).
  destruct (evalRound G rec k label from xs t ns) as [| |t' ns']; auto. destruct (t <? t'); auto. apply IH; auto. lia.
Qed.
Lemma evalRound_ge rec k : forall xs t ns t' ns', evalRound G rec k label from xs t ns = Match t' ns' -> t <= t'.
Proof.
  induction xs as [|x xs IH]; intros t ns t' ns' H; cbn [evalRound] in H; [inversion H; auto|].
  destruct (G x) as [[cn ch rs|l nk [|first rest]|l os]|]; try discriminate.
  destruct (evalItems rec k rest 0 t) as [| |t1 ns1]; try discriminate; [eauto|].
  destruct (Nat.ltb_spec t t1); [|discriminate]. apply IH in H. lia.
Qed.
Lemma evalRound_stay rec k : forall xs t ns ns', evalRound G rec k label from xs t ns = Match t ns' -> ns' = ns.
Proof.
  induction xs as [|x xs IH]; intros t ns ns' H; cbn [evalRound] in H; [congruence|].
  destruct (G x) as [[cn ch rs|l nk [|first rest]|l os]|]; try discriminate.
  destruct (evalItems rec k rest 0 t) as [| |t1 ns1]; [discriminate|eauto|].
  destruct (Nat.ltb_spec t t1); [|discriminate]. apply evalRound_ge in H. lia.
Qed.
Lemma evalRound_some rec k : forall xs t ns, evalRound G rec k label from xs t ns <> NoMatch.
Proof.
  induction xs as [|x xs IH]; intros t ns H; cbn [evalRound] in H; [discriminate|].
  destruct (G x) as [[cn ch rs|l nk [|first rest]|l os]|]; try discriminate.
  destruct (evalItems rec k rest 0 t) as [| |t1 ns1]; try discriminate; [eapply IH; eauto|].
  destruct (Nat.ltb_spec t t1); [|discriminate]. eapply IH; eauto.
Qed.
Lemma evalGrow_some rec k j : forall xs t ns, evalGrow G rec k label from j xs t ns <> NoMatch.
Proof.
  induction j as [|j IH]; intros xs t ns H; [discriminate|]. cbn [evalGrow] in H.
  destruct (evalRound G rec k label from xs t ns) as [| |t1 ns1] eqn:E; [discriminate|eapply evalRound_some; eauto|].
  destruct (t <? t1); [|discriminate]. eapply IH; eauto.
Qed.
Lemma evalGrow_ge rec k j : forall xs t ns t' ns', evalGrow G rec k label from j xs t ns = Match t' ns' -> t <= t'.
Proof.
  induction j as [|j IH]; intros xs t ns t' ns' H; [discriminate|]. cbn [evalGrow] in H.
  destruct (evalRound G rec k label from xs t ns) as [| |t1 ns1] eqn:E; try discriminate.
  destruct (Nat.ltb_spec t t1); [apply IH in H; lia|inversion H; auto].
Qed.
End GROW.

Lemma evalL_mono1 n : forall a o, leO (ev n a o) (ev (S n) a o).
Proof.
  induction n as [|n IH]; intros a o H; [exfalso; apply H; auto|].
  remember (S n) as n1 eqn:En1.
  assert (En : n <= n1) by lia. rewrite En1 in H. replace (ev n1 a o) with (ev (S n) a o) by (rewrite En1; auto). cbn [evalL] in H |- *.
  destruct (G a) as [[cn ch rs|lb nk items|lb options]|]; auto.
  - destruct (extending eqA G a); auto.
    assert (H' : evalItems (ev n) n items 0 o <> Unfinished) by (intros E; rewrite E in H; auto).
    rewrite (evalItems_mono _ _ IH n n1 items 0 o En H'). auto.
  - destruct (extensionsOf eqA G a options) as [|x xs] eqn:Ex.
    + pose proof (labelled_unf _ _ _ H) as H'. rewrite (evalOptions_mono _ _ IH options o NoMatch H'). auto.
    + destruct (inBlocks eqA G a options); auto.
      assert (H' : evalOptions (ev n) (basesOf eqA G a options) o NoMatch <> Unfinished) by (intros E; rewrite E in H; auto).
      rewrite (evalOptions_mono _ _ IH _ o NoMatch H').
      destruct (evalOptions (ev n) (basesOf eqA G a options) o NoMatch) as [| |t ns]; auto. destruct (o <? t); auto.
      apply (evalGrow_mono lb o _ _ n n1 IH En n n1 (x :: xs)); auto.
Qed.
Lemma evalL_mono n m a o : n <= m -> leO (ev n a o) (ev m a o).
Proof.
  induction 1 as [|m Hm IH]; [apply leO_refl|]. intros H. rewrite (evalL_mono1 m a o); [auto|]. rewrite IH; auto.
Qed.
Theorem GivesL_fun a o r r' : GivesL eqA G K input a o r -> GivesL eqA G K input a o r' -> r = r'.
Proof.
  intros [H (n & E)] [H' (m & E')]. subst r r'.
  destruct (Nat.le_ge_cases n m) as [L|L]; [symmetry|]; apply (evalL_mono _ _ _ _ L); auto.
Qed.
Lemma GivesL_intro n a o r : ev n a o = r -> r <> Unfinished -> GivesL eqA G K input a o r.
Proof. intros H Hr. split; auto. exists n; auto. Qed.

Lemma evalL_ge n : forall a o t ns, ev n a o = Match t ns -> o <= t.
Proof.
  induction n as [|n IH]; intros a o t ns H; [discriminate|]. cbn [evalL] in H.
  destruct (G a) as [[cn ch rs|lb nk items|lb options]|]; try discriminate.
  - destruct (nth_error input o); [|discriminate]. destruct (classHas _ _ _ _); inversion H; lia.
  - destruct (extending eqA G a); [discriminate|]. destruct (evalItems (ev n) n items 0 o) as [| |t1 ns1] eqn:E; try discriminate.
    apply evalItems_ge in E; auto. destruct (nk && _)%bool; [discriminate|]. inversion H; subst; auto.
  - assert (Ho : forall os t1 ns1, evalOptions (ev n) os o NoMatch = Match t1 ns1 -> o <= t1).
    { intros os t1 ns1 E. destruct (evalOptions_case (ev n) os o NoMatch) as [E'|(x & _ & E')]; rewrite E in E'; [discriminate|].
      symmetry in E'. eapply IH; eauto. }
    destruct (extensionsOf eqA G a options) as [|x xs].
    + destruct (evalOptions (ev n) options o NoMatch) as [| |t1 ns1] eqn:E; try discriminate. apply Ho in E. inversion H; subst; auto.
    + destruct (inBlocks eqA G a options); [|discriminate].
      destruct (evalOptions (ev n) (basesOf eqA G a options) o NoMatch) as [| |t1 ns1] eqn:E; try discriminate. apply Ho in E.
      destruct (o <? t1); [|discriminate]. apply evalGrow_ge in H. lia.
Qed.
Lemma GivesL_ge a o t ns : GivesL eqA G K input a o (Match t ns) -> o <= t.
Proof. intros [_ (n & E)]. eapply evalL_ge; eauto. Qed.
Lemma evalGrow_le (rec : A -> nat -> outcome) k label from : (forall x o t ns, rec x o = Match t ns -> o < t -> t <= List.length input) ->
  (forall x o t ns, rec x o = Match t ns -> o <= t) ->
  forall j xs t ns t' ns', evalGrow G rec k label from j xs t ns = Match t' ns' -> t < t' -> t' <= List.length input.
Proof.
  intros Hr Hge. assert (Hround : forall xs t ns t' ns', evalRound G rec k label from xs t ns = Match t' ns' -> t < t' -> t' <= List.length input).
  { induction xs as [|x xs IH]; intros t ns t' ns' H Hlt; cbn [evalRound] in H; [inversion H; lia|].
    destruct (G x) as [[cn ch rs|l nk [|first rest]|l os]|]; try discriminate.
    destruct (evalItems rec k rest 0 t) as [| |t1 ns1] eqn:Ei; try discriminate; [eauto|].
    destruct (Nat.ltb_spec t t1) as [H1|]; [|discriminate]. pose proof (evalItems_le input rec Hr Hge _ _ _ _ _ _ Ei H1).
    pose proof (evalRound_ge _ _ _ _ _ _ _ _ _ H). destruct (Nat.eq_dec t1 t'); [lia|]. eapply IH; eauto. lia. }
  induction j as [|j IH]; intros xs t ns t' ns' H Hlt; [discriminate|]. cbn [evalGrow] in H.
  destruct (evalRound G rec k label from xs t ns) as [| |t1 ns1] eqn:E; try discriminate.
  destruct (Nat.ltb_spec t t1) as [H1|]; [|inversion H; lia]. pose proof (Hround _ _ _ _ _ E H1).
  pose proof (evalGrow_ge _ _ _ _ _ _ _ _ _ _ H). destruct (Nat.eq_dec t1 t'); [lia|]. eapply IH; eauto. lia.
Qed.
Lemma evalL_le n : forall a o t ns, ev n a o = Match t ns -> o < t -> t <= List.length input.
Proof.
  induction n as [|n IH]; intros a o t ns H Hot; [discriminate|]. cbn [evalL] in H.
  pose proof (evalL_ge n) as Hge.
  destruct (G a) as [[cn ch rs|lb nk items|lb options]|]; try discriminate.
  - destruct (nth_error input o) eqn:E; [|discriminate]. destruct (classHas _ _ _ _); [|discriminate]. inversion H; subst.
    assert (o < List.length input) by (apply nth_error_Some; congruence). lia.
  - destruct (extending eqA G a); [discriminate|].
    destruct (evalItems (ev n) n items 0 o) as [| |t1 ns1] eqn:E; try discriminate. destruct (_ && _)%bool; [discriminate|]. simpl in H. inversion H; subst.
    eapply (evalItems_le input (ev n)); eauto.
  - assert (Ho : forall os t1 ns1, evalOptions (ev n) os o NoMatch = Match t1 ns1 -> o < t1 -> t1 <= List.length input).
    { intros os t1 ns1 E. destruct (evalOptions_case (ev n) os o NoMatch) as [E'|(x & _ & E')]; rewrite E in E'; [discriminate|].
      symmetry in E'. eapply IH; eauto. }
    destruct (extensionsOf eqA G a options) as [|x xs].
    + destruct (evalOptions (ev n) options o NoMatch) as [| |t1 ns1] eqn:E; try discriminate. simpl in H. inversion H; subst. eapply Ho; eauto.
    + destruct (inBlocks eqA G a options); [|discriminate].
      destruct (evalOptions (ev n) (basesOf eqA G a options) o NoMatch) as [| |t1 ns1] eqn:E; try discriminate.
      destruct (Nat.ltb_spec o t1) as [H1|]; [|discriminate]. pose proof (Ho _ _ _ E H1).
      pose proof (evalGrow_ge _ _ _ _ _ _ _ _ _ _ H). destruct (Nat.eq_dec t1 t); [lia|]. eapply evalGrow_le; eauto. lia.
Qed.

(** without extensions it is the reference semantics of RefSpec.v *)
Lemma eval_evalL (Hno : forall x, extending eqA G x = false) (Heq : forall a b, eqA a b = true <-> a = b) n : forall a o, eval G K input n a o = ev n a o.
Proof.
  assert (Hext : forall a label options, G a = Some (GChoice label options) -> extensionsOf eqA G a options = []).
  { intros a label options Ha. unfold extensionsOf. destruct (filter (isExtension eqA G a) options) as [|x l] eqn:E; auto. exfalso.
    assert (Hx : In x (filter (isExtension eqA G a) options)) by (rewrite E; left; auto). apply filter_In in Hx. destruct Hx as [Hx1 Hx2].
    specialize (Hno x). unfold isExtension in Hx2. unfold extending in Hno.
    destruct (G x) as [[| lb [] [|[y [[|[|mn]] [[|[|mx]]|]]] rest]|]|]; try discriminate. apply Heq in Hx2. subst y. rewrite Ha in Hno.
    assert (existsb (eqA x) options = true) by (apply existsb_exists; exists x; split; auto; apply Heq; auto). congruence. }
  induction n as [|n IH]; intros a o; auto. cbn [eval evalL]. destruct (G a) as [[cn ch rs|lb nk items|lb options]|] eqn:Ea; auto.
  - rewrite Hno. assert (E : forall k its c o', evalItems (eval G K input n) k its c o' = evalItems (ev n) k its c o').
    { induction k as [|k IHk]; intros its c o'; auto. cbn [evalItems]. destruct its as [|[x [mn mx]] its]; auto. rewrite IH.
      destruct (ev n x o'); auto; rewrite !IHk; auto. }
    rewrite E. auto.
  - rewrite (Hext _ _ _ Ea). f_equal. generalize NoMatch. clear Ea. induction options as [|x options IHo]; intros b; auto; cbn [evalOptions].
    rewrite IH. destruct (ev n x o); auto.
Qed.
End FUEL.
