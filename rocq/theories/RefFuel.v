(** The reference semantics does not depend on its depth bound. *)
From Verif Require Import Base Parser Build RefSpec.

Section FUEL.
Context {A : Type}.
Variable G : A -> option (gobj A).
Variable K : list (list rune).
Variable input : list rune.
Notation ev := (eval G K input).

Definition leO (a b : outcome) : Prop := a <> Unfinished -> b = a.
Lemma leO_refl a : leO a a.
Proof. intros _; auto. Qed.
Lemma after_unf ns r : after ns r <> Unfinished -> r <> Unfinished.
Proof. destruct r; simpl; congruence. Qed.

Lemma evalItems_mono (rec rec' : A -> nat -> outcome) : (forall x o, leO (rec x o) (rec' x o)) ->
  forall k k' items count o, k <= k' -> leO (evalItems rec k items count o) (evalItems rec' k' items count o).
Proof.
  intros Hr. induction k as [|k IH]; intros k' items count o Hk H; [exfalso; apply H; auto|].
  destruct k' as [|k']; [lia|]. assert (Hk' : k <= k') by lia. cbn [evalItems] in *.
  destruct items as [|[x [mn mx]] items]; auto.
  assert (Hx : rec' x o = rec x o) by (apply Hr; intros E; rewrite E in H; auto). rewrite Hx.
  destruct (rec x o) as [| |t ns]; auto.
  - destruct (mn <=? count); auto. apply IH; auto.
  - destruct (o <? t).
    + destruct (match mx with Some m => _ | None => _ end); pose proof (after_unf _ _ H) as H'.
      * rewrite (IH k' items 0 t Hk' H'). auto.
      * rewrite (IH k' _ (S count) t Hk' H'). auto.
    + pose proof (after_unf _ _ H) as H'. rewrite (IH k' items 0 t Hk' H'). auto.
Qed.
Lemma evalOptions_mono (rec rec' : A -> nat -> outcome) : (forall x o, leO (rec x o) (rec' x o)) ->
  forall options o best, leO (evalOptions rec options o best) (evalOptions rec' options o best).
Proof.
  intros Hr. induction options as [|x options IH]; intros o best H; cbn [evalOptions] in *; auto.
  assert (Hx : rec' x o = rec x o) by (apply Hr; intros E; rewrite E in H; auto). rewrite Hx.
  destruct (rec x o); auto; apply IH; auto.
Qed.
Lemma labelled_unf l o r : labelled l o r <> Unfinished -> r <> Unfinished.
Proof. destruct r; simpl; congruence. Qed.

Lemma eval_mono1 n : forall a o, leO (ev n a o) (ev (S n) a o).
Proof.
  induction n as [|n IH]; intros a o H; [exfalso; apply H; auto|].
  remember (S n) as n1 eqn:En1.
  assert (En : n <= n1) by lia. rewrite En1 in H. replace (ev n1 a o) with (ev (S n) a o) by (rewrite En1; auto). cbn [eval] in H |- *. destruct (G a) as [[cn ch rs|lb nk items|lb options]|]; auto.
  - assert (H' : evalItems (ev n) n items 0 o <> Unfinished) by (intros E; rewrite E in H; auto).
    rewrite (evalItems_mono _ _ IH n n1 items 0 o En H'). auto.
  - pose proof (labelled_unf _ _ _ H) as H'. rewrite (evalOptions_mono _ _ IH options o NoMatch H'). auto.
Qed.
Lemma eval_mono n m a o : n <= m -> leO (ev n a o) (ev m a o).
Proof.
  induction 1 as [|m Hm IH]; [apply leO_refl|]. intros H. rewrite (eval_mono1 m a o); [auto|]. rewrite IH; auto.
Qed.
Theorem Gives_fun a o r r' : Gives G K input a o r -> Gives G K input a o r' -> r = r'.
Proof.
  intros [H (n & E)] [H' (m & E')]. subst r r'.
  destruct (Nat.le_ge_cases n m) as [L|L]; [symmetry|]; apply (eval_mono _ _ _ _ L); auto.
Qed.
Lemma Gives_intro n a o r : ev n a o = r -> r <> Unfinished -> Gives G K input a o r.
Proof. intros H Hr. split; auto. exists n; auto. Qed.

(** matches do not end before they start *)
Lemma evalItems_ge (rec : A -> nat -> outcome) : (forall x o t ns, rec x o = Match t ns -> o <= t) ->
  forall k items count o t ns, evalItems rec k items count o = Match t ns -> o <= t.
Proof.
  intros Hr. induction k as [|k IH]; intros items count o t ns H; [discriminate|]. cbn [evalItems] in H.
  destruct items as [|[x [mn mx]] items]; [inversion H; auto|].
  destruct (rec x o) as [| |t1 ns1] eqn:Ex; try discriminate.
  - destruct (mn <=? count); [|discriminate]. eauto.
  - apply Hr in Ex. assert (Ha : forall k0 its c0 m0, after m0 (evalItems rec k its c0 t1) = Match t ns -> k0 = k -> t1 <= t).
    { intros k0 its c0 m0 E _. destruct (evalItems rec k its c0 t1) as [| |t2 ns2] eqn:E2; simpl in E; try discriminate. inversion E; subst. eauto. }
    destruct (o <? t1); [destruct (match mx with Some m => _ | None => _ end)|]; apply (Ha k) in H; auto; lia.
Qed.
Lemma longer_case best r : longer best r = best \/ longer best r = r.
Proof. destruct best, r; simpl; auto. destruct (_ <? _); auto. Qed.
Lemma evalOptions_case (rec : A -> nat -> outcome) options : forall o best,
  evalOptions rec options o best = best \/ exists x, In x options /\ evalOptions rec options o best = rec x o.
Proof.
  induction options as [|x options IH]; intros o best; cbn [evalOptions]; auto.
  destruct (rec x o) as [| |t ns] eqn:Ex; [right; exists x; split; [left|]; auto| |].
  - destruct (IH o (longer best NoMatch)) as [E|(y & Hy & E)]; rewrite E.
    + destruct (longer_case best NoMatch) as [-> | ->]; auto. right; exists x; split; [left|]; auto.
    + right; exists y; split; [right|]; auto.
  - destruct (IH o (longer best (Match t ns))) as [E|(y & Hy & E)]; rewrite E.
    + destruct (longer_case best (Match t ns)) as [-> | ->]; auto. right; exists x; split; [left|]; auto.
    + right; exists y; split; [right|]; auto.
Qed.
Lemma eval_ge n : forall a o t ns, ev n a o = Match t ns -> o <= t.
Proof.
  induction n as [|n IH]; intros a o t ns H; [discriminate|]. cbn [eval] in H.
  destruct (G a) as [[cn ch rs|lb nk items|lb options]|]; try discriminate.
  - destruct (nth_error input o); [|discriminate]. destruct (classHas _ _ _ _); inversion H; lia.
  - destruct (evalItems (ev n) n items 0 o) as [| |t1 ns1] eqn:E; try discriminate.
    apply evalItems_ge in E; auto. destruct (nk && _)%bool; [discriminate|]. inversion H; subst; auto.
  - destruct (evalOptions_case (ev n) options o NoMatch) as [E|(x & Hx & E)]; rewrite E in H; [discriminate|].
    destruct (ev n x o) as [| |t1 ns1] eqn:Ex; try discriminate. apply IH in Ex. inversion H; subst; auto.
Qed.
Lemma Gives_ge a o t ns : Gives G K input a o (Match t ns) -> o <= t.
Proof. intros [_ (n & E)]. eapply eval_ge; eauto. Qed.

(** the outcome of a choice: defined when all options are, and the longest of them *)
Lemma evalOptions_spec (rec : A -> nat -> outcome) o options : forall best, best <> Unfinished -> evalOptions rec options o best <> Unfinished ->
  (forall x, In x options -> rec x o <> Unfinished) /\
  match evalOptions rec options o best with
  | Match t ns => (forall t' ns', best = Match t' ns' -> t' <= t) /\
                  (forall x t' ns', In x options -> rec x o = Match t' ns' -> t' <= t) /\
                  (best = Match t ns \/ exists x, In x options /\ rec x o = Match t ns)
  | NoMatch => best = NoMatch /\ forall x, In x options -> rec x o = NoMatch
  | Unfinished => False
  end.
Proof.
  induction options as [|x options IH]; intros best Hb H; cbn [evalOptions] in *.
  - split; [intros x []|]. destruct best as [| |t ns]; auto.
    + split; auto. intros x [].
    + split; [intros t' ns' E; inversion E; auto|]. split; [intros x t' ns' []|]. auto.
  - destruct (rec x o) as [| |t0 ns0] eqn:Ex; [exfalso; apply H; auto| |].
    + assert (Hl : best <> Unfinished -> longer best NoMatch = best) by (destruct best; auto; congruence). specialize (Hl Hb).
      rewrite Hl in *. destruct (IH _ Hb H) as [I1 I2]. split; [intros y [<-|Hy]; [congruence|auto]|].
      destruct (evalOptions rec options o best) as [| |t ns]; auto.
      * destruct I2 as [I2 I3]. split; auto. intros y [<-|Hy]; auto.
      * destruct I2 as (I2 & I3 & I4). split; [|split].
        -- intros t' ns' ->. apply (I2 t' ns'). auto.
        -- intros y t' ns' [<-|Hy] E; [congruence|eauto].
        -- destruct I4 as [I4|(y & Hy & E)]; [|right; exists y; split; [right|]; auto].
           left. auto.
    + assert (Hb' : longer best (Match t0 ns0) <> Unfinished) by (destruct best; simpl; try discriminate; destruct (_ <? _); discriminate).
      destruct (IH _ Hb' H) as [I1 I2]. split; [intros y [<-|Hy]; [congruence|auto]|].
      assert (Hl : (exists t1 ns1, longer best (Match t0 ns0) = Match t1 ns1 /\ t0 <= t1 /\ (forall t' ns', best = Match t' ns' -> t' <= t1) /\
                    (best = Match t1 ns1 \/ Match t0 ns0 = Match t1 ns1))).
      { destruct best as [| |tb nb]; simpl.
        - exists t0, ns0. split; auto. split; auto. split; [discriminate|auto].
        - exists t0, ns0. split; auto. split; auto. split; [discriminate|auto].
        - destruct (Nat.ltb_spec tb t0); [exists t0, ns0|exists tb, nb]; (split; [auto|]; split; [lia|]; split; [|auto]); intros t' ns' E; inversion E; subst; lia. }
      destruct Hl as (t1 & ns1 & El & Hl1 & Hl2 & Hl3). rewrite El in *.
      destruct (evalOptions rec options o (Match t1 ns1)) as [| |t ns]; auto.
      * destruct I2 as [I2 _]. discriminate.
      * destruct I2 as (I2 & I3 & I4). pose proof (I2 _ _ eq_refl) as L. split; [|split].
        -- intros t' ns' E. apply Hl2 in E. lia.
        -- intros y t' ns' [<-|Hy] E; [rewrite Ex in E; inversion E; subst; lia|eauto].
        -- destruct I4 as [I4|(y & Hy & E)]; [|right; exists y; split; [right|]; auto].
           inversion I4; subst. destruct Hl3 as [->|E]; auto. inversion E; subst. right. exists x. split; [left|]; auto.
Qed.
End FUEL.
