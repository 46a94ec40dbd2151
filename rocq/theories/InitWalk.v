(** The walks of Init over the definition graph: validate, initDef, addGeneralization. *)
From Verif Require Import Base Utf8 IdSet Results Parser Build Syntax ListFacts ParseFacts TermFacts NoPanic.

(** ** what the walks never change *)
Definition refs (k : dkind) : list string :=
  match k with
  | KChar _ _ _ => []
  | KSeq _ items _ _ _ _ _ _ => map siName items
  | KChoice options _ _ _ _ => options
  end.
Inductive tag := TChar (cnot : bool) (chars : list rune) (ranges : list (rune * rune)) | TSeq | TChoice.
Definition tagOf (k : dkind) : tag :=
  match k with KChar a b c => TChar a b c | KSeq _ _ _ _ _ _ _ _ => TSeq | KChoice _ _ _ _ _ => TChoice end.
Definition shape (d : defobj) : string * nat * commitType * tag * list string :=
  (dName d, dId d, dCommit d, tagOf (dKind d), refs (dKind d)).

Definition sameShape (h h' : dheap) : Prop := map shape h' = map shape h.

Lemma sameShape_refl h : sameShape h h.
Proof. reflexivity. Qed.
Lemma sameShape_trans a b c : sameShape a b -> sameShape b c -> sameShape a c.
Proof. unfold sameShape. congruence. Qed.
Lemma sameShape_len h h' : sameShape h h' -> List.length h' = List.length h.
Proof. intros H. rewrite <- (map_length shape h'), H. apply map_length. Qed.
Lemma sameShape_nth h h' a d : sameShape h h' -> nth_error h a = Some d ->
  exists d', nth_error h' a = Some d' /\ shape d' = shape d.
Proof.
  intros H Hd. assert (nth_error (map shape h') a = Some (shape d)) as Hm.
  { rewrite H, nth_error_map', Hd. auto. }
  rewrite nth_error_map' in Hm. destruct (nth_error h' a) as [d'|]; [|discriminate].
  simpl in Hm. exists d'. split; congruence.
Qed.
Lemma sameShape_sym h h' : sameShape h h' -> sameShape h' h.
Proof. unfold sameShape. auto. Qed.

Lemma sameShape_upd h a f : (forall d, nth_error h a = Some d -> shape (f d) = shape d) -> sameShape h (updNth a f h).
Proof.
  unfold sameShape. revert a. induction h as [|d h IH]; intros a H; destruct a; simpl; auto.
  - rewrite (H d); auto.
  - rewrite IH; auto.
Qed.

(** ** validate *)
Definition validatedK (k : dkind) : bool :=
  match k with KChar _ _ _ => true | KSeq _ _ _ _ _ _ v _ => v | KChoice _ _ _ v _ => v end.
Definition setValidated (k : dkind) : dkind :=
  match k with
  | KChar a b c => KChar a b c
  | KSeq oi items ranges itemDefs gs ac _ i => KSeq oi items ranges itemDefs gs ac true i
  | KChoice options od gs _ i => KChoice options od gs true i
  end.
Definition validated (h : dheap) (a : addr) : Prop :=
  exists d, nth_error h a = Some d /\ validatedK (dKind d) = true.
(** the same objects, some with the validated flag set *)
Definition vEvolved (h h' : dheap) : Prop :=
  forall a, match nth_error h a with
            | None => nth_error h' a = None
            | Some d => exists d', nth_error h' a = Some d' /\
                        (d' = d \/ d' = setKind (setValidated (dKind d)) d)
            end.
Lemma setValidated_idem k : setValidated (setValidated k) = setValidated k.
Proof. destruct k; auto. Qed.
Lemma vEvolved_refl h : vEvolved h h.
Proof. intros a. destruct (nth_error h a); eauto. Qed.
Lemma vEvolved_trans a b c : vEvolved a b -> vEvolved b c -> vEvolved a c.
Proof.
  intros H1 H2 x. specialize (H1 x). specialize (H2 x). destruct (nth_error a x) as [d|].
  - destruct H1 as (d1 & E1 & H1). rewrite E1 in H2. destruct H2 as (d2 & E2 & H2). exists d2. split; auto.
    destruct H1 as [->| ->]; auto. destruct H2 as [->| ->]; auto. right. unfold setKind. simpl. now rewrite setValidated_idem.
  - rewrite H1 in H2. auto.
Qed.
Lemma vEvolved_validated h h' a : vEvolved h h' -> validated h a -> validated h' a.
Proof.
  intros H (d & Hd & Hv). specialize (H a). rewrite Hd in H. destruct H as (d' & E & [->| ->]).
  - exists d. auto.
  - exists (setKind (setValidated (dKind d)) d). split; auto. simpl. destruct (dKind d); auto.
Qed.
Lemma vEvolved_mark h a d : nth_error h a = Some d -> vEvolved h (updNth a (setKind (setValidated (dKind d))) h).
Proof.
  intros Hd x. rewrite nth_error_updNth. destruct (Nat.eqb_spec a x) as [<-|Hne].
  - rewrite Hd. simpl. eauto.
  - destruct (nth_error h x); eauto.
Qed.
Lemma vEvolved_shape h h' : vEvolved h h' -> sameShape h h'.
Proof.
  intros H. unfold sameShape. apply nth_error_ext'. intros x. rewrite !nth_error_map'. specialize (H x).
  destruct (nth_error h x) as [d|].
  - destruct H as (d' & -> & [->| ->]); auto. simpl. unfold shape. simpl. destruct (dKind d); auto.
  - rewrite H. auto.
Qed.

(** the definition graph: [b] is referred to, directly or not, from [a] *)
Inductive reach (m : list (string * addr)) (h : dheap) : addr -> addr -> Prop :=
| reach_refl a : reach m h a a
| reach_step a d r x b : nth_error h a = Some d -> In r (refs (dKind d)) -> lookup m r = Some x ->
    reach m h x b -> reach m h a b.

Lemma shape_refs d d' : shape d' = shape d -> refs (dKind d') = refs (dKind d).
Proof. unfold shape. intros H. now inversion H. Qed.
Lemma reach_shape m h h' a b : sameShape h h' -> reach m h a b -> reach m h' a b.
Proof.
  intros Hs H. induction H as [|a d r x b Hd Hr Hx H IH]; [constructor|].
  destruct (sameShape_nth _ _ _ _ Hs Hd) as (d' & Hd' & E). eapply reach_step; eauto.
  rewrite (shape_refs _ _ E). auto.
Qed.
Lemma reach_trans m h a b c : reach m h a b -> reach m h b c -> reach m h a c.
Proof. induction 1; auto. intros. eapply reach_step; eauto. Qed.

Section VALIDATE.
Variable m : list (string * addr).

(** all references of [b] are defined, and their targets are validated *)
Definition closedAt (h : dheap) (b : addr) : Prop :=
  forall d r, nth_error h b = Some d -> In r (refs (dKind d)) -> exists x, lookup m r = Some x /\ validated h x.
Definition undefinedRef (h : dheap) (a : addr) (err : gerr) : Prop :=
  exists b d r, reach m h a b /\ nth_error h b = Some d /\ In r (refs (dKind d)) /\ lookup m r = None /\
                err = ErrParserNotFound r.

Lemma closedAt_evolved h h' b : vEvolved h h' -> closedAt h b -> closedAt h' b.
Proof.
  intros H Hc d r Hd Hr. pose proof (vEvolved_shape _ _ H) as Hs.
  destruct (sameShape_nth _ _ _ _ (sameShape_sym _ _ Hs) Hd) as (d0 & Hd0 & E).
  destruct (Hc d0 r Hd0) as (x & Hx & Hv); [rewrite (shape_refs _ _ E); auto|].
  exists x. split; auto. eapply vEvolved_validated; eauto.
Qed.

Definition vPost (a : addr) (h h' : dheap) (e : option gerr) : Prop :=
  vEvolved h h' /\
  match e with
  | None => validated h' a /\ forall b, validated h' b -> ~ validated h b -> closedAt h' b
  | Some err => undefinedRef h a err
  end.

Lemma validateNames_spec rec names : forall h h' e,
  (forall h a h' e, rec h a = Ok (h', e) -> vPost a h h' e) ->
  validateNames m rec names h = Ok (h', e) ->
  vEvolved h h' /\
  match e with
  | None => (forall r, In r names -> exists x, lookup m r = Some x /\ validated h' x) /\
            forall b, validated h' b -> ~ validated h b -> closedAt h' b
  | Some err => exists r, In r names /\
      ((lookup m r = None /\ err = ErrParserNotFound r) \/ exists x, lookup m r = Some x /\ undefinedRef h x err)
  end.
Proof.
  induction names as [|n names IH]; intros h h' e Hrec H; cbn [validateNames] in H.
  - inversion H; subst. split; [apply vEvolved_refl|]. split; [intros r []|]. intros; contradiction.
  - destruct (lookup m n) as [x|] eqn:El.
    2:{ inversion H; subst. split; [apply vEvolved_refl|]. exists n. split; [left; auto|]. auto. }
    binv H. destruct x0 as [h1 [err|]].
    { inversion H; subst. apply Hrec in E. destruct E as [E1 E2]. split; auto. exists n. split; [left; auto|]. eauto. }
    apply Hrec in E. destruct E as (E1 & E2 & E3). apply IH in H; auto. destruct H as [H1 H2].
    split; [eapply vEvolved_trans; eauto|]. destruct e as [err|].
    + destruct H2 as (r & Hr & H2). exists r. split; [right; auto|]. destruct H2 as [H2|(y & Hy & b & d & r' & R1 & R2 & R3 & R4 & R5)]; auto.
      right. exists y. split; auto. pose proof (sameShape_sym _ _ (vEvolved_shape _ _ E1)) as Hs.
      destruct (sameShape_nth _ _ _ _ Hs R2) as (d0 & Hd0 & Es). exists b, d0, r'.
      split; [eapply reach_shape; eauto|]. split; auto. split; auto. rewrite (shape_refs _ _ Es). auto.
    + destruct H2 as [H2 H3]. split.
      * intros r [<-|Hr]; auto. exists x. split; auto. eapply vEvolved_validated; eauto.
      * intros b Hb Hn.
        assert (Hdec : validated h1 b \/ ~ validated h1 b).
        { unfold validated. destruct (nth_error h1 b) as [d|]; [|right; intros (d & Hd & _); discriminate].
          destruct (validatedK (dKind d)) eqn:Ev; [left; eauto|right; intros (d' & Hd & Hv); inversion Hd; subst; congruence]. }
        destruct Hdec as [Hb1|Hb1]; auto. eapply closedAt_evolved; eauto.
Qed.

Lemma validate_spec n : forall h a h' e, validate m n h a = Ok (h', e) -> vPost a h h' e.
Proof.
  induction n as [|n IH]; intros h a h' e H; [discriminate|]. cbn [validate] in H.
  destruct (nth_error h a) as [d|] eqn:Hd; [|discriminate].
  assert (Hdone : validatedK (dKind d) = true -> vPost a h h None).
  { intros Hv. split; [apply vEvolved_refl|]. split; [exists d; auto|]. intros; contradiction. }
  assert (Hgo : validateNames m (validate m n) (refs (dKind d)) (updNth a (setKind (setValidated (dKind d))) h) = Ok (h', e) ->
                vPost a h h' e).
  { intros Hv. pose proof (vEvolved_mark _ _ _ Hd) as Hm. set (h1 := updNth a _ h) in *.
    assert (Ha1 : nth_error h1 a = Some (setKind (setValidated (dKind d)) d)).
    { unfold h1. rewrite nth_error_updNth, Nat.eqb_refl, Hd. auto. }
    apply validateNames_spec in Hv; auto. destruct Hv as [V1 V2].
    split; [eapply vEvolved_trans; eauto|]. destruct e as [err|].
    - destruct V2 as (r & Hr & V2). destruct V2 as [[V2 ->]|(x & Hx & b & db & r' & R1 & R2 & R3 & R4 & R5)].
      + exists a, d, r. split; [constructor|]. auto.
      + pose proof (sameShape_sym _ _ (vEvolved_shape _ _ Hm)) as Hs.
        destruct (sameShape_nth _ _ _ _ Hs R2) as (d0 & Hd0 & Es). exists b, d0, r'.
        split; [|split; auto; split; auto; rewrite (shape_refs _ _ Es); auto].
        eapply reach_step; eauto. eapply reach_shape; eauto.
    - destruct V2 as [V2 V3].
      assert (Hva : validated h1 a).
      { exists (setKind (setValidated (dKind d)) d). split; auto. simpl. destruct (dKind d); auto. }
      split; [eapply vEvolved_validated; eauto|]. intros b Hb Hn.
      destruct (Nat.eq_dec b a) as [->|Hne].
      + intros d' r Hd' Hr. apply V2. pose proof (vEvolved_shape _ _ (vEvolved_trans _ _ _ Hm V1)) as Hs.
        destruct (sameShape_nth _ _ _ _ (sameShape_sym _ _ Hs) Hd') as (d0 & Hd0 & Es).
        rewrite Hd in Hd0. inversion Hd0; subst. rewrite (shape_refs _ _ Es). auto.
      + apply V3; auto. intros (db & Hdb & Hvb). apply Hn. unfold h1 in Hdb. rewrite nth_error_updNth in Hdb.
        destruct (Nat.eqb_spec a b); [congruence|]. exists db. auto. }
  destruct (dKind d) as [cn ch rs|oi items ranges itemDefs gs ac v i|options od gs v i] eqn:Ek.
  - inversion H; subst. apply Hdone; auto.
  - destruct v; [inversion H; subst; apply Hdone; auto|]. apply Hgo. auto.
  - destruct v; [inversion H; subst; apply Hdone; auto|]. apply Hgo. auto.
Qed.

Lemma validateAll_spec n l : forall h h' e, validateAll m n l h = Ok (h', e) ->
  vEvolved h h' /\
  match e with
  | None => (forall a, In a l -> validated h' a) /\ forall b, validated h' b -> ~ validated h b -> closedAt h' b
  | Some err => exists a, In a l /\ undefinedRef h a err
  end.
Proof.
  induction l as [|a l IH]; intros h h' e H; cbn [validateAll] in H.
  - inversion H; subst. split; [apply vEvolved_refl|]. split; [intros a []|]. intros; contradiction.
  - binv H. destruct x as [h1 [err|]].
    { inversion H; subst. apply validate_spec in E. destruct E as [E1 E2]. split; auto. exists a. split; auto. left; auto. }
    apply validate_spec in E. destruct E as (E1 & E2 & E3). apply IH in H. destruct H as [H1 H2].
    split; [eapply vEvolved_trans; eauto|]. destruct e as [err|].
    + destruct H2 as (y & Hy & b & d & r' & R1 & R2 & R3 & R4 & R5). exists y. split; [right; auto|].
      pose proof (sameShape_sym _ _ (vEvolved_shape _ _ E1)) as Hs.
      destruct (sameShape_nth _ _ _ _ Hs R2) as (d0 & Hd0 & Es). exists b, d0, r'.
      split; [eapply reach_shape; eauto|]. split; auto. split; auto. rewrite (shape_refs _ _ Es). auto.
    + destruct H2 as [H2 H3]. split.
      * intros r [<-|Hr]; auto. eapply vEvolved_validated; eauto.
      * intros b Hb Hn.
        assert (Hdec : validated h1 b \/ ~ validated h1 b).
        { unfold validated. destruct (nth_error h1 b) as [d|]; [|right; intros (d & Hd & _); discriminate].
          destruct (validatedK (dKind d)) eqn:Ev; [left; eauto|right; intros (d' & Hd & Hv); inversion Hd; subst; congruence]. }
        destruct Hdec as [Hb1|Hb1]; auto. eapply closedAt_evolved; eauto.
Qed.

(** termination and absence of panics *)
Definition unval (h : dheap) : nat := List.length (filter (fun d => negb (validatedK (dKind d))) h).
Lemma unval_mark h : forall a d, nth_error h a = Some d -> validatedK (dKind d) = false ->
  unval (updNth a (setKind (setValidated (dKind d))) h) < unval h.
Proof.
  unfold unval. induction h as [|x h IH]; intros [|a] d Hd Hv; simpl in *; try discriminate.
  - inversion Hd; subst. rewrite Hv. simpl. assert (validatedK (setValidated (dKind d)) = true) as -> by (destruct (dKind d); auto).
    simpl. lia.
  - specialize (IH _ _ Hd Hv). destruct (negb _); simpl; lia.
Qed.
Lemma unval_evolved h : forall h', vEvolved h h' -> unval h' <= unval h.
Proof.
  unfold unval. induction h as [|x h IH]; intros h' H.
  - pose proof (H 0) as H0. destruct h'; simpl in *; [auto|discriminate].
  - pose proof (H 0) as H0. simpl in H0. destruct H0 as (d' & E & Hd). destruct h' as [|y h']; [discriminate|].
    simpl in E. inversion E; subst y. assert (Hr : vEvolved h h') by (intros a; exact (H (S a))). apply IH in Hr.
    simpl. destruct Hd as [->| ->]; [destruct (negb _); simpl; lia|].
    assert (validatedK (dKind (setKind (setValidated (dKind x)) x)) = true) as -> by (simpl; destruct (dKind x); auto).
    simpl. destruct (negb _); simpl; lia.
Qed.

Definition mapOk (h : dheap) : Prop := forall n a, lookup m n = Some a -> a < List.length h.

Lemma validateNames_ok rec names k : forall h,
  (forall h a h' e, rec h a = Ok (h', e) -> vPost a h h' e) ->
  (forall h a, a < List.length h -> mapOk h -> unval h <= k -> rec h a <> NoFuel /\ np (rec h a)) ->
  mapOk h -> unval h <= k ->
  validateNames m rec names h <> NoFuel /\ np (validateNames m rec names h).
Proof.
  induction names as [|n names IH]; intros h Hspec Hrec Hm Hu; cbn [validateNames].
  - split; [discriminate|auto].
  - destruct (lookup m n) as [x|] eqn:El; [|split; [discriminate|auto]].
    destruct (Hrec h x) as [R1 R2]; eauto.
    assert (Hn : forall y, rec h x = Ok y ->
       match y with (h1, Some e) => Ok (h1, Some e) | (h1, None) => validateNames m rec names h1 end <> NoFuel /\
       np (match y with (h1, Some e) => Ok (h1, Some e) | (h1, None) => validateNames m rec names h1 end)).
    { intros [h1 [e|]] Hy; [split; [discriminate|auto]|]. apply Hspec in Hy. destruct Hy as [V _].
      apply IH; auto.
      - intros n' a Hn'. rewrite (sameShape_len _ _ (vEvolved_shape _ _ V)). eauto.
      - apply unval_evolved in V. lia. }
    split; [apply bind_noFuel|apply np_bind]; auto; intros y Hy; apply Hn; auto.
Qed.

Lemma validate_ok n : forall h a, a < List.length h -> mapOk h -> unval h < n ->
  validate m n h a <> NoFuel /\ np (validate m n h a).
Proof.
  induction n as [|n IH]; intros h a Ha Hm Hu; [lia|]. cbn [validate].
  destruct (nth_error h a) as [d|] eqn:Hd; [|apply nth_error_None in Hd; lia].
  assert (Hgo : validatedK (dKind d) = false ->
     validateNames m (validate m n) (refs (dKind d)) (updNth a (setKind (setValidated (dKind d))) h) <> NoFuel /\
     np (validateNames m (validate m n) (refs (dKind d)) (updNth a (setKind (setValidated (dKind d))) h))).
  { intros Hv. pose proof (unval_mark _ _ _ Hd Hv). apply validateNames_ok with (k := n - 1).
    - intros; eapply validate_spec; eauto.
    - intros. apply IH; auto. lia.
    - intros n' x Hx. rewrite updNth_length. eauto.
    - lia. }
  destruct (dKind d) as [cn ch rs|oi items ranges itemDefs gs ac v i|options od gs v i] eqn:Ek.
  - split; [discriminate|auto].
  - destruct v; [split; [discriminate|auto]|]. auto.
  - destruct v; [split; [discriminate|auto]|]. auto.
Qed.

Lemma validateAll_ok n l : forall h, (forall a, In a l -> a < List.length h) -> mapOk h -> unval h < n ->
  validateAll m n l h <> NoFuel /\ np (validateAll m n l h).
Proof.
  induction l as [|a l IH]; intros h Ha Hm Hu; cbn [validateAll]; [split; [discriminate|auto]|].
  destruct (validate_ok n h a) as [R1 R2]; auto; [apply Ha; left; auto|].
  assert (Hn : forall y, validate m n h a = Ok y ->
       match y with (h1, Some e) => Ok (h1, Some e) | (h1, None) => validateAll m n l h1 end <> NoFuel /\
       np (match y with (h1, Some e) => Ok (h1, Some e) | (h1, None) => validateAll m n l h1 end)).
  { intros [h1 [e|]] Hy; [split; [discriminate|auto]|]. apply validate_spec in Hy. destruct Hy as [V _].
    pose proof (sameShape_len _ _ (vEvolved_shape _ _ V)) as Hl. apply IH.
    - intros x Hx. rewrite Hl. apply Ha. right; auto.
    - intros n' x Hx. rewrite Hl. eauto.
    - apply unval_evolved in V. lia. }
  split; [apply bind_noFuel|apply np_bind]; auto; intros y Hy; apply Hn; auto.
Qed.
End VALIDATE.
