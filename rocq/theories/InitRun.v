(** What initDef and addGeneralization do to the definition objects. *)
From Verif Require Import Base Utf8 IdSet Results Parser Build Syntax ListFacts ParseFacts TermFacts NoPanic InitWalk.

Lemma forallb_ext' {A} (f g : A -> bool) l : (forall x, f x = g x) -> forallb f l = forallb g l.
Proof. intros H. induction l; simpl; auto. rewrite H, IHl. auto. Qed.

Definition gensK (k : dkind) : list nat :=
  match k with KChar _ _ _ => [] | KSeq _ _ _ _ gs _ _ _ => gs | KChoice _ _ gs _ _ => gs end.
Definition eraseGK (k : dkind) : dkind :=
  match k with
  | KChar a b c => KChar a b c
  | KSeq oi items ranges itemDefs _ ac v i => KSeq oi items ranges itemDefs [] ac v i
  | KChoice options od _ v i => KChoice options od [] v i
  end.
(** the object without its generalizations *)
Definition eraseG (d : defobj) : defobj := setKind (eraseGK (dKind d)) d.
Definition initK (k : dkind) : bool :=
  match k with KChar _ _ _ => true | KSeq _ _ _ _ _ _ _ i => i | KChoice _ _ _ _ i => i end.
Definition inited (h : dheap) (a : addr) : Prop := exists d, nth_error h a = Some d /\ initK (dKind d) = true.
Definition odOf (k : dkind) : list addr := match k with KChoice _ od _ _ _ => od | _ => [] end.

Lemma eraseG_eq d d' : eraseG d' = eraseG d ->
  dName d' = dName d /\ dId d' = dId d /\ dCommit d' = dCommit d /\ eraseGK (dKind d') = eraseGK (dKind d).
Proof. unfold eraseG, setKind. intros H. inversion H. auto. Qed.
Lemma eraseGK_init k k' : eraseGK k' = eraseGK k -> initK k' = initK k.
Proof. destruct k, k'; simpl; intros H; inversion H; auto. Qed.
Lemma eraseGK_tag k k' : eraseGK k' = eraseGK k -> tagOf k' = tagOf k.
Proof. destruct k, k'; simpl; intros H; inversion H; auto. Qed.
Lemma eraseGK_refs k k' : eraseGK k' = eraseGK k -> refs k' = refs k.
Proof. destruct k, k'; simpl; intros H; inversion H; auto. Qed.
Lemma eraseGK_od k k' : eraseGK k' = eraseGK k -> odOf k' = odOf k.
Proof. destruct k, k'; simpl; intros H; inversion H; auto. Qed.
Lemma eraseGK_val k k' : eraseGK k' = eraseGK k -> validatedK k' = validatedK k.
Proof. destruct k, k'; simpl; intros H; inversion H; auto. Qed.

Definition itemRange (it : seqItem) : Z * Z := (siMin it, siMax it).

Section INIT.
Variable m : list (string * addr).

Definition lookups (names : list string) : list addr :=
  flat_map (fun n => match lookup m n with Some x => [x] | None => [] end) names.

(** the object after its init, generalizations left out *)
Definition completeK (h : dheap) (k : dkind) : dkind :=
  match k with
  | KChar a b c => KChar a b c
  | KSeq oi items ranges itemDefs _ _ v _ =>
    let items' := map normalizeItemRange items in
    KSeq oi items' (ranges ++ map itemRange items') (itemDefs ++ lookups (map siName items)) []
         (forallb (isCharAt h) (lookups (map siName items))) v true
  | KChoice options od _ v _ => KChoice options (od ++ lookups options) [] v true
  end.

Definition evAt (h h' : dheap) (b : addr) : Prop :=
  match nth_error h b with
  | None => nth_error h' b = None
  | Some d => exists d', nth_error h' b = Some d' /\
      (eraseG d' = eraseG d \/
       (initK (dKind d) = false /\ eraseG d' = setKind (completeK h (dKind d)) d /\
        (forall r, In r (refs (dKind d)) -> lookup m r <> None) /\
        forall x, In x (lookups (refs (dKind d))) -> inited h' x))
  end.
Definition iEvolved (h h' : dheap) : Prop := forall b, evAt h h' b.
(** only generalizations differ *)
Definition gEvolved (h h' : dheap) : Prop := map eraseG h' = map eraseG h.

Lemma refs_norm items : map siName (map normalizeItemRange items) = map siName items.
Proof.
  rewrite map_map. apply map_ext. intros it. unfold normalizeItemRange. destruct (_ && _); auto.
Qed.

Lemma gEvolved_nth h h' b : gEvolved h h' ->
  match nth_error h b with None => nth_error h' b = None
  | Some d => exists d', nth_error h' b = Some d' /\ eraseG d' = eraseG d end.
Proof.
  intros H. unfold gEvolved in H.
  assert (E : nth_error (map eraseG h') b = nth_error (map eraseG h) b) by congruence.
  rewrite !nth_error_map' in E. destruct (nth_error h b), (nth_error h' b); simpl in E; try discriminate; auto.
  exists d0. split; congruence.
Qed.
Lemma gEvolved_i h h' : gEvolved h h' -> iEvolved h h'.
Proof.
  intros H b. unfold evAt. pose proof (gEvolved_nth _ _ b H) as Hn. destruct (nth_error h b); auto.
  destruct Hn as (d' & E1 & E2). eauto.
Qed.
Lemma iEvolved_refl h : iEvolved h h.
Proof. apply gEvolved_i. reflexivity. Qed.

Definition sameChars (h h' : dheap) : Prop := forall x, isCharAt h' x = isCharAt h x.
Definition initMono (h h' : dheap) : Prop := forall x, inited h x -> inited h' x.

Lemma isCharAt_tag h x : isCharAt h x = match nth_error h x with
  | Some d => match tagOf (dKind d) with TChar _ _ _ => true | _ => false end | None => false end.
Proof. unfold isCharAt. destruct (nth_error h x) as [[? ? ? []]|]; auto. Qed.

Lemma evAt_chars h h' x : evAt h h' x -> isCharAt h' x = isCharAt h x.
Proof.
  rewrite !isCharAt_tag. unfold evAt. destruct (nth_error h x) as [d|]; [|intros ->; auto].
  intros (d' & -> & [E|(_ & E & _)]).
  - apply eraseG_eq in E. destruct E as (_ & _ & _ & E). rewrite (eraseGK_tag _ _ E). auto.
  - unfold eraseG, setKind in E. inversion E as [[E1 E2 E3 E4]]. destruct (dKind d), (dKind d'); simpl in *; auto; discriminate.
Qed.
Lemma evAt_init h h' x : evAt h h' x -> inited h x -> inited h' x.
Proof.
  unfold evAt, inited. intros H (d & Hd & Hi). rewrite Hd in H. destruct H as (d' & Hd' & [E|(E & _)]); [|congruence].
  exists d'. split; auto. apply eraseG_eq in E. destruct E as (_ & _ & _ & E). rewrite (eraseGK_init _ _ E). auto.
Qed.
Lemma iEvolved_chars h h' : iEvolved h h' -> sameChars h h'.
Proof. intros H x. apply evAt_chars; auto. Qed.
Lemma iEvolved_init h h' : iEvolved h h' -> initMono h h'.
Proof. intros H x. apply evAt_init; auto. Qed.

Lemma completeK_chars h h' k : sameChars h h' -> completeK h' k = completeK h k.
Proof.
  intros H. destruct k; simpl; auto. f_equal. apply forallb_ext'. auto.
Qed.
Lemma completeK_erase h k k' : eraseGK k' = eraseGK k -> completeK h k' = completeK h k.
Proof. destruct k, k'; simpl; intros H; inversion H; auto. Qed.

Lemma evAt_trans h h1 h2 b : sameChars h h1 -> initMono h1 h2 -> evAt h h1 b -> evAt h1 h2 b -> evAt h h2 b.
Proof.
  unfold evAt. intros Hc Hm H1 H2. destruct (nth_error h b) as [d|].
  2:{ rewrite H1 in H2. auto. }
  destruct H1 as (d1 & E1 & H1). rewrite E1 in H2. destruct H2 as (d2 & E2 & H2). exists d2. split; auto.
  destruct H1 as [H1|(I1 & H1 & D1 & L1)], H2 as [H2|(I2 & H2 & D2 & L2)].
  - left. congruence.
  - right. destruct (eraseG_eq _ _ H1) as (En & Ei & Ec & Ek). rewrite <- (eraseGK_init _ _ Ek). split; auto.
    rewrite (eraseGK_refs _ _ Ek) in L2, D2. split; auto. rewrite H2. rewrite (completeK_chars _ _ _ Hc), (completeK_erase _ _ _ Ek).
    unfold setKind. congruence.
  - right. split; auto. split; [congruence|]. auto.
  - exfalso. assert (initK (dKind d1) = true); [|congruence]. unfold eraseG, setKind in H1. inversion H1 as [[A1 A2 A3 A4]].
    destruct (dKind d), (dKind d1); simpl in *; try discriminate; auto; inversion A4; auto.
Qed.
Lemma iEvolved_trans h h1 h2 : iEvolved h h1 -> iEvolved h1 h2 -> iEvolved h h2.
Proof.
  intros H1 H2 b. apply evAt_trans with h1; auto; [apply iEvolved_chars|apply iEvolved_init]; auto.
Qed.

(** ** generalizations *)
Inductive gp (h : dheap) : addr -> addr -> Prop :=
| gp_one x d a : nth_error h x = Some d -> In a (odOf (dKind d)) -> gp h x a
| gp_trans x d y a : nth_error h x = Some d -> In y (odOf (dKind d)) -> gp h y a -> gp h x a.
Lemma gp_app h x y a d : gp h x y -> nth_error h y = Some d -> In a (odOf (dKind d)) -> gp h x a.
Proof. induction 1; intros; eapply gp_trans; eauto. eapply gp_one; eauto. Qed.

Definition gSource (h : dheap) (g : nat) (a : addr) : Prop :=
  exists x d, nth_error h x = Some d /\ dId d = g /\ gp h x a.
Definition gInv (h : dheap) : Prop :=
  forall b d g, nth_error h b = Some d -> In g (gensK (dKind d)) -> gSource h g b.
Definition odMono (h h' : dheap) : Prop :=
  forall x d, nth_error h x = Some d ->
  exists d', nth_error h' x = Some d' /\ dId d' = dId d /\ incl (odOf (dKind d)) (odOf (dKind d')).
Lemma odMono_refl h : odMono h h.
Proof. intros x d Hd. exists d. split; auto. split; auto. intros y Hy; auto. Qed.
Lemma odMono_trans a b c : odMono a b -> odMono b c -> odMono a c.
Proof.
  intros H1 H2 x d Hd. destruct (H1 x d Hd) as (d1 & E1 & I1 & O1). destruct (H2 x d1 E1) as (d2 & E2 & I2 & O2).
  exists d2. split; auto. split; [congruence|]. intros y Hy. auto.
Qed.
Lemma gp_mono h h' x a : odMono h h' -> gp h x a -> gp h' x a.
Proof.
  intros H Hg. induction Hg as [x d a Hd Ha|x d y a Hd Hy Hg IH]; destruct (H _ _ Hd) as (d' & E & _ & O).
  - eapply gp_one; eauto.
  - eapply gp_trans; eauto.
Qed.
Lemma gSource_mono h h' g a : odMono h h' -> gSource h g a -> gSource h' g a.
Proof.
  intros H (x & d & Hd & Hi & Hg). destruct (H _ _ Hd) as (d' & E & I & _). exists x, d'.
  split; auto. split; [congruence|]. eapply gp_mono; eauto.
Qed.
Lemma odMono_upd h a f : (forall d, nth_error h a = Some d -> dId (f d) = dId d /\ incl (odOf (dKind d)) (odOf (dKind (f d)))) ->
  odMono h (updNth a f h).
Proof.
  intros H x d Hd. rewrite nth_error_updNth. destruct (Nat.eqb_spec a x) as [->|Hne].
  - rewrite Hd. exists (f d). split; auto.
  - exists d. split; auto. split; auto. intros y Hy; auto.
Qed.
Lemma gInv_upd h a f : (forall d, nth_error h a = Some d -> dId (f d) = dId d /\ incl (odOf (dKind d)) (odOf (dKind (f d))) /\
    forall g, In g (gensK (dKind (f d))) -> In g (gensK (dKind d)) \/ gSource h g a) ->
  gInv h -> gInv (updNth a f h).
Proof.
  intros H Hg b d g Hd Hin. assert (Hm : odMono h (updNth a f h)).
  { apply odMono_upd. intros d0 Hd0. destruct (H d0 Hd0) as (A & B & _). auto. }
  apply gSource_mono with h; auto. rewrite nth_error_updNth in Hd. destruct (Nat.eqb_spec a b) as [->|Hne]; [|eauto].
  destruct (nth_error h b) as [d0|] eqn:Hd0; [|discriminate]. inversion Hd; subst. destruct (H d0 eq_refl) as (_ & _ & Hc).
  destruct (Hc g Hin); eauto.
Qed.
Lemma gEvolved_od h h' : gEvolved h h' -> odMono h h'.
Proof.
  intros H x d Hd. pose proof (gEvolved_nth _ _ x H) as Hn. rewrite Hd in Hn. destruct Hn as (d' & E & Ee).
  exists d'. destruct (eraseG_eq _ _ Ee) as (_ & I & _ & K). split; auto. split; auto. rewrite (eraseGK_od _ _ K).
  intros y Hy; auto.
Qed.

Lemma gEvolved_upd h a k' : (forall d, nth_error h a = Some d -> eraseGK k' = eraseGK (dKind d)) ->
  gEvolved h (updNth a (setKind k') h).
Proof.
  unfold gEvolved. revert a. induction h as [|d h IH]; intros [|a] H; simpl; auto.
  - f_equal. unfold eraseG, setKind; simpl. rewrite (H d); auto.
  - f_equal. apply IH. auto.
Qed.

Lemma forAddrs_g rec l g : forall h h',
  (forall h a h', rec h a = Ok h' -> gSource h g a -> gEvolved h h' /\ (gInv h -> gInv h')) ->
  (forall a, In a l -> gSource h g a) ->
  forAddrs rec l h = Ok h' -> gEvolved h h' /\ (gInv h -> gInv h').
Proof.
  induction l as [|a l IH]; intros h h' Hrec Hs H; cbn [forAddrs] in H.
  - inversion H; subst. split; [reflexivity|auto].
  - binv H. apply Hrec in E; [|apply Hs; left; auto]. destruct E as [E1 E2].
    apply IH in H; auto.
    + destruct H as [H1 H2]. split; [unfold gEvolved in *; congruence|auto].
    + intros y Hy. eapply gSource_mono; [apply gEvolved_od; eauto|]. apply Hs. right; auto.
Qed.

Lemma addGeneralization_spec n g : forall h a h', addGeneralization n g h a = Ok h' -> gSource h g a ->
  gEvolved h h' /\ (gInv h -> gInv h').
Proof.
  induction n as [|n IH]; intros h a h' H Hs; [discriminate|]. cbn [addGeneralization] in H.
  destruct (nth_error h a) as [d|] eqn:Hd; [|discriminate].
  destruct (dKind d) as [cn ch rs|oi items ranges itemDefs gs ac v i|options od gs v i] eqn:Ek.
  - inversion H; subst. split; [reflexivity|auto].
  - destruct (intsContain gs g); inversion H; subst; [split; [reflexivity|auto]|].
    split; [apply gEvolved_upd; intros d0 Hd0; rewrite Hd in Hd0; inversion Hd0; subst; rewrite Ek; auto|].
    apply gInv_upd. intros d0 Hd0. rewrite Hd in Hd0; inversion Hd0; subst. rewrite Ek. simpl.
    split; auto. split; [intros y []|]. intros g' Hg'. apply in_app_or in Hg'. destruct Hg' as [|[<-|[]]]; auto.
  - destruct (intsContain gs g); [inversion H; subst; split; [reflexivity|auto]|].
    set (h1 := updNth a _ h) in H.
    assert (G1 : gEvolved h h1).
    { apply gEvolved_upd; intros d0 Hd0; rewrite Hd in Hd0; inversion Hd0; subst; rewrite Ek; auto. }
    assert (G2 : gInv h -> gInv h1).
    { apply gInv_upd. intros d0 Hd0. rewrite Hd in Hd0; inversion Hd0; subst. rewrite Ek. simpl.
      split; auto. split; [intros y Hy; auto|]. intros g' Hg'. apply in_app_or in Hg'. destruct Hg' as [|[<-|[]]]; auto. }
    apply forAddrs_g with (g := g) in H; auto.
    + destruct H as [H1 H2]. split; [unfold gEvolved in *; congruence|auto].
    + intros y Hy. apply gSource_mono with h; [apply gEvolved_od; auto|]. destruct Hs as (x & dx & Hx & Hi & Hg).
      exists x, dx. split; auto. split; auto. eapply gp_app; eauto. rewrite Ek. auto.
Qed.

(** ** initDef *)
Definition ipost (h : dheap) (a : addr) (h' : dheap) : Prop :=
  iEvolved h h' /\ inited h' a /\ (gInv h -> gInv h').

Lemma iEvolved_same h h' a d : iEvolved h h' -> nth_error h a = Some d -> initK (dKind d) = true ->
  exists d', nth_error h' a = Some d' /\ eraseG d' = eraseG d.
Proof.
  intros H Hd Hi. specialize (H a). unfold evAt in H. rewrite Hd in H. destruct H as (d' & E & [H|(H & _)]); [eauto|congruence].
Qed.

(** everything but the object [a], which gets the children [l] *)
Definition lEvolved (a : addr) (l : list addr) (h h' : dheap) : Prop :=
  (forall b, b <> a -> evAt h h' b) /\ sameChars h h' /\ initMono h h' /\
  exists d d', nth_error h a = Some d /\ nth_error h' a = Some d' /\
    eraseG d' = eraseG (fold_left (fun d x => addItemDef x d) l d) /\ forall x, In x l -> inited h' x.

Lemma addItemDef_erase x d d' : eraseG d' = eraseG d -> eraseG (addItemDef x d') = eraseG (addItemDef x d).
Proof.
  intros H. destruct (eraseG_eq _ _ H) as (E1 & E2 & E3 & E4). clear H. unfold eraseG, addItemDef, setKind.
  destruct d as [n1 i1 c1 k1], d' as [n2 i2 c2 k2]; simpl in *; subst.
  destruct k1, k2; simpl in *; inversion E4; subst; reflexivity.
Qed.
Lemma addItems_erase l : forall d d', eraseG d' = eraseG d ->
  eraseG (fold_left (fun d x => addItemDef x d) l d') = eraseG (fold_left (fun d x => addItemDef x d) l d).
Proof. induction l; simpl; intros; auto. apply IHl. apply addItemDef_erase; auto. Qed.
Lemma addItemDef_init x d : initK (dKind (addItemDef x d)) = initK (dKind d).
Proof. unfold addItemDef, setKind. destruct (dKind d) eqn:E; simpl; rewrite ?E; auto. Qed.
Lemma addItemDef_tag x d : tagOf (dKind (addItemDef x d)) = tagOf (dKind d).
Proof. unfold addItemDef, setKind. destruct (dKind d) eqn:E; simpl; rewrite ?E; auto. Qed.

Lemma upd_evAt_other h a f b : b <> a -> evAt h (updNth a f h) b.
Proof.
  intros Hne. unfold evAt. rewrite nth_error_updNth. destruct (Nat.eqb_spec a b); [congruence|].
  destruct (nth_error h b); eauto.
Qed.
Lemma upd_chars h a f : (forall d, nth_error h a = Some d -> tagOf (dKind (f d)) = tagOf (dKind d)) ->
  sameChars h (updNth a f h).
Proof.
  intros H x. rewrite !isCharAt_tag, nth_error_updNth. destruct (Nat.eqb_spec a x) as [->|]; auto.
  destruct (nth_error h x) eqn:E; simpl; auto. rewrite H; auto.
Qed.
Lemma upd_init h a f : (forall d, nth_error h a = Some d -> initK (dKind d) = true -> initK (dKind (f d)) = true) ->
  initMono h (updNth a f h).
Proof.
  intros H x (d & Hd & Hi). unfold inited. rewrite nth_error_updNth. destruct (Nat.eqb_spec a x) as [->|]; [|eauto].
  rewrite Hd. exists (f d). split; auto.
Qed.

(** one round of either loop: record the child, then something that evolves the heap *)
Lemma lEvolved_step a x h h1 l h' d : nth_error h a = Some d -> initK (dKind d) = true ->
  iEvolved (updNth a (addItemDef x) h) h1 -> inited h1 x ->
  lEvolved a l h1 h' -> lEvolved a (x :: l) h h'.
Proof.
  intros Hd Hi E Hx (L1 & L2 & L3 & d1 & d' & Hd1 & Hd' & L4 & L5).
  set (h0 := updNth a (addItemDef x) h) in *.
  assert (Ha0 : nth_error h0 a = Some (addItemDef x d)).
  { unfold h0. rewrite nth_error_updNth, Nat.eqb_refl, Hd. auto. }
  assert (C0 : sameChars h h0) by (apply upd_chars; intros; apply addItemDef_tag).
  assert (I0 : initMono h h0) by (apply upd_init; intros; rewrite addItemDef_init; auto).
  pose proof (iEvolved_chars _ _ E) as C1. pose proof (iEvolved_init _ _ E) as I1.
  destruct (iEvolved_same _ _ _ _ E Ha0) as (d1' & Hd1' & Ee); [rewrite addItemDef_init; auto|].
  rewrite Hd1 in Hd1'. inversion Hd1'; subst d1'.
  split; [|split; [|split]].
  - intros b Hb. apply evAt_trans with h1; auto.
    + intros y. rewrite C1. apply C0.
    + apply evAt_trans with h0; auto. apply upd_evAt_other; auto.
  - intros y. rewrite L2, C1. apply C0.
  - intros y Hy. auto.
  - exists d, d'. split; auto. split; auto. split.
    + rewrite L4. simpl. apply addItems_erase. auto.
    + intros y [<-|Hy]; auto.
Qed.
Lemma lEvolved_nil a h d : nth_error h a = Some d -> lEvolved a [] h h.
Proof.
  intros Hd. split; [intros b _; apply iEvolved_refl|]. split; [intros y; auto|]. split; [intros y; auto|].
  exists d, d. split; auto. split; auto. split; auto. intros y [].
Qed.

Lemma addItemDef_gens x d : gensK (dKind (addItemDef x d)) = gensK (dKind d).
Proof. unfold addItemDef, setKind. destruct (dKind d) eqn:E; simpl; rewrite ?E; auto. Qed.
Lemma addItemDef_id x d : dId (addItemDef x d) = dId d.
Proof. unfold addItemDef, setKind. destruct (dKind d) eqn:E; simpl; rewrite ?E; auto. Qed.
Lemma addItemDef_od x d : incl (odOf (dKind d)) (odOf (dKind (addItemDef x d))).
Proof.
  unfold addItemDef, setKind. destruct (dKind d) eqn:E; simpl; rewrite ?E; intros y Hy; auto.
  apply in_or_app; auto.
Qed.
Lemma gInv_addItem h a x : gInv h -> gInv (updNth a (addItemDef x) h).
Proof.
  apply gInv_upd. intros d Hd. split; [apply addItemDef_id|]. split; [apply addItemDef_od|].
  intros g. rewrite addItemDef_gens. auto.
Qed.

Lemma initItemsLoop_spec rec a names : forall ac h h' b d,
  (forall h x h', rec h x = Ok h' -> ipost h x h') ->
  nth_error h a = Some d -> initK (dKind d) = true ->
  initItemsLoop m rec a names ac h = Ok (h', b) ->
  lEvolved a (lookups names) h h' /\ b = (ac && forallb (isCharAt h) (lookups names)) /\ (gInv h -> gInv h') /\
  (forall r, In r names -> lookup m r <> None).
Proof.
  induction names as [|n names IH]; intros ac h h' b d Hrec Hd Hi H; cbn [initItemsLoop] in H.
  - inversion H; subst. split; [eapply lEvolved_nil; eauto|]. split; [rewrite andb_true_r; auto|]. split; [auto|intros r []].
  - simpl lookups. destruct (lookup m n) as [x|] eqn:El; [|discriminate]. simpl app.
    binv H. apply Hrec in E. destruct E as (E1 & E2 & E3).
    set (h0 := updNth a (addItemDef x) h) in *.
    assert (Ha0 : nth_error h0 a = Some (addItemDef x d)).
    { unfold h0. rewrite nth_error_updNth, Nat.eqb_refl, Hd. auto. }
    destruct (iEvolved_same _ _ _ _ E1 Ha0) as (d1 & Hd1 & Ee); [rewrite addItemDef_init; auto|].
    assert (Hi1 : initK (dKind d1) = true).
    { apply eraseG_eq in Ee. destruct Ee as (_ & _ & _ & Ee). rewrite (eraseGK_init _ _ Ee), addItemDef_init. auto. }
    eapply IH in H; eauto. destruct H as (H1 & H2 & H3 & H4).
    assert (C : sameChars h x0).
    { intros y. rewrite (iEvolved_chars _ _ E1). apply upd_chars. intros; apply addItemDef_tag. }
    split; [eapply lEvolved_step; eauto|]. split.
    + rewrite H2, <- andb_assoc. simpl. rewrite C. f_equal. f_equal. apply forallb_ext'. auto.
    + split; [intros G; apply H3, E3; apply gInv_addItem; auto|]. intros r [<-|Hr]; [congruence|auto].
Qed.

Lemma initOptionsLoop_spec rec gf a id names : forall h h' d,
  (forall h x h', rec h x = Ok h' -> ipost h x h') ->
  nth_error h a = Some d -> initK (dKind d) = true -> tagOf (dKind d) = TChoice -> dId d = id ->
  initOptionsLoop m rec gf a id names h = Ok h' ->
  lEvolved a (lookups names) h h' /\ (gInv h -> gInv h') /\ (forall r, In r names -> lookup m r <> None).
Proof.
  induction names as [|n names IH]; intros h h' d Hrec Hd Hi Ht Hid H; cbn [initOptionsLoop] in H.
  - inversion H; subst. split; [eapply lEvolved_nil; eauto|]. split; [auto|intros r []].
  - simpl lookups. destruct (lookup m n) as [x|] eqn:El; [|discriminate]. simpl app.
    binv H. apply Hrec in E. destruct E as (E1 & E2 & E3). binv H.
    set (h0 := updNth a (addItemDef x) h) in *.
    assert (Ha0 : nth_error h0 a = Some (addItemDef x d)).
    { unfold h0. rewrite nth_error_updNth, Nat.eqb_refl, Hd. auto. }
    destruct (iEvolved_same _ _ _ _ E1 Ha0) as (d1 & Hd1 & Ee1); [rewrite addItemDef_init; auto|].
    assert (Ex : In x (odOf (dKind d1))).
    { apply eraseG_eq in Ee1. destruct Ee1 as (_ & _ & _ & K). rewrite (eraseGK_od _ _ K).
      unfold addItemDef, setKind. destruct (dKind d); simpl in *; try discriminate. apply in_or_app. right; left; auto. }
    assert (Eid : dId d1 = id).
    { apply eraseG_eq in Ee1. destruct Ee1 as (_ & K & _ & _). rewrite addItemDef_id in K. congruence. }
    apply addGeneralization_spec in E.
    2:{ exists a, d1. split; auto. split; auto. eapply gp_one; eauto. }
    destruct E as [G1 G2]. pose proof (iEvolved_trans _ _ _ E1 (gEvolved_i _ _ G1)) as E12.
    destruct (iEvolved_same _ _ _ _ E12 Ha0) as (d2 & Hd2 & Ee); [rewrite addItemDef_init; auto|].
    apply eraseG_eq in Ee. destruct Ee as (_ & Ki & _ & Ee).
    eapply IH in H; eauto.
    + destruct H as (H1 & H2 & H4). split; [|split].
      * eapply lEvolved_step; eauto. eapply iEvolved_init; [apply gEvolved_i; eauto|auto].
      * intros G. apply H2, G2, E3. apply gInv_addItem; auto.
      * intros r [<-|Hr]; [congruence|auto].
    + rewrite (eraseGK_init _ _ Ee), addItemDef_init. auto.
    + rewrite (eraseGK_tag _ _ Ee), addItemDef_tag. auto.
    + rewrite Ki, addItemDef_id. auto.
Qed.

Lemma addItems_seq l : forall d oi items ranges ids gs ac v i, dKind d = KSeq oi items ranges ids gs ac v i ->
  fold_left (fun d x => addItemDef x d) l d = setKind (KSeq oi items ranges (ids ++ l) gs ac v i) d.
Proof.
  induction l as [|x l IH]; intros d oi items ranges ids gs ac v i E; simpl.
  - rewrite app_nil_r, <- E. destruct d; auto.
  - unfold addItemDef at 2. rewrite E. erewrite IH by reflexivity. rewrite <- app_assoc. reflexivity.
Qed.
Lemma addItems_choice l : forall d options od gs v i, dKind d = KChoice options od gs v i ->
  fold_left (fun d x => addItemDef x d) l d = setKind (KChoice options (od ++ l) gs v i) d.
Proof.
  induction l as [|x l IH]; intros d options od gs v i E; simpl.
  - rewrite app_nil_r, <- E. destruct d; auto.
  - unfold addItemDef at 2. rewrite E. erewrite IH by reflexivity. rewrite <- app_assoc. reflexivity.
Qed.

(** turning the facts about a whole init of the object [a] into [iEvolved] *)
Lemma finish_ev h h0 h1 h2 a l : sameChars h h0 -> initMono h h0 -> (forall b, b <> a -> evAt h h0 b) ->
  lEvolved a l h0 h1 -> sameChars h1 h2 -> initMono h1 h2 -> (forall b, b <> a -> evAt h1 h2 b) ->
  evAt h h2 a -> iEvolved h h2.
Proof.
  intros C0 I0 E0 (L1 & L2 & L3 & L4) C2 I2 E2 Ha b. destruct (Nat.eq_dec b a) as [->|Hne]; auto.
  apply evAt_trans with h1; auto.
  - intros y. rewrite L2. apply C0.
  - apply evAt_trans with h0; auto.
Qed.

Lemma initDef_spec n gf : forall h a h', initDef m n gf h a = Ok h' -> ipost h a h'.
Proof.
  induction n as [|n IH]; intros h a h' H; [discriminate|]. cbn [initDef] in H.
  destruct (nth_error h a) as [d|] eqn:Hd; [|discriminate].
  assert (Hdone : initK (dKind d) = true -> ipost h a h).
  { intros Hi. split; [apply iEvolved_refl|]. split; [exists d; auto|auto]. }
  destruct (dKind d) as [cn ch rs|oi items ranges itemDefs gs ac v i|options od gs v i] eqn:Ek.
  - inversion H; subst. apply Hdone; auto.
  - destruct i; [inversion H; subst; apply Hdone; auto|]. clear Hdone.
    set (f := fun d => initRanges (setInitialized d)) in *. set (h0 := updNth a f h) in *.
    binv H. destruct x as [h1 b]. inversion H; subst h'. clear H. simpl fst. simpl snd.
    assert (Ef : f d = setKind (KSeq oi (map normalizeItemRange items) (ranges ++ map itemRange (map normalizeItemRange items))
                                     itemDefs gs ac v true) d).
    { unfold f, setInitialized. rewrite Ek. unfold initRanges, setKind; simpl. auto. }
    assert (Ha0 : nth_error h0 a = Some (f d)).
    { unfold h0. rewrite nth_error_updNth, Nat.eqb_refl, Hd. auto. }
    assert (C0 : sameChars h h0).
    { apply upd_chars. intros d0 Hd0. rewrite Hd in Hd0. inversion Hd0; subst d0. rewrite Ef, Ek. auto. }
    assert (I0 : initMono h h0).
    { apply upd_init. intros d0 Hd0 Hi. rewrite Hd in Hd0. inversion Hd0; subst d0. rewrite Ek in Hi. discriminate. }
    apply initItemsLoop_spec with (d := f d) in E; auto; [|rewrite Ef; auto].
    destruct E as (L & Eb & G & Df). pose proof L as L'. destruct L' as (L1 & L2 & L3 & dx & d' & Hdx & Hd' & L4 & L5).
    rewrite Ha0 in Hdx. inversion Hdx; subst dx. clear Hdx.
    erewrite addItems_seq in L4 by (rewrite Ef; reflexivity).
    assert (Kd' : eraseGK (dKind d') = KSeq oi (map normalizeItemRange items) (ranges ++ map itemRange (map normalizeItemRange items))
                                     (itemDefs ++ lookups (map siName items)) [] ac v true).
    { apply eraseG_eq in L4. destruct L4 as (_ & _ & _ & ->). auto. }
    assert (Ht : tagOf (dKind d') = TSeq) by (destruct (dKind d'); simpl in *; congruence).
    assert (C2 : sameChars h1 (updNth a (setAllChars b) h1)).
    { apply upd_chars. intros d0 Hd0. unfold setAllChars. destruct (dKind d0) eqn:E0; rewrite ?E0; auto. }
    assert (I2 : initMono h1 (updNth a (setAllChars b) h1)).
    { apply upd_init. intros d0 Hd0. unfold setAllChars. destruct (dKind d0) eqn:E0; rewrite ?E0; auto. }
    assert (Ha2 : nth_error (updNth a (setAllChars b) h1) a = Some (setAllChars b d')).
    { rewrite nth_error_updNth, Nat.eqb_refl, Hd'. auto. }
    assert (Hin : inited (updNth a (setAllChars b) h1) a).
    { exists (setAllChars b d'). split; auto. unfold setAllChars. destruct (dKind d'); simpl in *; inversion Kd'; auto. }
    split; [|split; auto].
    + eapply finish_ev with (h0 := h0) (h1 := h1); eauto.
      * intros; apply upd_evAt_other; auto.
      * intros; apply upd_evAt_other; auto.
      * unfold evAt. rewrite Hd, Ha2. exists (setAllChars b d'). split; auto. right. rewrite Ek. split; auto. split.
        -- apply eraseG_eq in L4. destruct L4 as (N1 & N2 & N3 & _). unfold setAllChars, eraseG, setKind.
           destruct (dKind d') eqn:Ed'; simpl in *; try discriminate. rewrite Ef in N1, N2, N3. simpl in N1, N2, N3.
           inversion Kd'; subst. f_equal; auto. f_equal. apply forallb_ext'. intros y. symmetry. symmetry. apply C0.
        -- split; [auto|]. intros y Hy. apply I2. apply L5. auto.
    + intros G0. apply gInv_upd.
      * intros d0 Hd0. unfold setAllChars. destruct (dKind d0) eqn:E0; simpl; rewrite ?E0; simpl; auto.
        all: try (split; auto; split; [intros y Hy; auto|auto]).
      * apply G. apply gInv_upd; auto. intros d0 Hd0. rewrite Hd in Hd0. inversion Hd0; subst d0. rewrite Ef, Ek. simpl.
        split; auto. split; auto. intros y [].
  - destruct i; [inversion H; subst; apply Hdone; auto|]. clear Hdone.
    set (h0 := updNth a setInitialized h) in *.
    assert (Ef : setInitialized d = setKind (KChoice options od gs v true) d).
    { unfold setInitialized. rewrite Ek. auto. }
    assert (Ha0 : nth_error h0 a = Some (setInitialized d)).
    { unfold h0. rewrite nth_error_updNth, Nat.eqb_refl, Hd. auto. }
    assert (C0 : sameChars h h0).
    { apply upd_chars. intros d0 Hd0. rewrite Hd in Hd0. inversion Hd0; subst d0. rewrite Ef, Ek. auto. }
    assert (I0 : initMono h h0).
    { apply upd_init. intros d0 Hd0 Hi. rewrite Hd in Hd0. inversion Hd0; subst d0. rewrite Ek in Hi. discriminate. }
    apply initOptionsLoop_spec with (d := setInitialized d) in H; auto; try (rewrite Ef; auto; fail).
    destruct H as (L & G & Df). pose proof L as L'. destruct L' as (L1 & L2 & L3 & dx & d' & Hdx & Hd' & L4 & L5).
    rewrite Ha0 in Hdx. inversion Hdx; subst dx. clear Hdx.
    erewrite addItems_choice in L4 by (rewrite Ef; reflexivity).
    pose proof (eraseG_eq _ _ L4) as (N1 & N2 & N3 & Kd').
    assert (Hin : inited h' a).
    { exists d'. split; auto. rewrite (eraseGK_init _ _ Kd'). auto. }
    split; [|split; auto].
    + eapply finish_ev with (h0 := h0) (h1 := h'); eauto.
      * intros; apply upd_evAt_other; auto.
      * intros y; auto.
      * intros y; auto.
      * intros; apply iEvolved_refl.
      * unfold evAt. rewrite Hd, Hd'. exists d'. split; auto. right. rewrite Ek. split; auto. split; [|split; auto].
        rewrite Ef in N1, N2, N3, Kd'. simpl in *. unfold eraseG, setKind. rewrite N1, N2, N3, Kd'. auto.
    + intros G0. apply G. apply gInv_upd; auto. intros d0 Hd0. rewrite Hd in Hd0. inversion Hd0; subst d0. rewrite Ef, Ek. simpl.
      split; auto. split; auto. intros y Hy; auto.
Qed.

Lemma initAll_spec n gf l : forall h h', forAddrs (initDef m n gf) l h = Ok h' ->
  iEvolved h h' /\ (forall a, In a l -> inited h' a) /\ (gInv h -> gInv h').
Proof.
  induction l as [|a l IH]; intros h h' H; cbn [forAddrs] in H.
  - inversion H; subst. split; [apply iEvolved_refl|]. split; [intros a []|auto].
  - binv H. apply initDef_spec in E. destruct E as (E1 & E2 & E3). apply IH in H. destruct H as (H1 & H2 & H3).
    split; [eapply iEvolved_trans; eauto|]. split; auto. intros x' [<-|Hx]; auto. eapply iEvolved_init; eauto.
Qed.
End INIT.
