(** The init walks terminate and do not panic. *)
From Verif Require Import Base Utf8 IdSet Results Parser Build Syntax ListFacts ParseFacts TermFacts NoPanic InitWalk InitRun.

Definition good {A} (r : res A) : Prop := r <> NoFuel /\ np r.
Lemma good_ok {A} (x : A) : good (Ok x).
Proof. split; [discriminate|auto]. Qed.
Lemma good_bind {A B} (r : res A) (f : A -> res B) : good r -> (forall x, r = Ok x -> good (f x)) -> good (x <- r ;; f x).
Proof.
  intros [H1 H2] Hf. split; [apply bind_noFuel|apply np_bind]; auto; intros x Hx; apply Hf; auto.
Qed.

Lemma forAddrs_good (I : dheap -> Prop) rec l : forall h,
  (forall h a h', I h -> rec h a = Ok h' -> I h') -> (forall h a, I h -> In a l -> good (rec h a)) -> I h ->
  good (forAddrs rec l h).
Proof.
  induction l as [|a l IH]; intros h Hp Hr Hi; cbn [forAddrs]; [apply good_ok|].
  apply good_bind; [apply Hr; auto; left; auto|]. intros x Hx. apply IH; eauto. intros h' y Hh Hy. apply Hr; auto. right; auto.
Qed.

Definition odOk (h : dheap) : Prop := forall x d y, nth_error h x = Some d -> In y (odOf (dKind d)) -> y < List.length h.

Definition lacks (g : nat) (d : defobj) : bool := negb (intsContain (gensK (dKind d)) g).
Definition nog (g : nat) (h : dheap) : nat := List.length (filter (lacks g) h).

Lemma nog_le_length g h : nog g h <= List.length h.
Proof. unfold nog. induction h as [|d h IH]; simpl; auto. destruct (lacks g d); simpl; lia. Qed.

Lemma gEvolved_len h h' : gEvolved h h' -> List.length h' = List.length h.
Proof. intros H. rewrite <- (map_length eraseG h'), H. apply map_length. Qed.
Lemma gEvolved_odOk h h' : gEvolved h h' -> odOk h -> odOk h'.
Proof.
  intros H Ho x d y Hd Hy. rewrite (gEvolved_len _ _ H). symmetry in H. pose proof (gEvolved_nth _ _ x H) as Hn. rewrite Hd in Hn.
  destruct Hn as (d0 & Hd0 & E). apply eraseG_eq in E. destruct E as (_ & _ & _ & E). eapply Ho; eauto.
  rewrite (eraseGK_od _ _ E). auto.
Qed.

(** updates that append [g] to the generalizations *)
Inductive gstep (g : nat) : dheap -> dheap -> Prop :=
| gs_refl h : gstep g h h
| gs_add h a d k h' : nth_error h a = Some d -> eraseGK k = eraseGK (dKind d) -> gensK k = gensK (dKind d) ++ [g] ->
    lacks g d = true -> gstep g (updNth a (setKind k) h) h' -> gstep g h h'.
Lemma gstep_trans g a b c : gstep g a b -> gstep g b c -> gstep g a c.
Proof. induction 1; auto. intros. eapply gs_add; eauto. Qed.
Lemma intsContain_app l g : intsContain (l ++ [g]) g = true.
Proof. unfold intsContain. rewrite existsb_app. simpl. rewrite Nat.eqb_refl. apply orb_true_r. Qed.
Lemma nog_add g h : forall a d k, nth_error h a = Some d -> gensK k = gensK (dKind d) ++ [g] -> lacks g d = true ->
  nog g (updNth a (setKind k) h) < nog g h.
Proof.
  unfold nog. induction h as [|x h IH]; intros [|a] d k Hd Hk Hl; simpl in *; try discriminate.
  - inversion Hd; subst. rewrite Hl. unfold lacks at 1. simpl. rewrite Hk, intsContain_app. simpl. lia.
  - specialize (IH _ _ _ Hd Hk Hl). destruct (lacks g x); simpl; lia.
Qed.
Lemma gstep_nog g h h' : gstep g h h' -> nog g h' <= nog g h.
Proof. induction 1; auto. pose proof (nog_add _ _ _ _ _ H H1 H2). lia. Qed.
Lemma gstep_ev g h h' : gstep g h h' -> gEvolved h h'.
Proof.
  induction 1; [reflexivity|]. assert (gEvolved h (updNth a (setKind k) h)).
  { apply gEvolved_upd. intros d0 Hd0. congruence. }
  unfold gEvolved in *. congruence.
Qed.

Lemma forAddrs_gstep g rec l : forall h h', (forall h a h', rec h a = Ok h' -> gstep g h h') ->
  forAddrs rec l h = Ok h' -> gstep g h h'.
Proof.
  induction l as [|a l IH]; intros h h' Hr H; cbn [forAddrs] in H; [inversion H; constructor|].
  binv H. apply Hr in E. eapply gstep_trans; eauto.
Qed.
Lemma addGeneralization_gstep n g : forall h a h', addGeneralization n g h a = Ok h' -> gstep g h h'.
Proof.
  induction n as [|n IH]; intros h a h' H; [discriminate|]. cbn [addGeneralization] in H.
  destruct (nth_error h a) as [d|] eqn:Hd; [|discriminate].
  destruct (dKind d) as [cn ch rs|oi items ranges itemDefs gs ac v i|options od gs v i] eqn:Ek.
  - inversion H; constructor.
  - destruct (intsContain gs g) eqn:Ei; inversion H; subst; [constructor|].
    apply gs_add with a d (KSeq oi items ranges itemDefs (gs ++ [g]) ac v i); [exact Hd|rewrite Ek; auto|rewrite Ek; auto|unfold lacks; rewrite Ek; simpl; rewrite Ei; auto|constructor].
  - destruct (intsContain gs g) eqn:Ei; [inversion H; constructor|].
    apply gs_add with a d (KChoice options od (gs ++ [g]) v i); [exact Hd|rewrite Ek; auto|rewrite Ek; auto|unfold lacks; rewrite Ek; simpl; rewrite Ei; auto|].
    eapply forAddrs_gstep; eauto.
Qed.

Lemma addGeneralization_good n g : forall h a, a < List.length h -> odOk h -> nog g h < n ->
  good (addGeneralization n g h a).
Proof.
  induction n as [|n IH]; intros h a Ha Ho Hn; [lia|]. cbn [addGeneralization].
  destruct (nth_error h a) as [d|] eqn:Hd; [|apply nth_error_None in Hd; lia].
  destruct (dKind d) as [cn ch rs|oi items ranges itemDefs gs ac v i|options od gs v i] eqn:Ek.
  - apply good_ok.
  - destruct (intsContain gs g); apply good_ok.
  - destruct (intsContain gs g) eqn:Ei; [apply good_ok|].
    set (h1 := updNth a _ h).
    assert (S1 : gstep g h h1).
    { apply gs_add with a d (KChoice options od (gs ++ [g]) v i); [exact Hd|rewrite Ek; auto|rewrite Ek; auto|unfold lacks; rewrite Ek; simpl; rewrite Ei; auto|constructor]. }
    assert (Hlt : nog g h1 < nog g h).
    { apply nog_add with d; auto; [rewrite Ek; auto|unfold lacks; rewrite Ek; simpl; rewrite Ei; auto]. }
    apply forAddrs_good with (I := fun h' => List.length h' = List.length h /\ odOk h' /\ nog g h' <= nog g h1).
    + intros h2 x h3 (I1 & I2 & I3) H. apply addGeneralization_gstep in H. split; [|split].
      * rewrite (gEvolved_len _ _ (gstep_ev _ _ _ H)). auto.
      * eapply gEvolved_odOk; [eapply gstep_ev; eauto|auto].
      * apply gstep_nog in H. lia.
    + intros h2 x (I1 & I2 & I3) Hx. apply IH; auto; [|lia]. rewrite I1. eapply Ho; eauto. rewrite Ek. auto.
    + split; [apply (gEvolved_len _ _ (gstep_ev _ _ _ S1))|]. split; [|lia].
      eapply gEvolved_odOk; [eapply gstep_ev; eauto|auto].
Qed.

Section INITOK.
Variable m : list (string * addr).
Notation iEvolved := (iEvolved m).

Definition uninit (h : dheap) : nat := List.length (filter (fun d => negb (initK (dKind d))) h).
Lemma uninit_mark h : forall a d f, nth_error h a = Some d -> initK (dKind d) = false -> initK (dKind (f d)) = true ->
  uninit (updNth a f h) < uninit h.
Proof.
  unfold uninit. induction h as [|x h IH]; intros [|a] d f Hd Hv Hf; simpl in *; try discriminate.
  - inversion Hd; subst. rewrite Hv, Hf. simpl. lia.
  - specialize (IH _ _ _ Hd Hv Hf). destruct (negb (initK (dKind x))); simpl; lia.
Qed.
Lemma uninit_mono h : forall h', List.length h' = List.length h -> initMono h h' -> uninit h' <= uninit h.
Proof.
  unfold uninit. induction h as [|x h IH]; intros [|y h'] Hl H; simpl in *; try discriminate; auto.
  assert (initMono h h').
  { intros a (d & Hd & Hi). destruct (H (S a)) as (d' & Hd' & Hi'); [exists d; auto|]. exists d'. auto. }
  apply IH in H0; [|lia]. destruct (initK (dKind x)) eqn:Ex; simpl.
  - destruct (H 0) as (d' & Hd' & Hi'); [exists x; auto|]. simpl in Hd'. inversion Hd'; subst. rewrite Hi'. simpl. lia.
  - destruct (negb _); simpl; lia.
Qed.

Lemma iEvolved_len h h' : iEvolved h h' -> List.length h' = List.length h.
Proof.
  intros H. destruct (Nat.lt_trichotomy (List.length h') (List.length h)) as [Hl|[?|Hl]]; auto; exfalso.
  - apply nth_error_Some in Hl as Hn. specialize (H (List.length h')). unfold evAt in H.
    destruct (nth_error h (List.length h')) eqn:E; [|auto]. destruct H as (d' & Hd' & _).
    assert (nth_error h' (List.length h') <> None) by congruence. apply nth_error_Some in H. lia.
  - specialize (H (List.length h)). unfold evAt in H.
    assert (nth_error h (List.length h) = None) as E by (apply nth_error_None; lia). rewrite E in H.
    apply nth_error_None in H. lia.
Qed.

Definition refsClosed (h : dheap) : Prop := forall b, validated h b -> closedAt m h b.
Definition IOK (L : nat) (h : dheap) : Prop := List.length h = L /\ mapOk m h /\ odOk h /\ refsClosed h.

Lemma lookups_In names x : In x (lookups m names) <-> exists n, In n names /\ lookup m n = Some x.
Proof.
  unfold lookups. rewrite in_flat_map. split.
  - intros (n & Hn & Hx). destruct (lookup m n) eqn:E; [|destruct Hx]. destruct Hx as [<-|[]]. eauto.
  - intros (n & Hn & E). exists n. split; auto. rewrite E. left; auto.
Qed.

Lemma evAt_val h h' b d d' : evAt m h h' b -> nth_error h b = Some d -> nth_error h' b = Some d' ->
  validatedK (dKind d') = validatedK (dKind d) /\ refs (dKind d') = refs (dKind d).
Proof.
  unfold evAt. intros H Hd Hd'. rewrite Hd in H. destruct H as (d'' & E & H). rewrite Hd' in E. inversion E; subst d''.
  destruct H as [H|(_ & H & _)].
  - apply eraseG_eq in H. destruct H as (_ & _ & _ & H). rewrite (eraseGK_val _ _ H), (eraseGK_refs _ _ H). auto.
  - unfold eraseG, setKind in H. inversion H as [[A B C D]]. destruct (dKind d), (dKind d'); simpl in *; try discriminate; inversion D; subst; auto.
    rewrite refs_norm. auto.
Qed.

Lemma iEvolved_closed h h' : iEvolved h h' -> refsClosed h -> refsClosed h'.
Proof.
  intros H Hc b (d' & Hd' & Hv') d r Hd Hr. rewrite Hd' in Hd. inversion Hd; subst d. clear Hd.
  pose proof (H b) as Hb. destruct (nth_error h b) as [d|] eqn:Ed.
  2:{ unfold evAt in Hb. rewrite Ed in Hb. congruence. }
  destruct (evAt_val _ _ _ _ _ Hb Ed Hd') as [V1 V2].
  destruct (Hc b) with (d := d) (r := r) as (x & Hx & dx & Hdx & Hvx); auto; [exists d; split; congruence|congruence|].
  exists x. split; auto. pose proof (H x) as Hxx. unfold evAt in Hxx. rewrite Hdx in Hxx. destruct Hxx as (dx' & Hdx' & _).
  exists dx'. split; auto. destruct (evAt_val _ _ _ _ _ (H x) Hdx Hdx') as [V3 _]. congruence.
Qed.

Lemma mapOk_len h h' : List.length h' = List.length h -> mapOk m h -> mapOk m h'.
Proof. intros E H n a Hn. rewrite E. eauto. Qed.

Lemma iEvolved_od h h' : iEvolved h h' -> mapOk m h -> odOk h -> odOk h'.
Proof.
  intros H Hm Ho x d' y Hd' Hy. rewrite (iEvolved_len _ _ H).
  pose proof (H x) as Hx. unfold evAt in Hx. destruct (nth_error h x) as [d|] eqn:Ed; [|congruence].
  destruct Hx as (d'' & E & Hx). rewrite Hd' in E. inversion E; subst d''. clear E.
  destruct Hx as [Hx|(_ & Hx & _)].
  - apply eraseG_eq in Hx. destruct Hx as (_ & _ & _ & Hx). rewrite (eraseGK_od _ _ Hx) in Hy. eauto.
  - unfold eraseG, setKind in Hx. inversion Hx as [[A B C D]]. specialize (Ho x d).
    destruct (dKind d), (dKind d'); simpl in *; try discriminate; try contradiction.
    inversion D; subst. apply in_app_or in Hy. destruct Hy as [Hy|Hy]; auto.
    apply lookups_In in Hy. destruct Hy as (n & _ & Hn). eauto.
Qed.

Lemma IOK_ev L h h' : iEvolved h h' -> IOK L h -> IOK L h'.
Proof.
  intros H (H1 & H2 & H3 & H4). pose proof (iEvolved_len _ _ H). split; [congruence|].
  split; [eapply mapOk_len; eauto|]. split; [eapply iEvolved_od; eauto|eapply iEvolved_closed; eauto].
Qed.

Lemma validated_ev h h' x : iEvolved h h' -> validated h x -> validated h' x.
Proof.
  intros H (d & Hd & Hv). pose proof (H x) as Hx. unfold evAt in Hx. rewrite Hd in Hx. destruct Hx as (d' & Hd' & _).
  exists d'. split; auto. destruct (evAt_val _ _ _ _ _ (H x) Hd Hd') as [V _]. congruence.
Qed.
Lemma IOK_upd L h a f : (forall d, nth_error h a = Some d -> validatedK (dKind (f d)) = validatedK (dKind d) /\
     refs (dKind (f d)) = refs (dKind d) /\ forall y, In y (odOf (dKind (f d))) -> y < L) -> IOK L h -> IOK L (updNth a f h).
Proof.
  intros Hf (H1 & H2 & H3 & H4).
  assert (Hv : forall x, validated h x <-> validated (updNth a f h) x).
  { intros x. unfold validated. rewrite nth_error_updNth. destruct (Nat.eqb_spec a x) as [->|]; [|tauto].
    destruct (nth_error h x) as [d|] eqn:E; simpl; [|tauto]. destruct (Hf d eq_refl) as [V _].
    split; intros (d' & Hd' & Hv'); inversion Hd'; subst; eexists; split; eauto; congruence. }
  split; [rewrite updNth_length; auto|]. split; [apply mapOk_len with h; [apply updNth_length|auto]|]. split.
  - intros x d y Hd Hy. rewrite updNth_length, H1. rewrite nth_error_updNth in Hd. destruct (Nat.eqb_spec a x) as [->|]; [|rewrite <- H1; eauto].
    destruct (nth_error h x) as [d0|] eqn:E; [|discriminate]. simpl in Hd. inversion Hd; subst. destruct (Hf d0 eq_refl) as (_ & _ & V). auto.
  - intros b Hb d r Hd Hr. apply Hv in Hb. rewrite nth_error_updNth in Hd.
    assert (exists d0, nth_error h b = Some d0 /\ refs (dKind d) = refs (dKind d0)) as (d0 & Hd0 & Er).
    { destruct (Nat.eqb_spec a b) as [->|]; [|eauto]. destruct (nth_error h b) as [d0|] eqn:E; [|discriminate].
      simpl in Hd. inversion Hd; subst. exists d0. split; auto. apply Hf; auto. }
    rewrite Er in Hr. destruct (H4 b Hb d0 r Hd0 Hr) as (x & Hx & Hvx). exists x. split; auto. apply Hv; auto.
Qed.

Lemma validated_upd h a f x : (forall d, nth_error h a = Some d -> validatedK (dKind (f d)) = validatedK (dKind d)) ->
  validated h x -> validated (updNth a f h) x.
Proof.
  intros Hf (d & Hd & Hv). unfold validated. rewrite nth_error_updNth. destruct (Nat.eqb_spec a x) as [->|]; [|eauto].
  rewrite Hd. exists (f d). split; auto. rewrite Hf; auto.
Qed.

Lemma addItemDef_val x d : validatedK (dKind (addItemDef x d)) = validatedK (dKind d) /\
  refs (dKind (addItemDef x d)) = refs (dKind d).
Proof. unfold addItemDef, setKind. destruct (dKind d) eqn:E; simpl; rewrite ?E; auto. Qed.
Lemma addItemDef_odIn x d y : In y (odOf (dKind (addItemDef x d))) -> In y (odOf (dKind d)) \/ y = x.
Proof.
  unfold addItemDef, setKind. destruct (dKind d) eqn:E; simpl; rewrite ?E; simpl; auto.
  intros H. apply in_app_or in H. destruct H as [|[|[]]]; auto.
Qed.
Lemma IOK_addItem L h a x : x < L -> IOK L h -> IOK L (updNth a (addItemDef x) h).
Proof.
  intros Hx H. pose proof H as (H1 & _ & H3 & _). apply IOK_upd; auto. intros d Hd. destruct (addItemDef_val x d). split; auto. split; auto.
  intros y Hy. apply addItemDef_odIn in Hy. destruct Hy as [Hy| ->]; auto. rewrite <- H1. eauto.
Qed.
Lemma uninit_addItem h a x : uninit (updNth a (addItemDef x) h) <= uninit h.
Proof.
  apply uninit_mono; [apply updNth_length|]. apply upd_init. intros. rewrite addItemDef_init. auto.
Qed.

Lemma initItemsLoop_good rec L k a names : forall ac h,
  (forall h x h', rec h x = Ok h' -> iEvolved h h') ->
  (forall h x, IOK L h -> validated h x -> uninit h <= k -> good (rec h x)) ->
  IOK L h -> uninit h <= k -> (forall n, In n names -> exists x, lookup m n = Some x /\ validated h x) ->
  good (initItemsLoop m rec a names ac h).
Proof.
  induction names as [|n names IH]; intros ac h Hs Hr Hi Hu Hn; cbn [initItemsLoop]; [apply good_ok|].
  destruct (Hn n) as (x & Hx & Hv); [left; auto|]. rewrite Hx. pose proof Hi as (H1 & H2 & H3 & H4).
  assert (Hxl : x < L) by (rewrite <- H1; eauto).
  assert (Ia : IOK L (updNth a (addItemDef x) h)) by (apply IOK_addItem; auto).
  assert (Va : forall y, validated h y -> validated (updNth a (addItemDef x) h) y).
  { intros y. apply validated_upd. intros d _. apply addItemDef_val. }
  pose proof (uninit_addItem h a x) as Ua.
  apply good_bind.
  - apply Hr; auto. lia.
  - intros h1 Hh1. apply Hs in Hh1. apply IH; auto.
    + eapply IOK_ev; eauto.
    + pose proof (uninit_mono _ _ (iEvolved_len _ _ Hh1) (iEvolved_init _ _ _ Hh1)). lia.
    + intros n' Hn'. destruct (Hn n') as (y & Hy & Hvy); [right; auto|]. exists y. split; auto. eapply validated_ev; eauto.
Qed.

Lemma initOptionsLoop_good rec L k gf a id names : forall h, L < gf ->
  (forall h x h', rec h x = Ok h' -> iEvolved h h') ->
  (forall h x, IOK L h -> validated h x -> uninit h <= k -> good (rec h x)) ->
  IOK L h -> uninit h <= k -> (forall n, In n names -> exists x, lookup m n = Some x /\ validated h x) ->
  good (initOptionsLoop m rec gf a id names h).
Proof.
  induction names as [|n names IH]; intros h Hg Hs Hr Hi Hu Hn; cbn [initOptionsLoop]; [apply good_ok|].
  destruct (Hn n) as (x & Hx & Hv); [left; auto|]. rewrite Hx. pose proof Hi as (H1 & H2 & H3 & H4).
  assert (Hxl : x < L) by (rewrite <- H1; eauto).
  assert (Ia : IOK L (updNth a (addItemDef x) h)) by (apply IOK_addItem; auto).
  assert (Va : forall y, validated h y -> validated (updNth a (addItemDef x) h) y).
  { intros y. apply validated_upd. intros d _. apply addItemDef_val. }
  pose proof (uninit_addItem h a x) as Ua.
  apply good_bind; [apply Hr; auto; lia|]. intros h1 Hh1. apply Hs in Hh1.
  pose proof (IOK_ev _ _ _ Hh1 Ia) as I1. pose proof I1 as (L1 & _ & O1 & _).
  apply good_bind.
  - apply addGeneralization_good; auto; [lia|]. pose proof (nog_le_length id h1). lia.
  - intros h2 Hh2. apply addGeneralization_gstep, gstep_ev in Hh2. pose proof (gEvolved_i m _ _ Hh2) as E2.
    apply IH; auto.
    + eapply IOK_ev; eauto.
    + pose proof (uninit_mono _ _ (iEvolved_len _ _ Hh1) (iEvolved_init _ _ _ Hh1)).
      pose proof (uninit_mono _ _ (iEvolved_len _ _ E2) (iEvolved_init _ _ _ E2)). lia.
    + intros n' Hn'. destruct (Hn n') as (y & Hy & Hvy); [right; auto|]. exists y. split; auto.
      eapply validated_ev; [eauto|]. eapply validated_ev; eauto.
Qed.

Lemma initDef_good L gf n : forall h a, L < gf -> IOK L h -> validated h a -> uninit h < n ->
  good (initDef m n gf h a).
Proof.
  induction n as [|n IH]; intros h a Hg Hi Hv Hu; [lia|]. cbn [initDef].
  pose proof Hv as (d & Hd & Hvd). rewrite Hd. pose proof Hi as (_ & _ & Ho & Hc). specialize (Hc a Hv d).
  destruct (dKind d) as [cn ch rs|oi items ranges itemDefs gs ac v i|options od gs v i] eqn:Ek.
  - apply good_ok.
  - destruct i; [apply good_ok|]. set (f := fun d => initRanges (setInitialized d)).
    assert (Ef : f d = setKind (KSeq oi (map normalizeItemRange items) (ranges ++ map itemRange (map normalizeItemRange items))
                                     itemDefs gs ac v true) d).
    { unfold f, setInitialized. rewrite Ek. unfold initRanges, setKind; simpl. auto. }
    assert (Hlt : uninit (updNth a f h) < uninit h).
    { apply uninit_mark with d; auto; [rewrite Ek; auto|rewrite Ef; auto]. }
    assert (Hu' : forall d0, nth_error h a = Some d0 -> validatedK (dKind (f d0)) = validatedK (dKind d0)).
    { intros d0 Hd0. rewrite Hd in Hd0. inversion Hd0; subst. rewrite Ef, Ek. auto. }
    apply good_bind; [|intros; apply good_ok].
    eapply initItemsLoop_good with (L := L) (k := n - 1).
    + intros h0 x h' H. apply initDef_spec in H. apply H.
    + intros h0 x I0 V0 U0. apply IH; auto. lia.
    + apply IOK_upd; auto. intros d0 Hd0. split; auto. rewrite Hd in Hd0. inversion Hd0; subst. rewrite Ef, Ek. simpl.
      rewrite refs_norm. split; auto. intros y [].
    + lia.
    + intros r Hr. destruct (Hc r Hd) as (x & Hx & Hvx); [rewrite ?Ek; auto|]. exists x. split; auto. apply validated_upd; auto.
  - destruct i; [apply good_ok|].
    assert (Ef : setInitialized d = setKind (KChoice options od gs v true) d).
    { unfold setInitialized. rewrite Ek. auto. }
    assert (Hlt : uninit (updNth a setInitialized h) < uninit h).
    { apply uninit_mark with d; auto; [rewrite Ek; auto|rewrite Ef; auto]. }
    assert (Hu' : forall d0, nth_error h a = Some d0 -> validatedK (dKind (setInitialized d0)) = validatedK (dKind d0)).
    { intros d0 Hd0. rewrite Hd in Hd0. inversion Hd0; subst. rewrite Ef, Ek. auto. }
    eapply initOptionsLoop_good with (L := L) (k := n - 1); auto.
    + intros h0 x h' H. apply initDef_spec in H. apply H.
    + intros h0 x I0 V0 U0. apply IH; auto. lia.
    + apply IOK_upd; auto. intros d0 Hd0. split; auto. rewrite Hd in Hd0. inversion Hd0; subst. rewrite Ef, Ek. simpl.
      split; auto. intros y Hy. destruct Hi as (<- & _). eapply Ho; eauto. rewrite Ek. auto.
    + lia.
    + intros r Hr. destruct (Hc r Hd) as (x & Hx & Hvx); [rewrite ?Ek; auto|]. exists x. split; auto. apply validated_upd; auto.
Qed.

Lemma initAll_good L n gf l : forall h, L < gf -> L < n -> IOK L h -> (forall a, In a l -> validated h a) ->
  good (forAddrs (initDef m n gf) l h).
Proof.
  intros h Hg Hn Hi Hl.
  apply forAddrs_good with (I := fun h' => IOK L h' /\ forall a, In a l -> validated h' a); auto.
  - intros h0 a h' [I0 V0] H. apply initDef_spec in H. destruct H as [H _]. split; [eapply IOK_ev; eauto|].
    intros x Hx. eapply validated_ev; eauto.
  - intros h0 a [I0 V0] Ha. apply initDef_good with L; auto. destruct I0 as (E & _).
    assert (uninit h0 <= List.length h0). { unfold uninit. clear. induction h0; simpl; auto. destruct (negb _); simpl; lia. }
    lia.
Qed.
End INITOK.
