(** Every match in the memo table is a word of the language of its definition. *)
From Verif Require Import Base Utf8 IdSet Results Parser Lang ListFacts ResultsFacts ReaderFacts ParseFacts.

Definition nonChar (o : pobj) : Prop := match o with PChar _ _ _ _ _ => False | _ => True end.

(** different sequences and choices have different identities *)
Definition uniqueIds (P : pheap) : Prop :=
  forall a b oa ob, nth_error P a = Some oa -> nth_error P b = Some ob -> nonChar oa -> nonChar ob ->
  nodeID oa = nodeID ob -> a = b.

(** [x] is a choice that reaches [a] through options *)
Inductive generalizes (P : pheap) : addr -> addr -> Prop :=
| gz_option x a name id commit options gs :
    nth_error P x = Some (PChoice name id commit options gs) -> In a options -> generalizes P x a
| gz_trans x op a name id commit options gs :
    nth_error P x = Some (PChoice name id commit options gs) -> In op options ->
    generalizes P op a -> generalizes P x a.

Definition gensOf (o : pobj) : list nat :=
  match o with PChar _ _ _ _ _ => [] | PSeq _ _ _ _ _ gs _ => gs | PChoice _ _ _ _ gs => gs end.

Definition gensOk (P : pheap) : Prop :=
  forall a oa x ox, nth_error P a = Some oa -> nth_error P x = Some ox -> nonChar ox ->
  In (nodeID ox) (gensOf oa) -> generalizes P x a.

Definition rangesOk (P : pheap) : Prop :=
  forall a name id commit items ranges gs ac mn mx,
  nth_error P a = Some (PSeq name id commit items ranges gs ac) -> In (mn, mx) ranges ->
  (0 < mx -> mn <= mx)%Z.

(** character classes *)
Lemma matchChar_inClass cnot chars ranges r : matchChar chars ranges cnot r = true <-> inClass cnot chars ranges r.
Proof.
  unfold matchChar, inClass.
  assert (H1 : existsb (fun ci => Z.eqb ci r) chars = true <-> In r chars).
  { rewrite existsb_exists. split.
    - intros (x & Hx & E). apply Z.eqb_eq in E. now subst.
    - intros Hx. exists r. split; auto. apply Z.eqb_refl. }
  assert (H2 : existsb (fun ri => Z.leb (fst ri) r && Z.leb r (snd ri))%bool ranges = true <->
               exists lo hi, In (lo, hi) ranges /\ (lo <= r <= hi)%Z).
  { rewrite existsb_exists. split.
    - intros ((lo & hi) & Hx & E). apply andb_true_iff in E. destruct E as [E1 E2].
      apply Z.leb_le in E1, E2. eauto.
    - intros (lo & hi & Hx & E1 & E2). exists (lo, hi). split; auto. apply andb_true_iff.
      split; apply Z.leb_le; auto. }
  destruct (existsb (fun ci => Z.eqb ci r) chars) eqn:E1; [|destruct (existsb (fun ri => Z.leb (fst ri) r && Z.leb r (snd ri))%bool ranges) eqn:E2].
  - assert (In r chars) by (apply H1; auto). destruct cnot; simpl; split; auto; try discriminate; intros Hn; exfalso; auto.
  - assert (exists lo hi, In (lo, hi) ranges /\ (lo <= r <= hi)%Z) by (apply H2; auto).
    destruct cnot; simpl; split; auto; try discriminate; intros Hn; exfalso; auto.
  - assert (~ In r chars) by (rewrite <- H1; discriminate).
    assert (~ exists lo hi, In (lo, hi) ranges /\ (lo <= r <= hi)%Z) by (rewrite <- H2; discriminate).
    destruct cnot; simpl; split; auto; try tauto; discriminate.
Qed.

Lemma slice_app (l : list rune) o m t : o <= m -> m <= t -> slice l o m ++ slice l m t = slice l o t.
Proof.
  intros H1 H2. unfold slice. replace (t - o) with ((m - o) + (t - m)) by lia.
  set (l' := skipn o l). replace (skipn m l) with (skipn (m - o) l').
  - clearbody l'. generalize (m - o) (t - m). intros n k. revert l'. induction n; intros l'; simpl; auto.
    destruct l'; simpl; [destruct k; auto|]. f_equal. apply IHn.
  - unfold l'. rewrite <- (Nat.sub_add o m) at 2 by auto. generalize (m - o). clear. intros n.
    revert l. induction o; intros l; rewrite ?Nat.add_0_r; simpl; auto. rewrite Nat.add_succ_r. destruct l; simpl; auto.
    destruct n; auto.
Qed.
Lemma slice_nil l o : slice l o o = [].
Proof. unfold slice. now rewrite Nat.sub_diag. Qed.
Lemma slice_one l o r : nth_error l o = Some r -> slice l o (S o) = [r].
Proof.
  intros H. unfold slice. replace (S o - o) with 1 by lia. revert l H. induction o; intros [|x l] H; simpl in *; try discriminate.
  - now inversion H.
  - auto.
Qed.
Lemma slice_full l : slice l 0 (List.length l) = l.
Proof. unfold slice. simpl. rewrite Nat.sub_0_r. apply firstn_all. Qed.

Section SOUND.
Variable P : pheap.
Variable kws : list addr.
Variable K : list (list rune).
Variable input0 : list rune.
Hypothesis Hids : uniqueIds P.
Hypothesis Hgens : gensOk P.
Hypothesis Hranges : rangesOk P.
(** the texts in [K] are texts of literal keywords *)
Hypothesis HK : forall w, In w K -> exists kw, In kw kws /\ literal P kw w.

Definition GL (id o t : nat) : Prop :=
  forall a ob, nth_error P a = Some ob -> nonChar ob -> nodeID ob = id -> lang P K a (slice input0 o t).

Lemma IG_lang a o t : IG P input0 GL a o t -> lang P K a (slice input0 o t).
Proof.
  unfold IG. destruct (nth_error P a) as [[]|] eqn:E; try contradiction.
  - intros (-> & r & Hr & Hm). rewrite (slice_one _ _ _ Hr). eapply lang_char; eauto. now apply matchChar_inClass.
  - intros H. eapply H; eauto. exact I.
  - intros H. eapply H; eauto. exact I.
Qed.

Lemma langRep_snoc item n u v : langRep P K item n u -> lang P K item v -> langRep P K item (S n) (u ++ v).
Proof.
  intros H Hv. revert v Hv. induction H as [|item k u w Hu Hw IH]; intros v Hv.
  - simpl. rewrite <- (app_nil_r v). apply langRep_S; auto. constructor.
  - rewrite <- app_assoc. apply langRep_S; auto.
Qed.
Lemma langRep_empty item n u j : langRep P K item n u -> lang P K item [] -> langRep P K item (j + n) u.
Proof.
  intros H He. induction j; auto. simpl. change u with ([] ++ u). apply langRep_S; auto.
Qed.

Lemma seqRun_le items ranges G ii n o t : seqRun P input0 G items ranges ii n o t -> o <= t.
Proof. induction 1; lia. Qed.

Lemma nth_skipn {A} (l : list A) : forall i x, nth_error l i = Some x -> skipn i l = x :: skipn (S i) l.
Proof. induction l as [|y l IH]; intros [|i] x H; simpl in *; try discriminate; [now inversion H|]. apply IH in H. auto. Qed.
Lemma nth_skipn_none {A} (l : list A) : forall i, nth_error l i = None -> skipn i l = [].
Proof. intros i H. apply nth_error_None in H. apply skipn_all2. auto. Qed.

Lemma seqRun_lang (items : list addr) ranges ii n o t :
  (forall mn mx, In (mn, mx) ranges -> (0 < mx -> mn <= mx)%Z) ->
  seqRun P input0 GL items ranges ii n o t ->
  forall pref, match nth_error items ii with
               | Some item => langRep P K item n pref /\
                   (forall mn mx, nth_error ranges ii = Some (mn, mx) -> (0 < mx)%Z -> (Z.of_nat n < mx)%Z)
               | None => pref = []
               end ->
  langItems P K (skipn ii items) (skipn ii ranges) (pref ++ slice input0 o t).
Proof.
  intros HR H. induction H as [ii n o Hi|ii n o t mn mx item Hi Hr Hn H IH|ii n o t mn mx item Hi Hr HG H IH
      |ii n o o' t mn mx item Hi Hr HG Hlt Hmx H IH|ii n o o' t mn mx item Hi Hr HG Hlt Hm0 Hmx H IH]; intros pref Hp;
    rewrite Hi in Hp.
  - subst. rewrite slice_nil, (nth_skipn_none _ _ Hi). constructor.
  - destruct Hp as [Hp1 Hp2]. rewrite (nth_skipn _ _ _ Hi), (nth_skipn _ _ _ Hr).
    specialize (Hp2 _ _ Hr). apply langItems_cons with (k := n); auto; [lia|].
    apply (IH []). destruct (nth_error items (S ii)); auto. split; [constructor|]. intros. lia.
  - destruct Hp as [Hp1 Hp2]. rewrite (nth_skipn _ _ _ Hi), (nth_skipn _ _ _ Hr).
    specialize (Hp2 _ _ Hr). specialize (HR _ _ (nth_error_In _ _ Hr)).
    apply IG_lang in HG. rewrite slice_nil in HG.
    apply langItems_cons with (k := (Z.to_nat mn - n) + n); [lia|lia|apply langRep_empty; auto|].
    apply (IH []). destruct (nth_error items (S ii)); auto. split; [constructor|]. intros. lia.
  - destruct Hp as [Hp1 Hp2]. specialize (Hp2 _ _ Hr). pose proof (seqRun_le _ _ _ _ _ _ _ H).
    rewrite <- (slice_app input0 o o' t), app_assoc by lia. apply IH. rewrite Hi. split.
    + apply langRep_snoc; auto. now apply IG_lang.
    + intros mn' mx' Hr' H0'. assert (mx' = mx) by congruence. subst. lia.
  - destruct Hp as [Hp1 Hp2]. specialize (Hp2 _ _ Hr). pose proof (seqRun_le _ _ _ _ _ _ _ H).
    rewrite <- (slice_app input0 o o' t), app_assoc by lia.
    rewrite (nth_skipn _ _ _ Hi), (nth_skipn _ _ _ Hr).
    specialize (HR _ _ (nth_error_In _ _ Hr)).
    apply langItems_cons with (k := S n); [lia|lia| |].
    + apply langRep_snoc; auto. now apply IG_lang.
    + apply (IH []). destruct (nth_error items (S ii)); auto. split; [constructor|]. intros. lia.
Qed.

Lemma generalizes_lang x a w : generalizes P x a -> lang P K a w -> lang P K x w.
Proof. induction 1; intros; eapply lang_choice; eauto. Qed.

Lemma GL_seq : forall p name id commit items ranges gs ac o t,
  nth_error P p = Some (PSeq name id commit items ranges gs ac) ->
  o <= t -> t <= List.length input0 -> seqRun P input0 GL items ranges 0 0 o t ->
  (hasFlag commit CNoKeyword = true -> notKw P kws input0 o t) ->
  GL id o t /\ forall g, In g gs -> GL g o t.
Proof.
  intros p name id commit items ranges gs ac o t Hp Hle Ht Hrun Hkw.
  assert (HL : lang P K p (slice input0 o t)).
  { eapply lang_seq; eauto.
    - intros Hnk Hin. destruct (HK _ Hin) as (kw & Hk1 & Hk2). exact (Hkw Hnk kw _ Hk1 Hk2 eq_refl).
    - apply (seqRun_lang items ranges 0 0 o t) with (pref := []); auto.
      + intros mn mx Hin. eapply Hranges; eauto.
      + destruct (nth_error items 0); auto. split; [constructor|]. intros; lia. }
  split.
  - intros a ob Ha Hnc Hid. assert (a = p) by (eapply Hids; eauto; exact I). subst. auto.
  - intros g Hg a ob Ha Hnc Hid. eapply generalizes_lang; [|exact HL].
    eapply Hgens; eauto. rewrite Hid. auto.
Qed.

Lemma GL_choice : forall p name id commit options gs op o t,
  nth_error P p = Some (PChoice name id commit options gs) ->
  In op options -> IG P input0 GL op o t -> GL id o t.
Proof.
  intros p name id commit options gs op o t Hp Hin HG a ob Ha Hnc Hid.
  assert (a = p) by (eapply Hids; eauto; exact I). subst. apply IG_lang in HG. eapply lang_choice; eauto.
Qed.

Theorem parse_sound e0 n p c' : parse P kws n p (newContext input0 e0) = Ok c' ->
  cinv input0 e0 GL c'.
Proof.
  intros Hk. eapply parse_spec in Hk; [apply Hk|apply GL_seq|apply GL_choice|apply cinv_new].
Qed.
End SOUND.
