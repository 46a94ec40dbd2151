(** What the calls do to the memory of the caller, and what the memory does to the calls. *)
From Verif Require Import Base Utf8 Parser Build Syntax ListFacts ParseFacts SyntaxFacts InitWalk InitRun InitCore InitSpec DefineFacts TextFacts Alias AliasSpec.

Definition content (f : field) (d : defobj) : option array :=
  match f, dKind d with
  | FItems, KSeq _ items _ _ _ _ _ _ => Some (AItems items)
  | FOptions, KChoice options _ _ _ _ => Some (ANames options)
  | FChars, KChar _ chars _ => Some (ARunes chars)
  | FRanges, KChar _ _ ranges => Some (ARanges ranges)
  | _, _ => None
  end.
Definition at_ (m : memory) (f : field) (sl : slice) : array :=
  match f with FItems => AItems (itemsAt m sl) | FOptions => ANames (namesAt m sl) | FChars => ARunes (runesAt m sl) | FRanges => ARanges (rangesAt m sl) end.
Definition normA (x : array) : array := match x with AItems l => AItems (map normalizeItemRange l) | _ => x end.
Definition overwriteA (sl : slice) (x ar : array) : array :=
  match x, ar with
  | AItems x, AItems l => AItems (overwrite sl x l)
  | ANames x, ANames l => ANames (overwrite sl x l)
  | ARunes x, ARunes l => ARunes (overwrite sl x l)
  | ARanges x, ARanges l => ARanges (overwrite sl x l)
  | _, _ => ar
  end.
Lemma storeField_content f sl d ar x : content f d = Some x -> storeField f sl d ar = overwriteA sl x ar.
Proof. unfold content, storeField. destruct f, (dKind d); try discriminate; intros H; inversion H; destruct ar; auto. Qed.
Lemma normA_idem x : normA (normA x) = normA x.
Proof. destruct x; simpl; auto. rewrite map_map. f_equal. apply map_ext. apply normalize_idem. Qed.

(** ** evolution of the definitions *)
Definition sEv (h h' : dheap) : Prop := forall a d, nth_error h a = Some d -> exists d', nth_error h' a = Some d' /\ forall f, content f d' = content f d.
Definition nEv (h h' : dheap) : Prop := forall a d, nth_error h a = Some d -> exists d', nth_error h' a = Some d' /\ forall f, content f d' = content f d \/ content f d' = option_map normA (content f d).
Lemma sEv_refl h : sEv h h.
Proof. intros a d H. exists d. auto. Qed.
Lemma sEv_trans a b c : sEv a b -> sEv b c -> sEv a c.
Proof. intros A B x d H. destruct (A x d H) as (d1 & H1 & E1). destruct (B x d1 H1) as (d2 & H2 & E2). exists d2. split; auto. intros f. rewrite E2. auto. Qed.
Lemma sEv_n h h' : sEv h h' -> nEv h h'.
Proof. intros A x d H. destruct (A x d H) as (d1 & H1 & E1). exists d1. auto. Qed.
Lemma nEv_trans a b c : nEv a b -> nEv b c -> nEv a c.
Proof.
  intros A B x d H. destruct (A x d H) as (d1 & H1 & E1). destruct (B x d1 H1) as (d2 & H2 & E2). exists d2. split; auto. intros f.
  destruct (E2 f) as [->| ->]; auto. destruct (E1 f) as [->| ->]; auto. right. destruct (content f d); simpl; auto. rewrite normA_idem. auto.
Qed.
Lemma content_kind f d d' : dKind d' = dKind d -> content f d' = content f d.
Proof. unfold content. intros ->. auto. Qed.
Lemma sEv_upd h a g : (forall d f, content f (g d) = content f d) -> sEv h (updNth a g h).
Proof.
  intros Hg x d H. rewrite nth_error_updNth. destruct (Nat.eqb_spec a x) as [->|]; rewrite H; [exists (g d)|exists d]; split; auto.
Qed.
Lemma sEv_app h x : sEv h (h ++ x).
Proof. intros a d H. exists d. split; auto. rewrite nth_error_app1; auto. apply nth_error_Some. congruence. Qed.
Lemma sEv_commit l h h' : commitEv l h h' -> sEv h h'.
Proof. intros C a d H. specialize (C a). rewrite H in C. destruct C as (d' & H' & _ & _ & K & _). exists d'. split; auto. intros f. apply content_kind; auto. Qed.
Lemma content_setCommit ct d f : content f (setCommitType ct d) = content f d.
Proof. unfold setCommitType. destruct (dKind d) eqn:E; unfold content; simpl; rewrite ?E; auto. Qed.

Lemma setDefinition_sEv h r a h' r' e : setDefinition h r a = (h', r', e) -> sEv h h'.
Proof.
  unfold setDefinition. destruct (nth_error h a) as [d|]; [|intros H; inversion H; apply sEv_refl].
  destruct (Syntax.lookup _ _); intros H; inversion H; subst; [apply sEv_refl|]. apply sEv_upd. intros; apply content_kind; auto.
Qed.
Lemma register_sEv s d s' e : register s d = (s', e) -> sEv (sHeap s) (sHeap s').
Proof.
  unfold register. destruct (sInitialized s); [intros H; inversion H; apply sEv_refl|].
  set (s1 := mkSyntax _ _ _ _ _ _ _). assert (E1 : sEv (sHeap s) (sHeap s1)) by (apply sEv_app).
  destruct (checkCommitType d); [intros H; inversion H; subst; auto|].
  destruct (applyRoot s1 _) as [s2 [err|]] eqn:Ea; apply applyRoot_ev in Ea; destruct Ea as (C & _); apply sEv_commit in C.
  - intros H; inversion H; subst. eapply sEv_trans; eauto.
  - destruct (setDefinition _ _ _) as [[h3 reg3] e3] eqn:E3. intros H; inversion H; subst. simpl in *. eapply sEv_trans; [exact E1|]. eapply sEv_trans; [exact C|]. eapply setDefinition_sEv; eauto.
Qed.
Lemma define_sEv s d s' e : defineCall s d = (s', e) -> sEv (sHeap s) (sHeap s').
Proof.
  intros H. eapply (defineCall_pres (fun s' => sEv (sHeap s) (sHeap s'))); [|apply sEv_refl|exact H].
  intros s1 d1 s2 e1 I _ R. eapply sEv_trans; [exact I|]. eapply register_sEv; eauto.
Qed.

Lemma nEv_preinit h a : nEv h (updNth a preinit h).
Proof.
  intros x d H. rewrite nth_error_updNth. destruct (Nat.eqb_spec a x) as [->|]; rewrite H; [exists (preinit d)|exists d; auto]. split; auto.
  intros f. unfold preinit, initRanges, content. destruct (dKind d) eqn:E; destruct f; simpl; rewrite ?E; auto.
Qed.
Lemma preinitAll_nEv defs : forall h, nEv h (preinitAll h defs).
Proof.
  unfold preinitAll. induction defs as [|a l IH]; intros h; simpl; [apply sEv_n, sEv_refl|]. eapply nEv_trans; [apply nEv_preinit|apply IH].
Qed.
Lemma split_sEv defs : forall h h' ws rest, splitWhitespaceDefs h defs = (h', ws, rest) -> sEv h h'.
Proof.
  induction defs as [|a l IH]; intros h h' ws rest H; cbn [splitWhitespaceDefs] in H; [inversion H; apply sEv_refl|].
  destruct (hasFlag _ _).
  - set (h1 := updNth a _ h) in H. assert (E1 : sEv h h1) by (apply sEv_upd; intros; apply content_setCommit).
    destruct (splitWhitespaceDefs h1 l) as [[h2 w2] r2] eqn:E. inversion H; subst. eapply sEv_trans; [exact E1|]. eapply IH; eauto.
  - destruct (splitWhitespaceDefs h l) as [[h2 w2] r2] eqn:E. inversion H; subst. eapply IH; eauto.
Qed.
Lemma toDefs_sEv defs : forall h h' defs', applyWhitespaceToDefs h defs = (h', defs') -> sEv h h'.
Proof.
  induction defs as [|a l IH]; intros h h' defs' H; cbn [applyWhitespaceToDefs] in H; [inversion H; apply sEv_refl|].
  assert (K : forall h1 (r : list addr), (let (h, rest) := applyWhitespaceToDefs h1 l in (h, r ++ rest)) = (h', defs') -> sEv h1 h').
  { intros h1 r X. destruct (applyWhitespaceToDefs h1 l) as [h2 d2] eqn:E. inversion X; subst. eapply IH; eauto. }
  destruct (nth_error h a) as [[nm i ct [|oi items rs ids gs ac v ii|]]|]; try (apply (K h [a] H)).
  destruct (hasFlag ct CNoWhitespace); [apply (K h [a] H)|]. eapply sEv_trans; [apply sEv_app|]. exact (K _ _ H).
Qed.
Lemma toRoot_sEv h root h' root' : applyWhitespaceToRoot h root = (h', root') -> sEv h h'.
Proof.
  unfold applyWhitespaceToRoot. intros H. inversion H; subst. eapply sEv_trans; [|apply sEv_app].
  apply sEv_upd. intros d f. rewrite content_setCommit. apply content_kind; auto.
Qed.
Lemma newRegistryLoop_sEv defs : forall h r h' r', newRegistryLoop h r defs = (h', r') -> sEv h h'.
Proof.
  induction defs as [|a l IH]; intros h r h' r' H; cbn [newRegistryLoop] in H; [inversion H; apply sEv_refl|].
  destruct (setDefinition h r a) as [[h1 r1] e1] eqn:E. eapply sEv_trans; [eapply setDefinition_sEv; eauto|eapply IH; eauto].
Qed.

Lemma prepare_nEv s reg root h' reg' root' : prepare s reg root = Ok (h', reg', root') -> nEv (sHeap s) h'.
Proof.
  unfold prepare. pose proof (preinitAll_nEv (gDefinitions reg) (sHeap s)) as E0. set (h := preinitAll _ _) in *. destruct (hasWhitespace _ _); [|intros H; inversion H; subst; auto].
  unfold applyWhitespace. destruct (splitWhitespaceDefs h _) as [[h1 ws] rest] eqn:E1. apply split_sEv in E1.
  set (h2 := h1 ++ _). assert (E2 : sEv h1 h2) by apply sEv_app. destruct (applyWhitespaceToDefs h2 rest) as [h3 defs] eqn:E3. apply toDefs_sEv in E3.
  destruct (splitRoot h3 defs) as [[r|] rest2]; [|discriminate]. destruct (applyWhitespaceToRoot h3 r) as [h4 r4] eqn:E4. apply toRoot_sEv in E4. cbn [bind].
  unfold newRegistry. destruct (newRegistryLoop h4 emptyRegistry _) as [h5 reg5] eqn:E5. apply newRegistryLoop_sEv in E5. intros H; inversion H; subst.
  eapply nEv_trans; [exact E0|]. apply sEv_n. eapply sEv_trans; [exact E1|]. eapply sEv_trans; [exact E2|]. eapply sEv_trans; [exact E3|]. eapply sEv_trans; [exact E4|exact E5].
Qed.
Lemma content_validated f d : content f (setKind (setValidated (dKind d)) d) = content f d.
Proof. unfold content, setKind, setValidated. destruct f, (dKind d); auto. Qed.
Lemma vEvolved_sEv h h' : vEvolved h h' -> sEv h h'.
Proof. intros V a d H. specialize (V a). rewrite H in V. destruct V as (d' & H' & [-> | ->]); eexists; split; eauto. intros f. apply content_validated. Qed.
Lemma content_erase f d : content f (eraseG d) = content f d.
Proof. unfold content, eraseG, setKind, eraseGK. destruct f, (dKind d); auto. Qed.
Lemma iEvolved_nEv m h h' : iEvolved m h h' -> nEv h h'.
Proof.
  intros V a d H. specialize (V a). unfold evAt in V. rewrite H in V. destruct V as (d' & H' & [E|(_ & E & _)]); exists d'; split; auto; intros f.
  - left. rewrite <- (content_erase f d'), E. apply content_erase.
  - rewrite <- (content_erase f d'), E. unfold content, setKind, completeK. destruct f, (dKind d); auto.
Qed.
Lemma initCore_nEv m n l h h' e : initCore m n l h = Ok (h', e) -> nEv h h'.
Proof.
  unfold initCore. intros H. binv H. destruct x as [h1 [e1|]].
  - inversion H; subst. apply validateAll_spec in E. apply sEv_n, vEvolved_sEv, E.
  - binv H. inversion H; subst. apply validateAll_spec in E. apply initAll_spec in E0. eapply nEv_trans; [apply sEv_n, vEvolved_sEv, E|eapply iEvolved_nEv; apply E0].
Qed.
Lemma Init_nEv n s s' e : Init n s = Ok (s', e) -> nEv (sHeap s) (sHeap s').
Proof.
  rewrite Init_split. destruct (sInitFailed s); [intros H; inversion H; apply sEv_n, sEv_refl|]. destruct (sInitialized s); [intros H; inversion H; apply sEv_n, sEv_refl|].
  destruct (sRoot s) as [root|]; [|intros H; inversion H; apply sEv_n, sEv_refl]. destruct (nth_error _ root) as [rd|]; [|discriminate]. destruct (sRegistry s) as [reg|]; [|discriminate].
  destruct (checkCommitType rd); [intros H; inversion H; apply sEv_n, sEv_refl|]. intros H. binv H. destruct x as [[h1 reg1] root1]. binv H. destruct x as [h2 e2].
  apply prepare_nEv in E. apply initCore_nEv in E0. destruct e2; inversion H; subst; simpl; eapply nEv_trans; eauto.
Qed.
Lemma Parse_nEv n s input e s' o : Parse n s input e = Ok (s', o) -> nEv (sHeap s) (sHeap s').
Proof.
  unfold Parse. intros H. binv H. destruct x as [s1 [err|]]; apply Init_nEv in E; [inversion H; subst; auto|]. destruct (sRoot s1); [|discriminate]. binv H. inversion H; subst. auto.
Qed.

(** ** the view *)
Definition key (l : link) : addr * field := fst l.
Definition linkInv (h : dheap) (links : list link) : Prop :=
  NoDup (map key links) /\ forall a f sl, In (a, f, sl) links -> exists d, nth_error h a = Some d /\ content f d <> None.
Lemma setField_at m f sl d : content f d <> None -> content f (setField m f sl d) = Some (at_ m f sl).
Proof. unfold content, setField, at_. destruct f; destruct (dKind d); simpl; auto; congruence. Qed.
Lemma setField_other m f f' sl d : f' <> f -> content f' (setField m f sl d) = content f' d.
Proof. unfold content, setField. destruct f, f', (dKind d) eqn:E; simpl; rewrite ?E; auto; congruence. Qed.
Lemma setField_fits m f f' sl d : content f' d <> None -> content f' (setField m f sl d) <> None.
Proof. unfold content, setField. destruct f, f', (dKind d) eqn:E; simpl; rewrite ?E; auto; congruence. Qed.
Lemma view_len m links : forall h, List.length (viewHeap m links h) = List.length h.
Proof. unfold viewHeap. induction links as [|[[a f] sl] l IH]; intros h; simpl; auto. rewrite IH. apply updNth_length. Qed.
Lemma view_keep m links : forall h a d f, ~ In (a, f) (map key links) -> nth_error h a = Some d -> exists d', nth_error (viewHeap m links h) a = Some d' /\ content f d' = content f d.
Proof.
  unfold viewHeap. induction links as [|[[b g] sl] l IH]; intros h a d f Hn H; simpl; [exists d; auto|]. simpl in Hn.
  destruct (Nat.eqb_spec b a) as [->|Hb].
  - destruct (IH (updNth a (setField m g sl) h) a (setField m g sl d) f) as (d' & H1 & H2); [tauto|rewrite nth_error_updNth, Nat.eqb_refl, H; auto|].
    exists d'. split; auto. rewrite H2. apply setField_other. intros ->. apply Hn. left. auto.
  - apply IH; [tauto|]. rewrite nth_error_updNth. destruct (Nat.eqb_spec b a); congruence.
Qed.
Lemma view_at m links : forall h a f sl, linkInv h links -> In (a, f, sl) links -> exists d, nth_error (viewHeap m links h) a = Some d /\ content f d = Some (at_ m f sl).
Proof.
  induction links as [|[[b g] sl0] l IH]; intros h a f sl [N F] Hin; [destruct Hin|]. inversion N as [|x y N1 N2]; subst.
  assert (F' : forall a f sl, In (a, f, sl) l -> exists d, nth_error (updNth b (setField m g sl0) h) a = Some d /\ content f d <> None).
  { intros a1 f1 sl1 H1. destruct (F a1 f1 sl1 (or_intror H1)) as (d & Hd & Hc). rewrite nth_error_updNth. destruct (Nat.eqb_spec b a1) as [->|]; rewrite Hd; [|exists d; auto].
    exists (setField m g sl0 d). split; auto. apply setField_fits; auto. }
  destruct Hin as [E|Hin].
  - inversion E; subst. destruct (F a f sl (or_introl eq_refl)) as (d & Hd & Hc). unfold viewHeap. simpl. fold (viewHeap m l (updNth a (setField m f sl) h)).
    destruct (view_keep m l (updNth a (setField m f sl) h) a (setField m f sl d) f) as (d' & H1 & H2); [exact N1|rewrite nth_error_updNth, Nat.eqb_refl, Hd; auto|].
    exists d'. split; auto. rewrite H2. apply setField_at; auto.
  - apply (IH (updNth b (setField m g sl0) h)); auto. split; auto.
Qed.
Lemma view_inv m links h : linkInv h links -> linkInv (viewHeap m links h) links.
Proof. intros I. split; [apply I|]. intros a f sl H. destruct (view_at m links h a f sl I H) as (d & H1 & H2). exists d. split; auto. congruence. Qed.

(** ** storing *)
Definition from (links : list link) (h : dheap) (m : memory) (R : array -> array -> Prop) : Prop :=
  forall a f sl, In (a, f, sl) links -> exists d x, nth_error h a = Some d /\ content f d = Some x /\ R (at_ m f sl) x.
Lemma overwrite_part {A} sl (l : list A) : overwrite sl (part sl l) l = l.
Proof.
  unfold overwrite, part. rewrite firstn_length, skipn_length.
  destruct (Nat.le_gt_cases (List.length l) (slFrom sl)) as [H|H].
  - rewrite (skipn_all2 l H). rewrite firstn_nil. rewrite firstn_all2 by lia. rewrite skipn_all2 by lia. apply app_nil_r.
  - transitivity (firstn (slFrom sl) l ++ skipn (slFrom sl) l); [f_equal|apply firstn_skipn].
    transitivity (firstn (slLen sl) (skipn (slFrom sl) l) ++ skipn (slLen sl) (skipn (slFrom sl) l)); [f_equal|apply firstn_skipn]. rewrite skipn_skipn2.
    destruct (Nat.le_gt_cases (slLen sl) (List.length l - slFrom sl)) as [H1|H1].
    + rewrite Nat.min_l by lia. f_equal. lia.
    + rewrite Nat.min_r by lia. rewrite !skipn_all2 by lia. auto.
Qed.
Lemma nth_error_skipn' {A} n : forall (l : list A) i, nth_error (skipn n l) i = nth_error l (n + i).
Proof. induction n as [|n IH]; intros [|x l] i; simpl; auto. destruct i; auto. Qed.

Lemma updNth_id {A} (g : A -> A) i : forall l, (forall x, nth_error l i = Some x -> g x = x) -> updNth i g l = l.
Proof.
  induction i as [|i IH]; intros [|x l] H; simpl; auto; f_equal; [apply H; auto|]. apply IH. auto.
Qed.
Lemma store_same h links : forall m, from links h m (fun x y => y = x) -> store h links m = m.
Proof.
  unfold store. induction links as [|[[a f] sl] l IH]; intros m F; simpl; auto.
  destruct (F a f sl (or_introl eq_refl)) as (d & x & Hd & Hc & E). subst x. rewrite Hd. rewrite updNth_id.
  - apply IH. intros b g s2 H. apply F. right. auto.
  - intros ar Har. rewrite (storeField_content _ _ _ _ _ Hc). unfold at_, itemsAt, namesAt, runesAt, rangesAt.
    destruct f; rewrite Har; destruct ar; simpl; auto; rewrite overwrite_part; auto.
Qed.
Definition nrel (a b : seqItem) : Prop := b = a \/ b = normalizeItemRange a.
Lemma normArray_refl x : normalizedArray x x.
Proof. destruct x; simpl; auto. induction l; constructor; auto. Qed.
Lemma normSome_refl m : normalizedSome m m.
Proof. induction m; constructor; auto. apply normArray_refl. Qed.
Lemma Forall2_upd {A} (R : A -> A -> Prop) g i : forall l l', Forall2 R l l' -> (forall x y, nth_error l i = Some x -> nth_error l' i = Some y -> R x y -> R x (g y)) -> Forall2 R l (updNth i g l').
Proof. induction i as [|i IH]; intros l l' [|x y l1 l2 Hx Hl] H; simpl; constructor; auto. Qed.
Lemma Forall2_firstn {A} (R : A -> A -> Prop) n : forall l l', Forall2 R l l' -> Forall2 R (firstn n l) (firstn n l').
Proof. induction n; intros l l' [|x y l1 l2 Hx Hl]; simpl; constructor; auto. Qed.
Lemma Forall2_skipn {A} (R : A -> A -> Prop) n : forall l l', Forall2 R l l' -> Forall2 R (skipn n l) (skipn n l').
Proof. induction n; intros l l' [|x y l1 l2 Hx Hl]; simpl; auto. Qed.
Lemma overwrite_rel {A} (R : A -> A -> Prop) sl l l' x : Forall2 R l l' -> Forall2 R (part sl l) x -> Forall2 R l (overwrite sl x l').
Proof.
  intros H X. rewrite <- (overwrite_part sl l) at 1. unfold overwrite. apply Forall2_app; [apply Forall2_firstn; auto|]. apply Forall2_app; auto.
  replace (List.length x) with (List.length (part sl l)); [apply Forall2_skipn; auto|]. clear -X. induction X; simpl; auto.
Qed.
Lemma nrel_refl l : Forall2 nrel l l.
Proof. induction l; constructor; auto. left; auto. Qed.
Lemma nrel_norm l : Forall2 nrel l (map normalizeItemRange l).
Proof. induction l; constructor; auto. right; auto. Qed.
Lemma store_norm h links m0 : forall m, normalizedSome m0 m -> from links h m0 (fun x y => y = x \/ y = normA x) -> normalizedSome m0 (store h links m).
Proof.
  unfold store. induction links as [|[[a f] sl] l IH]; intros m N F; simpl; auto.
  destruct (F a f sl (or_introl eq_refl)) as (d & x & Hd & Hc & E). rewrite Hd. apply IH; [|intros b g s2 H; apply F; right; auto].
  apply Forall2_upd; auto. intros x0 y0 H0 H1 R. rewrite (storeField_content _ _ _ _ _ Hc).
  unfold at_, itemsAt, namesAt, runesAt, rangesAt in E. clear H1 Hc Hd.
  destruct f; rewrite H0 in E; destruct x0, y0; simpl in R; try discriminate; try (inversion R; subst);
    destruct E as [E|E]; subst x; simpl; rewrite ?overwrite_part; auto; apply overwrite_rel; auto; first [apply nrel_refl|apply nrel_norm].
Qed.

(** ** the links *)
Lemma new_links c l : forall a b f sl, In (b, f, sl) (newLinks c a l) -> a <= b /\ exists d, nth_error l (b - a) = Some d /\ In (b, f, sl) (linksOf c b d).
Proof.
  induction l as [|d l IH]; intros a b f sl H; simpl in H; [destruct H|]. apply in_app_or in H as [H|H].
  - assert (b = a) by (unfold linksOf in H; destruct c, (dKind d); simpl in H; repeat destruct H as [H|H]; try contradiction; inversion H; auto). subst b.
    split; auto. rewrite Nat.sub_diag. exists d. auto.
  - apply IH in H. destruct H as (H1 & d' & H2 & H3). split; [lia|]. exists d'. split; auto. replace (b - a) with (S (b - S a)) by lia. auto.
Qed.
Lemma linksOf_content c a d b f sl : In (b, f, sl) (linksOf c a d) -> content f d <> None.
Proof. unfold linksOf, content. destruct c, (dKind d); simpl; intros H; repeat destruct H as [H|H]; try contradiction; inversion H; subst; discriminate. Qed.
Lemma new_nodup c l : forall a, NoDup (map key (newLinks c a l)).
Proof.
  induction l as [|d l IH]; intros a; simpl; [constructor|]. rewrite map_app.
  assert (K : forall f, ~ In (a, f) (map key (newLinks c (S a) l))).
  { intros f H. apply in_map_iff in H. destruct H as ([[b g] sl] & E & H). unfold key in E. simpl in E. inversion E; subst. apply new_links in H. lia. }
  unfold linksOf. destruct c, (dKind d); simpl; auto; try (constructor; auto; apply K). constructor; [|constructor; auto; apply K].
  intros [H|H]; [discriminate|]. apply (K _ H).
Qed.
Lemma NoDup_app2 {A} (l l' : list A) : NoDup l -> NoDup l' -> (forall x, In x l -> ~ In x l') -> NoDup (l ++ l').
Proof.
  induction l as [|x l IH]; simpl; auto. intros N N' D. inversion N; subst. constructor; [|apply IH; auto; intros; apply D; auto].
  intros H. apply in_app_or in H as [H|H]; auto. apply (D x); auto.
Qed.
Lemma linkInv_nEv h h' links : nEv h h' -> linkInv h links -> linkInv h' links.
Proof.
  intros E [N F]. split; auto. intros a f sl H. destruct (F a f sl H) as (d & Hd & Hc). destruct (E a d Hd) as (d' & Hd' & C). exists d'. split; auto.
  destruct (C f) as [->| ->]; auto. destruct (content f d); simpl; congruence.
Qed.
Lemma linkInv_lt h links a f sl : linkInv h links -> In (a, f, sl) links -> a < List.length h.
Proof. intros [_ F] H. destruct (F a f sl H) as (d & Hd & _). apply nth_error_Some. congruence. Qed.
Lemma view_linkInv st : linkInv (sHeap (aSyntax st)) (aLinks st) -> linkInv (sHeap (view st)) (aLinks st).
Proof. apply view_inv. Qed.
Lemma linkInv_define st c st' e : linkInv (sHeap (aSyntax st)) (aLinks st) -> sliceDefine st c = (st', e) -> linkInv (sHeap (aSyntax st')) (aLinks st').
Proof.
  unfold sliceDefine. intros I H. set (n := List.length (sHeap (aSyntax st))) in *. destruct (defineCall (view st) _) as [s e1] eqn:E. apply define_sEv in E.
  pose proof (linkInv_nEv _ _ _ (sEv_n _ _ E) (view_linkInv st I)) as I1. inversion H; subst st'. simpl.
  split.
  - rewrite map_app. apply NoDup_app2; [apply I1|apply new_nodup|]. intros [a f] K1 K2. apply in_map_iff in K1. destruct K1 as ([[a1 f1] sl1] & E1 & K1). unfold key in E1. simpl in E1. inversion E1; subst.
    apply in_map_iff in K2. destruct K2 as ([[a2 f2] sl2] & E2 & K2). unfold key in E2. simpl in E2. inversion E2; subst. apply new_links in K2. pose proof (linkInv_lt _ _ _ _ _ I K1). unfold n in *. lia.
  - intros a f sl K1. apply in_app_or in K1 as [K1|K1]; [apply (proj2 I1 a f sl K1)|]. apply new_links in K1. destruct K1 as (L & d & Hd & Hl). rewrite nth_error_skipn' in Hd. exists d.
    split; [replace a with (n + (a - n)) by lia; auto|]. eapply linksOf_content; eauto.
Qed.
Lemma history_inv st : history st -> linkInv (sHeap (aSyntax st)) (aLinks st).
Proof.
  induction 1 as [m|st c st' e H IH E|st fuel st' e H IH E|st fuel input e st' o H IH E|st m H IH].
  - split; [constructor|intros a f sl []].
  - eapply linkInv_define; eauto.
  - unfold sliceInit in E. binv E. inversion E; subst. destruct x as [s1 e1]. simpl. rewrite app_nil_r. apply Init_nEv in E0. eapply linkInv_nEv; [exact E0|apply view_linkInv; auto].
  - unfold sliceParse in E. binv E. inversion E; subst. destruct x as [s1 o1]. simpl. rewrite app_nil_r. apply Parse_nEv in E0. eapply linkInv_nEv; [exact E0|apply view_linkInv; auto].
  - auto.
Qed.
Lemma from_view st h R : linkInv (sHeap (aSyntax st)) (aLinks st) ->
  (forall a d, nth_error (sHeap (view st)) a = Some d -> exists d', nth_error h a = Some d' /\ forall f x, content f d = Some x -> exists y, content f d' = Some y /\ R x y) ->
  from (aLinks st) h (aMemory st) R.
Proof.
  intros I E a f sl H. destruct (view_at (aMemory st) _ _ a f sl I H) as (d & Hd & Hc). destruct (E a d Hd) as (d' & Hd' & C). destruct (C f _ Hc) as (y & Hy & Ry). exists d', y. auto.
Qed.
Theorem define_memory st c st' e : history st -> sliceDefine st c = (st', e) -> aMemory st' = aMemory st.
Proof.
  intros Hh H. apply history_inv in Hh. unfold sliceDefine in H. destruct (defineCall _ _) as [s e1] eqn:E. apply define_sEv in E. inversion H; subst. simpl. apply store_same. apply from_view; auto.
  intros a d Hd. destruct (E a d Hd) as (d' & Hd' & C). exists d'. split; auto. intros f x Hx. exists x. rewrite C. auto.
Qed.
Lemma after_norm st h : linkInv (sHeap (aSyntax st)) (aLinks st) -> nEv (sHeap (view st)) h -> normalizedSome (aMemory st) (store h (aLinks st) (aMemory st)).
Proof.
  intros I E. apply store_norm; [apply normSome_refl|]. apply from_view; auto. intros a d Hd. destruct (E a d Hd) as (d' & Hd' & C). exists d'. split; auto.
  intros f x Hx. destruct (C f) as [C1|C1]; rewrite Hx in C1; rewrite C1; simpl; eexists; split; eauto.
Qed.
Theorem init_memory st fuel st' e : history st -> sliceInit fuel st = Ok (st', e) -> normalizedSome (aMemory st) (aMemory st').
Proof. intros Hh H. apply history_inv in Hh. unfold sliceInit in H. binv H. inversion H; subst. destruct x as [s1 e1]. simpl. apply Init_nEv in E. apply after_norm; auto. Qed.
Theorem parse_memory st fuel input r st' o : history st -> sliceParse fuel st input r = Ok (st', o) -> normalizedSome (aMemory st) (aMemory st').
Proof. intros Hh H. apply history_inv in Hh. unfold sliceParse in H. binv H. inversion H; subst. destruct x as [s1 e1]. simpl. apply Parse_nEv in E. apply after_norm; auto. Qed.

(** ** an initialized syntax and later changes *)
Lemma chars_at m m' sl : sameChars m m' -> runesAt m' sl = runesAt m sl /\ rangesAt m' sl = rangesAt m sl.
Proof.
  intros H. specialize (H (slArray sl)). unfold runesAt, rangesAt. destruct (nth_error m (slArray sl)) as [[| | |]|], (nth_error m' (slArray sl)) as [[| | |]|]; try contradiction; try (inversion H; subst); auto.
Qed.
Lemma map_updNth_eq {A B} (p : A -> B) i g g' : forall l l', map p l = map p l' -> (forall x y, p x = p y -> p (g x) = p (g' y)) -> map p (updNth i g l) = map p (updNth i g' l').
Proof. induction i as [|i IH]; intros [|x l] [|y l'] E H; simpl in *; try discriminate; auto; inversion E; f_equal; auto. Qed.
Lemma parsers_view m m' links : sameChars m m' -> forall h h', map toParser h' = map toParser h -> map toParser (viewHeap m' links h') = map toParser (viewHeap m links h).
Proof.
  intros S. unfold viewHeap. induction links as [|[[a f] sl] l IH]; intros h h' E; simpl; auto. apply IH. apply map_updNth_eq; auto.
  intros x y P. destruct (chars_at m m' sl S) as [E1 E2]. unfold setField. unfold toParser in P |- *.
  destruct f; destruct (dKind x) eqn:Kx, (dKind y) eqn:Ky; try discriminate P; simpl; rewrite ?Kx, ?Ky, ?E1, ?E2; inversion P; subst; auto; congruence.
Qed.
Lemma Parse_ready fuel s input r : sInitFailed s = false -> sInitialized s = true -> Parse fuel s input r =
  match sRoot s with None => Panic PanicNil | Some root => o <- parseInput (parsers s) (sKeywords s) root fuel input r ;; Ok (s, o) end.
Proof. intros F I. unfold Parse. unfold Init. rewrite F, I. reflexivity. Qed.
Lemma Init_ready fuel s s' : Init fuel s = Ok (s', None) -> sInitFailed s' = false /\ sInitialized s' = true.
Proof.
  rewrite Init_split. destruct (sInitFailed s) eqn:F; [discriminate|]. destruct (sInitialized s) eqn:I; [intros H; inversion H; subst; auto|].
  destruct (sRoot s) as [root|]; [|discriminate]. destruct (nth_error _ root) as [rd|]; [|discriminate]. destruct (sRegistry s) as [reg|]; [|discriminate].
  destruct (checkCommitType rd); [discriminate|]. intros H. binv H. destruct x as [[h1 reg1] root1]. binv H. destruct x as [h2 [e2|]]; inversion H; subst; auto.
Qed.
Lemma view_fields st : sInitFailed (view st) = sInitFailed (aSyntax st) /\ sInitialized (view st) = sInitialized (aSyntax st) /\ sRoot (view st) = sRoot (aSyntax st) /\ sKeywords (view st) = sKeywords (aSyntax st).
Proof. auto. Qed.
Lemma sliceParse_ready fuel st input r : linkInv (sHeap (aSyntax st)) (aLinks st) -> sInitFailed (aSyntax st) = false -> sInitialized (aSyntax st) = true ->
  sliceParse fuel st input r = match sRoot (aSyntax st) with None => Panic PanicNil | Some root => o <- parseInput (parsers (view st)) (sKeywords (aSyntax st)) root fuel input r ;; Ok (mkShared (view st) (aLinks st) (aMemory st), o) end.
Proof.
  intros I F N. unfold sliceParse. rewrite Parse_ready; auto. destruct (view_fields st) as (_ & _ & -> & ->). destruct (sRoot (aSyntax st)) as [root|]; auto.
  destruct (parseInput _ _ root fuel input r) as [o| |]; auto. cbn [bind fst snd]. unfold after. rewrite app_nil_r. rewrite store_same; auto.
  apply from_view; auto. intros a d Hd. exists d. split; auto. intros f x Hx. exists x. auto.
Qed.
Lemma sliceInit_ready fuel st st' : sliceInit fuel st = Ok (st', None) -> sInitFailed (aSyntax st') = false /\ sInitialized (aSyntax st') = true.
Proof. unfold sliceInit. intros H. binv H. destruct x as [s1 e1]. inversion H; subst. simpl. eapply Init_ready; eauto. Qed.
Lemma parsers_of st st' : aLinks st' = aLinks st -> parsers (aSyntax st') = parsers (aSyntax st) -> sameChars (aMemory st) (aMemory st') -> parsers (view st') = parsers (view st).
Proof. intros L P S. unfold parsers, view. simpl. rewrite L. apply parsers_view; auto. Qed.
Theorem later st fuel st1 m input r fuel' : history st -> sliceInit fuel st = Ok (st1, None) -> sameChars (aMemory st1) m ->
  parseOf (sliceParse fuel' (withMemory st1 m) input r) = parseOf (sliceParse fuel' st1 input r) /\
  forall st2 o, sliceParse fuel' (withMemory st1 m) input r = Ok (st2, o) -> aMemory st2 = m.
Proof.
  intros Hh HI S. assert (H1 : history st1) by (eapply hi_init; eauto). apply history_inv in H1. apply sliceInit_ready in HI. destruct HI as [F N].
  rewrite (sliceParse_ready fuel' st1) by auto. rewrite (sliceParse_ready fuel' (withMemory st1 m)) by auto. simpl.
  rewrite (parsers_of st1 (withMemory st1 m)) by auto. destruct (sRoot (aSyntax st1)) as [root|]; [|split; auto; discriminate].
  destruct (parseInput _ _ root fuel' input r) as [o| |]; cbn [bind parseOf]; split; auto; try discriminate. intros st2 o2 X. inversion X; subst. auto.
Qed.

(** ** callers that leave their slices as they are *)
Lemma setField_same m f sl d : content f d = Some (at_ m f sl) -> setField m f sl d = d.
Proof. unfold content, setField, at_, setKind. destruct d as [nm i ct k]. simpl. destruct f, k; try discriminate; intros H; inversion H; auto. Qed.
Lemma view_same m links : forall h, from links h m (fun x y => y = x) -> viewHeap m links h = h.
Proof.
  unfold viewHeap. induction links as [|[[a f] sl] l IH]; intros h F; simpl; auto. destruct (F a f sl (or_introl eq_refl)) as (d & x & Hd & Hc & E). subst x.
  rewrite updNth_id; [apply IH; intros b g s2 H; apply F; right; auto|]. intros y Hy. rewrite Hd in Hy. inversion Hy; subst. apply setField_same; auto.
Qed.
Definition tailP (n : nat) (P : dkind -> Prop) (s : syntax) : Prop := forall a d, n <= a -> nth_error (sHeap s) a = Some d -> P (dKind d).
Lemma setDefinition_kind h r a h' r' e : setDefinition h r a = (h', r', e) -> forall i d, nth_error h' i = Some d -> exists d0, nth_error h i = Some d0 /\ dKind d = dKind d0.
Proof.
  unfold setDefinition. destruct (nth_error h a) as [d|] eqn:Ha; [|intros H; inversion H; subst; eauto].
  destruct (Syntax.lookup _ _); intros H; inversion H; subst; eauto. intros i x Hx. rewrite nth_error_updNth in Hx. destruct (Nat.eqb_spec a i) as [->|]; eauto.
  rewrite Ha in Hx. inversion Hx; subst. eauto.
Qed.
Lemma commitEv_kind l h h' : commitEv l h h' -> forall i d, nth_error h' i = Some d -> exists d0, nth_error h i = Some d0 /\ dKind d = dKind d0.
Proof. intros C i d H. specialize (C i). destruct (nth_error h i) as [d0|]; [|congruence]. destruct C as (d' & H' & _ & _ & K & _). rewrite H in H'. inversion H'; subst. eauto. Qed.
Lemma register_tail n P s d s' e : tailP n P s -> P (dKind d) -> register s d = (s', e) -> tailP n P s'.
Proof.
  intros T Pd. unfold register. destruct (sInitialized s); [intros H; inversion H; subst; auto|].
  set (s1 := mkSyntax _ _ _ _ _ _ _). assert (T1 : tailP n P s1).
  { intros a x La Hx. simpl in Hx. destruct (Nat.lt_ge_cases a (List.length (sHeap s))) as [L|L]; [rewrite nth_error_app1 in Hx by auto; eapply T; eauto|].
    rewrite nth_error_app2 in Hx by auto. destruct (a - List.length (sHeap s)) as [|[|]]; simpl in Hx; inversion Hx; subst; auto. }
  destruct (checkCommitType d); [intros H; inversion H; subst; auto|].
  destruct (applyRoot s1 _) as [s2 [err|]] eqn:Ea; apply applyRoot_ev in Ea; destruct Ea as (C & _).
  - intros H; inversion H; subst. intros a x La Hx. destruct (commitEv_kind _ _ _ C a x Hx) as (d0 & H0 & ->). eapply T1; eauto.
  - destruct (setDefinition _ _ _) as [[h3 reg3] e3] eqn:E3. intros H; inversion H; subst. intros a x La Hx. simpl in Hx.
    destruct (setDefinition_kind _ _ _ _ _ _ E3 a x Hx) as (d1 & H1 & ->). destruct (commitEv_kind _ _ _ C a d1 H1) as (d0 & H0 & ->). eapply T1; eauto.
Qed.
Definition madeBy (m : memory) (c : slicecall) (k : dkind) : Prop :=
  match c, k with
  | SSequence _ _ sl, KSeq _ items _ _ _ _ _ _ => items = itemsAt m sl
  | SChoice _ _ sl, KChoice options _ _ _ _ => options = namesAt m sl
  | SClass _ _ _ sl1 sl2, KChar _ cs rs => cs = runesAt m sl1 /\ rs = rangesAt m sl2
  | _, _ => True
  end.
Lemma charLoop_tail n m c chars name : (forall x y z, madeBy m c (KChar x y z)) -> forall s i s' e, tailP n (madeBy m c) s -> charSeqLoop s name i chars = (s', e) -> tailP n (madeBy m c) s'.
Proof.
  intros Hc. induction chars as [|r l IH]; intros s i s' e T H; cbn [charSeqLoop] in H; [inversion H; subst; auto|].
  destruct (register s _) as [s1 [err|]] eqn:E; [inversion H; subst|]; (eapply register_tail in E; [|exact T|apply Hc]); eauto.
Qed.
Lemma define_tail n m c s s' e : tailP n (madeBy m c) s -> defineCall s (contents m c) = (s', e) -> tailP n (madeBy m c) s'.
Proof.
  intros T. unfold defineCall. destruct (isValidSymbol _); [|intros H; inversion H; subst; auto].
  destruct c; simpl; unfold anyChar, class, charSequence, sequence, choice.
  - intros H. eapply register_tail in H; eauto. simpl. auto.
  - intros H. eapply register_tail in H; eauto. simpl. auto.
  - destruct (register s _) as [s1 [err|]] eqn:E; (eapply register_tail in E; [|exact T|simpl; auto]); [intros H; inversion H; subst; auto|]. intros H. eapply register_tail in H; eauto. simpl. auto.
  - destruct (charSeqLoop s _ 0 _) as [s1 [err|]] eqn:E; (eapply charLoop_tail in E; [| |exact T]; [|simpl; auto]); [intros H; inversion H; subst; auto|]. intros H. eapply register_tail in H; eauto. simpl. auto.
  - destruct (register s _) as [s1 [err|]] eqn:E; (eapply register_tail in E; [|exact T|simpl; auto]); [intros H; inversion H; subst; auto|]. intros H. eapply register_tail in H; eauto. simpl. auto.
Qed.
Definition coherent (st : shared) : Prop := from (aLinks st) (sHeap (aSyntax st)) (aMemory st) (fun x y => y = x).
Lemma coherent_view st : coherent st -> view st = aSyntax st.
Proof. intros C. unfold view. rewrite view_same by exact C. destruct (aSyntax st). reflexivity. Qed.
Lemma linksOf_at m c a d b f sl : In (b, f, sl) (linksOf c a d) -> madeBy m c (dKind d) -> content f d = Some (at_ m f sl).
Proof.
  unfold linksOf, content, madeBy, at_. destruct c, (dKind d); simpl; intros H M; repeat destruct H as [H|H]; try contradiction; inversion H; subst; auto; destruct M; subst; auto.
Qed.
Lemma define_coherent st c st' e : coherent st -> sliceDefine st c = (st', e) ->
  coherent st' /\ aMemory st' = aMemory st /\ defineCall (aSyntax st) (contents (aMemory st) c) = (aSyntax st', e).
Proof.
  intros C H. unfold sliceDefine in H. rewrite (coherent_view st C) in H. destruct (defineCall _ _) as [s e1] eqn:E. inversion H; subst.
  pose proof (define_sEv _ _ _ _ E) as V. assert (M : store (sHeap s) (aLinks st) (aMemory st) = aMemory st).
  { apply store_same. intros a f sl K. destruct (C a f sl K) as (d & x & Hd & Hx & ->). destruct (V a d Hd) as (d' & Hd' & Q). exists d', (at_ (aMemory st) f sl). rewrite Q. auto. }
  split; [|split; auto]. intros a f sl K. simpl in K |- *. rewrite M. apply in_app_or in K as [K|K].
  - destruct (C a f sl K) as (d & x & Hd & Hx & ->). destruct (V a d Hd) as (d' & Hd' & Q). exists d', (at_ (aMemory st) f sl). rewrite Q. auto.
  - apply new_links in K. destruct K as (L & d & Hd & Hl). rewrite nth_error_skipn' in Hd. set (n := List.length (sHeap (aSyntax st))) in *. replace (n + (a - n)) with a in Hd by lia.
    exists d, (at_ (aMemory st) f sl). split; auto. split; auto. apply (linksOf_at _ _ _ _ _ _ _ Hl). eapply (define_tail n); [|exact E|exact L|exact Hd].
    intros i o Li Ho. assert (i < n) by (apply nth_error_Some; congruence). lia.
Qed.
Lemma defines_coherent calls : forall st st' es, coherent st -> sliceDefines st calls = (st', es) ->
  coherent st' /\ aMemory st' = aMemory st /\ valueDefines (aSyntax st) (map (contents (aMemory st)) calls) = (aSyntax st', es).
Proof.
  induction calls as [|c l IH]; intros st st' es C H; cbn [sliceDefines] in H; [inversion H; subst; auto|].
  destruct (sliceDefine st c) as [st1 e] eqn:E. destruct (sliceDefines st1 l) as [st2 es2] eqn:E2. inversion H; subst.
  destruct (define_coherent _ _ _ _ C E) as (C1 & M1 & D1). destruct (IH _ _ _ C1 E2) as (C2 & M2 & D2). rewrite M1 in *. split; auto. split; auto. cbn [map valueDefines]. rewrite D1, D2. auto.
Qed.
Lemma defines_history calls : forall st st' es, history st -> sliceDefines st calls = (st', es) -> history st'.
Proof.
  induction calls as [|c l IH]; intros st st' es C H; cbn [sliceDefines] in H; [inversion H; subst; auto|].
  destruct (sliceDefine st c) as [st1 e] eqn:E. destruct (sliceDefines st1 l) as [st2 es2] eqn:E2. inversion H; subst. eapply IH; [|exact E2]. eapply hi_define; eauto.
Qed.
Definition isCharField (f : field) : bool := match f with FChars | FRanges => true | _ => false end.
Definition charsFrom (links : list link) (h : dheap) (m : memory) : Prop :=
  forall a f sl, In (a, f, sl) links -> isCharField f = true -> exists d, nth_error h a = Some d /\ content f d = Some (at_ m f sl).
Lemma setField_parser m f sl d : (isCharField f = true -> content f d = Some (at_ m f sl)) -> toParser (setField m f sl d) = toParser d.
Proof.
  intros H. destruct (isCharField f) eqn:F; [rewrite setField_same; auto|]. unfold setField, toParser, setKind. destruct f; try discriminate; destruct (dKind d) eqn:K; simpl; rewrite ?K; auto.
Qed.
Lemma view_parsers m links : forall h, charsFrom links h m -> map toParser (viewHeap m links h) = map toParser h.
Proof.
  unfold viewHeap. induction links as [|[[b g] sl0] l IH]; intros h F; simpl; auto.
  assert (Hb : forall d, nth_error h b = Some d -> isCharField g = true -> content g d = Some (at_ m g sl0)).
  { intros d Hd Hg. destruct (F b g sl0 (or_introl eq_refl) Hg) as (d' & Hd' & Hc). congruence. }
  rewrite IH.
  - clear IH F. revert h Hb. induction b as [|b IHb]; intros [|x h] Hb; simpl; auto; f_equal; auto. apply setField_parser. auto.
  - intros a f sl H Hf. destruct (F a f sl (or_intror H) Hf) as (d & Hd & Hc). rewrite nth_error_updNth. destruct (Nat.eqb_spec b a) as [->|]; [|rewrite Hd; exists d; auto].
    rewrite Hd. exists (setField m g sl0 d). split; auto. destruct (isCharField g) eqn:Hg; [rewrite setField_same; auto|]. rewrite setField_other; auto. intros ->. congruence.
Qed.
Lemma norm_sameChars m m' : normalizedSome m m' -> sameChars m m'.
Proof.
  intros H i. revert i. induction H as [|x y m m' R H IH]; intros [|i]; simpl; auto. destruct x, y; simpl in R; try discriminate; auto. exact (IH i).
Qed.
Lemma at_chars m m' f sl : sameChars m m' -> isCharField f = true -> at_ m' f sl = at_ m f sl.
Proof. intros S F. destruct (chars_at m m' sl S) as [E1 E2]. destruct f; try discriminate; simpl; congruence. Qed.
Lemma normA_chars m f sl : isCharField f = true -> normA (at_ m f sl) = at_ m f sl.
Proof. destruct f; try discriminate; auto. Qed.
Lemma coherent_parsers st s : linkInv (sHeap (aSyntax st)) (aLinks st) -> coherent st -> nEv (sHeap (aSyntax st)) (sHeap s) -> parsers (view (after st s [])) = parsers s.
Proof.
  intros I C V. unfold parsers, view, after. simpl. rewrite app_nil_r. apply view_parsers. intros a f sl H Hf.
  assert (S : sameChars (aMemory st) (store (sHeap s) (aLinks st) (aMemory st))).
  { apply norm_sameChars, after_norm; auto. rewrite coherent_view; auto. }
  destruct (C a f sl H) as (d & x & Hd & Hx & ->). destruct (V a d Hd) as (d' & Hd' & Q). exists d'. split; auto. rewrite (at_chars _ _ _ _ S Hf).
  destruct (Q f) as [->| ->]; auto. rewrite Hx. simpl. rewrite normA_chars; auto.
Qed.
Theorem unchanged m calls st es : sliceDefines (mkShared emptySyntax [] m) calls = (st, es) ->
  aMemory st = m /\
  exists s, valueDefines emptySyntax (map (contents m) calls) = (s, es) /\
    (forall fuel, errorOf (sliceInit fuel st) = errorOf (Init fuel s)) /\
    (forall fuel input r, parseOf (sliceParse fuel st input r) = parseOf (Parse fuel s input r)) /\
    (forall fuel st1, sliceInit fuel st = Ok (st1, None) -> exists s1, Init fuel s = Ok (s1, None) /\
       forall fuel' input r, parseOf (sliceParse fuel' st1 input r) = parseOf (Parse fuel' s1 input r)).
Proof.
  intros H. assert (C0 : coherent (mkShared emptySyntax [] m)) by (intros a f sl []). pose proof (defines_history _ _ _ _ (hi_new m) H) as Hh. apply history_inv in Hh as I.
  destruct (defines_coherent _ _ _ _ C0 H) as (C & M & D). simpl in M, D. split; auto. exists (aSyntax st). split; auto.
  unfold sliceInit, sliceParse. rewrite (coherent_view st C). split; [|split].
  - intros fuel. destruct (Init fuel (aSyntax st)) as [[s1 e1]| |]; auto.
  - intros fuel input r. destruct (Parse fuel (aSyntax st) input r) as [[s1 e1]| |]; auto.
  - intros fuel st1 HI. assert (H1 : history st1) by (eapply hi_init; [exact Hh|]; unfold sliceInit; rewrite (coherent_view st C); exact HI). binv HI. destruct x as [s1 e1]. simpl in HI. inversion HI; subst. exists s1. split; auto. intros fuel' input r.
    destruct (Init_ready _ _ _ E) as [F N]. fold (sliceParse fuel' (after st s1 []) input r). rewrite (sliceParse_ready fuel' (after st s1 [])); [|apply history_inv; auto|auto|auto].
    rewrite Parse_ready by auto. rewrite coherent_parsers; auto; [|eapply Init_nEv; eauto]. simpl. destruct (sRoot s1) as [root|]; auto. destruct (parseInput _ _ root fuel' input r); auto.
Qed.
