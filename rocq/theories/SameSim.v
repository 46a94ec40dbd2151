(** Two heaps that hold the same parsers at different addresses and with different ids parse and
    build alike. *)
From Verif Require Import Base Utf8 IdSet Results Parser Build ListFacts GenSim SameStore.

Section SIM.
(** the address of an object in the first heap and in the second, and its id in both *)
Variables (A : addr -> addr -> Prop) (I : nat -> nat -> Prop).
Hypothesis Iinj : forall i i' j j', I i i' -> I j j' -> (i =? j) = (i' =? j').

Inductive optA : option addr -> option addr -> Prop := optA_none : optA None None | optA_some a a' : A a a' -> optA (Some a) (Some a').
Definition C (lo lo' : nat) (c d : context) : Prop :=
  exists p r, d = setResults (setFail c (cFailOffset c) p) r /\ optA (cFailingParser c) p /\ RR I lo lo' (cResults c) r.

Lemma C_weaken lo lo' k k' c d : C k k' c d -> lo <= k -> lo' <= k' -> C lo lo' c d.
Proof. intros (p & r & E & H1 & H2) L1 L2. exists p, r. split; auto. split; auto. eapply RR_weaken; eauto. Qed.
Lemma C_RR lo lo' c d : C lo lo' c d -> RR I lo lo' (cResults c) (cResults d).
Proof. intros (p & r & -> & _ & H). exact H. Qed.
Ltac same H := let p := fresh "p" in let r := fresh "r" in let E := fresh "E" in destruct H as (p & r & E & _ & _); rewrite E; reflexivity.
Lemma C_off lo lo' c d : C lo lo' c d -> cOffset d = cOffset c. Proof. intros H; same H. Qed.
Lemma C_ro lo lo' c d : C lo lo' c d -> cReadOffset d = cReadOffset c. Proof. intros H; same H. Qed.
Lemma C_lim lo lo' c d : C lo lo' c d -> cOffsetLimit d = cOffsetLimit c. Proof. intros H; same H. Qed.
Lemma C_tok lo lo' c d : C lo lo' c d -> cTokens d = cTokens c. Proof. intros H; same H. Qed.
Lemma C_fo lo lo' c d : C lo lo' c d -> cFailOffset d = cFailOffset c. Proof. intros H; same H. Qed.
Lemma C_ml lo lo' c d : C lo lo' c d -> cMatchLast d = cMatchLast c. Proof. intros H; same H. Qed.
Lemma C_eof lo lo' c d : C lo lo' c d -> cEof d = cEof c. Proof. intros H; same H. Qed.
Lemma C_err lo lo' c d : C lo lo' c d -> cReadErr d = cReadErr c. Proof. intros H; same H. Qed.
Lemma C_con lo lo' c d : C lo lo' c d -> cConsumed d = cConsumed c. Proof. intros H; same H. Qed.
Lemma C_fp lo lo' c d : C lo lo' c d -> optA (cFailingParser c) (cFailingParser d).
Proof. intros (p & r & -> & H & _). exact H. Qed.

Lemma C_offset lo lo' c d v : C lo lo' c d -> C lo lo' (setOffset c v) (setOffset d v).
Proof. intros (p & r & -> & H1 & H2). exists p, r. split; auto. Qed.
Lemma C_limit lo lo' c d v : C lo lo' c d -> C lo lo' (setLimit c v) (setLimit d v).
Proof. intros (p & r & -> & H1 & H2). exists p, r. split; auto. Qed.
Lemma C_results lo lo' k k' c d v v' : C lo lo' c d -> RR I k k' v v' -> C k k' (setResults c v) (setResults d v').
Proof. intros (p & r & -> & H1 & H2) H. exists p, v'. split; auto. Qed.
Lemma C_success lo lo' c d v : C lo lo' c d -> C lo lo' (success c v) (success d v).
Proof. intros (p & r & -> & H1 & H2). exists p, r. split; auto. Qed.
Lemma C_fail lo lo' c d v : C lo lo' c d -> C lo lo' (fail c v) (fail d v).
Proof. intros (p & r & -> & H1 & H2). exists p, r. split; auto. Qed.
Lemma C_setFail lo lo' c d o p p' : C lo lo' c d -> optA p p' -> C lo lo' (setFail c o p) (setFail d o p').
Proof. intros (q & r & -> & H1 & H2) H. exists p', r. split; auto. Qed.
Lemma C_nofail lo lo' c d o : C lo lo' c d -> C lo lo' (setFail c o None) (setFail d o None).
Proof. intros H. apply C_setFail; auto. constructor. Qed.
Lemma C_clear lo lo' c d to : C lo lo' c d -> C lo lo' (clearFail to c) (clearFail to d).
Proof. intros H. unfold clearFail. rewrite (C_fo _ _ _ _ H). destruct (_ <? _)%Z; auto. apply C_nofail; auto. Qed.
Lemma C_blame lo lo' c d p p' commit : C lo lo' c d -> A p p' -> C lo lo' (blame p commit c) (blame p' commit d).
Proof.
  intros H Hp. unfold blame. pose proof (C_fp _ _ _ _ H) as Hf. destruct Hf as [|a a' Ha]; [|auto].
  destruct (_ && _)%bool; auto. rewrite (C_fo _ _ _ _ H). apply C_setFail; auto. constructor; auto.
Qed.
Lemma C_read lo lo' c d : C lo lo' c d -> C lo lo' (fst (read c)) (fst (read d)) /\ snd (read d) = snd (read c).
Proof.
  intros (p & r & -> & H1 & H2). unfold read. cbn [setResults setFail cEof cReadErr cInput cEnd].
  assert (X : forall x y, y = setResults (setFail x (cFailOffset x) p) r -> cFailingParser x = cFailingParser c -> cResults x = cResults c -> C lo lo' x y)
    by (intros x y -> E1 E2; exists p, r; rewrite E1, E2; auto).
  destruct (cEof c); [split; auto; apply X; auto|]. destruct (cReadErr c); [split; auto; apply X; auto|].
  destruct (cInput c) as [|t rest]; [destruct (cEnd c); split; auto; apply X; auto|]. destruct (_ =? _)%Z; split; auto; apply X; auto.
Qed.
Lemma C_token lo lo' c d : C lo lo' c d -> rel (fun x y => C lo lo' (fst x) (fst y) /\ snd x = snd y) (token c) (token d).
Proof.
  intros H. unfold token. pose proof (C_read lo lo' c d H) as [R1 R2]. destruct (read c) as [c1 b1] eqn:Ec, (read d) as [d1 b2] eqn:Ed. simpl in R1, R2. subst b2.
  rewrite (C_lim _ _ _ _ H), (C_off _ _ _ _ H), (C_ro _ _ _ _ H).
  destruct (match cOffsetLimit c with Some l => _ | None => _ end); [constructor; auto|].
  destruct (cOffset c =? cReadOffset c); cbn iota beta zeta.
  - destruct b1; [|constructor; auto]. rewrite (C_tok _ _ _ _ R1), (C_off _ _ _ _ R1). destruct (nth_error (cTokens c1) _); constructor; auto.
  - rewrite (C_tok _ _ _ _ H), (C_off _ _ _ _ H). destruct (nth_error (cTokens c) _); constructor; auto.
Qed.
Lemma C_char lo lo' cnot chars ranges c d : C lo lo' c d -> rel (C lo lo') (charParse cnot chars ranges c) (charParse cnot chars ranges d).
Proof.
  intros H. unfold charParse. eapply rel_bind; [apply C_token; eauto|]. intros [c1 t1] [d1 t2] [H1 H2]. simpl in H1, H2. subst t2.
  rewrite (C_off _ _ _ _ H1), (C_fo _ _ _ _ H1). destruct (match t1 with Some t => _ | None => _ end); [constructor; apply C_success; auto|]. constructor.
  destruct (_ <? _)%Z; [cbn [setFail cOffset]; rewrite (C_off _ _ _ _ H1); apply C_fail, C_nofail; auto|]. rewrite (C_off _ _ _ _ H1). apply C_fail; auto.
Qed.
Lemma C_from lo lo' c d i i' : C lo lo' c d -> I i i' -> match fromResults c i, fromResults d i' with Some c1, Some d1 => C lo lo' c1 d1 | None, None => True | _, _ => False end.
Proof.
  intros H Hi. unfold fromResults. rewrite (C_off _ _ _ _ H), <- (RR_longestResult I _ _ _ _ _ _ (cOffset c) (C_RR _ _ _ _ H) Hi).
  destruct (longestResult _ _ _); first [apply C_success; assumption | apply C_fail; assumption | exact Logic.I].
Qed.
Lemma C_unmark1 lo lo' from i i' c d : C lo lo' c d -> I i i' -> i < lo -> i' < lo' -> rel (C lo lo') (mapResults (fun r => unmarkPending r from i) c) (mapResults (fun r => unmarkPending r from i') d).
Proof.
  intros H Hi L1 L2. unfold mapResults. eapply rel_bind; [apply (RR_unmark I Iinj); eauto; apply C_RR; auto|]. intros r r' Hr. constructor. eapply C_results; eauto.
Qed.
Lemma C_unmark lo lo' ac from i i' c d : C lo lo' c d -> I i i' -> (ac = false -> i < lo /\ i' < lo') -> rel (C lo lo') (unmarkUnless ac from i c) (unmarkUnless ac from i' d).
Proof. intros H Hi Hl. unfold unmarkUnless. destruct ac; [constructor; auto|]. destruct (Hl eq_refl). apply C_unmark1; auto. Qed.
Lemma rel_weaken {X Y} (R S : X -> Y -> Prop) m m' : rel R m m' -> (forall x y, R x y -> S x y) -> rel S m m'.
Proof. intros [x y H|w|] HS; constructor; auto. Qed.

Section REC.
Variables rec rec' : addr -> context -> res context.
Hypothesis Hrec : forall lo lo' p p' c d, A p p' -> C lo lo' c d -> rel (C lo lo') (rec p c) (rec' p' d).

Lemma C_keywordLoop kws kws' : Forall2 A kws kws' -> forall lo lo' from to c d, C lo lo' c d ->
  rel (fun x y => C lo lo' (fst x) (fst y) /\ snd x = snd y) (keywordLoop rec kws from to c) (keywordLoop rec' kws' from to d).
Proof.
  induction 1 as [|k k' kws kws' Hk _ IH]; intros lo lo' from to c d H; cbn [keywordLoop]; [constructor; auto|].
  eapply rel_bind; [apply Hrec; [exact Hk|apply C_offset; eauto]|]. intros c1 d1 H1.
  rewrite (C_ml _ _ _ _ H1), (C_off _ _ _ _ H1). destruct (_ && _)%bool; [constructor; auto|]. apply IH; auto.
Qed.
Lemma C_isKeyword lo lo' kws kws' from to c d : Forall2 A kws kws' -> C lo lo' c d ->
  rel (fun x y => C lo lo' (fst x) (fst y) /\ snd x = snd y) (isKeyword rec kws from to c) (isKeyword rec' kws' from to d).
Proof.
  intros Hk H. unfold isKeyword. eapply rel_bind; [apply C_keywordLoop; [eauto|apply C_limit; eauto]|]. intros [c1 b1] [d1 b2] [H1 H2]. simpl in *. subst.
  constructor. simpl. split; auto. rewrite (C_lim _ _ _ _ H). apply C_limit; auto.
Qed.
Definition S2 lo lo' (x y : seqOut) : Prop :=
  match x, y with SLoop t c, SLoop t' d => t = t' /\ C lo lo' c d | SReturn c, SReturn d => C lo lo' c d | _, _ => False end.
Lemma F2_nth {X Y} (R : X -> Y -> Prop) l l' : Forall2 R l l' -> forall i, match nth_error l i, nth_error l' i with Some x, Some y => R x y | None, None => True | _, _ => False end.
Proof. induction 1 as [|x y l l' Hx _ IH]; intros [|i]; simpl; auto. apply IH. Qed.
(** the ranges agree where there is an item *)
Definition sameRanges (n : nat) (rs rs' : list (Z * Z)) : Prop := forall i, i < n -> nth_error rs i = nth_error rs' i.

Lemma C_seqLoop lo lo' p p' i i' commit items items' ranges ranges' ac from k : Forall2 A items items' -> sameRanges (List.length items) ranges ranges' -> A p p' -> I i i' ->
  (ac = false -> i < lo /\ i' < lo') -> forall to ii n c d, C lo lo' c d ->
  rel (S2 lo lo') (seqLoop rec k p i commit items ranges ac from to ii n c) (seqLoop rec' k p' i' commit items' ranges' ac from to ii n d).
Proof.
  intros Hi Hr Hp Hid Hl. induction k as [|k IH]; intros to ii n c d H; [constructor|]. cbn [seqLoop]. pose proof (F2_nth _ _ _ Hi ii) as Hn.
  destruct (nth_error items ii) as [item|] eqn:E, (nth_error items' ii) as [item'|] eqn:E'; try contradiction; [|constructor; split; auto].
  eapply rel_bind; [apply Hrec; eauto|]. intros c1 d1 H1. rewrite <- (Hr ii) by (apply nth_error_Some; congruence).
  destruct (nth_error ranges ii) as [[mn mx]|]; [|constructor]. rewrite (C_ml _ _ _ _ H1), (C_off _ _ _ _ H1).
  destruct (negb (cMatchLast c1)).
  - destruct (_ <=? _)%Z; [apply IH; auto|]. assert (H2 : C lo lo' (setOffset c1 from) (setOffset d1 from)) by (apply C_offset; auto).
    pose proof (C_from _ _ _ _ i i' H2 Hid) as Hf. cbv zeta. destruct (fromResults (setOffset c1 from) i), (fromResults (setOffset d1 from) i'); try contradiction.
    + eapply rel_bind; [apply C_unmark; [apply C_clear|..]; eauto|]. intros; constructor; auto.
    + eapply rel_bind; [apply C_unmark; [apply C_fail, C_blame|..]; eauto|]. intros; constructor; auto.
  - cbv zeta. destruct (_ || _)%bool; apply IH; auto.
Qed.
Lemma RR_gens lo lo' from to gs gs' : Forall2 I gs gs' -> forall r r', RR I lo lo' r r' -> RR I lo lo' (setGeneralizations from to gs r) (setGeneralizations from to gs' r').
Proof.
  unfold setGeneralizations. induction 1 as [|g g' gs gs' Hg _ IH]; intros r r' H; simpl; auto. apply IH. rewrite <- (RR_pending I _ _ _ _ g g' from H Hg).
  destruct (pending r from g); auto. apply (RR_setMatch I Iinj); auto.
Qed.
Lemma C_seqParse lo lo' k kws kws' p p' i i' commit items items' ranges ranges' gs gs' ac c d : Forall2 A kws kws' -> Forall2 A items items' ->
  sameRanges (List.length items) ranges ranges' -> Forall2 I gs gs' -> A p p' -> I i i' -> C lo lo' c d ->
  rel (C lo lo') (seqParse rec k kws p i commit items ranges gs ac c) (seqParse rec' k kws' p' i' commit items' ranges' gs' ac d).
Proof.
  intros Hk Hi Hr Hg Hp Hid H. unfold seqParse. rewrite (C_off _ _ _ _ H), <- (RR_pending I _ _ _ _ i i' (cOffset c) (C_RR _ _ _ _ H) Hid).
  destruct (_ && _)%bool; [constructor; apply C_fail; auto|]. cbv zeta. set (from := cOffset c).
  set (k1 := if ac then lo else Nat.max lo (S i)). set (k2 := if ac then lo' else Nat.max lo' (S i')).
  assert (Hm : C k1 k2 (if ac then c else setResults c (markPending (cResults c) from i)) (if ac then d else setResults d (markPending (cResults d) from i'))).
  { unfold k1, k2. destruct ac; auto. eapply C_results; eauto. apply (RR_mark I Iinj); auto. apply C_RR; auto. }
  assert (Hl : ac = false -> i < k1 /\ i' < k2) by (intros ->; unfold k1, k2; lia).
  assert (L1 : lo <= k1) by (unfold k1; destruct ac; lia). assert (L2 : lo' <= k2) by (unfold k2; destruct ac; lia).
  apply rel_weaken with (R := C k1 k2); [|intros x y Hx; eapply C_weaken; eauto].
  eapply rel_bind; [apply C_seqLoop; eauto|].
  intros [to c1|c1] [to' d1|d1] Hx; simpl in Hx; try contradiction; [|constructor; auto]. destruct Hx as [<- H1].
  eapply rel_bind with (R := fun x y => C k1 k2 (fst x) (fst y) /\ snd x = snd y).
  { destruct (hasFlag commit CNoKeyword); [apply C_isKeyword; auto|constructor; auto]. }
  intros [c2 b1] [d2 b2] [H2 E2]. simpl in H2, E2. subst b2. destruct b1; [apply C_unmark; auto; apply C_fail, C_blame; auto|]. cbv zeta.
  apply C_unmark; auto. apply C_success.
  assert (H3 : C k1 k2 (clearFail to (setResults c2 (setGeneralizations from to gs (cResults c2)))) (clearFail to (setResults d2 (setGeneralizations from to gs' (cResults d2))))).
  { apply C_clear. eapply C_results; eauto. apply RR_gens; auto. apply C_RR; auto. }
  eapply C_results; [exact H3|]. apply (RR_setMatch I Iinj); auto. apply C_RR; auto.
Qed.

Definition CS (x y : chState) : Prop :=
  exists p, y = mkChState (chMatch x) (chFound x) (chTo x) (chFailOffset x) p /\ optA (chFailing x) p.
Lemma CS_m x y : CS x y -> chMatch y = chMatch x. Proof. intros (p & -> & _); auto. Qed.
Lemma CS_f x y : CS x y -> chFound y = chFound x. Proof. intros (p & -> & _); auto. Qed.
Lemma CS_t x y : CS x y -> chTo y = chTo x. Proof. intros (p & -> & _); auto. Qed.
Lemma CS_o x y : CS x y -> chFailOffset y = chFailOffset x. Proof. intros (p & -> & _); auto. Qed.
Lemma CS_p x y : CS x y -> optA (chFailing x) (chFailing y). Proof. intros (p & -> & H); auto. Qed.
Lemma C_choicePass lo lo' i i' from options options' : I i i' -> Forall2 A options options' -> forall s t c d, CS s t -> C lo lo' c d ->
  rel (fun x y => CS (fst x) (fst y) /\ C lo lo' (snd x) (snd y)) (choicePass rec i from options s c) (choicePass rec' i' from options' t d).
Proof.
  intros Hid. induction 1 as [|o o' options options' Ho _ IH]; intros s t c d Hs H; cbn [choicePass]; [constructor; auto|].
  eapply rel_bind; [apply Hrec; eauto|]. intros c1 d1 H1.
  rewrite (C_ml _ _ _ _ H1), (C_off _ _ _ _ H1), (C_fo _ _ _ _ H1), (CS_o _ _ Hs).
  set (s1 := if (negb (cMatchLast c1) && (chFailOffset s <? cFailOffset c1)%Z)%bool then _ else s).
  set (t1 := if (negb (cMatchLast c1) && (chFailOffset s <? cFailOffset c1)%Z)%bool then _ else t).
  assert (Hs1 : CS s1 t1).
  { unfold s1, t1. destruct (_ && _)%bool; auto. rewrite (CS_m _ _ Hs), (CS_f _ _ Hs), (CS_t _ _ Hs). exists (cFailingParser d1). split; [reflexivity|]. simpl. eapply C_fp; eauto. }
  cbv zeta. rewrite (CS_m _ _ Hs1), (CS_t _ _ Hs1). destruct (_ || _)%bool; [apply IH; auto; apply C_offset; auto|]. apply IH; auto.
  - rewrite (CS_o _ _ Hs1). exists (chFailing t1). split; [reflexivity|]. simpl. apply CS_p; auto.
  - eapply C_results; [apply C_offset; eauto|]. apply (RR_setMatch I Iinj); auto. apply (C_RR lo lo'). apply C_offset. auto.
Qed.
Lemma C_choiceLoop lo lo' i i' from options options' k : I i i' -> Forall2 A options options' -> forall s t c d, CS s t -> C lo lo' c d ->
  rel (fun x y => CS (fst x) (fst y) /\ C lo lo' (snd x) (snd y)) (choiceLoop rec k i from options s c) (choiceLoop rec' k i' from options' t d).
Proof.
  intros Hid Ho. induction k as [|k IH]; intros s t c d Hs H; [constructor|]. cbn [choiceLoop].
  eapply rel_bind; [apply C_choicePass; eauto|].
  - destruct Hs as (p & -> & Hp). exists p. split; simpl; auto.
  - intros [s1 c1] [t1 d1] [H1 H2]. simpl in H1, H2. rewrite (CS_f _ _ H1). destruct (chFound s1); [apply IH; auto|constructor; auto].
Qed.
Lemma C_choiceParse lo lo' k kws kws' p p' i i' commit options options' c d : Forall2 A kws kws' -> Forall2 A options options' -> A p p' -> I i i' -> C lo lo' c d ->
  rel (C lo lo') (choiceParse rec k kws p i commit options c) (choiceParse rec' k kws' p' i' commit options' d).
Proof.
  intros Hk Ho Hp Hid H. unfold choiceParse. pose proof (C_from _ _ _ _ i i' H Hid) as Hf.
  destruct (fromResults c i), (fromResults d i'); try contradiction; [constructor; auto|].
  rewrite (C_off _ _ _ _ H), <- (RR_pending I _ _ _ _ i i' (cOffset c) (C_RR _ _ _ _ H) Hid).
  destruct (pending _ _ _); [constructor; apply C_fail; auto|]. cbv zeta.
  set (k1 := Nat.max lo (S i)). set (k2 := Nat.max lo' (S i')).
  assert (H0 : C k1 k2 (setResults c (markPending (cResults c) (cOffset c) i)) (setResults d (markPending (cResults d) (cOffset c) i'))).
  { eapply C_results; eauto. apply (RR_mark I Iinj); auto. apply C_RR; auto. }
  apply rel_weaken with (R := C k1 k2); [|intros x y Hx; eapply C_weaken; eauto; unfold k1, k2; lia].
  assert (Li : i < k1) by (unfold k1; lia). assert (Li' : i' < k2) by (unfold k2; lia).
  rewrite (C_off _ _ _ _ H0), (C_fo _ _ _ _ H0). set (c0 := setResults c _) in *. set (d0 := setResults d _) in *. clearbody c0 d0. clear H.
  eapply rel_bind.
  { apply C_choiceLoop; eauto. eexists. split; [reflexivity|constructor]. }
  set (fr := cOffset c0). set (fo := cFailOffset c0). intros [s c1] [t d1] [Hs H1]. simpl in Hs, H1.
  rewrite (CS_m _ _ Hs), (CS_t _ _ Hs), (CS_o _ _ Hs).
  destruct (chMatch s).
  - eapply rel_bind with (R := fun x y => C k1 k2 (fst x) (fst y) /\ snd x = snd y).
    { destruct (hasFlag commit CNoKeyword); [apply C_isKeyword; auto|constructor; auto]. }
    intros [c2 b1] [d2 b2] [H2 E2]. simpl in H2, E2. subst b2. destruct b1; [apply C_unmark1; auto; apply C_fail, C_blame; auto|].
    apply C_unmark1; auto. apply C_success. destruct (_ <? _)%Z; [apply C_setFail; auto; apply CS_p; auto|]. destruct (_ <? _)%Z; [apply C_nofail; auto|].
    apply C_setFail; auto. eapply C_fp; eauto.
  - apply C_unmark1; auto. apply C_fail.
    assert (H3 : C k1 k2 (if (fo <? chFailOffset s)%Z then blame p commit (setFail c1 (chFailOffset s) (chFailing s)) else c1)
                   (if (fo <? chFailOffset s)%Z then blame p' commit (setFail d1 (chFailOffset s) (chFailing t)) else d1)).
    { destruct (_ <? _)%Z; auto. apply C_blame; auto. apply C_setFail; auto. apply CS_p; auto. }
    eapply C_results; [exact H3|]. apply (RR_setNoMatch I Iinj); auto. apply C_RR; auto.
Qed.
End REC.

(** ** the heaps *)
Variables (P H : pheap).
(** the same object, with other ids and addresses *)
Definition alike (o o' : pobj) : Prop :=
  match o, o' with
  | PChar _ _ x cs rs, PChar _ _ x' cs' rs' => x' = x /\ cs' = cs /\ rs' = rs
  | PSeq n i c it rs gs ac, PSeq n' i' c' it' rs' gs' ac' => n' = n /\ I i i' /\ c' = c /\ Forall2 A it it' /\ sameRanges (List.length it) rs rs' /\ Forall2 I gs gs' /\ ac' = ac
  | PChoice n i c os gs, PChoice n' i' c' os' gs' => n' = n /\ I i i' /\ c' = c /\ Forall2 A os os' /\ Forall2 I gs gs'
  | _, _ => False
  end /\ nodeName o' = nodeName o /\ I (nodeID o) (nodeID o').
Hypothesis HP : forall a a', A a a' -> exists o o', nth_error P a = Some o /\ nth_error H a' = Some o' /\ alike o o'.

Lemma parse_same kws kws' n : Forall2 A kws kws' -> forall lo lo' a a' c d, A a a' -> C lo lo' c d -> rel (C lo lo') (parse P kws n a c) (parse H kws' n a' d).
Proof.
  intros Hk. induction n as [|n IH]; intros lo lo' a a' c d Ha Hc; [constructor|]. cbn [parse]. destruct (HP a a' Ha) as (o & o' & E1 & E2 & [K _]). rewrite E1, E2.
  destruct o as [nm i x cs rs|nm i cm it rs gs ac|nm i cm os gs], o'; simpl in K; try contradiction.
  - destruct K as (-> & -> & ->). apply C_char; auto.
  - destruct K as (-> & Hi & -> & Hit & Hr & Hg & ->). apply C_seqParse; auto.
  - destruct K as (-> & Hi & -> & Hos & Hg). apply C_choiceParse; auto.
Qed.
Lemma parseError_same lo lo' c d a a' : C lo lo' c d -> A a a' -> parseError H d a' = parseError P c a.
Proof.
  intros Hc Ha. destruct (HP a a' Ha) as (o & o' & E1 & E2 & _ & En & _). unfold parseError. rewrite E1, E2, En, (C_con _ _ _ _ Hc), (C_fo _ _ _ _ Hc), (C_tok _ _ _ _ Hc).
  destruct (C_fp _ _ _ _ Hc); auto.
Qed.
Lemma finalize_same lo lo' c d root root' : C lo lo' c d -> A root root' ->
  rel (fun x y => C lo lo' (fst x) (fst y) /\ snd x = snd y) (finalizeParse P c root) (finalizeParse H d root').
Proof.
  intros Hc Hr. destruct (HP _ _ Hr) as (o & o' & E1 & E2 & _ & _ & Hi). unfold finalizeParse. rewrite E1, E2, (C_ro _ _ _ _ Hc), <- (RR_longestResult I _ _ _ _ _ _ 0 (C_RR _ _ _ _ Hc) Hi).
  set (fp := match cFailingParser c with Some p => p | None => root end). set (fp' := match cFailingParser d with Some p => p | None => root' end).
  assert (Hf : A fp fp') by (unfold fp, fp'; destruct (C_fp _ _ _ _ Hc); auto).
  assert (HE : rel (fun x y => C lo lo' (fst x) (fst y) /\ snd x = snd y) (e <- parseError P c fp ;; Ok (c, Some e)) (e <- parseError H d fp' ;; Ok (d, Some e))).
  { rewrite (parseError_same _ _ _ _ _ _ Hc Hf). destruct (parseError P c fp); constructor; auto. }
  destruct (longestResult _ _ _); auto. destruct (_ <? _); auto.
  pose proof (C_read lo lo' c d Hc) as [R1 _]. destruct (read c) as [c1 b1], (read d) as [d1 b2]. simpl in R1.
  rewrite (C_eof _ _ _ _ R1), (C_err _ _ _ _ R1). destruct (cEof c1); [constructor; auto|]. destruct (cReadErr c1); [constructor; auto|].
  rewrite (parseError_same _ _ _ _ _ _ R1 Hr). destruct (parseError P c1 root); constructor; auto.
Qed.

(** ** building *)
Definition D3 lo lo' (x y : list node * bool * context) : Prop := fst x = fst y /\ C lo lo' (snd x) (snd y).
Lemma forIds_same lo lo' (f f' : results -> nat -> res results) gs gs' : (forall r r' g g', RR I lo lo' r r' -> I g g' -> In g gs -> In g' gs' -> rel (RR I lo lo') (f r g) (f' r' g')) ->
  Forall2 I gs gs' -> forall r r', RR I lo lo' r r' -> rel (RR I lo lo') (forIds f gs r) (forIds f' gs' r').
Proof.
  intros Hf Hg. induction Hg as [|g g' gs gs' Hgg _ IH]; intros r r' Hr; cbn [forIds]; [constructor; auto|].
  eapply rel_bind; [apply Hf; simpl; eauto|]. intros x y Hx. apply IH; auto. intros; apply Hf; simpl; auto.
Qed.
Lemma forIds_mark o gs gs' : Forall2 I gs gs' -> forall lo lo' r r', RR I lo lo' r r' ->
  rel (fun x y => RR I lo lo' x y /\ RR I (fold_right (fun g k => Nat.max (S g) k) 0 gs) (fold_right (fun g k => Nat.max (S g) k) 0 gs') x y)
      (forIds (fun r g => Ok (markPending r o g)) gs r) (forIds (fun r g => Ok (markPending r o g)) gs' r').
Proof.
  induction 1 as [|g g' gs gs' Hg _ IH]; intros lo lo' r r' Hr; cbn [forIds bind].
  - constructor. split; auto. eapply RR_weaken; eauto; simpl; lia.
  - pose proof (RR_mark I Iinj _ _ _ _ g g' o Hr Hg) as H1. eapply rel_weaken; [apply (IH _ _ _ _ H1)|].
    intros x y [X1 X2]. split; [eapply RR_weaken; [exact X1|lia|lia]|]. cbn [fold_right]. destruct X1 as [a1 a2 a3 a4 a5 a6], X2 as [b1 b2 b3 b4 b5 b6]. constructor; auto; lia.
Qed.
Definition top (gs : list nat) : nat := fold_right (fun g k => Nat.max (S g) k) 0 gs.
Lemma top_in g gs : In g gs -> g < top gs.
Proof. induction gs as [|x l IH]; [intros []|]. change (top (x :: l)) with (Nat.max (S x) (top l)). intros [->|Hx]; [lia|specialize (IH Hx); lia]. Qed.
Lemma RR_both a b a' b' r r' : RR I a a' r r' -> RR I b b' r r' -> RR I (Nat.max a b) (Nat.max a' b') r r'.
Proof. intros [a1 a2 a3 a4 a5 a6] [b1 b2 b3 b4 b5 b6]. constructor; auto; lia. Qed.
(** entering: an empty match is marked with all ids, which raises the bounds *)
Lemma C_enter lo lo' c d i i' gs gs' to : C lo lo' c d -> I i i' -> Forall2 I gs gs' ->
  rel (fun x y => match x, y with
       | Some c1, Some d1 => C (if cOffset c <? to then lo else Nat.max lo (top (i :: gs))) (if cOffset c <? to then lo' else Nat.max lo' (top (i' :: gs'))) c1 d1
       | None, None => True | _, _ => False end) (enterBuild c i gs to) (enterBuild d i' gs' to).
Proof.
  intros Hc Hi Hg. unfold enterBuild. rewrite (C_off _ _ _ _ Hc). pose proof (C_RR _ _ _ _ Hc) as Hr. rewrite <- (RR_pending I _ _ _ _ i i' (cOffset c) Hr Hi).
  destruct (_ <? _).
  - eapply rel_bind; [apply (forIds_same lo lo' (fun r g => dropMatchTo r (cOffset c) g to) (fun r g => dropMatchTo r (cOffset c) g to)); [|constructor; eauto|exact Hr]|].
    + intros. apply (RR_drop I Iinj); auto.
    + intros x y Hx. constructor. eapply C_results; eauto.
  - destruct (pending _ _ _); [constructor; auto|].
    eapply rel_bind; [apply (forIds_mark (cOffset c) (i :: gs) (i' :: gs')); [constructor; eauto|exact Hr]|].
    intros x y [X1 X2]. constructor. eapply C_results; eauto. apply RR_both; auto.
Qed.
Lemma C_leave lo lo' k k' c d i i' gs gs' from to : C k k' c d -> I i i' -> Forall2 I gs gs' -> lo <= k -> lo' <= k' -> (from <? to = false -> top (i :: gs) <= k /\ top (i' :: gs') <= k') ->
  rel (C lo lo') (leaveBuild c i gs from to) (leaveBuild d i' gs' from to).
Proof.
  intros Hc Hi Hg L1 L2 Hl. unfold leaveBuild. destruct (from <? to); [constructor; eapply C_weaken; eauto|]. destruct (Hl eq_refl) as [L3 L4].
  eapply rel_bind; [apply (forIds_same k k' (fun r g => unmarkPending r from g) (fun r g => unmarkPending r from g)); [|constructor; eauto|apply C_RR; eauto]|].
  - intros r r' g g' Hr Hgg I1 I2. apply (RR_unmark I Iinj); auto; [apply top_in in I1; lia|apply top_in in I2; lia].
  - intros x y Hx. constructor. eapply C_weaken; [eapply C_results; eauto|auto|auto].
Qed.
Lemma C_buildLoop lo lo' rec rec' items items' ranges ranges' k : (forall x x' c d, A x x' -> C lo lo' c d -> rel (D3 lo lo') (rec x c) (rec' x' d)) ->
  Forall2 A items items' -> sameRanges (List.length items) ranges ranges' -> forall ii n ns c d, C lo lo' c d ->
  rel (fun x y => fst x = fst y /\ C lo lo' (snd x) (snd y)) (buildLoop rec k items ranges ii n ns c) (buildLoop rec' k items' ranges' ii n ns d).
Proof.
  intros Hrec Hi Hr. induction k as [|k IH]; intros ii n ns c d Hc; [constructor|]. cbn [buildLoop]. pose proof (F2_nth _ _ _ Hi ii) as Hn.
  destruct (nth_error items ii) as [item|] eqn:E, (nth_error items' ii) as [item'|] eqn:E'; try contradiction; [|constructor; split; auto].
  cbv zeta. rewrite (C_off _ _ _ _ Hc).
  eapply rel_bind; [apply Hrec; eauto|]. intros [[n1 b1] c1] [[n2 b2] d1] [H1 H2]. simpl in H1, H2. inversion H1; subst n2 b2.
  destruct b1; [|apply IH; auto]. rewrite <- (Hr ii) by (apply nth_error_Some; congruence). destruct (nth_error ranges ii) as [[mn mx]|]; [|constructor].
  rewrite (C_off _ _ _ _ H2). destruct (_ <? _); [destruct (_ && _)%bool|]; apply IH; auto.
Qed.
Lemma C_pick lo lo' r r' o t os os' : RR I lo lo' r r' -> Forall2 A os os' -> rel optA (pickOption P r o t os) (pickOption H r' o t os').
Proof.
  intros Hr. induction 1 as [|x x' os os' Hx _ IH]; cbn [pickOption]; [repeat constructor|].
  destruct (HP x x' Hx) as (ob & ob' & E1 & E2 & _ & _ & Hi). rewrite E1, E2, <- (RR_hasMatchTo I _ _ _ _ _ _ o t Hr Hi).
  destruct (hasMatchTo _ _ _ _); [repeat constructor; auto|]. apply IH.
Qed.
Lemma build_same n : forall lo lo' a a' c d, A a a' -> C lo lo' c d -> rel (D3 lo lo') (build P n a c) (build H n a' d).
Proof.
  induction n as [|n IH]; intros lo lo' a a' c d Ha Hc; [constructor|]. cbn [build]. destruct (HP a a' Ha) as (o & o' & E1 & E2 & [K _]). rewrite E1, E2.
  destruct o as [nm i x cs rs|nm i cm it rs gs ac|nm i cm os gs], o'; simpl in K; try contradiction.
  - constructor. split; auto.
  - destruct K as (-> & Hi & -> & Hit & Hr & Hg & ->). unfold seqBuild. rewrite (C_off _ _ _ _ Hc), <- (RR_longestMatch I _ _ _ _ _ _ (cOffset c) (C_RR _ _ _ _ Hc) Hi).
    destruct (longestMatch _ _ _) as [to|]; [|constructor; split; auto]. destruct ac.
    + cbv zeta. destruct (hasFlag cm CAlias); constructor; split; simpl; try apply C_offset; auto.
    + eapply rel_bind; [apply C_enter; eauto|]. intros [c1|] [d1|] Hx; try contradiction; [|constructor; split; auto].
      eapply rel_bind; [eapply C_buildLoop; eauto|]. intros [n1 c2] [n2 d2] [H1 H2]. simpl in H1, H2. subst n2.
      eapply rel_bind; [eapply (C_leave lo lo'); eauto; [destruct (_ <? _); lia|destruct (_ <? _); lia|let Q := fresh "Q" in intros Q; rewrite Q; split; apply Nat.le_max_r]|]. intros c3 d3 H3. destruct (hasFlag cm CAlias); constructor; split; simpl; auto.
  - destruct K as (-> & Hi & -> & Hos & Hg). unfold choiceBuild. rewrite (C_off _ _ _ _ Hc), <- (RR_longestMatch I _ _ _ _ _ _ (cOffset c) (C_RR _ _ _ _ Hc) Hi).
    destruct (longestMatch _ _ _) as [to|]; [|constructor; split; auto]. cbv zeta.
    eapply rel_bind; [apply C_enter; eauto|]. intros [c1|] [d1|] Hx; try contradiction; [|constructor; split; auto].
    rewrite (C_off _ _ _ _ Hx). eapply rel_bind; [eapply C_pick; [apply C_RR; eauto|eauto]|]. intros p p' [|q q' Hq]; [constructor|].
    eapply rel_bind; [apply IH; eauto|]. intros [[n1 b1] c2] [[n2 b2] d2] [H1 H2]. simpl in H1, H2. inversion H1; subst n2 b2.
    eapply rel_bind; [eapply (C_leave lo lo'); eauto; [destruct (_ <? _); lia|destruct (_ <? _); lia|let Q := fresh "Q" in intros Q; rewrite Q; split; apply Nat.le_max_r]|]. intros c3 d3 H3. destruct (hasFlag cm CAlias); constructor; split; simpl; auto.
Qed.

(** the whole parse: the same outcome *)
Theorem parseInput_same kws kws' root root' n input e : Forall2 A kws kws' -> A root root' -> parseInput P kws root n input e = parseInput H kws' root' n input e.
Proof.
  intros Hk Hr. assert (X : rel eq (parseInput P kws root n input e) (parseInput H kws' root' n input e)).
  { unfold parseInput, parseInputPB. eapply rel_bind; [apply parse_same; eauto|].
    - exists None, emptyResults. split; [reflexivity|]. split; [constructor|apply RR_empty].
    - intros c d Hc. rewrite (C_err _ _ _ _ Hc). destruct (cReadErr c); [constructor; auto|].
      eapply rel_bind; [apply finalize_same; eauto|]. intros [c1 e1] [d1 e2] [H1 H2]. simpl in H1, H2. subst e2. destruct e1; [constructor; auto|].
      eapply rel_bind.
      { apply (build_same n 0 0); [exact Hr|]. eapply C_results; [apply C_offset; exact H1|]. eapply (RR_reset I). apply (C_RR 0 0). apply C_offset. exact H1. }
      intros [[n1 b1] c2] [[n2 b2] d2] [H3 H4]. simpl in H3, H4. inversion H3; subst n2 b2. destruct n1; constructor. rewrite (C_tok _ _ _ _ H4). auto. }
  inversion X; congruence.
Qed.
End SIM.
