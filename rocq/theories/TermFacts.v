(** Matching terminates: the marks of [results.isPending] bound the call depth. *)
From Verif Require Import Base Utf8 IdSet Results Parser ListFacts ResultsFacts ReaderFacts ParseFacts FuelFacts.

Lemma bind_noFuel {A B} (m : res A) (f : A -> res B) :
  m <> NoFuel -> (forall x, m = Ok x -> f x <> NoFuel) -> bind m f <> NoFuel.
Proof. destruct m; simpl; auto; congruence. Qed.

Lemma filter_lt {A} (f g : A -> bool) l x :
  (forall y, f y = true -> g y = true) -> In x l -> f x = false -> g x = true ->
  List.length (filter f l) < List.length (filter g l).
Proof.
  intros Hfg Hin Hf Hg.
  assert (Hle : forall l', List.length (filter f l') <= List.length (filter g l')).
  { induction l' as [|y l' IH]; simpl; auto. destruct (f y) eqn:E.
    - rewrite (Hfg _ E). simpl. lia.
    - destruct (g y); simpl; lia. }
  induction l as [|y l IH]; [contradiction|]. simpl. destruct Hin as [->|Hin].
  - rewrite Hf, Hg. simpl. specialize (Hle l). lia.
  - specialize (IH Hin). destruct (f y) eqn:E.
    + rewrite (Hfg _ E). simpl. lia.
    + destruct (g y); simpl; lia.
Qed.

(** facts that Init establishes (sequencedefine.go:95-109, syntax.go:125) *)
Definition allCharsOk (P : pheap) : Prop :=
  forall p name id commit items ranges gs, nth_error P p = Some (PSeq name id commit items ranges gs true) ->
  forall a, In a items -> match nth_error P a with
                          | Some (PChar _ _ _ _ _) => True
                          | Some _ => False
                          | None => True
                          end.
Definition kwOk (P : pheap) (kws : list addr) : Prop :=
  forall kw name id commit items ranges gs, In kw kws ->
  nth_error P kw = Some (PSeq name id commit items ranges gs true) -> hasFlag commit CNoKeyword = false.

Definition itemCount (o : pobj) : nat :=
  match o with PSeq _ _ _ items _ _ _ => List.length items | _ => 0 end.
Definition maxItems (P : pheap) : nat := list_max (map itemCount P).

Lemma maxItems_ge P p name id commit items ranges gs ac :
  nth_error P p = Some (PSeq name id commit items ranges gs ac) -> List.length items <= maxItems P.
Proof.
  intros H. unfold maxItems. apply nth_error_In in H. apply (in_map itemCount) in H. simpl in H.
  pose proof (list_max_le (map itemCount P) (list_max (map itemCount P))) as [Hm _].
  specialize (Hm (Nat.le_refl _)). rewrite Forall_forall in Hm. auto.
Qed.

Section TERM.
Variable P : pheap.
Variable kws : list addr.
Variable input0 : list rune.
Variable e0 : rend.
Hypothesis Hac : allCharsOk P.
Hypothesis Hkw : kwOk P kws.

Let N := List.length input0.
Let G : nat -> nat -> nat -> Prop := fun _ _ _ => True.
Notation cinv := (cinv input0 e0 G).
Notation post := (post P input0 e0 G).

Lemma Gseq0 : forall p name id commit items ranges gs ac o t,
  nth_error P p = Some (PSeq name id commit items ranges gs ac) ->
  o <= t -> t <= List.length input0 -> seqRun P input0 G items ranges 0 0 o t ->
  (hasFlag commit CNoKeyword = true -> notKw P kws input0 o t) ->
  G id o t /\ forall g, In g gs -> G g o t.
Proof. intros. split; [exact I|]. intros. exact I. Qed.
Lemma Gchoice0 : forall p name id commit options gs op o t,
  nth_error P p = Some (PChoice name id commit options gs) ->
  In op options -> IG P input0 G op o t -> G id o t.
Proof. intros. exact I. Qed.

Lemma parse_post n p c c' : cinv c -> parse P kws n p c = Ok c' -> post p c c'.
Proof. intros H Hk. eapply parse_spec in Hk; eauto using Gseq0, Gchoice0. apply Hk. Qed.

Definition pairs : list (nat * nat) := list_prod (seq 0 (S N)) (map nodeID P).
Definition isFree (c : context) (x : nat * nat) : bool := Nat.eqb (pcount (cResults c) (fst x) (snd x)) 0.
Definition free (c : context) : nat := List.length (filter (isFree c) pairs).

Lemma free_same c c' : samePending c c' -> free c' = free c.
Proof. intros H. unfold free. f_equal. apply filter_ext. intros x. unfold isFree. now rewrite H. Qed.

Lemma free_mark c p ob : cinv c -> nth_error P p = Some ob ->
  pending (cResults c) (cOffset c) (nodeID ob) = false ->
  free (setResults c (markPending (cResults c) (cOffset c) (nodeID ob))) < free c.
Proof.
  intros H Hp Hpend. unfold free. apply filter_lt with (x := (cOffset c, nodeID ob)).
  - intros y. unfold isFree. simpl. rewrite pcount_mark, !Nat.eqb_eq. lia.
  - apply in_prod.
    + apply in_seq. pose proof (ci_off _ _ _ _ H). pose proof (cinv_len _ _ _ _ H). unfold N; lia.
    + apply in_map. eapply nth_error_In; eauto.
  - unfold isFree. simpl. rewrite pcount_mark, !Nat.eqb_refl. simpl. apply Nat.eqb_neq. lia.
  - unfold isFree. simpl. apply Nat.eqb_eq. now apply pending_false.
Qed.

Lemma samePending_refl c : samePending c c.
Proof. intros o i. auto. Qed.
Lemma samePending_trans a b c : samePending a b -> samePending b c -> samePending a c.
Proof. intros H1 H2 o i. now rewrite H2. Qed.

Section LOOPS.
Variable n : nat.
Variable base : context.
Notation rec := (parse P kws n).

Lemma keywordLoop_noFuel l : forall from to c,
  (forall kw c, In kw l -> cinv c -> samePending base c -> rec kw c <> NoFuel) ->
  cinv c -> samePending base c -> from <= List.length (cTokens c) ->
  keywordLoop rec l from to c <> NoFuel.
Proof.
  induction l as [|kw l IH]; intros from to c Hn H Hs Hf; cbn [keywordLoop]; [discriminate|].
  assert (H0 : cinv (setOffset c from)) by (apply cinv_offset; auto).
  apply bind_noFuel.
  - apply Hn; auto. left; auto.
  - intros x Hx. apply parse_post in Hx; auto. destruct Hx as (Q1 & Q2 & Q3 & _).
    destruct (_ && _)%bool; [discriminate|]. apply IH; auto.
    + intros kw' c1 Hin. apply Hn. right; auto.
    + eapply samePending_trans; eauto.
    + apply step_len in Q2. simpl in Q2. lia.
Qed.

Lemma isKeyword_noFuel from to c :
  (forall kw c, In kw kws -> cinv c -> samePending base c -> rec kw c <> NoFuel) ->
  cinv c -> samePending base c -> from <= List.length (cTokens c) ->
  isKeyword rec kws from to c <> NoFuel.
Proof.
  intros Hn H Hs Hf. unfold isKeyword. apply bind_noFuel; [|discriminate].
  apply keywordLoop_noFuel; auto. apply cinv_limit; auto.
Qed.

Lemma unmarkUnless_noFuel ac from id c : unmarkUnless ac from id c <> NoFuel.
Proof.
  unfold unmarkUnless, mapResults. destruct ac; [discriminate|].
  apply bind_noFuel; [apply unmark_no_fuel | discriminate].
Qed.

Lemma seqLoop_noFuel p id commit items ranges ac from k : forall to ii cnt c,
  (forall a c, In a items -> cinv c -> samePending base c -> rec a c <> NoFuel) ->
  cinv c -> samePending base c -> cOffset c = to ->
  List.length items - ii + (N - to) < k ->
  seqLoop rec k p id commit items ranges ac from to ii cnt c <> NoFuel.
Proof.
  induction k as [|k IH]; intros to ii cnt c Hn H Hs Ho Hk; [lia|].
  cbn [seqLoop]. destruct (nth_error items ii) as [item|] eqn:Ei; [|discriminate].
  assert (Hii : ii < List.length items) by (apply nth_error_Some; congruence).
  assert (Hin : In item items) by (eapply nth_error_In; eauto).
  apply bind_noFuel; [apply Hn; auto|]. intros x Hx. apply parse_post in Hx; auto.
  destruct Hx as (Q1 & Q2 & Q3 & Q4).
  pose proof (samePending_trans _ _ _ Hs Q3) as Hs'.
  destruct (nth_error ranges ii) as [[mn mx]|]; [|discriminate].
  assert (HN : cOffset x <= N).
  { pose proof (ci_off _ _ _ _ Q1). pose proof (cinv_len _ _ _ _ Q1). unfold N. lia. }
  destruct (cMatchLast x); cbn [negb].
  - destruct Q4 as [Q4 _]. destruct (to <? cOffset x) eqn:Elt; cbn [negb orb].
    + apply Nat.ltb_lt in Elt. destruct (_ && _)%bool; apply IH; auto; lia.
    + apply IH; auto; lia.
  - destruct (_ <=? _)%Z; [apply IH; auto; lia|].
    destruct (fromResults _ _); (apply bind_noFuel; [apply unmarkUnless_noFuel | discriminate]).
Qed.

Lemma choicePass_noFuel id from options : forall s c,
  (forall a c, In a options -> cinv c -> samePending base c -> rec a c <> NoFuel) ->
  cinv c -> samePending base c -> from <= List.length (cTokens c) -> cOffset c = from ->
  choicePass rec id from options s c <> NoFuel /\
  forall s' c', choicePass rec id from options s c = Ok (s', c') ->
    cinv c' /\ samePending base c' /\ from <= List.length (cTokens c') /\ cOffset c' = from /\
    (chTo s <= N -> chTo s' <= N) /\
    (s' = s \/ (chMatch s' = chMatch s /\ chTo s' = chTo s /\ chFound s' = chFound s) \/
     (chMatch s' = true /\ (chMatch s = true -> chTo s < chTo s'))).
Proof.
  induction options as [|op options IH]; intros s c Hn H Hs Hf Ho; cbn [choicePass].
  - split; [discriminate|]. intros s' c' Hx. inversion Hx; subst. auto 10.
  - split.
    + apply bind_noFuel; [apply Hn; auto; left; auto|]. intros x Hx. apply parse_post in Hx; auto.
      destruct Hx as (Q1 & Q2 & Q3 & Q4). pose proof (samePending_trans _ _ _ Hs Q3) as Hs'.
      pose proof (step_len _ _ Q2) as Hlen.
      assert (Hn' : forall a c, In a options -> cinv c -> samePending base c -> rec a c <> NoFuel)
        by (intros; apply Hn; auto; right; auto).
      destruct (_ || _)%bool; apply IH; auto.
      * apply cinv_offset; auto; lia.
      * simpl; lia.
      * apply cinv_results; [|apply cinv_offset; auto; lia].
        intros o i t Hst. apply stored_setMatch in Hst. split; [|exact I].
        destruct Hst as [Hst|(-> & -> & ->)]; [destruct Q1; eauto|].
        destruct (cMatchLast x); [|pose proof (ci_off _ _ _ _ Q1); simpl in *; lia].
        pose proof (ci_off _ _ _ _ Q1). simpl in *. lia.
      * intros o i. simpl. rewrite pcount_setMatch. apply Hs'.
      * simpl; lia.
    + intros s' c' Hk. binv Hk. apply parse_post in E; auto.
      destruct E as (Q1 & Q2 & Q3 & Q4). pose proof (samePending_trans _ _ _ Hs Q3) as Hs'.
      pose proof (step_len _ _ Q2) as Hlen.
      assert (Hn' : forall a c, In a options -> cinv c -> samePending base c -> rec a c <> NoFuel)
        by (intros; apply Hn; auto; right; auto).
      set (s1 := if (negb (cMatchLast x) && (chFailOffset s <? cFailOffset x)%Z)%bool then _ else s) in *.
      assert (Hs1 : chMatch s1 = chMatch s /\ chTo s1 = chTo s /\ chFound s1 = chFound s)
        by (unfold s1; destruct (_ && _)%bool; auto).
      destruct Hs1 as (M1 & M2 & M3). clearbody s1.
      pose proof (ci_off _ _ _ _ Q1) as Hxo. pose proof (cinv_len _ _ _ _ Q1) as Hxl. fold N in Hxl.
      assert (Hco : cOffset c <= cOffset x) by (destruct (cMatchLast x); [apply Q4 | lia]).
      destruct (_ || _)%bool eqn:Eb.
      * apply IH in Hk; auto; [|apply cinv_offset; auto; lia|simpl; lia].
        destruct Hk as (R1 & R2 & R3 & R4 & R5 & R6). split; auto. split; auto. split; auto. split; auto.
        split; [rewrite <- M2; auto|]. destruct R6 as [->|[(A1 & A2 & A3)|(A1 & A2)]].
        -- right; left. auto.
        -- right; left. split; [|split]; congruence.
        -- right; right. split; auto. rewrite <- M1, <- M2. auto.
      * apply IH in Hk; auto.
        -- destruct Hk as (R1 & R2 & R3 & R4 & R5 & R6). split; auto. split; auto. split; auto. split; auto.
           simpl in R5. split; [intros _; apply R5; lia|]. right; right.
           apply orb_false_iff in Eb. destruct Eb as [_ Eb]. rewrite M1, M2 in Eb.
           assert (Hlt : chMatch s = true -> chTo s < cOffset x).
           { intros Hm. rewrite Hm in Eb. simpl in Eb. apply Nat.leb_gt in Eb. auto. }
           simpl in R6. destruct R6 as [->|[(A1 & A2 & A3)|(A1 & A2)]]; simpl.
           ++ auto.
           ++ split; auto. rewrite A2. auto.
           ++ split; auto. intros Hm. specialize (A2 eq_refl). specialize (Hlt Hm). lia.
        -- apply cinv_results; [|apply cinv_offset; auto; lia].
           intros o i t Hst. apply stored_setMatch in Hst. split; [|exact I].
           destruct Hst as [Hst|(-> & -> & ->)]; [destruct Q1; eauto|]. simpl. lia.
        -- intros o i. simpl. rewrite pcount_setMatch. apply Hs'.
        -- simpl; lia.
Qed.

Lemma choiceLoop_noFuel id from options k : forall s c,
  (forall a c, In a options -> cinv c -> samePending base c -> rec a c <> NoFuel) ->
  cinv c -> samePending base c -> from <= List.length (cTokens c) -> cOffset c = from ->
  chTo s <= N ->
  (if chMatch s then N - chTo s else S N) < k ->
  choiceLoop rec k id from options s c <> NoFuel.
Proof.
  induction k as [|k IH]; intros s c Hn H Hs Hf Ho HN Hk; [lia|].
  cbn [choiceLoop].
  set (s0 := mkChState _ _ _ _ _).
  destruct (choicePass_noFuel id from options s0 c Hn H Hs Hf Ho) as [A1 A2].
  apply bind_noFuel; auto. intros [s1 c1] Hx. apply A2 in Hx.
  destruct Hx as (B1 & B2 & B3 & B4 & B5 & B6). simpl in *.
  destruct (chFound s1) eqn:Ef; [|discriminate].
  destruct B6 as [->|[(C1 & C2 & C3)|(C1 & C2)]]; try (simpl in *; congruence).
  apply IH; auto. rewrite C1. destruct (chMatch s); [specialize (C2 eq_refl)|]; lia.
Qed.
End LOOPS.

(** the fuel that suffices *)
Definition loopFuel : nat := maxItems P + N + 3.
Definition depthFuel (m : nat) : nat := loopFuel + 2 * m + 3.

Lemma mapUnmark_noFuel from id c : mapResults (fun r => unmarkPending r from id) c <> NoFuel.
Proof. apply (unmarkUnless_noFuel false). Qed.

Lemma char_noFuel n p c : (exists a b d e f, nth_error P p = Some (PChar a b d e f)) \/ nth_error P p = None ->
  parse P kws (S n) p c <> NoFuel.
Proof.
  intros [(a & b & d & e & f & Hp)|Hp]; cbn [parse]; rewrite Hp; [|discriminate].
  unfold charParse. apply bind_noFuel; [apply token_no_fuel|]. intros [c1 tok] _. destruct (match tok with Some _ => _ | None => _ end); discriminate.
Qed.

(** a sequence of characters without nokw *)
Lemma plain_noFuel n p name id commit items ranges gs c :
  nth_error P p = Some (PSeq name id commit items ranges gs true) ->
  hasFlag commit CNoKeyword = false -> cinv c -> loopFuel <= n ->
  parse P kws (S n) p c <> NoFuel.
Proof.
  intros Hp Hnk H Hn. cbn [parse]. rewrite Hp. unfold seqParse. simpl.
  apply bind_noFuel.
  - apply (seqLoop_noFuel n c); auto using samePending_refl.
    + intros a c1 Hin _ _. pose proof (Hac _ _ _ _ _ _ _ Hp a Hin) as Ha. destruct n; [unfold loopFuel in Hn; lia|].
      apply char_noFuel. destruct (nth_error P a) as [[]|]; try contradiction; eauto 10.
    + pose proof (maxItems_ge _ _ _ _ _ _ _ _ _ Hp). unfold loopFuel in Hn. lia.
  - intros [to c1|c1] _; [|discriminate]. rewrite Hnk. simpl. discriminate.
Qed.

(** sequences that are marked, and choices; [B m'] for smaller m' is the induction hypothesis *)
Lemma marking_noFuel m n p ob c :
  (forall m' p c, m' < m -> cinv c -> free c <= m' -> parse P kws n p c <> NoFuel) ->
  nth_error P p = Some ob ->
  match ob with PChar _ _ _ _ _ => False | PSeq _ _ _ _ _ _ ac => ac = false | PChoice _ _ _ _ _ => True end ->
  cinv c -> free c <= m -> loopFuel <= n -> parse P kws (S n) p c <> NoFuel.
Proof.
  intros IH Hp Hob H Hfree Hn.
  assert (Hc0 : pending (cResults c) (cOffset c) (nodeID ob) = false ->
                cinv (setResults c (markPending (cResults c) (cOffset c) (nodeID ob))) /\
                forall a c1, cinv c1 -> samePending (setResults c (markPending (cResults c) (cOffset c) (nodeID ob))) c1 ->
                       parse P kws n a c1 <> NoFuel).
  { intros Hpend. split; [now apply cinv_mark|]. intros a c1 H1 Hs1.
    pose proof (free_mark _ _ _ H Hp Hpend). apply free_same in Hs1.
    apply (IH (free c1)); auto. lia. }
  cbn [parse]. rewrite Hp. destruct ob as [|name id commit items ranges gs ac|name id commit options gs]; [contradiction| |].
  - subst ac. unfold seqParse. simpl negb. cbn [andb].
    destruct (pending (cResults c) (cOffset c) id) eqn:Epend; [discriminate|].
    simpl in Hc0. specialize (Hc0 Epend). destruct Hc0 as [H0 Hrec].
    set (c0 := setResults c _) in *.
    apply bind_noFuel.
    + apply (seqLoop_noFuel n c0); auto using samePending_refl.
      pose proof (maxItems_ge _ _ _ _ _ _ _ _ _ Hp). unfold loopFuel in Hn. lia.
    + intros [to c1|c1] Hl; [|discriminate].
      eapply seqLoop_spec in Hl; eauto; [|intros; eapply parse_post; eauto].
      destruct Hl as (Q1 & Q2 & Q3 & Q4 & Q5 & Q6).
      apply bind_noFuel.
      * destruct (hasFlag commit CNoKeyword); [|discriminate]. apply (isKeyword_noFuel n c0); auto.
        pose proof (ci_off _ _ _ _ Q1). lia.
      * intros [c2 []] _; apply unmarkUnless_noFuel.
  - unfold choiceParse. destruct (fromResults c id); [discriminate|].
    destruct (pending (cResults c) (cOffset c) id) eqn:Epend; [discriminate|].
    simpl in Hc0. specialize (Hc0 Epend). destruct Hc0 as [H0 Hrec].
    set (c0 := setResults c _) in *.
    apply bind_noFuel.
    + apply (choiceLoop_noFuel n c0); auto using samePending_refl.
      * apply H.
      * simpl. pose proof (ci_off _ _ _ _ H). pose proof (cinv_len _ _ _ _ H). unfold N. simpl. lia.
      * simpl. unfold loopFuel in Hn. lia.
    + intros [s c1] Hl.
      assert (Hg : chGood id (cOffset c) (mkChState false false (cOffset c) (cFailOffset c0) None) c0).
      { unfold chGood. simpl. split; auto. destruct H0. split; auto. split; [discriminate|auto]. }
      pose proof (choiceLoop_spec P input0 e0 G Gchoice0 (parse P kws n) (fun p c c' => parse_post n p c c')
        p name id commit options gs (cOffset c) Hp _ _ _ _ _ H0 eq_refl Hg Hl) as Hl'. clear Hl.
      destruct Hl'  as (Q1 & Q2 & Q3 & Q4 & Q5).
      destruct (chMatch s).
      * apply bind_noFuel.
        -- destruct (hasFlag commit CNoKeyword); [|discriminate]. apply (isKeyword_noFuel n c0); auto.
           pose proof (ci_off _ _ _ _ Q1). simpl in *; lia.
        -- intros [c2 []] _; apply mapUnmark_noFuel.
      * apply mapUnmark_noFuel.
Qed.

Lemma parse_noFuel m : forall n p c, cinv c -> free c <= m -> depthFuel m <= n -> parse P kws n p c <> NoFuel.
Proof.
  induction m as [m IHm] using lt_wf_ind. intros n p c H Hfree Hn.
  assert (Hsmall : forall n', depthFuel m <= S (S n') -> forall m' p c, m' < m -> cinv c -> free c <= m' ->
            parse P kws n' p c <> NoFuel).
  { intros n' Hn' m' p' c1 Hm' H1 Hf1. apply (IHm m'); auto. unfold depthFuel in *. lia. }
  destruct n as [|n]; [unfold depthFuel in Hn; lia|].
  destruct (nth_error P p) as [ob|] eqn:Hp; [|apply char_noFuel; auto].
  destruct ob as [nm i cn ch rs|name id commit items ranges gs ac|name id commit options gs] eqn:Eob.
  - apply char_noFuel. left. eauto 10.
  - destruct ac.
    + destruct (hasFlag commit CNoKeyword) eqn:Enk.
      2:{ eapply plain_noFuel; eauto. unfold depthFuel in Hn. lia. }
      (* nokw sequence of characters: the keywords are tried without a mark *)
      cbn [parse]. rewrite Hp. unfold seqParse. simpl negb. cbn [andb]. cbn iota.
      destruct n as [|n]; [unfold depthFuel in Hn; lia|].
      apply bind_noFuel.
      * apply (seqLoop_noFuel (S n) c); auto using samePending_refl.
        -- intros a c1 Hin _ _. pose proof (Hac _ _ _ _ _ _ _ Hp a Hin) as Ha.
           apply char_noFuel. destruct (nth_error P a) as [[]|]; try contradiction; eauto 10.
        -- pose proof (maxItems_ge _ _ _ _ _ _ _ _ _ Hp). unfold depthFuel, loopFuel in Hn. lia.
      * intros [to c1|c1] Hl; [|discriminate].
        eapply seqLoop_spec in Hl; eauto; [|intros; eapply parse_post; eauto].
        destruct Hl as (Q1 & Q2 & Q3 & Q4 & Q5 & Q6).
        rewrite Enk.
        apply bind_noFuel; [|intros [c2 []] _; apply unmarkUnless_noFuel].
        apply (isKeyword_noFuel (S n) c); auto; [|pose proof (ci_off _ _ _ _ Q1); lia].
        intros kw c2 Hin H2 Hs2. apply free_same in Hs2.
        destruct (nth_error P kw) as [kob|] eqn:Hkob; [|apply char_noFuel; auto].
        destruct kob as [nm' i' cn' ch' rs'|nm' i' ct' it' rg' gs' ac'|nm' i' ct' op' gs'] eqn:Ek.
        -- apply char_noFuel; left; eauto 10.
        -- destruct ac'.
           ++ eapply plain_noFuel; eauto. unfold depthFuel in Hn. lia.
           ++ eapply marking_noFuel with (m := m); eauto; simpl; auto; try lia; try (unfold depthFuel in Hn; lia).
        -- eapply marking_noFuel with (m := m); eauto; simpl; auto; try lia; try (unfold depthFuel in Hn; lia).
    + apply marking_noFuel with (m := m) (ob := PSeq name id commit items ranges gs false);
        simpl; auto; try (unfold depthFuel in Hn; lia).
      intros m' p' c1 Hm' H1 Hf1. apply (IHm m'); auto. unfold depthFuel in *. lia.
  - apply marking_noFuel with (m := m) (ob := PChoice name id commit options gs);
      simpl; auto; try (unfold depthFuel in Hn; lia).
    intros m' p' c1 Hm' H1 Hf1. apply (IHm m'); auto. unfold depthFuel in *. lia.
Qed.

(** fuel bound for a whole match *)
Definition parseFuel : nat := depthFuel (List.length P * S N).

Theorem parse_terminates p n : parseFuel <= n -> parse P kws n p (newContext input0 e0) <> NoFuel.
Proof.
  intros Hn. apply parse_noFuel with (m := List.length P * S N); auto.
  - apply cinv_new.
  - unfold free. eapply Nat.le_trans.
    + assert (forall {A} (f : A -> bool) l, List.length (filter f l) <= List.length l) as Hf.
      { intros A f l. induction l; simpl; auto. destruct (f a); simpl; lia. }
      apply Hf.
    + unfold pairs. rewrite prod_length, seq_length, map_length. lia.
Qed.
End TERM.
