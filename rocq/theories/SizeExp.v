(** A syntax and inputs where the tree has exponentially many nodes: a repeated item whose build does not
    advance is copied as many times as its minimum, at every level of a left recursion. *)
From Verif Require Import Base Utf8 IdSet Results Parser Build Syntax ListFacts ResultsFacts ReaderFacts ParseFacts
  FuelFacts TermFacts BuildFacts StoreFacts OnceFacts NoPanic RunFacts Grammar ApiSpec SizeSpec.
From Verif Require AliasFacts.
Local Open Scope string_scope.
Local Open Scope nat_scope.

(** [b:alias = "b"; a:root = y | x | b; x = a; y = x{2}] *)
Definition pair : list defcall :=
  [ DCharSequence "b" CAlias [98%Z]; DChoice "a" CRoot ["y"; "x"; "b"];
    DSequence "x" CNone [mkItem "a" 1 1]; DSequence "y" CNone [mkItem "x" 2 2] ].
Definition bees (n : nat) : list rune := repeat 98%Z n.
Definition pairSyntax : syntax :=
  match Init 30 (fst (defineAll emptySyntax pair)) with Ok (s', None) => s' | _ => emptySyntax end.
Definition PP : pheap := Eval vm_compute in parsers pairSyntax.
Lemma pair_parsers : parsers pairSyntax = PP. Proof. vm_compute. reflexivity. Qed.
Lemma pair_root : sRoot pairSyntax = Some 2. Proof. vm_compute. reflexivity. Qed.
Lemma pair_kws : sKeywords pairSyntax = []. Proof. vm_compute. reflexivity. Qed.
Lemma PP_eq : PP = [ PChar "b:0" 1 false [98%Z] []; PSeq "b" 2 266%N [0] [(1, 1)%Z; (1, 1)%Z] [3] true;
  PChoice "a" 3 384%N [4; 3; 1] []; PSeq "x" 4 256%N [2] [(1, 1)%Z; (1, 1)%Z] [3] false; PSeq "y" 5 256%N [3] [(2, 2)%Z; (2, 2)%Z] [3] false ].
Proof. reflexivity. Qed.

Section RUN.
Variable N : nat.
Let input := bees N.
(** no match is empty, those of y have two characters at least *)
Definition PG (id o t : nat) : Prop := o + (if Nat.eqb id 5 then 2 else 1) <= t.

Lemma bees_nth i r : nth_error input i = Some r -> r = 98%Z.
Proof. intros H. apply nth_error_In in H. apply repeat_spec in H. auto. Qed.
Lemma bees_ok : ~ In runeError input.
Proof. intros H. apply repeat_spec in H. discriminate. Qed.
Lemma bees_len : List.length input = N.
Proof. apply repeat_length. Qed.

Lemma PG_item it o t : IG PP input PG it o t -> o < t.
Proof. unfold IG. destruct (nth_error PP it) as [[]|]; [|unfold PG; intros H; destruct (_ =? _); lia..|intros []]. intros [-> _]. lia. Qed.
(** one item with a minimum of k: k characters at least *)
Lemma PG_run it mn mx ranges ii n o t : seqRun PP input PG [it] ranges ii n o t -> nth_error ranges 0 = Some (mn, mx) -> (mn <= mx)%Z -> ii = 0 -> (Z.of_nat o + mn - Z.of_nat n <= Z.of_nat t)%Z.
Proof.
  intros H. induction H; intros Hr Hm Hi; subst ii; try discriminate; rewrite Hr in H0; injection H0 as <- <-.
  - inversion H2; subst; try (simpl in *; discriminate). lia.
  - apply PG_item in H1. lia.
  - apply PG_item in H1. specialize (IHseqRun Hr Hm eq_refl). lia.
  - assert (t = o'). { inversion H5; subst; try (simpl in *; discriminate). reflexivity. } subst t. lia.
Qed.
Lemma PG_seq p name id commit items ranges gs ac o t :
  nth_error PP p = Some (PSeq name id commit items ranges gs ac) ->
  o <= t -> t <= List.length input -> seqRun PP input PG items ranges 0 0 o t ->
  (hasFlag commit CNoKeyword = true -> notKw PP [] input o t) ->
  PG id o t /\ forall g, In g gs -> PG g o t.
Proof.
  intros Hp _ _ Hr _. rewrite PP_eq in Hp.
  destruct p as [|[|[|[|[|p]]]]]; simpl in Hp; try discriminate; [..|destruct p; discriminate]; injection Hp as <- <- <- <- <- <- <-.
  - apply (PG_run _ 1%Z 1%Z) in Hr; auto; [|lia]. unfold PG. split; [simpl; lia|]. intros g [<-|[]]. simpl. lia.
  - apply (PG_run _ 1%Z 1%Z) in Hr; auto; [|lia]. unfold PG. split; [simpl; lia|]. intros g [<-|[]]. simpl. lia.
  - apply (PG_run _ 2%Z 2%Z) in Hr; auto; [|lia]. unfold PG. split; [simpl; lia|]. intros g [<-|[]]. simpl. lia.
Qed.
Lemma PG_choice p name id commit options gs op o t :
  nth_error PP p = Some (PChoice name id commit options gs) -> In op options -> IG PP input PG op o t -> PG id o t.
Proof.
  intros Hp Hin HI. apply PG_item in HI. rewrite PP_eq in Hp. destruct p as [|[|[|[|[|p]]]]]; simpl in Hp; try discriminate; [|destruct p; discriminate]. injection Hp as <- <- <- <- <-.
  unfold PG. simpl. lia.
Qed.

Notation cinv := (cinv input REof PG).
Notation post := (post PP input REof PG).
Notation run := (parse PP []).
Lemma P_post n p c c' : cinv c -> run n p c = Ok c' -> post p c c'.
Proof. intros H Hk. eapply parse_spec in Hk; eauto; [apply Hk|apply PG_seq|apply PG_choice]. Qed.

(** what is stored from [c] to [c'] *)
Record chg (L : list (nat * nat * nat)) (c c' : context) : Prop := mkChg {
  cg_st : forall o i t, stored (cResults c') o i t <-> stored (cResults c) o i t \/ In (o, i, t) L;
  cg_nm : forall o i, noMatchHas (cResults c') o i = noMatchHas (cResults c) o i }.
Lemma chg_refl c : chg [] c c.
Proof. split; simpl; tauto. Qed.
Lemma chg_same c c' : rMatch (cResults c') = rMatch (cResults c) -> rNoMatch (cResults c') = rNoMatch (cResults c) -> chg [] c c'.
Proof. intros H1 H2. split; [intros; rewrite (stored_ext _ _ H1); simpl; tauto|intros; apply noMatchHas_ext; auto]. Qed.
Lemma chg_trans L1 L2 a b c : chg L1 a b -> chg L2 b c -> chg (L1 ++ L2) a c.
Proof. intros [A1 A2] [B1 B2]. split; [intros; rewrite B1, A1, in_app_iff; tauto|intros; rewrite B2; auto]. Qed.
Lemma chg_unmark ac o i c c' : unmarkUnless ac o i c = Ok c' -> chg [] c c' /\ cOffset c' = cOffset c /\ cMatchLast c' = cMatchLast c.
Proof.
  unfold unmarkUnless, mapResults. destruct ac; [injection 1 as <-; auto using chg_refl|]. intros H. binv H. injection H as <-. apply unmark_match in E. destruct E as [E1 E2]. split; [apply chg_same; auto|auto].
Qed.
Lemma chg_clear t c : chg [] c (clearFail t c).
Proof. unfold clearFail. destruct (_ <? _)%Z; [apply chg_same; auto|apply chg_refl]. Qed.
Lemma chg_blame p ct c : chg [] c (blame p ct c).
Proof. destruct (sameTR_blame p ct c) as (_ & H & _). apply chg_same; rewrite H; auto. Qed.

Lemma chg_app_nil L c c' : chg (L ++ []) c c' -> chg L c c'.
Proof. rewrite app_nil_r. auto. Qed.

(** the end of a sequence that matches *)
Lemma seq_done ac from to gs id c c' :
  unmarkUnless ac from id (success (setResults (clearFail to (setResults c (setGeneralizations from to gs (cResults c))))
    (setMatch (cResults (clearFail to (setResults c (setGeneralizations from to gs (cResults c))))) from id to)) to) = Ok c' ->
  cMatchLast c' = true /\ cOffset c' = to /\
  chg ((from, id, to) :: map (fun g => (from, g, to)) (filter (pending (cResults c) from) gs)) c c'.
Proof.
  intros H. apply chg_unmark in H. destruct H as (H1 & H2 & H3). rewrite H2, H3. split; [auto|]. split; [auto|].
  set (c1 := setResults c _) in *. set (c2 := clearFail to c1) in *.
  assert (Hc : cResults c2 = cResults c1) by (destruct (sameTR_clearFail to c1) as (_ & E & _); auto).
  apply chg_app_nil. eapply (chg_trans _ []); [|exact H1]. split.
  - intros o i t. simpl. rewrite stored_setMatch, Hc. unfold c1. simpl. rewrite setGens_stored, in_map_iff. split.
    + intros [[Hs|(-> & -> & Hg & Hp)]|(-> & -> & ->)]; auto. right. right. exists i. split; auto. apply filter_In. auto.
    + intros [Hs|[E|(g & E & Hg)]]; auto.
      * injection E as <- <- <-. auto.
      * injection E as <- <- <-. apply filter_In in Hg. destruct Hg. auto 8.
  - intros o i. simpl. apply noMatchHas_ext. rewrite noMatch_setMatch, Hc. unfold c1. simpl. apply setGens_nomatch.
Qed.
Lemma chg_incl L L' c c' : (forall x, In x L <-> In x L') -> chg L c c' -> chg L' c c'.
Proof. intros H [A B]. split; auto. intros. rewrite A, H. tauto. Qed.

(** b *)
Lemma P_b n c c' : cinv c -> cOffsetLimit c = None -> cOffset c < N -> run n 1 c = Ok c' ->
  cMatchLast c' = true /\ cOffset c' = S (cOffset c) /\
  chg ((cOffset c, 2, S (cOffset c)) :: if pending (cResults c) (cOffset c) 3 then [(cOffset c, 3, S (cOffset c))] else []) c c'.
Proof.
  intros H Hl Ho Hk. destruct n as [|n]; [discriminate|]. cbn [parse] in Hk. rewrite PP_eq in Hk at 1. cbn [nth_error] in Hk.
  unfold seqParse in Hk. cbn [negb andb] in Hk. cbv zeta in Hk. binv Hk.
  destruct n as [|n]; [discriminate|]. cbn [seqLoop nth_error] in E. binv E. rename x0 into c1.
  assert (Hc : cMatchLast c1 = true /\ cOffset c1 = S (cOffset c) /\ cResults c1 = cResults c).
  { cbn [parse] in E0. rewrite PP_eq in E0 at 1. cbn [nth_error] in E0. pose proof (char_same _ _ _ _ _ E0) as Hcs. unfold charParse in E0. binv E0. destruct x0 as [c2 tok].
    destruct (token_spec _ _ _ _ _ (ci_r _ _ _ _ H) (ci_off _ _ _ _ H) E1) as (T1 & T2 & _ & T4). destruct tok as [r|].
    - destruct T4 as [T4 _]. apply (rinv_nth _ _ _ _ _ T1) in T4. apply bees_nth in T4. subst r. simpl in E0. injection E0 as <-. simpl. destruct T2 as (-> & _). auto.
    - exfalso. destruct T4 as (_ & [T4|[T4|(T4 & _)]]); [congruence| |].
      + pose proof (ri_case _ _ _ T1) as Hc. destruct (cReadErr c2) as [[]|]; auto; try contradiction.
        * destruct Hc as [Hc _]. apply bees_ok. rewrite Hc. apply in_or_app. right. left. auto.
        * destruct Hc as (_ & Hc & _). discriminate.
      + rewrite bees_len in T4. lia. }
  destruct Hc as (Hc1 & Hc2 & Hc3). rewrite Hc1, Hc2 in E. cbn [negb orb] in E. assert (Hlt : Nat.ltb (cOffset c) (S (cOffset c)) = true) by (apply Nat.ltb_lt; lia). rewrite Hlt in E.
  change ((0 <? 1)%Z && (Z.of_nat 1 =? 1)%Z)%bool with true in E. cbv iota in E.
  destruct n as [|n]; [discriminate|]. cbn [seqLoop nth_error] in E. injection E as <-. change (hasFlag 266%N CNoKeyword) with false in Hk. cbv iota in Hk. cbn [bind] in Hk.
  apply seq_done in Hk. destruct Hk as (H1 & H2 & H3). split; [auto|]. split; [auto|]. rewrite Hc3 in H3. simpl in H3. destruct H3 as [A B]. rewrite Hc3 in A, B. split; [|auto].
  intros o i t. rewrite A. destruct (pending _ _ 3); simpl; tauto.
Qed.

(** x when it is being parsed already *)
Lemma P_xpend n c c' : pending (cResults c) (cOffset c) 4 = true -> run n 3 c = Ok c' -> c' = fail c (cOffset c).
Proof. intros H Hk. destruct n as [|n]; [discriminate|]. cbn [parse] in Hk. rewrite PP_eq in Hk at 1. cbn [nth_error] in Hk. unfold seqParse in Hk. rewrite H in Hk. injection Hk as <-. auto. Qed.
(** y when x is being parsed *)
Lemma P_ypend n c c' : pending (cResults c) (cOffset c) 4 = true -> pending (cResults c) (cOffset c) 5 = false ->
  noMatchHas (cResults c) (cOffset c) 5 = false -> (forall t, ~ stored (cResults c) (cOffset c) 5 t) -> run n 4 c = Ok c' ->
  cMatchLast c' = false /\ cOffset c' = cOffset c /\ chg [] c c'.
Proof.
  intros H4 H5 Hn Hs Hk. destruct n as [|n]; [discriminate|]. cbn [parse] in Hk. rewrite PP_eq in Hk at 1. cbn [nth_error] in Hk. unfold seqParse in Hk. rewrite H5 in Hk. cbn [negb andb] in Hk. cbv zeta in Hk.
  set (c1 := setResults c _) in Hk. binv Hk. destruct n as [|n]; [discriminate|]. cbn [seqLoop nth_error] in E. binv E. rename x0 into c2.
  assert (H4' : pending (cResults c1) (cOffset c1) 4 = true). { apply pending_pcount. unfold c1. simpl. rewrite pcount_mark. apply pending_pcount in H4. lia. }
  apply P_xpend in E0; auto. subst c2. cbn [cMatchLast fail negb] in E. change (2 <=? Z.of_nat 0)%Z with false in E. cbv iota zeta in E.
  assert (Ef : fromResults (setOffset (fail c1 (cOffset c1)) (cOffset c)) 5 = None).
  { unfold fromResults, longestResult. simpl. change (noMatchHas (markPending (cResults c) (cOffset c) 5) (cOffset c) 5) with (noMatchHas (cResults c) (cOffset c) 5). rewrite Hn.
    change (longestMatch (markPending (cResults c) (cOffset c) 5) (cOffset c) 5) with (longestMatch (cResults c) (cOffset c) 5). apply longestMatch_none in Hs. rewrite Hs. auto. }
  rewrite Ef in E. binv E. injection E as <-. injection Hk as <-. apply chg_unmark in E0. destruct E0 as (E1 & E2 & E3). rewrite E2, E3. split; [auto|]. split; [auto|].
  eapply (chg_trans [] []); [|exact E1]. set (c3 := setOffset _ _). eapply (chg_trans [] [] _ (blame 4 256%N c3)); [|apply chg_same; reflexivity]. eapply (chg_trans [] [] _ c3); [|apply chg_blame]. apply chg_same; auto.
Qed.

(** x is being parsed at the offset, and so is a; nothing is known of y *)
Record inX (o : nat) (c : context) : Prop := mkInX {
  x_inv : cinv c; x_lim : cOffsetLimit c = None; x_off : cOffset c = o; x_lt : o < N;
  x_px : pending (cResults c) o 4 = true; x_py : pending (cResults c) o 5 = false;
  x_nm : noMatchHas (cResults c) o 5 = false; x_st : forall t, ~ stored (cResults c) o 5 t }.
Lemma pending_same c c' o i : samePending c c' -> pending (cResults c') o i = pending (cResults c) o i.
Proof.
  intros H. specialize (H o i). destruct (pending (cResults c') o i) eqn:E1, (pending (cResults c) o i) eqn:E2; auto.
  - apply pending_pcount in E1. apply pending_false in E2. lia.
  - apply pending_pcount in E2. apply pending_false in E1. lia.
Qed.
Lemma inX_keep o c c' L : inX o c -> chg L c c' -> (forall t, ~ In (o, 5, t) L) -> samePending c c' -> cinv c' -> cOffsetLimit c' = None -> cOffset c' = o -> inX o c'.
Proof.
  intros [A1 A2 A3 A4 A5 A6 A7 A8] [B1 B2] HL Hp Hi Hl Ho. split; auto; rewrite ?(pending_same _ _ _ _ Hp), ?B2; auto.
  intros t Hs. apply B1 in Hs. destruct Hs as [Hs|Hs]; [eapply A8|eapply HL]; eauto.
Qed.
Lemma pass_cons rec id from o options s c : choicePass rec id from (o :: options) s c =
  (c <- rec o c ;;
   let s := if (negb (cMatchLast c) && Z.ltb (chFailOffset s) (cFailOffset c))%bool then mkChState (chMatch s) (chFound s) (chTo s) (cFailOffset c) (cFailingParser c) else s in
   if (negb (cMatchLast c) || (chMatch s && (cOffset c <=? chTo s)))%bool then choicePass rec id from options s (setOffset c from)
   else choicePass rec id from options (mkChState true true (cOffset c) (chFailOffset s) (chFailing s)) (setResults (setOffset c from) (setMatch (cResults (setOffset c from)) from id (cOffset c)))).
Proof. reflexivity. Qed.
Lemma P_pass n o s c s' c' : inX o c -> pending (cResults c) o 3 = true -> choicePass (run n) 3 o [4; 3; 1] s c = Ok (s', c') ->
  inX o c' /\ samePending c c' /\ chg [(o, 2, S o); (o, 3, S o)] c c' /\
  if (chMatch s && (S o <=? chTo s))%bool then chMatch s' = chMatch s /\ chTo s' = chTo s /\ chFound s' = chFound s else chMatch s' = true /\ chTo s' = S o /\ chFound s' = true.
Proof.
  intros H Ha Hk. rewrite pass_cons in Hk. binv Hk. rename x into c1.
  pose proof (P_post _ _ _ _ (x_inv _ _ H) E) as (I1 & S1 & Q1 & _). apply P_ypend in E; try (rewrite (x_off _ _ H); apply H). destruct E as (M1 & O1 & C1).
  assert (H1 : inX o c1). { eapply inX_keep; eauto; [rewrite (st_limit _ _ S1); apply H|rewrite O1; apply H]. }
  rewrite M1 in Hk. cbn [negb andb orb] in Hk. cbv zeta in Hk.
  match type of Hk with context [choicePass _ _ _ [3; 1] ?s0 _] => set (s1 := s0) in Hk end.
  assert (Es1 : chMatch s1 = chMatch s /\ chTo s1 = chTo s /\ chFound s1 = chFound s) by (unfold s1; destruct (_ <? _)%Z; auto). clearbody s1.
  assert (H2 : inX o (setOffset c1 o)). { destruct H1 as [A1 A2 A3 A4 A5 A6 A7 A8]. split; auto. apply cinv_offset; auto. rewrite <- A3. apply A1. }
  rewrite pass_cons in Hk. binv Hk. apply P_xpend in E; [|rewrite (x_off _ _ H2); apply H2]. subst x. cbn [cMatchLast fail negb andb orb] in Hk. cbv zeta in Hk.
  match type of Hk with context [choicePass _ _ _ [1] ?s0 ?cc] => set (s2 := s0) in Hk; set (c2 := cc) in Hk end.
  assert (Es2 : chMatch s2 = chMatch s /\ chTo s2 = chTo s /\ chFound s2 = chFound s) by (unfold s2; destruct (_ <? _)%Z; auto). clearbody s2.
  assert (H3 : inX o c2). { destruct H2 as [A1 A2 A3 A4 A5 A6 A7 A8]. unfold c2. split; auto. apply cinv_offset; auto; [|apply cinv_fail; auto]; rewrite <- A3; apply A1. }
  assert (C2 : chg [] c c2). { eapply (chg_trans [] []); [exact C1|]. apply chg_same; auto. }
  assert (Q2 : samePending c c2) by (intros a b; apply Q1).
  rewrite pass_cons in Hk. binv Hk. rename x into c3. pose proof (P_post _ _ _ _ (x_inv _ _ H3) E) as (I3 & S3 & Q3 & _).
  apply P_b in E; [|apply H3|apply H3|rewrite (x_off _ _ H3); apply H3]. rewrite (x_off _ _ H3), (pending_same _ _ _ _ Q2), Ha in E. destruct E as (M3 & O3 & C3).
  rewrite M3 in Hk. cbn [negb andb orb] in Hk. cbv zeta in Hk. destruct Es2 as (Em & Et & Ef). rewrite Em, Et, O3 in Hk.
  assert (Q4 : samePending c c3) by (eapply samePending_trans; eauto). assert (C4 : chg [(o, 2, S o); (o, 3, S o)] c c3) by (exact (chg_trans [] _ _ _ _ C2 C3)).
  assert (I5 : cinv (setOffset c3 o)). { apply cinv_offset; auto. pose proof (ci_off _ _ _ _ I3). lia. }
  assert (HL : forall t, ~ In (o, 5, t) [(o, 2, S o); (o, 3, S o)]) by (intros t [E|[E|[]]]; discriminate).
  destruct (chMatch s && (S o <=? chTo s))%bool.
  - injection Hk as <- <-. split; [|split; [exact Q4|split; [|auto]]].
    + eapply inX_keep; [exact H|exact (mkChg _ _ (setOffset c3 o) (cg_st _ _ _ C4) (cg_nm _ _ _ C4))|exact HL|exact Q4|exact I5| |reflexivity]. simpl. rewrite (st_limit _ _ S3). apply H3.
    + apply chg_app_nil. eapply chg_trans; [exact C4|]. apply chg_same; auto.
  - injection Hk as <- <-. assert (C5 : chg [(o, 2, S o); (o, 3, S o)] c (setResults (setOffset c3 o) (setMatch (cResults c3) o 3 (S o)))).
    { split; [|intros; rewrite <- (cg_nm _ _ _ C4); apply noMatchHas_ext, noMatch_setMatch].
      intros o' i t. simpl cResults. rewrite stored_setMatch, (cg_st _ _ _ C4). simpl. split; [intros [Hx|(-> & -> & ->)]; auto|tauto]. }
    assert (Q5 : samePending c (setResults (setOffset c3 o) (setMatch (cResults c3) o 3 (S o)))). { intros a b. simpl. rewrite pcount_setMatch. apply Q4. }
    split; [|split; [exact Q5|split; [exact C5|auto]]].
    eapply inX_keep; [exact H|exact C5|exact HL|exact Q5| |simpl; rewrite (st_limit _ _ S3); apply H3|reflexivity].
    apply (cinv_setMatch input REof PG (setOffset c3 o)); auto; simpl; [|unfold PG; simpl; lia]. pose proof (ci_off _ _ _ _ I3). lia.
Qed.

Lemma ltb_S o : (o <? S o) = true.
Proof. apply Nat.ltb_lt. lia. Qed.
(** a at an offset where x is being parsed: b *)
Lemma P_a n o c c' : inX o c -> pending (cResults c) o 3 = false -> noMatchHas (cResults c) o 3 = false -> (forall t, ~ stored (cResults c) o 3 t) ->
  run n 2 c = Ok c' -> cMatchLast c' = true /\ cOffset c' = S o /\ chg [(o, 2, S o); (o, 3, S o)] c c'.
Proof.
  intros H Hp Hn Hs Hk. pose proof (x_off _ _ H) as Ho. destruct n as [|n]; [discriminate|]. cbn [parse] in Hk. rewrite PP_eq in Hk at 1. cbn [nth_error] in Hk. unfold choiceParse in Hk.
  assert (Ef : fromResults c 3 = None). { unfold fromResults, longestResult. rewrite Ho, Hn. apply longestMatch_none in Hs. rewrite Hs. auto. }
  rewrite Ef, Ho, Hp in Hk. cbv zeta in Hk. set (c1 := setResults c _) in Hk. change (cOffset c1) with (cOffset c) in Hk. rewrite Ho in Hk.
  assert (H1 : inX o c1). { destruct H as [A1 A2 A3 A4 A5 A6 A7 A8]. split; auto; [apply cinv_mark; auto|apply pending_pcount; unfold c1; simpl; rewrite pcount_mark; apply pending_pcount in A5; lia|apply pending_false; unfold c1; simpl; rewrite pcount_mark; apply pending_false in A6; rewrite A6; auto]. }
  assert (Ha : pending (cResults c1) o 3 = true) by (apply pending_pcount; unfold c1; simpl; rewrite pcount_mark, !Nat.eqb_refl; simpl; lia).
  assert (C1 : chg [] c c1) by (apply chg_same; auto).
  binv Hk. destruct x as [s1 c2]. destruct n as [|n]; [discriminate|]. cbn [choiceLoop] in E. binv E. destruct x as [s2 c3]. apply (P_pass _ _ _ _ _ _ H1 Ha) in E0. cbn [chMatch andb] in E0. destruct E0 as (H3 & Q3 & C3 & M3 & T3 & F3).
  rewrite F3 in E. destruct n as [|n]; [discriminate|]. cbn [choiceLoop] in E. binv E. destruct x as [s4 c4]. apply (P_pass _ _ _ _ _ _ H3) in E0; [|rewrite (pending_same _ _ _ _ Q3); auto]. cbn [chMatch chTo chFound] in E0. rewrite M3, T3, Nat.leb_refl in E0. cbn [andb] in E0.
  destruct E0 as (H4 & Q4 & C4 & M4 & T4 & F4). rewrite F4 in E. injection E as <- <-. rewrite M4, T4 in Hk. change (hasFlag 384%N CNoKeyword) with false in Hk. cbv iota in Hk. cbn [bind] in Hk.
  apply (chg_unmark false) in Hk. destruct Hk as (C5 & O5 & M5). rewrite O5, M5. split; [auto|]. split; [auto|]. pose proof (chg_trans _ _ _ _ _ C1 (chg_trans _ _ _ _ _ C3 C4)) as C6.
  assert (C7 : chg [] c4 c').
  { eapply (chg_trans [] []); [|exact C5]. apply chg_same; simpl; repeat match goal with |- context [if ?b then _ else _] => destruct b end; auto. }
  eapply chg_incl; [|exact (chg_trans _ _ _ _ _ C6 C7)]. intros y. simpl. tauto.
Qed.

(** nothing is known at an offset *)
Record freshAt (o : nat) (c : context) : Prop := mkFresh {
  f_pd : forall i, pcount (cResults c) o i = 0; f_st : forall i t, ~ stored (cResults c) o i t; f_nm : forall i, noMatchHas (cResults c) o i = false }.
Lemma P_xfresh n o c c' : cinv c -> cOffsetLimit c = None -> cOffset c = o -> o < N -> freshAt o c -> run n 3 c = Ok c' ->
  cMatchLast c' = true /\ cOffset c' = S o /\ chg [(o, 2, S o); (o, 3, S o); (o, 4, S o)] c c'.
Proof.
  intros H Hl Ho Hlt [F1 F2 F3] Hk. destruct n as [|n]; [discriminate|]. cbn [parse] in Hk. rewrite PP_eq in Hk at 1. cbn [nth_error] in Hk. unfold seqParse in Hk.
  assert (Hp : pending (cResults c) (cOffset c) 4 = false) by (apply pending_false; rewrite Ho; auto). rewrite Hp, Ho in Hk. cbn [negb andb] in Hk. cbv zeta in Hk. set (c1 := setResults c _) in Hk.
  assert (H1 : inX o c1). { split; auto; [apply cinv_mark; auto|apply pending_pcount; unfold c1; simpl; rewrite pcount_mark, F1; simpl; rewrite Nat.eqb_refl; lia|apply pending_false; unfold c1; simpl; rewrite pcount_mark, F1; auto|apply F3|apply F2]. }
  assert (Hp3 : pending (cResults c1) o 3 = false) by (apply pending_false; unfold c1; simpl; rewrite pcount_mark, F1; auto).
  binv Hk. destruct n as [|n]; [discriminate|]. cbn [seqLoop nth_error] in E. binv E. rename x0 into c2. pose proof (P_post _ _ _ _ (x_inv _ _ H1) E0) as (_ & _ & Q2 & _).
  apply (P_a _ o) in E0; auto; [|apply F3|apply F2]. destruct E0 as (M2 & O2 & C2).
  rewrite M2, O2, ltb_S in E. cbn [negb orb] in E. change ((0 <? 1)%Z && (Z.of_nat 1 =? 1)%Z)%bool with true in E. cbv iota in E. destruct n as [|n]; [discriminate|]. cbn [seqLoop nth_error] in E. injection E as <-.
  change (hasFlag 256%N CNoKeyword) with false in Hk. cbv iota in Hk. cbn [bind] in Hk. apply seq_done in Hk. destruct Hk as (M3 & O3 & C3). split; [auto|]. split; [auto|].
  simpl in C3. rewrite (pending_same _ _ _ _ Q2), Hp3 in C3. assert (C1 : chg [] c c1) by (apply chg_same; auto). exact (chg_trans _ _ _ _ _ C1 (chg_trans _ _ _ _ _ C2 C3)).
Qed.

(** x at the start, where a has been found up to [t] *)
Lemma P_xzero n t c c' : cOffset c = 0 -> longestResult (cResults c) 0 3 = LMatch t -> 0 < t -> pending (cResults c) 0 4 = false -> pending (cResults c) 0 3 = true ->
  run n 3 c = Ok c' -> cMatchLast c' = true /\ cOffset c' = t /\ chg [(0, 4, t); (0, 3, t)] c c'.
Proof.
  intros Ho Ha Ht Hp Hp3 Hk. destruct n as [|n]; [discriminate|]. cbn [parse] in Hk. rewrite PP_eq in Hk at 1. cbn [nth_error] in Hk. unfold seqParse in Hk.
  rewrite Ho, Hp in Hk. cbn [negb andb] in Hk. cbv zeta in Hk. set (c1 := setResults c _) in Hk. binv Hk. destruct n as [|n]; [discriminate|]. cbn [seqLoop nth_error] in E. binv E. rename x0 into c2.
  cbn [parse] in E0. rewrite PP_eq in E0 at 1. cbn [nth_error] in E0. unfold choiceParse in E0. assert (Ef : fromResults c1 3 = Some (success c1 t)).
  { unfold fromResults. change (cOffset c1) with (cOffset c). rewrite Ho. change (longestResult (cResults c1) 0 3) with (longestResult (cResults c) 0 3). rewrite Ha. auto. }
  rewrite Ef in E0. injection E0 as <-. cbn [cMatchLast cOffset success negb orb] in E. assert (Hlt : (0 <? t) = true) by (apply Nat.ltb_lt; auto). rewrite Hlt in E. cbn [negb orb] in E.
  change ((0 <? 1)%Z && (Z.of_nat 1 =? 1)%Z)%bool with true in E. cbv iota in E. destruct n as [|n]; [discriminate|]. cbn [seqLoop nth_error] in E. injection E as <-.
  change (hasFlag 256%N CNoKeyword) with false in Hk. cbv iota in Hk. cbn [bind] in Hk. apply seq_done in Hk. destruct Hk as (M3 & O3 & C3). split; [auto|]. split; [auto|].
  cbn [filter map] in C3. assert (E3 : pending (cResults (success c1 t)) 0 3 = true). { apply pending_pcount. simpl. rewrite pcount_mark. apply pending_pcount in Hp3. lia. }
  rewrite E3 in C3. eapply (chg_trans []); [|exact C3]. apply chg_same; auto.
Qed.
(** y at the start: one character more *)
Lemma P_yzero n t c c' : cinv c -> cOffsetLimit c = None -> cOffset c = 0 -> longestResult (cResults c) 0 3 = LMatch t -> 0 < t -> t < N ->
  pending (cResults c) 0 4 = false -> pending (cResults c) 0 5 = false -> pending (cResults c) 0 3 = true -> freshAt t c ->
  run n 4 c = Ok c' -> cMatchLast c' = true /\ cOffset c' = S t /\
  chg [(0, 4, t); (0, 3, t); (t, 2, S t); (t, 3, S t); (t, 4, S t); (0, 5, S t); (0, 3, S t)] c c'.
Proof.
  intros H Hl Ho Ha Ht HtN Hp4 Hp5 Hp3 [F1 F2 F3] Hk. destruct n as [|n]; [discriminate|]. cbn [parse] in Hk. rewrite PP_eq in Hk at 1. cbn [nth_error] in Hk. unfold seqParse in Hk.
  rewrite Ho, Hp5 in Hk. cbn [negb andb] in Hk. cbv zeta in Hk. set (c1 := setResults c _) in Hk. assert (H1 : cinv c1) by (apply cinv_mark; auto).
  binv Hk. destruct n as [|n]; [discriminate|]. cbn [seqLoop nth_error] in E. binv E. rename x0 into c2. pose proof (P_post _ _ _ _ H1 E0) as (I2 & S2 & Q2 & _).
  assert (Hpc : forall o i, i <> 5 -> pcount (cResults c1) o i = pcount (cResults c) o i). { intros o i Hi. unfold c1. simpl. rewrite pcount_mark. destruct (Nat.eqb_spec 5 i); [congruence|]. simpl. lia. }
  assert (Hpd : forall o i, i <> 5 -> pending (cResults c1) o i = pending (cResults c) o i).
  { intros o i Hi. destruct (pending (cResults c) o i) eqn:E1; [apply pending_pcount in E1; apply pending_pcount; rewrite Hpc; auto|apply pending_false in E1; apply pending_false; rewrite Hpc; auto]. }
  apply (P_xzero _ t) in E0; auto; [|rewrite Hpd; auto|rewrite Hpd; auto]. destruct E0 as (M2 & O2 & C2). rewrite M2, O2 in E. assert (Hlt : (0 <? t) = true) by (apply Nat.ltb_lt; auto). rewrite Hlt in E.
  cbn [negb orb] in E. change ((0 <? 2)%Z && (Z.of_nat 1 =? 2)%Z)%bool with false in E. cbv iota in E. destruct n as [|n]; [discriminate|]. cbn [seqLoop nth_error] in E. binv E. rename x0 into c3.
  pose proof (P_post _ _ _ _ I2 E0) as (I3 & S3 & Q3 & _).
  apply (P_xfresh _ t) in E0; auto.
  2:{ rewrite (st_limit _ _ S2). auto. }
  2:{ split.
      - intros i. rewrite Q2. unfold c1. simpl. rewrite pcount_mark, F1. destruct (Nat.eqb_spec 0 t); [lia|]. rewrite Bool.andb_false_r. auto.
      - intros i t' Hs. apply (cg_st _ _ _ C2) in Hs. destruct Hs as [Hs|[E1|[E1|[]]]]; [exact (F2 _ _ Hs)|injection E1 as E1 _ _; lia|injection E1 as E1 _ _; lia].
      - intros i. rewrite (cg_nm _ _ _ C2). apply F3. }
  destruct E0 as (M3 & O3 & C3). rewrite M3, O3, ltb_S in E. cbn [negb orb] in E. change ((0 <? 2)%Z && (Z.of_nat 2 =? 2)%Z)%bool with true in E. cbv iota in E. destruct n as [|n]; [discriminate|]. cbn [seqLoop nth_error] in E. injection E as <-.
  change (hasFlag 256%N CNoKeyword) with false in Hk. cbv iota in Hk. cbn [bind] in Hk. apply seq_done in Hk. destruct Hk as (M4 & O4 & C4). split; [auto|]. split; [auto|].
  cbn [filter map] in C4. rewrite (pending_same _ _ _ _ Q3), (pending_same _ _ _ _ Q2), Hpd, Hp3 in C4 by lia.
  assert (C1 : chg [] c c1) by (apply chg_same; auto). exact (chg_trans _ _ _ _ _ C1 (chg_trans _ _ _ _ _ C2 (chg_trans _ _ _ _ _ C3 C4))).
Qed.

(** x and y at the start while nothing is known *)
Lemma P_xfirst n c c' : cOffset c = 0 -> (forall i t, ~ stored (cResults c) 0 i t) -> (forall i, noMatchHas (cResults c) 0 i = false) ->
  pending (cResults c) 0 4 = false -> pending (cResults c) 0 3 = true -> run n 3 c = Ok c' -> cMatchLast c' = false /\ cOffset c' = 0 /\ chg [] c c'.
Proof.
  intros Ho Hs Hn Hp Hp3 Hk. destruct n as [|n]; [discriminate|]. cbn [parse] in Hk. rewrite PP_eq in Hk at 1. cbn [nth_error] in Hk. unfold seqParse in Hk.
  rewrite Ho, Hp in Hk. cbn [negb andb] in Hk. cbv zeta in Hk. set (c1 := setResults c _) in Hk. binv Hk. destruct n as [|n]; [discriminate|]. cbn [seqLoop nth_error] in E. binv E. rename x0 into c2.
  assert (Hlr : forall i, longestResult (cResults c) 0 i = LUnknown). { intros i. unfold longestResult. rewrite Hn. rewrite (proj2 (longestMatch_none _ _ _) (Hs i)). auto. }
  cbn [parse] in E0. rewrite PP_eq in E0 at 1. cbn [nth_error] in E0. unfold choiceParse in E0. assert (Ef : fromResults c1 3 = None).
  { unfold fromResults. change (cOffset c1) with (cOffset c). rewrite Ho. change (longestResult (cResults c1) 0 3) with (longestResult (cResults c) 0 3). rewrite Hlr. auto. }
  rewrite Ef in E0. change (cOffset c1) with (cOffset c) in E0. rewrite Ho in E0. assert (Hp3' : pending (cResults c1) 0 3 = true). { apply pending_pcount. unfold c1. simpl. rewrite pcount_mark. apply pending_pcount in Hp3. lia. }
  rewrite Hp3' in E0. injection E0 as <-. cbn [cMatchLast fail negb] in E. change (1 <=? Z.of_nat 0)%Z with false in E. cbv iota zeta in E.
  assert (Ef4 : fromResults (setOffset (fail c1 0) 0) 4 = None). { unfold fromResults. simpl. change (longestResult (markPending (cResults c) 0 4) 0 4) with (longestResult (cResults c) 0 4). rewrite Hlr. auto. }
  rewrite Ef4 in E. binv E. injection E as <-. injection Hk as <-. apply chg_unmark in E0. destruct E0 as (E1 & E2 & E3). rewrite E2, E3. split; [auto|]. split; [auto|].
  eapply (chg_trans [] []); [|exact E1]. set (c3 := setOffset _ _). eapply (chg_trans [] [] _ (blame 3 256%N c3)); [|apply chg_same; reflexivity]. eapply (chg_trans [] [] _ c3); [|apply chg_blame]. apply chg_same; auto.
Qed.
Lemma P_yfirst n c c' : cOffset c = 0 -> (forall i t, ~ stored (cResults c) 0 i t) -> (forall i, noMatchHas (cResults c) 0 i = false) ->
  pending (cResults c) 0 5 = false -> pending (cResults c) 0 4 = false -> pending (cResults c) 0 3 = true -> run n 4 c = Ok c' -> cMatchLast c' = false /\ cOffset c' = 0 /\ chg [] c c'.
Proof.
  intros Ho Hs Hn Hp Hp4 Hp3 Hk. destruct n as [|n]; [discriminate|]. cbn [parse] in Hk. rewrite PP_eq in Hk at 1. cbn [nth_error] in Hk. unfold seqParse in Hk.
  rewrite Ho, Hp in Hk. cbn [negb andb] in Hk. cbv zeta in Hk. set (c1 := setResults c _) in Hk. binv Hk. destruct n as [|n]; [discriminate|]. cbn [seqLoop nth_error] in E. binv E. rename x0 into c2.
  assert (C1 : chg [] c c1) by (apply chg_same; auto). apply P_xfirst in E0; auto.
  2:{ apply pending_false. unfold c1. simpl. rewrite pcount_mark. apply pending_false in Hp4. rewrite Hp4. auto. }
  2:{ apply pending_pcount. unfold c1. simpl. rewrite pcount_mark. apply pending_pcount in Hp3. lia. }
  destruct E0 as (M2 & O2 & C2). pose proof (chg_trans _ _ _ _ _ C1 C2) as C3. rewrite M2 in E. cbn [negb] in E. change (2 <=? Z.of_nat 0)%Z with false in E. cbv iota zeta in E.
  assert (Ef : fromResults (setOffset c2 0) 5 = None).
  { unfold fromResults, longestResult. simpl. rewrite (cg_nm _ _ _ C3), Hn. rewrite (proj2 (longestMatch_none (cResults c2) 0 5)); auto. intros t Hx. apply (cg_st _ _ _ C3) in Hx. destruct Hx as [Hx|[]]. exact (Hs _ _ Hx). }
  rewrite Ef in E. binv E. injection E as <-. injection Hk as <-. apply chg_unmark in E0. destruct E0 as (E1 & E2 & E3). rewrite E2, E3. split; [auto|]. split; [auto|].
  eapply (chg_trans [] []); [|exact E1]. set (c4 := setOffset _ _). eapply (chg_trans [] [] _ (blame 4 256%N c4)); [|apply chg_same; reflexivity]. eapply (chg_trans [] [] _ c4); [|apply chg_blame]. eapply (chg_trans [] []); [exact C3|]. apply chg_same; auto.
Qed.

(** the matches that are needed: those of a, x and y from the start up to [t] *)
Definition known (t : nat) (r : results) : Prop :=
  (forall k, 1 <= k -> k <= t -> stored r 0 3 k) /\ (forall k, 2 <= k -> k <= t -> stored r 0 5 k) /\ (forall k, 1 <= k -> k <= t -> k < t \/ 2 <= k -> stored r 0 4 k).
(** between the passes over the options of a at the start: a has been found up to [t] *)
Record rnd (t : nat) (s : chState) (c : context) : Prop := mkRnd {
  r_inv : cinv c; r_lim : cOffsetLimit c = None; r_off : cOffset c = 0;
  r_p3 : pending (cResults c) 0 3 = true; r_p4 : pending (cResults c) 0 4 = false; r_p5 : pending (cResults c) 0 5 = false;
  r_nm : noMatchHas (cResults c) 0 3 = false; r_m : chMatch s = true; r_to : chTo s = t; r_pos : 0 < t;
  r_top : forall k, stored (cResults c) 0 3 k -> k <= t;
  r_fresh : forall o, t <= o -> freshAt o c;
  r_known : known t (cResults c) }.
Lemma chg_keep L c c' o i t : chg L c c' -> stored (cResults c) o i t -> stored (cResults c') o i t.
Proof. intros [A _] H. apply A. auto. Qed.

Lemma P_round n t s c s' c' : rnd t s c -> t < N -> choicePass (run n) 3 0 [4; 3; 1] s c = Ok (s', c') -> rnd (S t) s' c' /\ chFound s' = true.
Proof.
  intros [A1 A2 A3 A4 A5 A6 A7 A8 A9 A10 A11 A12 (K3 & K5 & K4)] Ht Hk. rewrite pass_cons in Hk. binv Hk. rename x into c1. pose proof (P_post _ _ _ _ A1 E) as (I1 & S1 & Q1 & _).
  assert (Hlr : longestResult (cResults c) 0 3 = LMatch t). { unfold longestResult. rewrite A7. rewrite (proj2 (longestMatch_some (cResults c) 0 3 t)); auto. }
  apply (P_yzero _ t) in E; auto. destruct E as (M1 & O1 & C1). rewrite M1, O1 in Hk. cbn [negb andb orb] in Hk. cbv zeta in Hk. rewrite A8, A9 in Hk. assert (Hle : (S t <=? t) = false) by (apply Nat.leb_gt; lia). rewrite Hle in Hk. cbn [andb] in Hk.
  match type of Hk with choicePass _ _ _ _ ?s0 ?cc = _ => set (s1 := s0) in Hk; set (c2 := cc) in Hk end.
  set (L1 := [(0, 4, t); (0, 3, t); (t, 2, S t); (t, 3, S t); (t, 4, S t); (0, 5, S t); (0, 3, S t)]) in *.
  assert (C2 : chg L1 c c2). { split; [|intros; rewrite <- (cg_nm _ _ _ C1); apply noMatchHas_ext, noMatch_setMatch]. intros o i k. unfold c2. simpl cResults. rewrite stored_setMatch, (cg_st _ _ _ C1). unfold L1. simpl. split; [intros [Hx|(-> & -> & ->)]; [exact Hx|auto 10]|tauto]. }
  assert (Q2 : samePending c c2). { intros a b. unfold c2. simpl. rewrite pcount_setMatch. apply Q1. }
  assert (I2 : cinv c2). { pose proof (ci_off _ _ _ _ I1) as Hx. rewrite O1 in Hx. apply (cinv_setMatch input REof PG (setOffset c1 0)); simpl; [lia|exact Hx|unfold PG; simpl; lia|]. apply cinv_offset; auto. lia. }
  rewrite pass_cons in Hk. binv Hk. rename x into c3. pose proof (P_post _ _ _ _ I2 E) as (I3 & S3 & Q3 & _). apply (P_xzero _ (S t)) in E; auto; [| |rewrite (pending_same _ _ _ _ Q2); auto|rewrite (pending_same _ _ _ _ Q2); auto].
  2:{ unfold longestResult. rewrite (cg_nm _ _ _ C2), A7. rewrite (proj2 (longestMatch_some (cResults c2) 0 3 (S t))); auto. split; [apply (cg_st _ _ _ C2); right; unfold L1; simpl; auto 10|].
      intros k Hx. apply (cg_st _ _ _ C2) in Hx. destruct Hx as [Hx|Hx]; [apply A11 in Hx; lia|]. unfold L1 in Hx. simpl in Hx. repeat destruct Hx as [Hx|Hx]; try (injection Hx; lia); contradiction. }
  destruct E as (M3 & O3 & C3). rewrite M3, O3 in Hk. cbn [negb andb orb] in Hk. cbv zeta in Hk. unfold s1 in Hk. cbn [chMatch chTo andb] in Hk. rewrite Nat.leb_refl in Hk. fold s1 in Hk.
  rewrite pass_cons in Hk. binv Hk. rename x into c4. assert (I3' : cinv (setOffset c3 0)) by (apply cinv_offset; auto; lia). pose proof (P_post _ _ _ _ I3' E) as (I4 & S4 & Q4 & _).
  apply P_b in E; auto; [|simpl; rewrite (st_limit _ _ S3); unfold c2; simpl; rewrite (st_limit _ _ S1); auto|simpl; lia]. simpl cOffset in E. change (cResults (setOffset c3 0)) with (cResults c3) in E.
  assert (Q5 : samePending c c3) by (eapply samePending_trans; eauto). rewrite (pending_same _ _ _ _ Q5), A4 in E. destruct E as (M4 & O4 & C4). rewrite M4, O4 in Hk. cbn [negb andb orb] in Hk. cbv zeta in Hk. unfold s1 in Hk. cbn [chMatch chTo andb] in Hk. assert (Hle1 : (1 <=? S t) = true) by (apply Nat.leb_le; lia). rewrite Hle1 in Hk. injection Hk as <- <-. split; [|auto].
  assert (C4' : chg [(0, 2, 1); (0, 3, 1)] c3 (setOffset c4 0)) by (split; apply C4). pose proof (chg_trans _ _ _ _ _ C2 (chg_trans _ _ _ _ _ C3 C4')) as C.
  assert (Q : samePending c (setOffset c4 0)). { intros a b. simpl. rewrite Q4. apply Q5. } set (c5 := setOffset c4 0) in *.
  assert (Hst : forall k, stored (cResults c5) 0 3 k -> k <= S t). { intros k Hx. apply (cg_st _ _ _ C) in Hx. destruct Hx as [Hx|Hx]; [apply A11 in Hx; lia|]. unfold L1 in Hx. simpl in Hx. repeat destruct Hx as [Hx|Hx]; try (injection Hx; lia); contradiction. }
  assert (Hin : forall i, In (0, i, S t) (L1 ++ [(0, 4, S t); (0, 3, S t)] ++ [(0, 2, 1); (0, 3, 1)]) -> stored (cResults c5) 0 i (S t)) by (intros i Hi; apply (cg_st _ _ _ C); auto).
  assert (I5 : cinv c5) by (apply cinv_offset; auto; lia). split; auto; rewrite ?(pending_same _ _ _ _ Q), ?(cg_nm _ _ _ C); auto; try lia; [unfold c5; simpl; rewrite (st_limit _ _ S4); simpl; rewrite (st_limit _ _ S3); unfold c2; simpl; rewrite (st_limit _ _ S1); auto| |].
  - intros o Ho. destruct (A12 o ltac:(lia)) as [F1 F2 F3]. split; [intros; rewrite Q; auto| |intros; rewrite (cg_nm _ _ _ C); auto].
    intros i k Hx. apply (cg_st _ _ _ C) in Hx. destruct Hx as [Hx|Hx]; [exact (F2 _ _ Hx)|]. unfold L1 in Hx. simpl in Hx. repeat destruct Hx as [Hx|Hx]; try (injection Hx; lia); contradiction.
  - split; [|split].
    + intros k H1 H2. destruct (Nat.eq_dec k (S t)) as [->|Hne]; [apply Hin; simpl; auto 20|]. eapply chg_keep; [exact C|]. apply K3; lia.
    + intros k H1 H2. destruct (Nat.eq_dec k (S t)) as [->|Hne]; [apply Hin; simpl; auto 20|]. eapply chg_keep; [exact C|]. apply K5; lia.
    + intros k H1 H2 _. destruct (Nat.eq_dec k (S t)) as [->|Hne]; [apply Hin; simpl; auto 20|]. destruct (Nat.eq_dec k t) as [->|Hne2]; [apply (cg_st _ _ _ C); right; simpl; auto|]. eapply chg_keep; [exact C|]. apply K4; lia.
Qed.

Lemma P_first n s c s' c' : cinv c -> cOffsetLimit c = None -> cOffset c = 0 -> 0 < N -> chMatch s = false ->
  pending (cResults c) 0 3 = true -> pending (cResults c) 0 4 = false -> pending (cResults c) 0 5 = false ->
  (forall i t, ~ stored (cResults c) 0 i t) -> (forall i, noMatchHas (cResults c) 0 i = false) -> (forall o, 0 < o -> freshAt o c) ->
  choicePass (run n) 3 0 [4; 3; 1] s c = Ok (s', c') -> rnd 1 s' c' /\ chFound s' = true.
Proof.
  intros A1 A2 A3 HN Am A4 A5 A6 As An Af Hk. rewrite pass_cons in Hk. binv Hk. rename x into c1. pose proof (P_post _ _ _ _ A1 E) as (I1 & S1 & Q1 & _).
  apply P_yfirst in E; auto. destruct E as (M1 & O1 & C1). rewrite M1 in Hk. cbn [negb andb orb] in Hk. cbv zeta in Hk.
  match type of Hk with choicePass _ _ _ _ ?s0 ?cc = _ => set (s1 := s0) in Hk; set (c2 := cc) in Hk end.
  assert (Es1 : chMatch s1 = false) by (unfold s1; destruct (_ <? _)%Z; auto). clearbody s1.
  assert (I2 : cinv c2) by (apply cinv_offset; auto; lia). assert (Q2 : samePending c c2) by (intros a b; apply Q1). assert (C2 : chg [] c c2) by (split; apply C1).
  assert (B2 : forall i t, ~ stored (cResults c2) 0 i t). { intros i t Hx. apply (cg_st _ _ _ C2) in Hx. destruct Hx as [Hx|[]]. exact (As _ _ Hx). }
  rewrite pass_cons in Hk. binv Hk. rename x into c3. pose proof (P_post _ _ _ _ I2 E) as (I3 & S3 & Q3 & _).
  apply P_xfirst in E; auto; [|intros i; rewrite (cg_nm _ _ _ C2); auto|rewrite (pending_same _ _ _ _ Q2); auto|rewrite (pending_same _ _ _ _ Q2); auto].
  destruct E as (M3 & O3 & C3). rewrite M3 in Hk. cbn [negb andb orb] in Hk. cbv zeta in Hk.
  match type of Hk with choicePass _ _ _ _ ?s0 ?cc = _ => set (s2 := s0) in Hk; set (c4 := cc) in Hk end.
  assert (Es2 : chMatch s2 = false) by (unfold s2; destruct (_ <? _)%Z; auto). clearbody s2.
  assert (I4 : cinv c4) by (apply cinv_offset; auto; lia). assert (Q4 : samePending c c4) by (intros a b; unfold c4; simpl; rewrite Q3; apply Q2).
  assert (C4 : chg [] c c4). { eapply (chg_trans [] []); [exact C2|]. split; apply C3. }
  rewrite pass_cons in Hk. binv Hk. rename x into c5. pose proof (P_post _ _ _ _ I4 E) as (I5 & S5 & Q5 & _).
  assert (L4 : cOffsetLimit c4 = None). { unfold c4. simpl. rewrite (st_limit _ _ S3). unfold c2. simpl. rewrite (st_limit _ _ S1). auto. }
  apply P_b in E; auto. change (cOffset c4) with 0 in E. rewrite (pending_same _ _ _ _ Q4), A4 in E. destruct E as (M5 & O5 & C5). rewrite M5, O5 in Hk. cbn [negb andb orb] in Hk. cbv zeta in Hk. rewrite Es2 in Hk. cbn [andb] in Hk. injection Hk as <- <-. split; [|auto].
  set (c6 := setResults _ _).
  assert (C6 : chg [(0, 2, 1); (0, 3, 1)] c c6). { split; [|intros; rewrite <- (cg_nm _ _ _ C4), <- (cg_nm _ _ _ C5); apply noMatchHas_ext, noMatch_setMatch].
    intros o i t. unfold c6. simpl cResults. rewrite stored_setMatch, (cg_st _ _ _ C5), (cg_st _ _ _ C4). simpl. split; [intros [Hx|(-> & -> & ->)]; [tauto|auto]|tauto]. }
  assert (Q6 : samePending c c6). { intros a b. unfold c6. simpl. rewrite pcount_setMatch, Q5. apply Q4. }
  assert (I6 : cinv c6). { pose proof (ci_off _ _ _ _ I5) as Hx. rewrite O5 in Hx. apply (cinv_setMatch input REof PG (setOffset c5 0)); simpl; [lia|exact Hx|unfold PG; simpl; lia|]. apply cinv_offset; auto. lia. }
  split; auto; rewrite ?(pending_same _ _ _ _ Q6), ?(cg_nm _ _ _ C6); auto.
  - unfold c6. simpl. rewrite (st_limit _ _ S5). auto.
  - intros k Hx. apply (cg_st _ _ _ C6) in Hx. destruct Hx as [Hx|Hx]; [destruct (As _ _ Hx)|]. simpl in Hx. repeat destruct Hx as [Hx|Hx]; try (inversion Hx; lia); contradiction.
  - intros o Ho. destruct (Af o Ho) as [F1 F2 F3]. split; [intros; rewrite Q6; auto| |intros; rewrite (cg_nm _ _ _ C6); auto].
    intros i k Hx. apply (cg_st _ _ _ C6) in Hx. destruct Hx as [Hx|Hx]; [exact (F2 _ _ Hx)|]. simpl in Hx. repeat destruct Hx as [Hx|Hx]; try (inversion Hx; lia); contradiction.
  - split; [|split]; intros k H1 H2; [|lia|lia]. assert (k = 1) by lia. subst k. apply (cg_st _ _ _ C6). right. simpl. auto.
Qed.

(** all matches have been found, and stay *)
Definition full (r : results) : Prop := known N r /\ noMatchHas r 0 3 = false.
Lemma full_set r o i t : full r -> full (setMatch r o i t).
Proof.
  intros [(A & B & C) D]. split; [|rewrite <- D; apply noMatchHas_ext, noMatch_setMatch]. split; [|split]; intros; apply stored_setMatch; left; auto.
Qed.
Lemma full_no r o i : 0 < N -> full r -> full (setNoMatch r o i).
Proof.
  intros HN [(A & B & C) D]. assert (Hs : forall o' i' t, stored r o' i' t -> stored (setNoMatch r o i) o' i' t) by (intros; unfold stored; rewrite matchRow_setNoMatch; auto).
  split; [split; [|split]; intros; apply Hs; auto|]. unfold setNoMatch. destruct (existsb (entryId i) (matchRow r o)) eqn:E; auto.
  destruct (noMatchHas (setNoMatch r o i) 0 3) eqn:E2; [|unfold setNoMatch in E2; rewrite E in E2; auto].
  exfalso. apply noMatchHas_setNoMatch in E2. destruct E2 as [E2|(E2 & E3 & E4)]; [congruence|]. subst o i. exact (E4 _ (A 1 ltac:(lia) ltac:(lia))).
Qed.
Lemma full_same r r' : rMatch r' = rMatch r -> rNoMatch r' = rNoMatch r -> full r -> full r'.
Proof. intros H1 H2 [(A & B & C) D]. split; [split; [|split]; intros; rewrite (stored_ext _ _ H1); auto|rewrite (noMatchHas_ext _ _ H2); auto]. Qed.
Lemma P_full n p c c' : 0 < N -> run n p c = Ok c' -> full (cResults c) -> full (cResults c').
Proof. intros HN. apply (parse_keeps PP [] full); [intros; apply full_set; auto|intros; apply full_no; auto|exact full_same]. Qed.

Lemma P_loop n : forall k t s c s' c', 0 < N -> rnd t s c -> t <= N -> choiceLoop (run n) k 3 0 [4; 3; 1] s c = Ok (s', c') -> full (cResults c').
Proof.
  induction k as [|k IH]; intros t s c s' c' HN Hr Ht Hk; [discriminate|]. destruct (Nat.eq_dec t N) as [->|Hne].
  - eapply (choiceLoop_keeps PP [] full) in Hk; eauto; [intros; apply full_set; auto|intros a c1 c2; apply P_full; auto|]. split; apply Hr.
  - cbn [choiceLoop] in Hk. binv Hk. destruct x as [s1 c1]. apply (P_round _ t) in E; [|destruct Hr; split; auto|lia]. destruct E as [Hr1 Hf]. rewrite Hf in Hk. eapply IH in Hk; eauto. lia.
Qed.

Lemma P_run n c : 0 < N -> run n 2 (newContext input REof) = Ok c -> cinv c /\ full (cResults c) /\ StoreFacts.once (cResults c).
Proof.
  intros HN Hk. assert (I0 : cinv (newContext input REof)) by apply cinv_new. split; [exact (proj1 (P_post _ _ _ _ I0 Hk))|]. split; [|eapply parse_once; eauto; intros o i t; unfold matchRow; simpl; destruct o; unfold entCount; simpl; lia].
  destruct n as [|n]; [discriminate|]. cbn [parse] in Hk. rewrite PP_eq in Hk at 1. cbn [nth_error] in Hk. unfold choiceParse in Hk.
  change (fromResults (newContext input REof) 3) with (@None context) in Hk. change (pending (cResults (newContext input REof)) (cOffset (newContext input REof)) 3) with false in Hk. cbv iota zeta in Hk.
  set (c1 := setResults (newContext input REof) _) in Hk. change (cOffset c1) with 0 in Hk. binv Hk. destruct x as [s2 c2].
  assert (Hpc : forall o i, pcount (cResults c1) o i = if ((3 =? i) && (0 =? o))%bool then 1 else 0). { intros o i. unfold c1. simpl cResults. rewrite pcount_mark. unfold pcount. simpl. destruct i; auto. }
  assert (Hst : forall o i t, ~ stored (cResults c1) o i t). { intros o i t. unfold stored, matchRow. simpl. destruct o; auto. }
  assert (Hnm : forall o i, noMatchHas (cResults c1) o i = false). { intros o i. unfold noMatchHas. simpl. destruct o; auto. }
  assert (Hf : full (cResults c2)).
  { destruct n as [|n]; [discriminate|]. cbn [choiceLoop] in E. binv E. destruct x as [s3 c3]. apply P_first in E0; auto; try (apply cinv_mark; auto).
    - destruct E0 as [Hr Hf]. rewrite Hf in E. eapply (P_loop _ _ 1); eauto.
    - intros o Ho. split; auto. intros i. rewrite Hpc. destruct (3 =? i), o; simpl; auto. lia. }
  assert (Hu : forall q q', mapResults (fun r => unmarkPending r 0 3) q = Ok q' -> full (cResults q) -> full (cResults q')).
  { intros q q' Hq Hq2. unfold mapResults in Hq. binv Hq. injection Hq as <-. apply unmark_match in E0. destruct E0 as [X Y]. eapply full_same; eauto. }
  destruct (chMatch s2).
  - change (hasFlag 384%N CNoKeyword) with false in Hk. cbv iota in Hk. cbn [bind] in Hk. apply Hu in Hk; auto. repeat match goal with |- context [if ?b then _ else _] => destruct b end; auto.
  - apply Hu in Hk; auto. simpl. apply full_no; auto. destruct (_ <? _)%Z; auto. match goal with |- context [blame 2 ?ct ?cc] => destruct (sameTR_blame 2 ct cc) as (_ & Hb & _); rewrite Hb end. auto.
Qed.

(** ** building *)
(** what is stored from the start while the match of a up to [t] is to be built *)
Definition upto (t : nat) (r : results) : Prop :=
  StoreFacts.once r /\ (forall k, stored r 0 3 k <-> 1 <= k <= t) /\ (forall k, stored r 0 5 k <-> 2 <= k <= t) /\ (forall k, stored r 0 4 k <-> 1 <= k <= t).
Fixpoint twin (t : nat) : node :=
  match t with
  | 0 => Node "a" 0 0 []
  | 1 => Node "a" 0 1 [Node "x" 0 1 []]
  | S t' => Node "a" 0 t [Node "y" 0 t [Node "x" 0 t [twin t']; Node "x" 0 t [twin t']]]
  end.
Lemma stored_row r o i t : stored r o i t -> o < List.length (rMatch r).
Proof. unfold stored, matchRow. intros H. destruct (Nat.lt_ge_cases o (List.length (rMatch r))); auto. rewrite nth_overflow in H; auto. destruct H. Qed.
Lemma enter_ok c id gs t i k : cOffset c = 0 -> 0 < t -> stored (cResults c) 0 i k -> StoreFacts.once (cResults c) ->
  exists c', enterBuild c id gs t = Ok (Some c') /\ cOffset c' = 0 /\ cTokens c' = cTokens c /\ 0 < List.length (rMatch (cResults c')) /\ StoreFacts.once (cResults c') /\
  forall o j v, stored (cResults c') o j v <-> stored (cResults c) o j v /\ ~ (o = 0 /\ In j (id :: gs) /\ v = t).
Proof.
  intros Ho Ht Hs Hon. apply stored_row in Hs.
  assert (Hf : forall l r, 0 < List.length (rMatch r) -> exists r', forIds (fun r g => dropMatchTo r 0 g t) l r = Ok r' /\ 0 < List.length (rMatch r')).
  { induction l as [|g l IH]; intros r Hr; cbn [forIds]; [eauto|]. destruct (dropMatchTo_ok r 0 g t Hr) as [r1 E]. rewrite E. cbn [bind]. apply IH. destruct (matchRow_drop _ _ _ _ _ E) as (_ & -> & _). auto. }
  destruct (Hf (id :: gs) _ Hs) as (r' & E & Hl). assert (He : enterBuild c id gs t = Ok (Some (setResults c r'))).
  { unfold enterBuild. rewrite Ho. apply Nat.ltb_lt in Ht. rewrite Ht, E. auto. }
  eexists. split; [exact He|]. split; [auto|]. split; [auto|]. split; [auto|]. apply once_enter in He; [|lia|auto]. rewrite Ho in He. exact He.
Qed.

Lemma longest_is r o i t : stored r o i t -> (forall k, stored r o i k -> k <= t) -> longestMatch r o i = Some t.
Proof. intros. apply longestMatch_some. auto. Qed.
Lemma ltb_pos t : 0 < t -> (0 <? t) = true.
Proof. apply Nat.ltb_lt. Qed.
(** x, once a has been built *)
Lemma B_x n t c c2 ns b : cOffset c = 0 -> 0 < t -> StoreFacts.once (cResults c) -> (forall k, stored (cResults c) 0 4 k <-> 1 <= k <= t) -> 
  (forall c1, cOffset c1 = 0 -> cTokens c1 = cTokens c -> StoreFacts.once (cResults c1) ->
     (forall o j v, stored (cResults c1) o j v <-> stored (cResults c) o j v /\ ~ (o = 0 /\ In j [4; 3] /\ v = t)) -> build PP (S (S n)) 2 c1 = Ok (ns, b, c2 c1) /\ cOffset (c2 c1) = 0 /\ cTokens (c2 c1) = cTokens c) ->
  (b = false -> ns = []) ->
  exists c', build PP (S (S (S n))) 3 c = Ok ([Node "x" 0 t ns], true, c') /\ cOffset c' = 0 /\ cTokens c' = cTokens c.
Proof.
  intros Ho Ht Hon H4 Hb Hns. assert (Hs : stored (cResults c) 0 4 t) by (apply H4; lia). destruct (enter_ok c 4 [3] t _ _ Ho Ht Hs Hon) as (c1 & He & O1 & T1 & _ & N1 & S1).
  destruct (Hb c1 O1 T1 N1 S1) as (B1 & O2 & T2).
  assert (E : build PP (S (S (S n))) 3 c = seqBuild (build PP (S (S n))) (S (S n)) "x" 4 256%N [2] [(1, 1)%Z; (1, 1)%Z] [3] false c) by reflexivity.
  rewrite E. unfold seqBuild. rewrite Ho. rewrite (longest_is _ _ _ t Hs) by (intros k Hk; apply H4 in Hk; lia). rewrite He. cbn [bind].
  assert (L : buildLoop (build PP (S (S n))) (S (S n)) [2] [(1, 1)%Z; (1, 1)%Z] 0 0 [] c1 = Ok (ns, c2 c1)).
  { cbn [buildLoop nth_error]. rewrite B1. cbn [bind]. destruct b.
    - rewrite O1, O2. change (0 <? 0) with false. change (Z.to_nat (1 - Z.of_nat 0)) with 1. cbn [repeat List.concat app]. rewrite app_nil_r. auto.
    - rewrite Hns; auto. }
  rewrite L. cbn [bind]. unfold leaveBuild. rewrite ltb_pos by auto. cbn [bind]. change (hasFlag 256%N CAlias) with false. cbv iota. eauto.
Qed.
Lemma B_a : forall t n c, 1 <= t -> upto t (cResults c) -> cOffset c = 0 -> 3 * t + 3 <= n ->
  exists c', build PP n 2 c = Ok ([twin t], true, c') /\ cOffset c' = 0 /\ cTokens c' = cTokens c.
Proof.
  induction t as [|t IH]; intros n c Ht (Hon & H3 & H5 & H4) Ho Hn; [lia|]. destruct n as [|n]; [lia|].
  assert (Hs : stored (cResults c) 0 3 (S t)) by (apply H3; lia). destruct (enter_ok c 3 [] (S t) _ _ Ho Ht Hs Hon) as (c1 & He & O1 & T1 & R1 & N1 & S1).
  assert (E : forall m, build PP (S m) 2 c = choiceBuild (build PP m) PP "a" 3 384%N [4; 3; 1] [] c) by reflexivity.
  rewrite E. unfold choiceBuild. rewrite Ho. rewrite (longest_is _ _ _ (S t) Hs) by (intros k Hk; apply H3 in Hk; lia). rewrite He. cbn [bind]. rewrite O1.
  assert (H4' : forall k, stored (cResults c1) 0 4 k <-> 1 <= k <= S t). { intros k. rewrite S1, H4. simpl. split; [tauto|]. intros Hk. split; auto. intros (_ & [Hx|[]] & _). discriminate. }
  assert (H5' : forall k, stored (cResults c1) 0 5 k <-> 2 <= k <= S t). { intros k. rewrite S1, H5. simpl. split; [tauto|]. intros Hk. split; auto. intros (_ & [Hx|[]] & _). discriminate. }
  assert (H3' : forall k, stored (cResults c1) 0 3 k <-> 1 <= k <= t). { intros k. rewrite S1, H3. simpl. split; [intros [Hk Hne]; assert (k <> S t) by (intros ->; apply Hne; auto); lia|]. intros Hk. split; [lia|]. intros (_ & _ & Hx). lia. }
  destruct t as [|t].
  - assert (Hp : pickOption PP (cResults c1) 0 1 [4; 3; 1] = Ok (Some 3)).
    { cbn [pickOption]. rewrite PP_eq. cbn [nth_error nodeID]. destruct (hasMatchTo (cResults c1) 0 5 1) eqn:E5; [apply hasMatchTo_stored, H5' in E5; lia|].
      assert (E4 : hasMatchTo (cResults c1) 0 4 1 = true) by (apply hasMatchTo_stored, H4'; lia). rewrite E4. auto. }
    rewrite Hp. cbn [bind]. destruct n as [|[|[|n]]]; try lia.
    destruct (B_x n 1 c1 (fun c => c) [] false O1 Ht N1 H4') as (c2 & B2 & O2 & T2); auto.
    + intros c2 O2 T2 N2 S2. split; [|auto]. assert (E2 : build PP (S (S n)) 2 c2 = choiceBuild (build PP (S n)) PP "a" 3 384%N [4; 3; 1] [] c2) by reflexivity. rewrite E2. unfold choiceBuild.
      rewrite O2. rewrite (proj2 (longestMatch_none (cResults c2) 0 3)); auto. intros k Hk. apply S2 in Hk. destruct Hk as [Hk _]. apply H3' in Hk. lia.
    + rewrite B2. cbn [bind]. unfold leaveBuild. rewrite ltb_pos by auto. cbn [bind]. change (hasFlag 384%N CAlias) with false. cbv iota. exists c2. rewrite T2, T1. auto.
  - assert (Hp : pickOption PP (cResults c1) 0 (S (S t)) [4; 3; 1] = Ok (Some 4)).
    { cbn [pickOption]. rewrite PP_eq. cbn [nth_error nodeID]. assert (E5 : hasMatchTo (cResults c1) 0 5 (S (S t)) = true) by (apply hasMatchTo_stored, H5'; lia). rewrite E5. auto. }
    rewrite Hp. cbn [bind]. destruct n as [|[|[|[|n]]]]; try lia.
    assert (Hs5 : stored (cResults c1) 0 5 (S (S t))) by (apply H5'; lia). destruct (enter_ok c1 5 [3] (S (S t)) _ _ O1 Ht Hs5 N1) as (c2 & He2 & O2 & T2 & _ & N2 & S2).
    assert (E2 : build PP (S (S (S (S n)))) 4 c1 = seqBuild (build PP (S (S (S n)))) (S (S (S n))) "y" 5 256%N [3] [(2, 2)%Z; (2, 2)%Z] [3] false c1) by reflexivity.
    rewrite E2. unfold seqBuild. rewrite O1. rewrite (longest_is _ _ _ _ Hs5) by (intros k Hk; apply H5' in Hk; lia). rewrite He2. cbn [bind].
    assert (H4'' : forall k, stored (cResults c2) 0 4 k <-> 1 <= k <= S (S t)). { intros k. rewrite S2, H4'. simpl. split; [tauto|]. intros Hk. split; auto. intros (_ & [Hx|[Hx|[]]] & _); discriminate. }
    assert (Hx : exists c', build PP (S (S (S n))) 3 c2 = Ok ([Node "x" 0 (S (S t)) [twin (S t)]], true, c') /\ cOffset c' = 0 /\ cTokens c' = cTokens c2).
    { assert (Hrec : forall c3, cOffset c3 = 0 -> StoreFacts.once (cResults c3) ->
        (forall o j v, stored (cResults c3) o j v <-> stored (cResults c2) o j v /\ ~ (o = 0 /\ In j [4; 3] /\ v = S (S t))) ->
        exists c', build PP (S (S n)) 2 c3 = Ok ([twin (S t)], true, c') /\ cOffset c' = 0 /\ cTokens c' = cTokens c3).
      { intros c3 O3 N3 S3. apply IH; auto; [lia| |lia]. split; [auto|]. split; [|split]; intros k; rewrite S3, S2.
        - rewrite H3'. simpl. split; [tauto|]. intros Hk. split; [split; auto|]; intros (_ & _ & Hv); lia.
        - rewrite H5'. simpl. split; [intros [[Hk Hne] _]; assert (k <> S (S t)) by (intros ->; apply Hne; auto); lia|]. intros Hk. split; [split; [lia|]|]; intros (_ & _ & Hv); lia.
        - rewrite H4'. simpl. split; [intros [[Hk _] Hne]; assert (k <> S (S t)) by (intros ->; apply Hne; auto); lia|]. intros Hk. split; [split; [lia|]|]; intros (_ & _ & Hv); lia. }
      apply (B_x n (S (S t)) c2 (fun c3 => match build PP (S (S n)) 2 c3 with Ok (_, _, c') => c' | _ => c3 end) [twin (S t)] true); auto; [|discriminate].
      intros c3 O3 T3 N3 S3. destruct (Hrec c3 O3 N3 S3) as (c4 & B4 & O4 & T4). rewrite B4. rewrite <- T3. auto. }
    destruct Hx as (c3 & B3 & O3 & T3).
    assert (L : buildLoop (build PP (S (S (S n)))) (S (S (S n))) [3] [(2, 2)%Z; (2, 2)%Z] 0 0 [] c2 = Ok ([Node "x" 0 (S (S t)) [twin (S t)]; Node "x" 0 (S (S t)) [twin (S t)]], c3)).
    { cbn [buildLoop nth_error]. rewrite B3. cbn [bind]. rewrite O2, O3. change (0 <? 0) with false. change (Z.to_nat (2 - Z.of_nat 0)) with 2. reflexivity. }
    rewrite L. cbn [bind]. unfold leaveBuild. rewrite ltb_pos by auto. cbn [bind]. change (hasFlag 256%N CAlias) with false. change (hasFlag 384%N CAlias) with false. cbv iota. cbn [bind]. exists c3.
    split; [reflexivity|]. split; [auto|]. rewrite T3, T2, T1. auto.
Qed.

Lemma P_upto c : 2 <= N -> cinv c -> full (cResults c) -> StoreFacts.once (cResults c) -> upto N (cResults c).
Proof.
  intros HN Hc [(K3 & K5 & K4) _] Ho. pose proof (cinv_len _ _ _ _ Hc) as Hl. rewrite bees_len in Hl.
  split; [auto|]. split; [|split]; intros k; (split; [intros Hs; pose proof (ci_stored _ _ _ _ Hc _ _ _ Hs); pose proof (ci_G _ _ _ _ Hc _ _ _ Hs) as Hg; unfold PG in Hg; simpl in Hg; lia|]).
  - intros Hk. apply K3; lia.
  - intros Hk. apply K5; lia.
  - intros Hk. apply K4; lia.
Qed.
Lemma P_final c : 2 <= N -> cinv c -> full (cResults c) -> cReadErr c = None /\ exists c', finalizeParse PP c 2 = Ok (c', None) /\ cResults c' = cResults c /\ cTokens c' = input.
Proof.
  intros HN Hc [(K3 & _) Hn]. assert (Hre : cReadErr c = None).
  { pose proof (ri_case _ _ _ (ci_r _ _ _ _ Hc)) as Hx. destruct (cReadErr c) as [[]|]; auto; try contradiction; exfalso.
    - destruct Hx as [Hx _]. apply bees_ok. rewrite Hx. apply in_or_app. right. left. auto.
    - destruct Hx as (_ & Hx & _). discriminate. }
  split; [auto|]. assert (Hs : stored (cResults c) 0 3 N) by (apply K3; lia). pose proof (cinv_len _ _ _ _ Hc) as Hl. rewrite bees_len in Hl.
  assert (Ef : forall cc, finalizeParse PP cc 2 = match longestResult (cResults cc) 0 3 with
    | LMatch to => if to <? cReadOffset cc then e <- parseError PP cc (match cFailingParser cc with Some p => p | None => 2 end) ;; Ok (cc, Some e)
      else let (c, _) := read cc in if cEof c then Ok (c, None) else match cReadErr c with Some e => Ok (c, Some e) | None => e <- parseError PP c 2 ;; Ok (c, Some e) end
    | _ => e <- parseError PP cc (match cFailingParser cc with Some p => p | None => 2 end) ;; Ok (cc, Some e) end) by reflexivity.
  rewrite Ef. unfold longestResult. rewrite Hn. rewrite (longest_is _ _ _ N Hs) by (intros k Hk; apply (ci_stored _ _ _ _ Hc) in Hk; lia).
  pose proof (ci_stored _ _ _ _ Hc _ _ _ Hs) as [_ Hle]. pose proof (rinv_readOffset_ok _ _ _ (ci_r _ _ _ _ Hc) bees_ok) as Hro.
  destruct (ci_r _ _ _ _ Hc) as [R1 R2 R3]. rewrite Hre in R3. destruct R3 as (R3 & R4 & R5).
  assert (Hci : cInput c = []). { pose proof bees_len as Hx. rewrite R3, app_length in Hx. destruct (cInput c); auto. simpl in Hx. lia. }
  rewrite Hci, app_nil_r in R3. destruct (Nat.ltb_spec N (cReadOffset c)); [lia|].
  unfold read. rewrite Hre, Hci, R2. destruct (cEof c) eqn:Ee.
  - rewrite Ee. exists c. auto.
  - cbn [cEof]. eexists. split; [reflexivity|]. simpl. auto.
Qed.

Lemma P_tree : 2 <= N -> exists fuel, parseInput PP [] 2 fuel input REof = Ok (Tree (twin N) input).
Proof.
  intros HN. set (fuel := Nat.max (parseFuel PP input) (3 * N + 3)). exists fuel. unfold parseInput, parseInputPB.
  assert (Hac : allCharsOk PP). { intros p nm id ct its rg gs Hp a Ha. rewrite PP_eq in *. destruct p as [|[|[|[|[|p]]]]]; simpl in Hp; try discriminate; [|destruct p; discriminate]. injection Hp as <- <- <- <- <- <-. destruct Ha as [<-|[]]. simpl. auto. }
  assert (Hkw : kwOk PP []) by (intros kw nm id ct its rg gs []).
  assert (Hwf : wfHeap PP []).
  { split; [|split]; [| |intros kw []].
    - intros a nm id ct its rg gs ac Hp. rewrite PP_eq in *. destruct a as [|[|[|[|[|p]]]]]; simpl in Hp; try discriminate; [..|destruct p; discriminate]; injection Hp as <- <- <- <- <- <- <-; simpl; (split; [intros x [<-|[]]; lia|lia]).
    - intros a nm id ct op gs Hp x Hx. rewrite PP_eq in *. destruct a as [|[|[|[|[|p]]]]]; simpl in Hp; try discriminate; [..|destruct p; discriminate]; injection Hp as <- <- <- <- <-; simpl in *. lia. }
  destruct (run fuel 2 (newContext input REof)) as [c|w|] eqn:E.
  - destruct (P_run fuel c ltac:(lia) E) as (Hc & Hf & Ho). destruct (P_final c HN Hc Hf) as (Hre & c1 & E1 & R1 & T1). cbn [bind]. rewrite Hre, E1. cbn [bind].
    set (c2 := setResults _ _). assert (Hu : upto N (cResults c2)). { destruct (P_upto c HN Hc Hf Ho) as (U1 & U2). unfold c2. cbn [cResults setResults setOffset]. rewrite R1. split; [exact U1|exact U2]. }
    destruct (B_a N fuel c2 ltac:(lia) Hu eq_refl ltac:(lia)) as (c3 & B3 & O3 & T3). rewrite B3. cbn [bind]. rewrite T3. unfold c2. cbn [cTokens setResults setOffset]. rewrite T1. auto.
  - exfalso. exact (parse_noPanic PP [] input REof Hwf bees_ok fuel 2 ltac:(rewrite PP_eq; simpl; lia) w E).
  - exfalso. exact (parse_terminates PP [] input REof Hac Hkw 2 fuel ltac:(lia) E).
Qed.
End RUN.

Lemma twin_size t : 1 <= t -> 2 ^ t <= nodeCount (twin t).
Proof.
  induction t as [|t IH]; [lia|]. intros _. destruct t as [|t]; [simpl; lia|]. specialize (IH ltac:(lia)).
  change (twin (S (S t))) with (Node "a" 0 (S (S t)) [Node "y" 0 (S (S t)) [Node "x" 0 (S (S t)) [twin (S t)]; Node "x" 0 (S (S t)) [twin (S t)]]]).
  cbn [nodeCount fold_right]. rewrite Nat.pow_succ_r'. set (k := nodeCount (twin (S t))) in *. lia.
Qed.

Theorem pair_exponential : exists s, Defined pair s /\ Inits s pairSyntax None /\
  forall n, 2 <= n -> exists tree, Parses pairSyntax (bees n) REof pairSyntax (Tree tree (bees n)) /\ 2 ^ n <= nodeCount tree.
Proof.
  exists (fst (defineAll emptySyntax pair)). split; [|split].
  - vm_compute. reflexivity.
  - exists 30. vm_compute. reflexivity.
  - intros n Hn. exists (twin n). split; [|apply twin_size; lia]. destruct (P_tree n Hn) as (fuel & Hf). exists fuel.
    rewrite AliasFacts.Parse_ready by (vm_compute; reflexivity). rewrite pair_root, pair_parsers, pair_kws, Hf. reflexivity.
Qed.
