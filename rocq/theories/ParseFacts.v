(** The central invariant of matching: what every call of [parse] preserves, whatever the
    definitions are.  [G id o t] is a parameter: a property of (definition id, from, to) triples that is
    closed under the ways a match can be found; every match in the memo table then has it. *)
From Verif Require Import Base Utf8 IdSet Results Parser ListFacts ResultsFacts ReaderFacts.

Lemma bind_ok {A B} (m : res A) (f : A -> res B) b :
  bind m f = Ok b -> exists a, m = Ok a /\ f a = Ok b.
Proof. destruct m; simpl; try discriminate. eauto. Qed.

Ltac binv H :=
  let a := fresh "x" in let E := fresh "E" in
  apply bind_ok in H; destruct H as (a & E & H).

(** the text between two positions *)
Definition slice (l : list rune) (o t : nat) : list rune := firstn (t - o) (skipn o l).

(** a keyword given as a fixed text *)
Definition literal (P : pheap) (kw : addr) (lit : list rune) : Prop :=
  exists name id commit items ranges gs,
    nth_error P kw = Some (PSeq name id commit items ranges gs true) /\
    hasFlag commit CNoKeyword = false /\
    Forall2 (fun a r => exists n i, nth_error P a = Some (PChar n i false [r] [])) items lit /\
    (forall i, i < List.length items -> nth_error ranges i = Some (1, 1)%Z).

Lemma slice_nth l o t i : i < t - o -> nth_error (slice l o t) i = nth_error l (o + i).
Proof.
  intros H. unfold slice.
  assert (forall n (x : list rune) i, i < n -> nth_error (firstn n x) i = nth_error x i) as Hf.
  { induction n; intros x j Hj; [lia|]. destruct x, j; simpl; auto. apply IHn. lia. }
  rewrite Hf by auto. clear. revert l; induction o; intros l; simpl; auto.
  destruct l; simpl; auto. destruct i; auto.
Qed.
Lemma slice_length l o t : t <= List.length l -> List.length (slice l o t) = t - o.
Proof. intros. unfold slice. rewrite firstn_length, skipn_length. lia. Qed.

Section INV.
Variable P : pheap.
Variable kws : list addr.
Variable input0 : list rune.
Variable e0 : rend.
Variable G : nat -> nat -> nat -> Prop.

(** the result of an item: a matching rune, or a match of a sequence or choice *)
Definition IG (a : addr) (o t : nat) : Prop :=
  match nth_error P a with
  | None => False
  | Some (PChar _ _ cnot chars ranges) =>
    t = S o /\ exists r, nth_error input0 o = Some r /\ matchChar chars ranges cnot r = true
  | Some ob => G (nodeID ob) o t
  end.

(** how the item loop of a sequence can proceed from an item index, a repetition count and an offset
    to the end *)
Inductive seqRun (items : list addr) (ranges : list (Z * Z)) : nat -> nat -> nat -> nat -> Prop :=
| sr_done ii n o : nth_error items ii = None -> seqRun items ranges ii n o o
| sr_skip ii n o t mn mx item :
    nth_error items ii = Some item -> nth_error ranges ii = Some (mn, mx) ->
    (mn <= Z.of_nat n)%Z ->
    seqRun items ranges (S ii) 0 o t -> seqRun items ranges ii n o t
| sr_empty ii n o t mn mx item :
    nth_error items ii = Some item -> nth_error ranges ii = Some (mn, mx) ->
    IG item o o ->
    seqRun items ranges (S ii) 0 o t -> seqRun items ranges ii n o t
| sr_take ii n o o' t mn mx item :
    nth_error items ii = Some item -> nth_error ranges ii = Some (mn, mx) ->
    IG item o o' -> o < o' -> ~ (0 < mx /\ Z.of_nat (S n) = mx)%Z ->
    seqRun items ranges ii (S n) o' t -> seqRun items ranges ii n o t
| sr_max ii n o o' t mn mx item :
    nth_error items ii = Some item -> nth_error ranges ii = Some (mn, mx) ->
    IG item o o' -> o < o' -> (0 < mx)%Z -> Z.of_nat (S n) = mx ->
    seqRun items ranges (S ii) 0 o' t -> seqRun items ranges ii n o t.

Definition notKw (o t : nat) : Prop :=
  forall kw lit, In kw kws -> literal P kw lit -> slice input0 o t <> lit.

Hypothesis Gseq : forall p name id commit items ranges gs ac o t,
  nth_error P p = Some (PSeq name id commit items ranges gs ac) ->
  o <= t -> t <= List.length input0 -> seqRun items ranges 0 0 o t ->
  (hasFlag commit CNoKeyword = true -> notKw o t) ->
  G id o t /\ forall g, In g gs -> G g o t.
Hypothesis Gchoice : forall p name id commit options gs op o t,
  nth_error P p = Some (PChoice name id commit options gs) ->
  In op options -> IG op o t -> G id o t.

Record cinv (c : context) : Prop := mkCinv {
  ci_r : rinv input0 e0 c;
  ci_off : cOffset c <= List.length (cTokens c);
  ci_cons : cConsumed c <= List.length (cTokens c);
  ci_fail : (-1 <= cFailOffset c <= Z.of_nat (List.length (cTokens c)))%Z;
  ci_stored : forall o id t, stored (cResults c) o id t -> o <= t /\ t <= List.length (cTokens c);
  ci_G : forall o id t, stored (cResults c) o id t -> G id o t }.

Record step (c c' : context) : Prop := mkStep {
  st_ext : exists ext, cTokens c' = cTokens c ++ ext;
  st_stored : forall o id t, stored (cResults c) o id t -> stored (cResults c') o id t;
  st_nomatch : forall o id, noMatchHas (cResults c) o id = true -> noMatchHas (cResults c') o id = true;
  st_limit : cOffsetLimit c' = cOffsetLimit c }.

Definition samePending (c c' : context) : Prop :=
  forall o i, pcount (cResults c') o i = pcount (cResults c) o i.

Lemma step_refl c : step c c.
Proof. split; auto. exists []. now rewrite app_nil_r. Qed.
Lemma step_trans a b c : step a b -> step b c -> step a c.
Proof.
  intros [[x1 E1] S1 N1 L1] [[x2 E2] S2 N2 L2]. split; auto; [|congruence].
  exists (x1 ++ x2). rewrite E2, E1, app_assoc. auto.
Qed.
Lemma step_len c c' : step c c' -> List.length (cTokens c) <= List.length (cTokens c').
Proof. intros [[x E] _ _ _]. rewrite E, app_length. lia. Qed.

Definition post (p : addr) (c c' : context) : Prop :=
  cinv c' /\ step c c' /\ samePending c c' /\
  (if cMatchLast c' then cOffset c <= cOffset c' /\ IG p (cOffset c) (cOffset c')
   else cOffset c' = cOffset c).

(** changing fields *)
Lemma cinv_len c : cinv c -> List.length (cTokens c) <= List.length input0.
Proof. intros [H _ _ _ _ _]. now apply rinv_len in H. Qed.

Lemma cinv_offset c v : v <= List.length (cTokens c) -> cinv c -> cinv (setOffset c v).
Proof. intros Hv [A B C D E F]. split; auto. eapply rinv_same; [|exact A]. unfold sameReader; auto 10. Qed.
Lemma cinv_limit c v : cinv c -> cinv (setLimit c v).
Proof. intros [A B C D E F]. split; auto. eapply rinv_same; [|exact A]. unfold sameReader; auto 10. Qed.
Lemma cinv_setFail c o p : (-1 <= o <= Z.of_nat (List.length (cTokens c)))%Z -> cinv c -> cinv (setFail c o p).
Proof. intros Hv [A B C D E F]. split; auto. eapply rinv_same; [|exact A]. unfold sameReader; auto 10. Qed.
Lemma cinv_success c v : v <= List.length (cTokens c) -> cinv c -> cinv (success c v).
Proof.
  intros Hv [A B C D E F]. split; auto.
  - eapply rinv_same; [|exact A]. unfold sameReader; auto 10.
  - simpl. destruct (_ <? _); auto.
Qed.
Lemma cinv_fail c v : v <= List.length (cTokens c) -> cinv c -> cinv (fail c v).
Proof. intros Hv [A B C D E F]. split; auto. eapply rinv_same; [|exact A]. unfold sameReader; auto 10. Qed.
Lemma cinv_results c r :
  (forall o id t, stored r o id t -> (o <= t /\ t <= List.length (cTokens c)) /\ G id o t) ->
  cinv c -> cinv (setResults c r).
Proof.
  intros H [A B C D E F]. split; auto.
  - eapply rinv_same; [|exact A]. unfold sameReader; auto 10.
  - intros o id t Hs. apply (H _ _ _ Hs).
  - intros o id t Hs. apply (H _ _ _ Hs).
Qed.
Lemma cinv_setMatch c o id t : o <= t -> t <= List.length (cTokens c) -> G id o t -> cinv c ->
  cinv (setResults c (setMatch (cResults c) o id t)).
Proof.
  intros H1 H2 H3 H. apply cinv_results; auto. intros o' id' t' Hs. apply stored_setMatch in Hs.
  destruct Hs as [Hs|(-> & -> & ->)]; auto. destruct H. split; eauto.
Qed.
Lemma cinv_blame p commit c : cinv c -> cinv (blame p commit c).
Proof.
  intros H. unfold blame. destruct (cFailingParser c); auto. destruct (_ && _ && _)%bool; auto.
  apply cinv_setFail; auto. apply H.
Qed.
Lemma cinv_clearFail to c : cinv c -> cinv (clearFail to c).
Proof. intros H. unfold clearFail. destruct (_ <? _)%Z; auto. apply cinv_setFail; auto. lia. Qed.

(** steps that touch neither tokens nor results *)
Definition sameTR (c c' : context) : Prop :=
  cTokens c' = cTokens c /\ cResults c' = cResults c /\ cOffsetLimit c' = cOffsetLimit c.
Lemma sameTR_step c c' : sameTR c c' -> step c c' /\ samePending c c'.
Proof.
  intros (A & B & C). split; [split; rewrite ?B; auto|].
  - exists []. now rewrite A, app_nil_r.
  - intros o i. now rewrite B.
Qed.
Lemma sameTR_trans a b c : sameTR a b -> sameTR b c -> sameTR a c.
Proof. unfold sameTR. intuition congruence. Qed.
Lemma sameTR_blame p commit c : sameTR c (blame p commit c).
Proof. unfold blame, sameTR. destruct (cFailingParser c); auto. destruct (_ && _ && _)%bool; auto. Qed.
Lemma sameTR_clearFail to c : sameTR c (clearFail to c).
Proof. unfold clearFail, sameTR. destruct (_ <? _)%Z; auto. Qed.
Lemma offset_blame p commit c : cOffset (blame p commit c) = cOffset c.
Proof. unfold blame. destruct (cFailingParser c); auto. destruct (_ && _ && _)%bool; auto. Qed.
Lemma offset_clearFail to c : cOffset (clearFail to c) = cOffset c.
Proof. unfold clearFail. destruct (_ <? _)%Z; auto. Qed.
Lemma matchLast_clearFail to c : cMatchLast (clearFail to c) = cMatchLast c.
Proof. unfold clearFail. destruct (_ <? _)%Z; auto. Qed.

Lemma fromResults_spec c id c' : cinv c -> fromResults c id = Some c' ->
  cinv c' /\ sameTR c c' /\
  (if cMatchLast c' then cOffset c <= cOffset c' /\ stored (cResults c) (cOffset c) id (cOffset c')
                         /\ noMatchHas (cResults c) (cOffset c) id = false
                         /\ longestMatch (cResults c) (cOffset c) id = Some (cOffset c')
   else cOffset c' = cOffset c /\ noMatchHas (cResults c) (cOffset c) id = true).
Proof.
  intros H. unfold fromResults, longestResult.
  destruct (noMatchHas (cResults c) (cOffset c) id) eqn:En.
  - inversion 1; subst. simpl. split; [apply cinv_fail; auto; apply H|]. split; [unfold sameTR|]; auto.
  - destruct (longestMatch _ _ _) as [t|] eqn:El; [|discriminate]. inversion 1; subst. simpl.
    pose proof El as El'.
    apply longestMatch_some in El. destruct El as [El _]. destruct (ci_stored c H _ _ _ El).
    split; [apply cinv_success; auto|]. split; [unfold sameTR; auto|]. auto 10.
Qed.

(** char.go parse *)
Lemma charParse_spec p n i cnot chars ranges c c' :
  nth_error P p = Some (PChar n i cnot chars ranges) ->
  cinv c -> charParse cnot chars ranges c = Ok c' -> post p c c' /\ cResults c' = cResults c.
Proof.
  intros Hp H. unfold charParse. intros Hc. binv Hc. destruct x as [c1 tok].
  pose proof H as [A B C D E0 F].
  destruct (token_spec _ _ _ _ _ A B E) as (T1 & T2 & [ext T3] & T4).
  destruct T2 as (S1 & S2 & S3 & S4 & S5 & S6 & S7).
  assert (Hlen : List.length (cTokens c) <= List.length (cTokens c1)) by (rewrite T3, app_length; lia).
  assert (H1 : cinv c1).
  { split; auto; rewrite ?S1, ?S2, ?S3, ?S4, ?S6; auto; try lia.
    intros o id t Hs. apply E0 in Hs. lia. }
  assert (St : step c c1).
  { split; rewrite ?S6; auto. eauto. }
  destruct (match tok with Some t => matchChar chars ranges cnot t | None => false end) eqn:Em.
  - inversion Hc; subst c'. destruct tok as [t|]; [|discriminate].
    destruct T4 as [T4 _].
    assert (Hlt : cOffset c < List.length (cTokens c1)) by (apply nth_error_Some; congruence).
    split; [|simpl; auto].
    split; [apply cinv_success; auto; lia|]. split; [destruct St; split; auto|].
    split; [intros o j; simpl; now rewrite S6|]. simpl. rewrite S1. split; [lia|].
    unfold IG. rewrite Hp. split; auto. exists t. split; auto. eapply rinv_nth; eauto.
  - inversion Hc; subst c'; clear Hc.
    set (c2 := if Z.ltb (cFailOffset c1) (Z.of_nat (cOffset c1)) then _ else _) in *.
    assert (H2 : cinv c2 /\ sameTR c1 c2 /\ cOffset c2 = cOffset c1).
    { unfold c2. destruct (Z.ltb _ _).
      - split; [|split; [unfold sameTR|]; auto]. apply cinv_setFail; auto. destruct H1. lia.
      - split; auto. unfold sameTR; auto. }
    destruct H2 as (H2 & H3 & H4). destruct (sameTR_step _ _ H3) as [H5 H6].
    split; [|simpl; destruct H3 as (_ & -> & _); auto].
    split; [apply cinv_fail; auto; apply H2|].
    split; [eapply step_trans; [exact St|]; destruct H5; split; auto|].
    split; [intros o j; simpl; rewrite H6; now rewrite S6|]. simpl. congruence.
Qed.

Section REC.
Variable rec : addr -> context -> res context.
Hypothesis Hrec : forall p c c', cinv c -> rec p c = Ok c' -> post p c c'.
(** literal keywords are recognized when the text is one *)
Hypothesis Hlit : forall kw lit c c' to,
  literal P kw lit -> cinv c -> cOffsetLimit c = Some to -> cOffset c <= to ->
  to <= List.length (cTokens c) -> slice input0 (cOffset c) to = lit ->
  rec kw c = Ok c' -> cMatchLast c' = true /\ cOffset c' = to.

Lemma keywordLoop_spec l : forall from to c c' b,
  cinv c -> from <= to -> to <= List.length (cTokens c) -> cOffsetLimit c = Some to ->
  keywordLoop rec l from to c = Ok (c', b) ->
  cinv c' /\ step c c' /\ samePending c c' /\
  (b = false -> forall kw lit, In kw l -> literal P kw lit -> slice input0 from to <> lit).
Proof.
  induction l as [|kw l IH]; intros from to c c' b H Hft Ht Hl Hk; cbn [keywordLoop] in Hk.
  - inversion Hk; subst. split; auto. split; [apply step_refl|]. split; [intros o i; auto|]. intros _ kw lit [].
  - binv Hk.
    assert (H0 : cinv (setOffset c from)) by (apply cinv_offset; auto; lia).
    destruct (Hrec _ _ _ H0 E) as (P1 & P2 & P3 & P4).
    assert (P2' : step c x) by (destruct P2; split; auto).
    destruct (cMatchLast x && (cOffset x =? to))%bool eqn:Eb.
    + inversion Hk; subst. split; auto. split; auto. split; [intros o i; apply P3|]. discriminate.
    + apply IH in Hk; auto.
      * destruct Hk as (Q1 & Q2 & Q3 & Q4). split; auto. split; [eapply step_trans; eauto|].
        split; [intros o i; rewrite Q3; apply P3|].
        intros Hb kw' lit [<-|Hin] Hli; [|eapply Q4; eauto].
        intros Hs. destruct (Hlit kw lit (setOffset c from) x to) as [L1 L2]; auto.
        rewrite L1, L2, Nat.eqb_refl in Eb. discriminate.
      * apply step_len in P2'. lia.
      * rewrite (st_limit _ _ P2'). auto.
Qed.

Lemma isKeyword_spec from to c c' b :
  cinv c -> from <= to -> to <= List.length (cTokens c) ->
  isKeyword rec kws from to c = Ok (c', b) ->
  cinv c' /\ step c c' /\ samePending c c' /\ (b = false -> notKw from to).
Proof.
  intros H Hft Ht Hk. unfold isKeyword in Hk. binv Hk. destruct x as [c1 b1]. simpl in Hk. inversion Hk; subst.
  apply keywordLoop_spec in E; auto; [|apply cinv_limit; auto].
  destruct E as (Q1 & Q2 & Q3 & Q4). split; [apply cinv_limit; auto|].
  split; [destruct Q2; split; auto|]. split; [intros o i; apply Q3|].
  intros Hb kw lit Hin Hl. eapply Q4; eauto.
Qed.

(** what unmarking does *)
Definition unmarked (ac : bool) (from id : nat) (c c' : context) : Prop :=
  forall o i, pcount (cResults c') o i =
              pcount (cResults c) o i - (if ac then 0 else if Nat.eqb id i && Nat.eqb from o then 1 else 0).

Lemma unmarkUnless_spec ac from id c c' : cinv c -> unmarkUnless ac from id c = Ok c' ->
  cinv c' /\ step c c' /\ unmarked ac from id c c' /\ cOffset c' = cOffset c /\ cMatchLast c' = cMatchLast c /\
  rMatch (cResults c') = rMatch (cResults c).
Proof.
  intros H. unfold unmarkUnless, mapResults, unmarked. destruct ac.
  - inversion 1; subst. split; auto. split; [apply step_refl|]. split; auto. intros; lia.
  - intros Hu. binv Hu. inversion Hu; subst; clear Hu.
    destruct (unmark_match _ _ _ _ E) as [M1 M2]. pose proof (stored_ext _ _ M1) as M3.
    split; [apply cinv_results; auto; intros o i t Hs; apply M3 in Hs; destruct H; split; eauto|].
    split; [split; simpl; auto|].
    + exists []. now rewrite app_nil_r.
    + intros. now apply M3.
    + intros o i. rewrite (noMatchHas_ext _ _ M2). auto.
    + split; auto. intros o i. simpl. apply (pcount_unmark _ _ _ _ E).
Qed.

Definition seqPost (p : addr) (id : nat) (ac : bool) (from : nat) (c : context) (out : seqOut) (run : nat -> Prop) : Prop :=
  match out with
  | SLoop to' c' => cinv c' /\ step c c' /\ samePending c c' /\ cOffset c' = to' /\ from <= to' /\ run to'
  | SReturn c' => cinv c' /\ step c c' /\ unmarked ac from id c c' /\
                  (if cMatchLast c' then from <= cOffset c' /\ stored (cResults c') from id (cOffset c')
                   else cOffset c' = from)
  end.

Lemma seqLoop_spec p id commit items ranges ac from k : forall to ii n c out,
  cinv c -> cOffset c = to -> from <= to ->
  seqLoop rec k p id commit items ranges ac from to ii n c = Ok out ->
  seqPost p id ac from c out (fun t => seqRun items ranges ii n to t).
Proof.
  induction k as [|k IH]; intros to ii n c out H Ho Hft Hk; [discriminate|].
  cbn [seqLoop] in Hk.
  destruct (nth_error items ii) as [item|] eqn:Ei.
  2:{ inversion Hk; subst. simpl. split; auto. split; [apply step_refl|]. split; [intros ? ?; auto|].
      split; auto. split; auto. now apply sr_done. }
  binv Hk. destruct (Hrec _ _ _ H E) as (P1 & P2 & P3 & P4).
  destruct (nth_error ranges ii) as [[mn mx]|] eqn:Er; [|discriminate].
  pose proof (step_len _ _ P2) as Hlen. pose proof (ci_off _ H) as Hoff.
  destruct (cMatchLast x) eqn:Em; cbn [negb orb] in Hk.
  - destruct P4 as [P4 P5]. rewrite Ho in P4, P5.
    assert (Hnext : forall to' n' ii', to' = cOffset x ->
              seqLoop rec k p id commit items ranges ac from to' ii' n' x = Ok out ->
              (forall t, seqRun items ranges ii' n' to' t -> seqRun items ranges ii n to t) ->
              seqPost p id ac from c out (fun t => seqRun items ranges ii n to t)).
    { intros to' n' ii' Hto' Hl Hr. apply IH in Hl; auto; [|lia].
      unfold seqPost in *. destruct out as [t c'|c'].
      - destruct Hl as (Q1 & Q2 & Q3 & Q4 & Q5 & Q6). split; auto. split; [eapply step_trans; eauto|].
        split; [intros o i; rewrite Q3; apply P3|]. auto.
      - destruct Hl as (Q1 & Q2 & Q3 & Q4). split; auto. split; [eapply step_trans; eauto|].
        split; auto. intros o i. rewrite Q3, P3. auto. }
    destruct (to <? cOffset x) eqn:Elt; cbn [negb orb] in Hk.
    + apply Nat.ltb_lt in Elt.
      destruct (Z.ltb 0 mx && _)%bool eqn:Emx.
      * eapply Hnext; eauto. intros t Ht. apply andb_true_iff in Emx. destruct Emx as [E1 E2].
        apply Z.ltb_lt in E1. apply Z.eqb_eq in E2. eapply sr_max; eauto.
      * eapply Hnext; eauto. intros t Ht. eapply sr_take; eauto. intros [E1 E2].
        apply Z.ltb_lt in E1. apply Z.eqb_eq in E2. rewrite E1, E2 in Emx. discriminate.
    + apply Nat.ltb_ge in Elt. assert (cOffset x = to) by lia.
      eapply Hnext; eauto. intros t Ht. rewrite H0 in *. eapply sr_empty; eauto.
  - destruct (Z.leb_spec mn (Z.of_nat n)) as [Hmn|Hmn].
    + apply IH in Hk; auto; [|lia]. unfold seqPost in *. destruct out as [t c'|c'].
      * destruct Hk as (Q1 & Q2 & Q3 & Q4 & Q5 & Q6). split; auto. split; [eapply step_trans; eauto|].
        split; [intros o i; rewrite Q3; apply P3|]. split; auto. split; auto. eapply sr_skip; eauto.
      * destruct Hk as (Q1 & Q2 & Q3 & Q4). split; auto. split; [eapply step_trans; eauto|].
        split; auto. intros o i. rewrite Q3, P3. auto.
    + assert (H1 : cinv (setOffset x from)) by (apply cinv_offset; auto; lia).
      assert (S1 : step c (setOffset x from)) by (destruct P2; split; auto).
      destruct (fromResults (setOffset x from) id) as [c1|] eqn:Ef.
      * destruct (fromResults_spec _ _ _ H1 Ef) as (F1 & F2 & F3).
        binv Hk. inversion Hk; subst; clear Hk.
        apply unmarkUnless_spec in E0; [|apply cinv_clearFail; auto].
        destruct E0 as (U1 & U2 & U3 & U4 & U5 & U6).
        pose proof (sameTR_trans _ _ _ F2 (sameTR_clearFail (cOffset c) c1)) as F4.
        destruct (sameTR_step _ _ F4) as [F5 F6].
        simpl. split; auto. split; [eapply step_trans; [exact S1|]; eapply step_trans; eauto|].
        split; [intros o i; rewrite U3, F6; simpl; rewrite P3; auto|].
        rewrite U4, U5, matchLast_clearFail, offset_clearFail. simpl in F3. destruct (cMatchLast c1).
        -- destruct F3 as (F7 & F8 & _). split; auto.
           unfold stored, matchRow in *. rewrite U6. destruct F4 as (_ & -> & _). auto.
        -- apply F3.
      * binv Hk. inversion Hk; subst; clear Hk.
        assert (H2 : cinv (blame p commit (setOffset x from))) by (apply cinv_blame; auto).
        destruct (sameTR_step _ _ (sameTR_blame p commit (setOffset x from))) as [B1 B2].
        apply unmarkUnless_spec in E0; [|apply cinv_fail; auto; apply step_len in B1; simpl in *; lia].
        destruct E0 as (U1 & U2 & U3 & U4 & U5 & U6).
        simpl. split; auto.
        split; [eapply step_trans; [exact S1|]; eapply step_trans; [exact B1|]; destruct U2; split; auto|].
        split; [intros o i; rewrite U3; simpl; rewrite B2; simpl; rewrite P3; auto|].
        rewrite U4, U5. simpl. auto.
Qed.

Lemma setGens_pcount gs : forall from to r o i,
  pcount (setGeneralizations from to gs r) o i = pcount r o i.
Proof.
  unfold setGeneralizations. induction gs as [|g gs IH]; intros from to r o i; simpl; auto.
  rewrite IH. destruct (pending r from g); auto. apply pcount_setMatch.
Qed.
Lemma setGens_stored gs : forall from to r o i t,
  stored (setGeneralizations from to gs r) o i t <->
  stored r o i t \/ (o = from /\ t = to /\ In i gs /\ pending r from i = true).
Proof.
  unfold setGeneralizations. induction gs as [|g gs IH]; intros from to r o i t; simpl; [tauto|].
  rewrite IH. destruct (pending r from g) eqn:Ep.
  - rewrite stored_setMatch.
    assert (Hp : pending (setMatch r from g to) from i = pending r from i).
    { unfold pending. now rewrite pending_setMatch. }
    rewrite Hp. split; [|]; intuition (subst; auto).
  - split; intuition (subst; auto). congruence.
Qed.
Lemma setGens_nomatch gs : forall from to r, rNoMatch (setGeneralizations from to gs r) = rNoMatch r.
Proof.
  unfold setGeneralizations. induction gs as [|g gs IH]; intros from to r; simpl; auto.
  rewrite IH. destruct (pending r from g); auto. apply noMatch_setMatch.
Qed.

Lemma cinv_mark c o id : cinv c -> cinv (setResults c (markPending (cResults c) o id)).
Proof. intros H. apply cinv_results; auto. intros o' i t Hs. destruct H. split; eauto. Qed.

Lemma seqParse_spec k p name id commit items ranges gs ac c c' :
  nth_error P p = Some (PSeq name id commit items ranges gs ac) ->
  cinv c -> seqParse rec k kws p id commit items ranges gs ac c = Ok c' ->
  post p c c' /\ (cMatchLast c' = true -> stored (cResults c') (cOffset c) id (cOffset c')).
Proof.
  intros Hp H Hk. unfold seqParse in Hk.
  assert (HIG : forall o t, IG p o t <-> G id o t) by (intros; unfold IG; rewrite Hp; simpl; tauto).
  destruct (negb ac && pending (cResults c) (cOffset c) id)%bool eqn:Epend.
  { inversion Hk; subst. split; [|simpl; discriminate]. split; [apply cinv_fail; auto; apply H|].
    split; [split; auto; exists []; now rewrite app_nil_r|]. split; [intros ? ?; auto|]. simpl. auto. }
  set (c0 := if ac then c else _) in *.
  assert (H0 : cinv c0) by (unfold c0; destruct ac; auto; now apply cinv_mark).
  assert (S0 : step c c0).
  { unfold c0. destruct ac; [apply step_refl|]. split; auto. exists []. now rewrite app_nil_r. }
  assert (Hp0 : forall o i, pcount (cResults c0) o i =
                 pcount (cResults c) o i + (if ac then 0 else if Nat.eqb id i && Nat.eqb (cOffset c) o then 1 else 0)).
  { intros o i. unfold c0. destruct ac; simpl; [lia|]. apply pcount_mark. }
  assert (Ho0 : cOffset c0 = cOffset c) by (unfold c0; destruct ac; auto).
  binv Hk. apply seqLoop_spec in E; auto.
  set (from := cOffset c) in *. unfold seqPost in E. destruct x as [to c1|c1].
  2:{ inversion Hk; subst. destruct E as (Q1 & Q2 & Q3 & Q4). split.
      - split; auto. split; [eapply step_trans; eauto|].
        split; [intros o i; rewrite Q3, Hp0; lia|]. destruct (cMatchLast c'); auto.
        destruct Q4 as [Q4 Q5]. split; auto. apply HIG. exact (ci_G _ Q1 _ _ _ Q5).
      - intros Hm. rewrite Hm in Q4. apply Q4. }
  destruct E as (Q1 & Q2 & Q3 & Q4 & Q5 & Q6).
  assert (Hto : to <= List.length (cTokens c1)) by (rewrite <- Q4; apply Q1).
  binv Hk. destruct x as [c2 b].
  assert (Hkw : cinv c2 /\ step c1 c2 /\ samePending c1 c2 /\
                (b = false -> hasFlag commit CNoKeyword = true -> notKw from to)).
  { destruct (hasFlag commit CNoKeyword).
    - apply isKeyword_spec in E; auto. destruct E as (R1 & R2 & R3 & R4). auto.
    - inversion E; subst. split; auto. split; [apply step_refl|]. split; [intros ? ?; auto|]. discriminate. }
  destruct Hkw as (R1 & R2 & R3 & R4). clear E.
  pose proof (step_len _ _ R2) as Hlen2.
  destruct b.
  - destruct (sameTR_step _ _ (sameTR_blame p commit c2)) as [B1 B2].
    pose proof (step_len _ _ B1) as Hlen3.
    apply unmarkUnless_spec in Hk; [|apply cinv_fail; [lia|apply cinv_blame; auto]].
    destruct Hk as (U1 & U2 & U3 & U4 & U5 & U6). split; [|rewrite U5; simpl; discriminate]. split; auto.
    split.
    { eapply step_trans; [exact S0|]. eapply step_trans; [exact Q2|]. eapply step_trans; [exact R2|].
      eapply step_trans; [exact B1|]. destruct U2; split; auto. }
    split; [|rewrite U5, U4; simpl; auto].
    intros o i. rewrite U3. simpl. rewrite B2, R3, Q3, Hp0. lia.
  - assert (HG : G id from to /\ forall g, In g gs -> G g from to).
    { eapply Gseq; eauto. apply cinv_len in Q1. lia. }
    destruct HG as [HG1 HG2].
    set (c3 := setResults c2 (setGeneralizations from to gs (cResults c2))) in *.
    assert (H3 : cinv c3).
    { apply cinv_results; auto. intros o i t Hs. apply setGens_stored in Hs.
      destruct Hs as [Hs|(-> & -> & Hi & _)]; [destruct R1; split; eauto|].
      split; auto. split; auto. lia. }
    assert (S3 : step c2 c3).
    { split; simpl; auto.
      - exists []. now rewrite app_nil_r.
      - intros o i t Hs. apply setGens_stored. auto.
      - intros o i. rewrite (noMatchHas_ext _ _ (setGens_nomatch _ _ _ _)). auto. }
    destruct (sameTR_step _ _ (sameTR_clearFail to c3)) as [B1 B2].
    pose proof (step_len _ _ B1) as Hlen3. pose proof (step_len _ _ S3) as Hlen4.
    set (c4 := clearFail to c3) in *.
    set (c5 := setResults c4 (setMatch (cResults c4) from id to)) in *.
    assert (H5 : cinv c5).
    { unfold c5. apply cinv_setMatch; auto; [lia|]. apply cinv_clearFail; auto. }
    assert (S5 : step c4 c5).
    { split; simpl; auto.
      - exists []. now rewrite app_nil_r.
      - intros o i t Hs. apply stored_setMatch. auto.
      - intros o i. rewrite (noMatchHas_ext _ _ (noMatch_setMatch _ _ _ _)). auto. }
    apply unmarkUnless_spec in Hk; [|apply cinv_success; auto; apply step_len in S5; lia].
    destruct Hk as (U1 & U2 & U3 & U4 & U5 & U6). split; [split; auto|].
    + split.
      { eapply step_trans; [exact S0|]. eapply step_trans; [exact Q2|]. eapply step_trans; [exact R2|].
        eapply step_trans; [exact S3|]. eapply step_trans; [exact B1|]. eapply step_trans; [exact S5|].
        destruct U2; split; auto. }
      split.
      { intros o i. rewrite U3. unfold c5. simpl. rewrite pcount_setMatch. unfold c4. rewrite B2. simpl.
        rewrite setGens_pcount, R3, Q3, Hp0. lia. }
      rewrite U5, U4. simpl. split; auto. now apply HIG.
    + intros _. rewrite U4. simpl. unfold stored, matchRow. rewrite U6. simpl.
      apply (stored_setMatch (cResults c4)). auto.
Qed.

(** one pass over the options: [s] is good when its end is a stored match, or there is none *)
Definition chGood (id from : nat) (s : chState) (c : context) : Prop :=
  from <= chTo s /\ chTo s <= List.length (cTokens c) /\
  (chMatch s = true -> stored (cResults c) from id (chTo s)) /\
  (-1 <= chFailOffset s <= Z.of_nat (List.length (cTokens c)))%Z.

Lemma choicePass_spec p name id commit options0 gs from : nth_error P p = Some (PChoice name id commit options0 gs) ->
  forall options s c s' c', incl options options0 ->
  cinv c -> cOffset c = from -> chGood id from s c ->
  choicePass rec id from options s c = Ok (s', c') ->
  cinv c' /\ step c c' /\ samePending c c' /\ cOffset c' = from /\ chGood id from s' c'.
Proof.
  intros Hp. induction options as [|op options IH]; intros s c s' c' Hin H Ho Hg Hk; cbn [choicePass] in Hk.
  - inversion Hk; subst. split; auto. split; [apply step_refl|]. split; [intros ? ?; auto|]. auto.
  - binv Hk. destruct (Hrec _ _ _ H E) as (P1 & P2 & P3 & P4).
    pose proof (step_len _ _ P2) as Hlen. pose proof (ci_off _ H) as Hoff.
    assert (Hin' : incl options options0) by (intros y Hy; apply Hin; right; auto).
    assert (Hop : In op options0) by (apply Hin; left; auto).
    set (s1 := if (negb (cMatchLast x) && (chFailOffset s <? cFailOffset x)%Z)%bool then _ else s) in *.
    assert (Hg1 : chGood id from s1 x /\ chTo s1 = chTo s /\ chMatch s1 = chMatch s).
    { destruct Hg as (G1 & G2 & G3 & G4). unfold s1.
      destruct (negb (cMatchLast x) && _)%bool; unfold chGood; simpl.
      - split; auto. split; auto. split; [lia|]. split; [intros Hm; apply (st_stored _ _ P2); auto|].
        destruct P1; auto.
      - split; auto. split; auto. split; [lia|]. split; [intros Hm; apply (st_stored _ _ P2); auto|]. lia. }
    destruct Hg1 as (Hg1 & Ht1 & Hm1). clearbody s1.
    assert (H2 : cinv (setOffset x from)) by (apply cinv_offset; auto; lia).
    assert (S2 : step c (setOffset x from)) by (destruct P2; split; auto).
    destruct (negb (cMatchLast x) || (chMatch s1 && (cOffset x <=? chTo s1)))%bool eqn:Eb.
    + apply IH in Hk; auto.
      destruct Hk as (Q1 & Q2 & Q3 & Q4 & Q5). split; auto. split; [eapply step_trans; eauto|].
      split; [intros o i; rewrite Q3; simpl; apply P3|]. auto.
    + apply orb_false_iff in Eb. destruct Eb as [Eb1 Eb2]. apply negb_false_iff in Eb1. rewrite Eb1 in P4.
      destruct P4 as [P4 P5]. rewrite Ho in P4, P5.
      assert (HG : G id from (cOffset x)) by (eapply Gchoice; eauto).
      assert (Hle : cOffset x <= List.length (cTokens x)) by apply P1.
      apply IH in Hk; auto.
      * destruct Hk as (Q1 & Q2 & Q3 & Q4 & Q5). split; auto.
        split.
        { eapply step_trans; [exact S2|]. eapply step_trans; [|exact Q2]. split; simpl; auto.
          - exists []. now rewrite app_nil_r.
          - intros o i t Hs. apply stored_setMatch. auto.
          - intros o i. rewrite (noMatchHas_ext _ _ (noMatch_setMatch _ _ _ _)). auto. }
        split; [|auto]. intros o i. rewrite Q3. simpl. rewrite pcount_setMatch. apply P3.
      * exact (cinv_setMatch (setOffset x from) from id (cOffset x) P4 Hle HG H2).
      * split; simpl; auto. split; auto. destruct Hg1 as (_ & _ & _ & Hg1). split; auto.
        intros _. apply stored_setMatch. auto.
Qed.

Lemma choiceLoop_spec p name id commit options gs from : nth_error P p = Some (PChoice name id commit options gs) ->
  forall k s c s' c',
  cinv c -> cOffset c = from -> chGood id from s c ->
  choiceLoop rec k id from options s c = Ok (s', c') ->
  cinv c' /\ step c c' /\ samePending c c' /\ cOffset c' = from /\ chGood id from s' c'.
Proof.
  intros Hp. induction k as [|k IH]; intros s c s' c' H Ho Hg Hk; [discriminate|].
  cbn [choiceLoop] in Hk. binv Hk. destruct x as [s1 c1].
  eapply choicePass_spec in E; eauto; [|apply incl_refl].
  destruct E as (P1 & P2 & P3 & P4 & P5).
  destruct (chFound s1).
  - apply IH in Hk; auto. destruct Hk as (Q1 & Q2 & Q3 & Q4 & Q5). split; auto.
    split; [eapply step_trans; eauto|]. split; auto. intros o i. rewrite Q3. apply P3.
  - inversion Hk; subst. auto.
Qed.

Lemma choiceParse_spec k p name id commit options gs c c' :
  nth_error P p = Some (PChoice name id commit options gs) ->
  cinv c -> choiceParse rec k kws p id commit options c = Ok c' ->
  post p c c' /\ (cMatchLast c' = true -> stored (cResults c') (cOffset c) id (cOffset c')).
Proof.
  intros Hp H Hk. unfold choiceParse in Hk.
  assert (HIG : forall o t, IG p o t <-> G id o t) by (intros; unfold IG; rewrite Hp; simpl; tauto).
  destruct (fromResults c id) as [c0|] eqn:Ef.
  { inversion Hk; subst. destruct (fromResults_spec _ _ _ H Ef) as (F1 & F2 & F3).
    destruct (sameTR_step _ _ F2) as [F4 F5]. split.
    - split; auto. split; auto. split; auto. destruct (cMatchLast c'); [|apply F3].
      destruct F3 as (F6 & F7 & _). split; auto. apply HIG. exact (ci_G _ H _ _ _ F7).
    - intros Hm. rewrite Hm in F3. destruct F2 as (_ & -> & _). apply F3. }
  destruct (pending (cResults c) (cOffset c) id) eqn:Epend.
  { inversion Hk; subst. split; [|simpl; discriminate]. split; [apply cinv_fail; auto; apply H|].
    split; [split; auto; exists []; now rewrite app_nil_r|]. split; [intros ? ?; auto|]. simpl. auto. }
  set (c0 := setResults c _) in *.
  assert (H0 : cinv c0) by (now apply cinv_mark).
  assert (S0 : step c c0) by (split; auto; exists []; now rewrite app_nil_r).
  assert (Hp0 : forall o i, pcount (cResults c0) o i =
                 pcount (cResults c) o i + (if Nat.eqb id i && Nat.eqb (cOffset c) o then 1 else 0)).
  { intros o i. unfold c0. apply pcount_mark. }
  assert (Ho0 : cOffset c0 = cOffset c) by auto.
  binv Hk. destruct x as [s c1]. set (from := cOffset c) in *.
  eapply choiceLoop_spec in E; eauto.
  2:{ unfold chGood. simpl. split; auto. destruct H0. split; auto. split; [discriminate|auto]. }
  destruct E as (Q1 & Q2 & Q3 & Q4 & (C1 & C2 & C3 & C4)).
  assert (Hun : forall c2 c3, cinv c2 ->
            mapResults (fun r => unmarkPending r from id) c2 = Ok c3 ->
            cinv c3 /\ step c2 c3 /\ unmarked false from id c2 c3 /\ cOffset c3 = cOffset c2 /\
            cMatchLast c3 = cMatchLast c2 /\ rMatch (cResults c3) = rMatch (cResults c2)).
  { intros c2 c3 Hc2 Hm. apply (unmarkUnless_spec false) in Hm; auto. }
  destruct (chMatch s) eqn:Em.
  - specialize (C3 eq_refl). binv Hk. destruct x as [c2 b].
    assert (Hkw : cinv c2 /\ step c1 c2 /\ samePending c1 c2).
    { destruct (hasFlag commit CNoKeyword).
      - apply isKeyword_spec in E; auto. destruct E as (R1 & R2 & R3 & R4). auto.
      - inversion E; subst. split; auto. split; [apply step_refl|]. intros ? ?; auto. }
    destruct Hkw as (R1 & R2 & R3). clear E.
    pose proof (step_len _ _ R2) as Hlen2. pose proof (step_len _ _ Q2) as Hlen1.
    pose proof (ci_off _ H0) as Hoff0. simpl in Hoff0. fold from in Hoff0.
    destruct b.
    + destruct (sameTR_step _ _ (sameTR_blame p commit c2)) as [B1 B2].
      pose proof (step_len _ _ B1) as Hlen3.
      apply Hun in Hk; [|apply cinv_fail; [simpl in *; lia|apply cinv_blame; auto]].
      destruct Hk as (U1 & U2 & U3 & U4 & U5 & U6). split; [|rewrite U5; simpl; discriminate]. split; auto.
      split.
      { eapply step_trans; [exact S0|]. eapply step_trans; [exact Q2|]. eapply step_trans; [exact R2|].
        eapply step_trans; [exact B1|]. destruct U2; split; auto. }
      split; [|rewrite U5, U4; simpl; auto].
      intros o i. rewrite U3. simpl. rewrite B2, R3, Q3, Hp0. lia.
    + set (c3 := if Z.ltb _ _ then setFail c2 (chFailOffset s) _ else _) in *.
      assert (H3 : cinv c3 /\ sameTR c2 c3).
      { unfold c3. destruct (_ <? _)%Z; [|destruct (_ <? _)%Z];
          (split; [apply cinv_setFail; auto|unfold sameTR; auto]); try lia.
        pose proof (ci_fail _ H). simpl in *. lia. }
      destruct H3 as [H3 B0]. destruct (sameTR_step _ _ B0) as [B1 B2].
      pose proof (step_len _ _ B1) as Hlen3. clearbody c3.
      apply Hun in Hk; [|apply cinv_success; auto; lia].
      destruct Hk as (U1 & U2 & U3 & U4 & U5 & U6).
      assert (Hst : stored (cResults c') from id (chTo s)).
      { apply (st_stored _ _ U2). simpl. apply (st_stored _ _ B1), (st_stored _ _ R2). auto. }
      split; [split; auto|].
      * split.
        { eapply step_trans; [exact S0|]. eapply step_trans; [exact Q2|]. eapply step_trans; [exact R2|].
          eapply step_trans; [exact B1|]. destruct U2; split; auto. }
        split.
        { intros o i. rewrite U3. simpl. rewrite B2, R3, Q3, Hp0. lia. }
        rewrite U5, U4. simpl. split; auto. apply HIG. exact (ci_G _ U1 _ _ _ Hst).
      * intros _. rewrite U4. auto.
  - set (c2 := if Z.ltb _ _ then blame p commit _ else c1) in *.
    assert (H3 : cinv c2 /\ sameTR c1 c2).
    { unfold c2. destruct (_ <? _)%Z; [|split; [auto|unfold sameTR; auto]].
      split; [apply cinv_blame, cinv_setFail; auto|].
      eapply sameTR_trans; [|apply sameTR_blame]. unfold sameTR; auto. }
    destruct H3 as [H3 B0]. destruct (sameTR_step _ _ B0) as [B1 B2].
    pose proof (step_len _ _ B1) as Hlen3. pose proof (step_len _ _ Q2) as Hlen1.
    pose proof (ci_off _ H0) as Hoff0. simpl in Hoff0. fold from in Hoff0. clearbody c2.
    apply Hun in Hk.
    2:{ apply cinv_fail; [simpl in *; lia|]. apply cinv_results; auto.
        intros o i t Hs. apply stored_setNoMatch in Hs. destruct H3; split; eauto. }
    destruct Hk as (U1 & U2 & U3 & U4 & U5 & U6). split; [|rewrite U5; simpl; discriminate]. split; auto.
    split.
    { eapply step_trans; [exact S0|]. eapply step_trans; [exact Q2|]. eapply step_trans; [exact B1|].
      eapply step_trans; [|exact U2]. split; simpl; auto.
      - exists []. now rewrite app_nil_r.
      - intros o i t Hs. apply stored_setNoMatch. auto.
      - intros o i Hn. apply noMatchHas_setNoMatch. auto. }
    split; [|rewrite U5, U4; simpl; auto].
    intros o i. rewrite U3. simpl. rewrite pcount_setNoMatch, B2, Q3, Hp0. lia.
Qed.
End REC.

Lemma seqLoop_literal n p id commit ranges from k :
  forall (items : list addr) lit to ii c0 c out (items0 : list addr) lo,
  cinv c -> Forall2 (fun a r => exists n i, nth_error P a = Some (PChar n i false [r] [])) items lit ->
  cOffsetLimit c = Some to -> to <= List.length (cTokens c) ->
  cOffset c = lo -> slice input0 lo to = lit -> lo <= to ->
  items = skipn ii items0 ->
  (forall i, i < List.length items0 -> nth_error ranges i = Some (1, 1)%Z) ->
  seqLoop (parse P kws n) k p id commit items0 ranges true from lo ii 0 c = Ok out ->
  c0 = c -> exists c', out = SLoop to c' /\ cinv c'.
Proof.
  induction k as [|k IH]; intros items lit to ii c0 c out items0 lo H HF Hl Ht Ho Hs Hle Hi Hr Hk _; [discriminate|].
  cbn [seqLoop] in Hk.
  assert (Hnth : forall (l : list addr) i, nth_error l i = nth_error (skipn i l) 0).
  { clear. induction l as [|a l IHl]; intros [|i]; auto. exact (IHl i). }
  assert (Hn0 : nth_error items0 ii = nth_error items 0) by (rewrite Hi; apply Hnth).
  rewrite Hn0 in Hk. clear Hnth Hn0.
  destruct HF as [|a r items lit (nm & i & Ha) HF].
  - simpl in Hk. inversion Hk; subst. exists c. split; auto. f_equal.
    assert (List.length (slice input0 (cOffset c) to) = 0) by (rewrite Hs; auto).
    rewrite slice_length in H0; [lia|]. apply cinv_len in H. lia.
  - simpl in Hk. binv Hk. destruct n as [|n]; [discriminate|]. cbn [parse] in E. rewrite Ha in E.
    assert (Hii : ii < List.length items0).
    { destruct (Nat.lt_ge_cases ii (List.length items0)) as [|Hge]; auto.
      rewrite skipn_all2 in Hi by lia. discriminate. }
    rewrite (Hr ii Hii) in Hk.
    assert (Hlt : lo < to).
    { assert (List.length (slice input0 lo to) = S (List.length lit)) by (rewrite Hs; auto).
      rewrite slice_length in H0; [lia|]. apply cinv_len in H. lia. }
    assert (Hr0 : nth_error input0 lo = Some r).
    { rewrite <- (Nat.add_0_r lo). rewrite <- (slice_nth input0 lo to) by lia. rewrite Hs. auto. }
    assert (Htok : nth_error (cTokens c) lo = Some r).
    { destruct (nth_error (cTokens c) lo) eqn:En.
      - apply (rinv_nth _ _ _ _ _ (ci_r _ H)) in En. congruence.
      - apply nth_error_None in En. lia. }
    pose proof E as E2. unfold charParse in E. binv E. destruct x0 as [c1 tok].
    assert (tok = Some r /\ c1 = c).
    { unfold token in E0. rewrite Hl, Ho in E0. destruct (Nat.eqb_spec lo to); [lia|].
      destruct (lo =? cReadOffset c) eqn:Ero.
      - apply Nat.eqb_eq in Ero. pose proof (rinv_readOffset _ _ _ (ci_r _ H)). lia.
      - rewrite Ho, Htok in E0. inversion E0; auto. }
    destruct H0 as [-> ->].
    assert (Hmc : matchChar [r] [] false r = true) by (unfold matchChar; simpl; now rewrite Z.eqb_refl).
    rewrite Hmc in E. inversion E; subst x; clear E.
    simpl in Hk. rewrite Ho in Hk.
    assert (Hlo : (lo <? S lo) = true) by (apply Nat.ltb_lt; lia). rewrite Hlo in Hk. simpl in Hk.
    eapply IH in Hk; eauto.
    + apply cinv_success; auto. lia.
    + assert (Hsl : slice input0 lo to = r :: slice input0 (S lo) to).
      { unfold slice. replace (to - lo) with (S (to - S lo)) by lia.
        assert (Hsk0 : forall (l : list rune) j x, nth_error l j = Some x -> skipn j l = x :: skipn (S j) l).
        { clear. induction l as [|z l IHl]; intros [|j] x Hj; simpl in *; try discriminate.
          - inversion Hj; auto.
          - apply IHl in Hj. rewrite Hj. auto. }
        rewrite (Hsk0 _ _ _ Hr0). auto. }
      rewrite Hsl in Hs. inversion Hs. auto.
    + assert (Hsk : forall (l : list addr) j x r', skipn j l = x :: r' -> skipn (S j) l = r').
      { clear. induction l; intros j x r' Hh; destruct j; simpl in *; try discriminate.
        - inversion Hh; auto.
        - eapply IHl; eauto. }
      symmetry. eapply Hsk; eauto.
Qed.

Lemma parse_literal n kw lit c c' to :
  literal P kw lit -> cinv c -> cOffsetLimit c = Some to -> cOffset c <= to ->
  to <= List.length (cTokens c) -> slice input0 (cOffset c) to = lit ->
  parse P kws n kw c = Ok c' -> cMatchLast c' = true /\ cOffset c' = to.
Proof.
  intros (name & id & commit & items & ranges & gs & Hkw & Hnk & HF & Hr) H Hl Hle Ht Hs Hk.
  destruct n as [|n]; [discriminate|]. cbn [parse] in Hk. rewrite Hkw in Hk.
  unfold seqParse in Hk. simpl in Hk. binv Hk.
  eapply seqLoop_literal in E; eauto. destruct E as (c1 & -> & H1).
  rewrite Hnk in Hk. simpl in Hk. inversion Hk; subst. simpl. auto.
Qed.

Theorem parse_spec n : forall p c c', cinv c -> parse P kws n p c = Ok c' ->
  post p c c' /\
  (cMatchLast c' = true -> match nth_error P p with
                           | Some (PChar _ _ _ _ _) => True
                           | Some ob => stored (cResults c') (cOffset c) (nodeID ob) (cOffset c')
                           | None => False
                           end).
Proof.
  induction n as [|n IH]; intros p c c' H Hk; [discriminate|].
  cbn [parse] in Hk. destruct (nth_error P p) as [[]|] eqn:Hp; [| | |discriminate].
  - split; auto. eapply charParse_spec in Hk; eauto. apply Hk.
  - eapply seqParse_spec in Hk; eauto.
    + intros; now apply IH.
    + intros; eapply parse_literal; eauto.
  - eapply choiceParse_spec in Hk; eauto.
    + intros; now apply IH.
    + intros; eapply parse_literal; eauto.
Qed.

Lemma cinv_new : cinv (newContext input0 e0).
Proof.
  split; simpl; auto; try lia.
  - apply rinv_new.
  - intros o id t H. unfold stored, matchRow in H. simpl in H. destruct o; contradiction.
  - intros o id t H. unfold stored, matchRow in H. simpl in H. destruct o; contradiction.
Qed.
End INV.
