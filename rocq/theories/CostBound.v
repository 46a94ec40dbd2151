(** A bound on the number of calls of parser.parse when the sequences can be ranked: a sequence has items
    of a smaller rank.  Every choice is tried at most once at an offset, what a sequence costs apart from
    that is bounded by a power with its rank as the exponent. *)
From Verif Require Import Base Utf8 IdSet Results Parser Build ListFacts ResultsFacts ReaderFacts ParseFacts
  FuelFacts TermFacts Sound Syntax Cost CostFacts.

(** known or being tried *)
Definition visited (r : results) (o id : nat) : bool :=
  (0 <? pcount r o id) || match longestResult r o id with LUnknown => false | _ => true end.

Lemma decided_spec r o id : match longestResult r o id with LUnknown => false | _ => true end = true <->
  (noMatchHas r o id = true \/ exists t, stored r o id t).
Proof.
  unfold longestResult. destruct (noMatchHas r o id); [tauto|]. destruct (longestMatch r o id) as [t|] eqn:E.
  - apply longestMatch_some in E. split; auto. intros _. right. exists t. apply E.
  - pose proof (proj1 (longestMatch_none r o id) E). split; [discriminate|]. intros [X|[t Ht]]; [discriminate|]. exfalso. eapply H; eauto.
Qed.
Lemma visited_spec r o id : visited r o id = true <-> (0 < pcount r o id \/ noMatchHas r o id = true \/ exists t, stored r o id t).
Proof. unfold visited. rewrite Bool.orb_true_iff, Nat.ltb_lt, decided_spec. tauto. Qed.

Definition choiceId (o : pobj) : list nat := match o with PChoice _ id _ _ _ => [id] | _ => [] end.
Definition optionCount (o : pobj) : nat := match o with PChoice _ _ _ options _ => List.length options | _ => 0 end.
Definition maxOptions (P : pheap) : nat := list_max (map optionCount P).
Lemma maxOptions_ge P p name id commit options gs :
  nth_error P p = Some (PChoice name id commit options gs) -> List.length options <= maxOptions P.
Proof.
  intros H. unfold maxOptions. apply nth_error_In in H. apply (in_map optionCount) in H. simpl in H.
  pose proof (list_max_le (map optionCount P) (list_max (map optionCount P))) as [Hm _].
  specialize (Hm (Nat.le_refl _)). rewrite Forall_forall in Hm. auto.
Qed.

Section BOUND.
Variable P : pheap.
Variable kws : list addr.
Variable input0 : list rune.
Variable e0 : rend.
Hypothesis Hids : uniqueIds P.
Hypothesis Hlit : forall kw, In kw kws -> exists w, literal P kw w.

Let N := List.length input0.
Let G : nat -> nat -> nat -> Prop := fun _ _ _ => True.
Notation cinv := (cinv input0 e0 G).
Notation post := (post P input0 e0 G).

Definition choiceIds : list nat := flat_map choiceId P.
Definition places : list (nat * nat) := list_prod (seq 0 (S N)) choiceIds.
(** how many pairs of an offset and a choice are open *)
Definition U (r : results) : nat := List.length (filter (fun x => negb (visited r (fst x) (snd x))) places).

Lemma filter_le {A} (f g : A -> bool) l : (forall y, In y l -> f y = true -> g y = true) -> List.length (filter f l) <= List.length (filter g l).
Proof.
  induction l as [|y l IH]; intros H; simpl; auto. specialize (IH (fun z Hz => H z (or_intror Hz))). pose proof (H y (or_introl eq_refl)) as Hy.
  destruct (f y); [rewrite Hy by auto; simpl; lia|]. destruct (g y); simpl; lia.
Qed.
Lemma U_mono r r' : (forall o id, In id choiceIds -> visited r o id = true -> visited r' o id = true) -> U r' <= U r.
Proof.
  intros H. unfold U. apply filter_le. intros [o id] Hin. simpl. rewrite !Bool.negb_true_iff. intros Hv. destruct (visited r o id) eqn:E; auto.
  apply H in E; [congruence|]. apply in_prod_iff in Hin. apply Hin.
Qed.
Lemma U_step c c' : step c c' -> samePending c c' -> U (cResults c') <= U (cResults c).
Proof.
  intros S1 S2. apply U_mono. intros o id _. rewrite !visited_spec. rewrite S2. intros [H|[H|[t H]]]; auto.
  - right; left. apply (st_nomatch _ _ S1); auto.
  - right; right. exists t. apply (st_stored _ _ S1); auto.
Qed.
Lemma U_setMatch r o id t : U (setMatch r o id t) <= U r.
Proof.
  apply U_mono. intros o' id' _. rewrite !visited_spec, pcount_setMatch, (noMatchHas_ext _ _ (noMatch_setMatch _ _ _ _)).
  intros [H|[H|[t' H]]]; auto. right; right. exists t'. apply stored_setMatch; auto.
Qed.
Lemma U_setNoMatch r o id : U (setNoMatch r o id) <= U r.
Proof.
  apply U_mono. intros o' id' _. rewrite !visited_spec, pcount_setNoMatch.
  intros [H|[H|[t' H]]]; auto. - right; left. apply noMatchHas_setNoMatch; auto. - right; right. exists t'. apply stored_setNoMatch; auto.
Qed.
Lemma U_setGens from to gs : forall r, U (setGeneralizations from to gs r) <= U r.
Proof.
  unfold setGeneralizations. induction gs as [|g gs IH]; intros r; simpl; auto. etransitivity; [apply IH|]. destruct (pending r from g); auto. apply U_setMatch.
Qed.
Lemma seq_notChoice p name id commit items ranges gs ac : nth_error P p = Some (PSeq name id commit items ranges gs ac) -> ~ In id choiceIds.
Proof.
  intros Hp Hin. apply in_flat_map in Hin. destruct Hin as (ob & Hob & Hi). destruct ob as [| |nm i ct os gs']; simpl in Hi; try contradiction.
  destruct Hi as [->|[]]. apply In_nth_error in Hob. destruct Hob as [q Hq]. assert (p = q) by (eapply Hids; eauto; exact I). congruence.
Qed.
Lemma U_mark_other r o id : ~ In id choiceIds -> U (markPending r o id) <= U r.
Proof.
  intros Hn. apply U_mono. intros o' id' Hin. rewrite !visited_spec. destruct (mark_match r o id) as [M1 M2]. rewrite pcount_mark, (noMatchHas_ext _ _ M2).
  intros [H|[H|[t H]]]; auto; [left; lia|]. right; right. exists t. apply (stored_ext _ _ M1); auto.
Qed.
Lemma U_unmark_other r o id r' : ~ In id choiceIds -> unmarkPending r o id = Ok r' -> U r' <= U r.
Proof.
  intros Hn Hu. apply U_mono. intros o' id' Hin. rewrite !visited_spec. destruct (unmark_match _ _ _ _ Hu) as [M1 M2].
  rewrite (pcount_unmark _ _ _ _ Hu), (noMatchHas_ext _ _ M2). intros [H|[H|[t H]]]; auto.
  - left. destruct (Nat.eqb_spec id id'); [congruence|]. simpl. lia.
  - right; right. exists t. apply (stored_ext _ _ M1); auto.
Qed.
Lemma U_unmark_decided r o id r' : (noMatchHas r o id = true \/ exists t, stored r o id t) -> unmarkPending r o id = Ok r' -> U r' <= U r.
Proof.
  intros Hd Hu. apply U_mono. intros o' id' Hin. rewrite !visited_spec. destruct (unmark_match _ _ _ _ Hu) as [M1 M2].
  rewrite (pcount_unmark _ _ _ _ Hu), (noMatchHas_ext _ _ M2). intros [H|[H|[t H]]]; auto.
  - destruct (Nat.eqb_spec id id') as [<-|]; [destruct (Nat.eqb_spec o o') as [<-|]|]; simpl; try (left; lia).
    destruct Hd as [Hd|[t Hd]]; auto. right; right. exists t. apply (stored_ext _ _ M1); auto.
  - right; right. exists t. apply (stored_ext _ _ M1); auto.
Qed.
Lemma U_mark_choice c p name id commit options gs : nth_error P p = Some (PChoice name id commit options gs) -> cinv c ->
  fromResults c id = None -> pending (cResults c) (cOffset c) id = false -> S (U (markPending (cResults c) (cOffset c) id)) <= U (cResults c).
Proof.
  intros Hp H Hf Hn. unfold U. apply (filter_lt _ _ _ (cOffset c, id)).
  - intros [o i]. simpl. rewrite !Bool.negb_true_iff. intros Hv. destruct (visited (cResults c) o i) eqn:E; auto. exfalso.
    enough (visited (markPending (cResults c) (cOffset c) id) o i = true) by congruence. revert E. rewrite !visited_spec.
    destruct (mark_match (cResults c) (cOffset c) id) as [M1 M2]. rewrite pcount_mark, (noMatchHas_ext _ _ M2).
    intros [X|[X|[t X]]]; auto; [left; lia|]. right; right. exists t. apply (stored_ext _ _ M1); auto.
  - apply in_prod.
    + apply in_seq. pose proof (ci_off _ _ _ _ H). pose proof (cinv_len _ _ _ _ H). unfold N; lia.
    + apply in_flat_map. eexists. split; [eapply nth_error_In; eauto|]. left; auto.
  - simpl. apply Bool.negb_false_iff. apply visited_spec. left. rewrite pcount_mark, !Nat.eqb_refl. simpl. lia.
  - simpl. apply Bool.negb_true_iff. destruct (visited _ _ _) eqn:E; auto. unfold visited in E. apply Bool.orb_true_iff in E. destruct E as [E|E].
    + apply Nat.ltb_lt in E. apply pending_false in Hn. lia.
    + unfold fromResults in Hf. destruct (longestResult _ _ _); discriminate.
Qed.

Lemma parseN_post n p c c' k : cinv c -> parseN Nat.add P kws n p c = Ok (c', k) -> post p c c'.
Proof. intros H Hk. apply parseN_run in Hk. eapply parse_post; eauto. Qed.

(** what a call costs: [K] calls for every pair that is not open any more *)
Definition pays (K w : nat) (r r' : results) (k : nat) : Prop := k + K * U r' <= w + K * U r.
Lemma pays_le K w r r' r'' k : pays K w r r' k -> U r'' <= U r' -> pays K w r r'' k.
Proof. unfold pays. intros H Hu. apply (Nat.mul_le_mono_l _ _ K) in Hu. lia. Qed.
Lemma pays_trans K w1 w2 r r1 r2 k1 k2 : pays K w1 r r1 k1 -> pays K w2 r1 r2 k2 -> pays K (w1 + w2) r r2 (k1 + k2).
Proof. unfold pays. lia. Qed.
Lemma pays_free K r r' : U r' <= U r -> pays K 0 r r' 0.
Proof. unfold pays. intros H. apply (Nat.mul_le_mono_l _ _ K) in H. lia. Qed.
Lemma pays_more K w w' r r' k : pays K w r r' k -> w <= w' -> pays K w' r r' k.
Proof. unfold pays. lia. Qed.
Lemma pays_before K w r0 r r' k : pays K w r r' k -> U r <= U r0 -> pays K w r0 r' k.
Proof. unfold pays. intros H Hu. apply (Nat.mul_le_mono_l _ _ K) in Hu. lia. Qed.

Section LOOPS.
Variable n : nat.
Variable K w : nat.
Notation recN := (parseN Nat.add P kws n).
Definition outCtx (o : seqOut) : context := match o with SLoop _ c => c | SReturn c => c end.

Lemma results_blame p ct c : cResults (blame p ct c) = cResults c.
Proof. exact (proj1 (proj2 (sameTR_blame p ct c))). Qed.
Lemma results_clearFail to c : cResults (clearFail to c) = cResults c.
Proof. exact (proj1 (proj2 (sameTR_clearFail to c))). Qed.
Lemma results_from c id c' : fromResults c id = Some c' -> cResults c' = cResults c.
Proof. unfold fromResults. destruct (longestResult _ _ _); intros E; inversion E; reflexivity. Qed.
Lemma U_unmarkUnless ac from id c c' : ~ In id choiceIds -> unmarkUnless ac from id c = Ok c' -> U (cResults c') <= U (cResults c).
Proof.
  intros Hn. unfold unmarkUnless, mapResults. destruct ac; [intros E; inversion E; auto|]. intros H. binv H. inversion H; subst. simpl. eapply U_unmark_other; eauto.
Qed.

Lemma seqLoopN_pays p id commit items ranges ac from k : ~ In id choiceIds -> forall to ii cnt c out m,
  (forall a c c' j, In a items -> cinv c -> recN a c = Ok (c', j) -> pays K w (cResults c) (cResults c') j) ->
  cinv c -> cOffset c = to ->
  seqLoopN Nat.add recN k p id commit items ranges ac from to ii cnt c = Ok (out, m) ->
  pays K ((List.length items - ii + (N - to)) * w) (cResults c) (cResults (outCtx out)) m.
Proof.
  intros Hid. induction k as [|k IH]; intros to ii cnt c out m Hn H Ho Hk; [discriminate|].
  cbn [seqLoopN] in Hk. destruct (nth_error items ii) as [item|] eqn:Ei.
  2:{ inversion Hk; subst. simpl. eapply pays_more; [apply pays_free; auto|]. apply Nat.le_0_l. }
  assert (Hii : ii < List.length items) by (apply nth_error_Some; congruence).
  assert (Hin : In item items) by (eapply nth_error_In; eauto).
  binv Hk. destruct x as [c1 j]. pose proof (Hn _ _ _ _ Hin H E) as Hj. apply parseN_post in E; auto. destruct E as (Q1 & Q2 & Q3 & Q4).
  destruct (nth_error ranges ii) as [[mn mx]|]; [|discriminate].
  assert (HN : cOffset c1 <= N).
  { pose proof (ci_off _ _ _ _ Q1). pose proof (cinv_len _ _ _ _ Q1). unfold N. lia. }
  assert (Hone : forall x, x < List.length items - ii + (N - to) -> w + x * w <= (List.length items - ii + (N - to)) * w).
  { intros x Hx. apply (Nat.mul_le_mono_r (S x) _ w) in Hx. simpl in Hx. auto. }
  destruct (cMatchLast c1) eqn:Em; cbn [negb] in Hk.
  - destruct Q4 as [Q4 _]. binv Hk. destruct x as [out1 m1]. inversion Hk; subst out1 m; clear Hk.
    destruct (to <? cOffset c1) eqn:Elt; cbn [negb orb] in E.
    + apply Nat.ltb_lt in Elt. destruct (_ && _)%bool; apply IH in E; auto; (eapply pays_more; [eapply pays_trans; eauto|apply Hone; lia]).
    + apply Nat.ltb_ge in Elt. apply IH in E; auto. eapply pays_more; [eapply pays_trans; eauto|apply Hone; lia].
  - destruct (_ <=? _)%Z.
    + binv Hk. destruct x as [out1 m1]. inversion Hk; subst out1 m; clear Hk. apply IH in E; auto; [|congruence]. eapply pays_more; [eapply pays_trans; eauto|apply Hone; lia].
    + assert (Hw : w <= (List.length items - ii + (N - to)) * w) by (specialize (Hone 0); lia). cbv zeta in Hk.
      destruct (fromResults _ _) as [c2|] eqn:Ef; binv Hk; inversion Hk; subst out m; clear Hk; simpl.
      * apply U_unmarkUnless in E; auto. rewrite results_clearFail in E. apply results_from in Ef. simpl in Ef. rewrite Ef in E. eapply pays_more; [eapply pays_le; eauto|auto].
      * apply U_unmarkUnless in E; auto. simpl in E. rewrite results_blame in E. simpl in E. eapply pays_more; [eapply pays_le; eauto|auto].
Qed.

Lemma choicePassN_pays id from options : forall s c s' c' m,
  (forall a c c' j, In a options -> cinv c -> recN a c = Ok (c', j) -> pays K w (cResults c) (cResults c') j) ->
  cinv c -> cOffset c = from ->
  choicePassN Nat.add recN id from options s c = Ok (s', c', m) ->
  pays K (List.length options * w) (cResults c) (cResults c') m /\ cinv c' /\ cOffset c' = from /\ (chTo s <= N -> chTo s' <= N) /\
  ((chMatch s' = chMatch s /\ chTo s' = chTo s /\ chFound s' = chFound s) \/ (chMatch s' = true /\ (chMatch s = true -> chTo s < chTo s'))).
Proof.
  induction options as [|op options IH]; intros s c s' c' m Hn H Ho Hk; cbn [choicePassN] in Hk.
  - inversion Hk; subst. split; [apply pays_free; auto|]. auto 10.
  - binv Hk. destruct x as [c1 j]. pose proof (Hn _ _ _ _ (or_introl eq_refl) H E) as Hj. apply parseN_post in E; auto. destruct E as (Q1 & Q2 & Q3 & Q4).
    binv Hk. destruct x as [[s2 c2] m1]. inversion Hk; subst s2 c2 m; clear Hk.
    assert (Hn' : forall a c c' j, In a options -> cinv c -> recN a c = Ok (c', j) -> pays K w (cResults c) (cResults c') j) by (intros; eapply Hn; eauto; right; auto).
    set (s1 := if (negb (cMatchLast c1) && _)%bool then _ else s) in *.
    assert (Hs1 : chMatch s1 = chMatch s /\ chTo s1 = chTo s /\ chFound s1 = chFound s) by (unfold s1; destruct (_ && _)%bool; auto).
    destruct Hs1 as (M1 & M2 & M3). clearbody s1.
    pose proof (ci_off _ _ _ _ Q1) as Hxo. pose proof (cinv_len _ _ _ _ Q1) as Hxl. fold N in Hxl. pose proof (step_len _ _ Q2) as Hlen. pose proof (ci_off _ _ _ _ H) as Hco0.
    assert (Hco : cOffset c <= cOffset c1) by (destruct (cMatchLast c1); [apply Q4 | lia]).
    destruct (_ || _)%bool eqn:Eb.
    + apply IH in E; auto; [|apply cinv_offset; auto; lia]. destruct E as (R1 & R2 & R3 & R4 & R5).
      split; [simpl; eapply pays_trans; eauto|]. split; auto. split; auto. rewrite <- M1, <- M2, <- M3. auto.
    + apply IH in E; auto.
      * destruct E as (R1 & R2 & R3 & R4 & R5). simpl in R1. split.
        { simpl. eapply pays_trans; eauto. eapply pays_before; eauto. apply U_setMatch. }
        split; auto. split; auto. simpl in R4, R5. split; [intros _; apply R4; lia|]. right.
        apply Bool.orb_false_iff in Eb. destruct Eb as [_ Eb]. rewrite M1, M2 in Eb.
        assert (Hlt : chMatch s = true -> chTo s < cOffset c1).
        { intros Hm. rewrite Hm in Eb. simpl in Eb. apply Nat.leb_gt in Eb. auto. }
        destruct R5 as [(A1 & A2 & A3)|(A1 & A2)].
        -- split; auto. rewrite A2. auto.
        -- split; auto. intros Hm. specialize (A2 eq_refl). specialize (Hlt Hm). lia.
      * apply cinv_results; [|apply cinv_offset; auto; lia].
        intros o i t Hst. apply stored_setMatch in Hst. split; [|exact I].
        destruct Hst as [Hst|(-> & -> & ->)]; [destruct Q1; eauto|]. simpl. lia.
Qed.

Lemma choiceLoopN_pays id from options k : forall s c s' c' m,
  (forall a c c' j, In a options -> cinv c -> recN a c = Ok (c', j) -> pays K w (cResults c) (cResults c') j) ->
  cinv c -> cOffset c = from -> chTo s <= N ->
  choiceLoopN Nat.add recN k id from options s c = Ok (s', c', m) ->
  pays K ((if chMatch s then S (N - chTo s) else S (S N)) * (List.length options * w)) (cResults c) (cResults c') m.
Proof.
  induction k as [|k IH]; intros s c s' c' m Hn H Ho HN Hk; [discriminate|].
  cbn [choiceLoopN] in Hk. set (s0 := mkChState _ _ _ _ _) in *. binv Hk. destruct x as [[s1 c1] m1].
  apply choicePassN_pays in E; auto. destruct E as (R1 & R2 & R3 & R4 & R5). simpl in R4, R5.
  assert (Hw : List.length options * w <= (if chMatch s then S (N - chTo s) else S (S N)) * (List.length options * w)) by (destruct (chMatch s); simpl; apply Nat.le_add_r).
  destruct (chFound s1) eqn:Ef.
  - binv Hk. destruct x as [[s2 c2] m2]. inversion Hk; subst s2 c2 m; clear Hk. destruct R5 as [(A1 & A2 & A3)|(A1 & A2)]; [congruence|].
    apply IH in E; auto. rewrite A1 in E. eapply pays_more; [eapply pays_trans; eauto|].
    assert (Hx : S (S (N - chTo s1)) <= (if chMatch s then S (N - chTo s) else S (S N))).
    { destruct (chMatch s); [specialize (A2 eq_refl); specialize (R4 HN); lia|lia]. }
    apply (Nat.mul_le_mono_r _ _ (List.length options * w)) in Hx. exact Hx.
  - inversion Hk; subst. eapply pays_more; eauto.
Qed.
End LOOPS.

(** keywords *)
Definition T : nat := S (maxItems P + N).
Lemma literal_cost n kw c c' k : In kw kws -> cinv c -> parseN Nat.add P kws n kw c = Ok (c', k) -> pays 0 T (cResults c) (cResults c') k.
Proof.
  intros Hin H Hk. destruct (Hlit _ Hin) as (w & name & id & commit & items & ranges & gs & Hp & Hnk & HF & _).
  destruct n as [|n]; [discriminate|]. cbn [parseN] in Hk. rewrite Hp in Hk. binv Hk. destruct x as [c1 m]. inversion Hk; subst c1 k; clear Hk.
  unfold seqParseN in E. simpl in E. binv E. destruct x as [out m0]. apply (seqLoopN_pays n 0 1) in E0; auto.
  - pose proof (maxItems_ge _ _ _ _ _ _ _ _ _ Hp) as Hmi. assert (Hm : m = m0 + 0).
    { destruct out as [to c2|c2]; [rewrite Hnk in E; cbn [bind] in E|]; inversion E; subst; lia. }
    subst m. clear E. unfold pays, T in *. rewrite Nat.mul_1_r in E0. simpl in *. lia.
  - eapply seq_notChoice; eauto.
  - intros a c0 c2 j Ha _ Hj. assert (Hch : exists nm i r, nth_error P a = Some (PChar nm i false [r] [])).
    { clear - HF Ha. induction HF as [|x y l l' (nm & i & Hx) HF IH]; [destruct Ha|]. destruct Ha as [<-|Ha]; eauto. }
    destruct Hch as (nm & i & r & Ha'). destruct n as [|n]; [discriminate|]. cbn [parseN] in Hj. rewrite Ha' in Hj. binv Hj. binv E1. inversion E1; subst. inversion Hj; subst. unfold pays. simpl. lia.
Qed.
Lemma keywordLoopN_pays n K l : incl l kws -> forall from to c c' b m, cinv c -> from <= List.length (cTokens c) ->
  keywordLoopN Nat.add (parseN Nat.add P kws n) l from to c = Ok (c', b, m) -> pays K (List.length l * T) (cResults c) (cResults c') m /\ step c c' /\ cinv c' /\ samePending c c'.
Proof.
  induction l as [|kw l IH]; intros Hincl from to c c' b m H Hf Hk; cbn [keywordLoopN] in Hk.
  - inversion Hk; subst. split; [apply pays_free; auto|]. split; [apply step_refl|]. split; auto. apply samePending_refl.
  - binv Hk. destruct x as [c1 j]. assert (H0 : cinv (setOffset c from)) by (apply cinv_offset; auto).
    pose proof (literal_cost _ _ _ _ _ (Hincl _ (or_introl eq_refl)) H0 E) as Hj. apply parseN_post in E; auto. destruct E as (Q1 & Q2 & Q3 & _).
    assert (Q2' : step c c1) by (destruct Q2; split; auto). assert (Q3' : samePending c c1) by (intros o i; apply Q3).
    pose proof (U_step _ _ Q2' Q3') as Hu.
    assert (Hj' : pays K T (cResults c) (cResults c1) j). { unfold pays in *. apply (Nat.mul_le_mono_l _ _ K) in Hu. lia. }
    destruct (_ && _)%bool.
    + inversion Hk; subst. split; auto. change (List.length (kw :: l) * T) with (T + List.length l * T). eapply pays_more; eauto. apply Nat.le_add_r.
    + binv Hk. destruct x as [[c2 b2] m2]. inversion Hk; subst. apply IH in E; auto.
      * destruct E as (R1 & R2 & R3 & R4). split; [change (List.length (kw :: l) * T) with (T + List.length l * T); eapply pays_trans; eauto|]. split; [eapply step_trans; eauto|]. split; auto. eapply samePending_trans; eauto.
      * intros y Hy. apply Hincl. right; auto.
      * apply step_len in Q2'. lia.
Qed.
Lemma keywordN_pays n K flag from to c c' b m : cinv c -> from <= List.length (cTokens c) ->
  (if flag : bool then isKeywordN Nat.add (parseN Nat.add P kws n) kws from to c else Ok (c, false, 0)) = Ok (c', b, m) ->
  pays K (List.length kws * T) (cResults c) (cResults c') m /\ step c c' /\ samePending c c'.
Proof.
  intros H Hf Hk. destruct flag.
  - unfold isKeywordN in Hk. binv Hk. destruct x as [[c1 b1] m1]. inversion Hk; subst. apply (keywordLoopN_pays n K) in E; auto.
    + destruct E as (R1 & R2 & R3 & R4). split; auto. split; [destruct R2; split; auto|auto].
    + apply incl_refl.
    + apply cinv_limit; auto.
  - inversion Hk; subst. split; [eapply pays_more; [apply pays_free; auto|apply Nat.le_0_l]|]. split; [apply step_refl|apply samePending_refl].
Qed.

(** ranks *)
Variable Rk : addr -> nat -> Prop.
Variable R : nat.
Hypothesis Rk_le : forall a r, Rk a r -> r <= R.
Hypothesis Rk_seq : forall p r name id commit items ranges gs ac, nth_error P p = Some (PSeq name id commit items ranges gs ac) -> Rk p r ->
  forall a, In a items -> exists r', Rk a r' /\ r' < r.
Hypothesis Rk_choice : forall p r name id commit options gs, nth_error P p = Some (PChoice name id commit options gs) -> Rk p r ->
  forall a, In a options -> exists r', Rk a r'.

Definition B : nat := S (List.length kws) * T.
Definition W (r : nat) : nat := B ^ S r.
Definition KK : nat := S (S N) * (maxOptions P * W R) + List.length kws * T.

Lemma B_pos : 1 <= B.
Proof. unfold B, T. simpl. lia. Qed.
Lemma W_pos r : 1 <= W r.
Proof. unfold W. pose proof B_pos. assert (B ^ S r <> 0) by (apply Nat.pow_nonzero; lia). lia. Qed.
Lemma W_mono r r' : r <= r' -> W r <= W r'.
Proof. intros H. unfold W. apply Nat.pow_le_mono_r; [pose proof B_pos; lia|lia]. Qed.

Theorem parseN_pays n : forall p r c c' k, Rk p r -> cinv c -> parseN Nat.add P kws n p c = Ok (c', k) -> pays KK (W r) (cResults c) (cResults c') k.
Proof.
  induction n as [|n IH]; intros p r c c' k Hr H Hk; [discriminate|].
  pose proof (W_pos r) as Hw1. cbn [parseN] in Hk. destruct (nth_error P p) as [[nm i cn ch rs|name id commit items ranges gs ac|name id commit options gs]|] eqn:Hp; [| | |discriminate].
  - binv Hk. destruct x as [c1 m]. inversion Hk; subst. binv E. inversion E; subst.
    assert (post p c c'). { apply (parseN_post (S n) p c c' 1); auto. cbn [parseN]. rewrite Hp, E0. reflexivity. }
    destruct H0 as (Q1 & Q2 & Q3 & _). pose proof (U_step _ _ Q2 Q3) as Hu. apply (pays_free KK) in Hu. unfold pays in *. simpl in *. lia.
  - binv Hk. destruct x as [c1 m]. inversion Hk; subst; clear Hk. simpl fst in *. simpl snd in *.
    pose proof (seq_notChoice _ _ _ _ _ _ _ _ Hp) as Hid. unfold seqParseN in E.
    destruct (negb ac && _)%bool. { inversion E; subst. unfold pays. simpl. lia. }
    set (c0 := if ac then c else _) in *. cbv zeta in E.
    assert (H0 : cinv c0) by (unfold c0; destruct ac; auto; now apply cinv_mark).
    assert (Hu0 : U (cResults c0) <= U (cResults c)) by (unfold c0; destruct ac; auto; apply U_mark_other; auto).
    assert (Ho0 : cOffset c0 = cOffset c) by (unfold c0; destruct ac; auto).
    binv E. destruct x as [out m0].
    pose proof (maxItems_ge _ _ _ _ _ _ _ _ _ Hp) as Hmi.
    assert (Hloop : pays KK ((maxItems P + N) * B ^ r) (cResults c0) (cResults (outCtx out)) m0).
    { destruct items as [|x0 items'].
      - (* no items *)
        destruct n as [|n']; [discriminate|]. cbn [seqLoopN nth_error] in E0. inversion E0; subst. simpl. eapply pays_more; [apply pays_free; auto|lia].
      - assert (Hr1 : exists r1, r = S r1). { destruct (Rk_seq _ _ _ _ _ _ _ _ _ Hp Hr x0 (or_introl eq_refl)) as (r' & _ & Hlt). exists (r - 1). lia. }
        destruct Hr1 as [r1 ->]. apply (seqLoopN_pays n KK (B ^ S r1)) in E0; auto.
        + eapply pays_more; [exact E0|]. apply Nat.mul_le_mono_r. lia.
        + intros a c2 c3 j Ha Hc2 Hj. destruct (Rk_seq _ _ _ _ _ _ _ _ _ Hp Hr a Ha) as (r' & Hr' & Hlt). eapply pays_more; [eapply IH; eauto|]. apply (W_mono r' r1). lia. }
    pose proof E0 as E0p. assert (E1 : seqLoop (parse P kws n) n p id commit items ranges ac (cOffset c) (cOffset c) 0 0 c0 = Ok out).
    { rewrite <- (seqLoop_er Nat.add (parse P kws n) (parseN Nat.add P kws n) (parse_counts Nat.add P kws n)). rewrite E0p. reflexivity. }
    eapply seqLoop_spec in E1; eauto; [|intros; eapply parse_post; eauto]. unfold seqPost in E1. clear E0 E0p.
    assert (Htot : S ((maxItems P + N) * B ^ r + List.length kws * T) <= W r).
    { unfold W. cbn [Nat.pow]. assert (Hb : 1 <= B ^ r) by (pose proof B_pos; assert (B ^ r <> 0) by (apply Nat.pow_nonzero; lia); lia).
      unfold B at 2. unfold T. remember (maxItems P + N) as q. remember (B ^ r) as b. remember (List.length kws) as l. clear - Hb. nia. }
    destruct out as [to c2|c2]; simpl in Hloop.
    + destruct E1 as (Q1 & Q2 & Q3 & Q4 & Q5 & _). binv E. destruct x as [[c3 isKw] m']. apply (keywordN_pays n KK) in E0; auto; [|pose proof (ci_off _ _ _ _ Q1); lia].
      destruct E0 as (R1 & R2 & R3). binv E. inversion E; subst; clear E.
      assert (Hu : U (cResults c') <= U (cResults c3)).
      { destruct isKw; apply U_unmarkUnless in E0; auto; simpl in E0.
        - rewrite results_blame in E0. auto.
        - etransitivity; [exact E0|]. rewrite results_clearFail. simpl. etransitivity; [apply U_setMatch|]. apply U_setGens. }
      pose proof (pays_trans _ _ _ _ _ _ _ _ Hloop R1) as Hall. eapply pays_le in Hall; [|exact Hu]. eapply pays_before in Hall; [|exact Hu0].
      unfold pays in *. lia.
    + inversion E; subst. eapply pays_before in Hloop; [|exact Hu0]. unfold pays in *. lia.
  - binv Hk. destruct x as [c1 m]. inversion Hk; subst; clear Hk. simpl fst in *. simpl snd in *.
    unfold choiceParseN in E. destruct (fromResults c id) as [cr|] eqn:Ef.
    { inversion E; subst. apply results_from in Ef. rewrite Ef. unfold pays. lia. }
    destruct (pending (cResults c) (cOffset c) id) eqn:Epd. { inversion E; subst. unfold pays. simpl. lia. }
    cbv zeta in E. pose proof (U_mark_choice _ _ _ _ _ _ _ Hp H Ef Epd) as Hu0.
    set (c0 := setResults c _) in *. assert (H0 : cinv c0) by (now apply cinv_mark).
    change (U (markPending (cResults c) (cOffset c) id)) with (U (cResults c0)) in Hu0.
    change (cOffset c0) with (cOffset c) in *. change (cFailOffset c0) with (cFailOffset c) in *.
    binv E. destruct x as [[s c2] m0]. pose proof E0 as E0p.
    assert (HoffN : cOffset c <= N) by (pose proof (ci_off _ _ _ _ H); pose proof (cinv_len _ _ _ _ H); unfold N; lia).
    apply (choiceLoopN_pays n KK (W R)) in E0; auto.
    2:{ intros a c3 c4 j Ha Hc3 Hj. destruct (Rk_choice _ _ _ _ _ _ _ Hp Hr a Ha) as (r' & Hr'). eapply pays_more; [eapply IH; eauto|]. apply W_mono. eauto. }
    simpl in E0. pose proof (maxOptions_ge _ _ _ _ _ _ _ Hp) as Hmo.
    assert (Hloop : pays KK (S (S N) * (maxOptions P * W R)) (cResults c0) (cResults c2) m0).
    { eapply pays_more; [exact E0|]. apply (Nat.mul_le_mono_r _ _ (W R)) in Hmo. simpl. nia. }
    clear E0.
    assert (E1 : choiceLoop (parse P kws n) n id (cOffset c) options (mkChState false false (cOffset c) (cFailOffset c) None) c0 = Ok (s, c2)).
    { rewrite <- (choiceLoop_er Nat.add (parse P kws n) (parseN Nat.add P kws n) (parse_counts Nat.add P kws n)). rewrite E0p. reflexivity. }
    assert (Hg : chGood id (cOffset c) (mkChState false false (cOffset c) (cFailOffset c) None) c0).
    { unfold chGood. simpl. split; auto. destruct H0. split; auto. split; [discriminate|auto]. }
    pose proof (choiceLoop_spec P input0 e0 G (Gchoice0 P input0) (parse P kws n) (fun p c c' => parse_post P kws input0 e0 n p c c')
        p name id commit options gs (cOffset c) Hp _ _ _ _ _ H0 eq_refl Hg E1) as Hl. clear E1 E0p.
    destruct Hl as (Q1 & Q2 & Q3 & Q4 & (G1 & G2 & G3 & G4)).
    assert (Hend : exists m', m = m0 + m' /\ pays KK (List.length kws * T) (cResults c2) (cResults c') m').
    { destruct (chMatch s) eqn:Em.
      - binv E. destruct x as [[c3 isKw] m']. apply (keywordN_pays n KK) in E0; auto; [|pose proof (ci_off _ _ _ _ Q1); lia].
        destruct E0 as (R1 & R2 & R3). binv E. inversion E; subst; clear E. exists m'. split; auto. eapply pays_le; eauto.
        assert (Hst : stored (cResults c3) (cOffset c) id (chTo s)) by (apply (st_stored _ _ R2); auto).
        unfold mapResults in E0. destruct isKw; binv E0; inversion E0; subst; simpl; (eapply U_unmark_decided; [right; exists (chTo s); eauto|]).
        + simpl in E. rewrite results_blame in E. exact E.
        + simpl in E. destruct (Z.ltb _ _); [exact E|]. destruct (Z.ltb _ _); exact E.
      - binv E. inversion E; subst; clear E. exists 0. split; [lia|]. eapply pays_more; [apply pays_free|apply Nat.le_0_l].
        unfold mapResults in E0. binv E0. inversion E0; subst. simpl in E. simpl. set (c5 := if Z.ltb _ _ then _ else c2) in *.
        assert (E5 : cResults c5 = cResults c2) by (unfold c5; destruct (Z.ltb _ _); auto; rewrite results_blame; auto). rewrite E5 in E.
        etransitivity; [eapply U_unmark_decided; [|exact E]|apply U_setNoMatch].
        destruct (existsb (entryId id) (matchRow (cResults c2) (cOffset c))) eqn:Ex.
        + right. apply existsb_exists in Ex. destruct Ex as ([i t] & Hi & Hid). apply entryId_true in Hid. simpl in Hid. subst i. exists t. apply stored_setNoMatch. exact Hi.
        + left. apply noMatchHas_setNoMatch. right. split; auto. split; auto. intros t Ht. assert (existsb (entryId id) (matchRow (cResults c2) (cOffset c)) = true); [|congruence].
          apply existsb_exists. exists (Some id, t). split; auto. now apply entryId_true. }
    destruct Hend as (m' & -> & Hend). pose proof (pays_trans _ _ _ _ _ _ _ _ Hloop Hend) as Hall.
    assert (HK : S (S N) * (maxOptions P * W R) + List.length kws * T = KK) by reflexivity. rewrite HK in Hall.
    unfold pays in *. apply (Nat.mul_le_mono_l _ _ KK) in Hu0. lia.
Qed.

Theorem calls_le n root r c' k : Rk root r -> parseN Nat.add P kws n root (newContext input0 e0) = Ok (c', k) ->
  k <= W R + KK * (S N * List.length choiceIds).
Proof.
  intros Hr Hk. apply (parseN_pays n root r) in Hk; auto; [|apply cinv_new]. unfold pays in Hk.
  assert (HU : forall rs, U rs <= S N * List.length choiceIds).
  { intros rs. unfold U. etransitivity; [apply (filter_le _ (fun _ => true)); auto|]. replace (filter (fun _ => true) places) with places by (clear; induction places as [|y l IH]; simpl; congruence). unfold places. rewrite prod_length, seq_length. auto. }
  specialize (HU (cResults (newContext input0 e0))). apply (Nat.mul_le_mono_l _ _ KK) in HU. pose proof (W_mono r R (Rk_le _ _ Hr)). lia.
Qed.
End BOUND.

(** the bound as a polynomial in the length of the input *)
Lemma bound_poly P kws R : exists A d, forall input,
  W P kws input R + KK P kws input R * (S (List.length input) * List.length (choiceIds P)) <= A * S (List.length input) ^ d.
Proof.
  set (nk := List.length kws). set (I := maxItems P). set (M := maxOptions P). set (C := List.length (choiceIds P)).
  set (A0 := (S nk * S I) ^ S R).
  exists (A0 + (2 * (M * A0) + nk * S I) * C), (R + 3). intros input. set (x := S (List.length input)).
  assert (Hx : 1 <= x) by (unfold x; lia).
  assert (HT : T P input <= S I * x) by (unfold T; fold I; unfold x; nia).
  assert (HW : W P kws input R <= A0 * x ^ S R).
  { unfold W, A0. rewrite <- Nat.pow_mul_l. apply Nat.pow_le_mono_l. unfold B. fold nk. nia. }
  assert (Hp : x ^ (R + 3) = x ^ S R * (x * x)). { replace (R + 3) with (S R + 2) by lia. rewrite Nat.pow_add_r. simpl. lia. }
  assert (Hy : 1 <= x ^ S R). { assert (x ^ S R <> 0) by (apply Nat.pow_nonzero; lia). lia. }
  rewrite Hp. unfold KK. fold nk M C. fold x.
  replace (S (S (List.length input))) with (S x) by reflexivity.
  assert (Hs : S x <= 2 * x) by lia.
  generalize dependent (W P kws input R). generalize dependent (T P input). generalize dependent (x ^ S R). clearbody A0 x C M I nk. intros y Hp Hy t HT w HW.
  assert (H1 : S x * (M * w) <= 2 * x * (M * (A0 * y))) by (apply Nat.mul_le_mono; auto; apply Nat.mul_le_mono_l; auto).
  assert (H2 : nk * t <= nk * (S I * x)) by (apply Nat.mul_le_mono_l; auto).
  assert (H3 : S x * (M * w) + nk * t <= (2 * (M * A0) + nk * S I) * (x * y)).
  { assert (x <= x * y) by nia. assert (nk * (S I * x) <= nk * (S I * (x * y))) by (apply Nat.mul_le_mono_l, Nat.mul_le_mono_l; auto).
    replace ((2 * (M * A0) + nk * S I) * (x * y)) with (2 * x * (M * (A0 * y)) + nk * (S I * (x * y))) by ring. apply Nat.add_le_mono; [exact H1|]. etransitivity; eassumption. }
  apply (Nat.mul_le_mono_r _ _ (x * C)) in H3. assert (w <= A0 * (y * (x * x))). { etransitivity; [exact HW|]. apply Nat.mul_le_mono_l. assert (Hxx : 1 <= x * x) by (change 1 with (1 * 1); apply Nat.mul_le_mono; auto). apply (Nat.mul_le_mono_l _ _ y) in Hxx. rewrite Nat.mul_1_r in Hxx. exact Hxx. }
  replace ((A0 + (2 * (M * A0) + nk * S I) * C) * (y * (x * x))) with (A0 * (y * (x * x)) + (2 * (M * A0) + nk * S I) * (x * y) * (x * C)) by ring. apply Nat.add_le_mono; assumption.
Qed.
