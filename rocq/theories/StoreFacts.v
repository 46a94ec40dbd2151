(** The memo table answers like the sets of StoreSpec.v. *)
From Verif Require Import Base IdSet Results Cap ListFacts ResultsFacts BuildFacts CapFacts StoreSpec.

Definition entCount (id t : nat) (row : list (option nat * nat)) : nat := List.length (filter (entryIs id t) row).
Definition once (r : results) : Prop := forall o id t, entCount id t (matchRow r o) <= 1.

Lemma entCount_in id t row : In (Some id, t) row <-> 0 < entCount id t row.
Proof.
  unfold entCount. induction row as [|e row IH]; simpl; [split; [contradiction|lia]|].
  destruct (entryIs id t e) eqn:E.
  - apply entryIs_true in E. simpl. split; [lia|auto].
  - rewrite <- IH. split; auto. intros [->|]; auto. exfalso. rewrite (proj2 (entryIs_true id t (Some id, t)) eq_refl) in E. discriminate.
Qed.
Lemma entCount_app id t a b : entCount id t (a ++ b) = entCount id t a + entCount id t b.
Proof. unfold entCount. now rewrite filter_app, app_length. Qed.
Lemma entCount_cons id t e row : entCount id t (e :: row) = (if entryIs id t e then 1 else 0) + entCount id t row.
Proof. unfold entCount; simpl. destruct (entryIs id t e); auto. Qed.
Lemma entryIs_pair id t id' t' : entryIs id' t' (Some id, t) = (id =? id') && (t =? t').
Proof. reflexivity. Qed.
Lemma entCount_drop id t row : forall id' t',
  entCount id' t' (dropIn id t row) = entCount id' t' row - (if (id =? id') && (t =? t') then 1 else 0).
Proof.
  induction row as [|e row IH]; intros id' t'; cbn [dropIn]; auto.
  destruct (entryIs id t e) eqn:E.
  - apply entryIs_true in E. subst e. rewrite !entCount_cons, entryIs_pair. change (entryIs id' t' (None, snd (Some id, t))) with false.
    destruct ((id =? id') && (t =? t')); lia.
  - rewrite !entCount_cons, IH. destruct (entryIs id' t' e) eqn:E'; [|lia].
    apply entryIs_true in E'. subst e. rewrite entryIs_pair in E. rewrite (Nat.eqb_sym id id'), (Nat.eqb_sym t t'), E. lia.
Qed.

Record relS (r : results) (s : store) : Prop := {
  rs_match : forall o id t, stored r o id t <-> sMatch s o id t;
  rs_fail : forall o id, noMatchHas r o id = true <-> sFail s o id;
  rs_marks : forall o id, pcount r o id = sMarks s o id;
  rs_once : once r }.

Lemma relS_empty : relS emptyResults emptyStore.
Proof.
  split; intros; simpl.
  - unfold stored, matchRow; simpl. destruct o; simpl; tauto.
  - unfold noMatchHas; simpl. destruct o; simpl; split; (discriminate || contradiction).
  - unfold pcount; simpl. now destruct id.
  - intros o id t. unfold matchRow; simpl. destruct o; simpl; unfold entCount; simpl; lia.
Qed.

Lemma sim_step op c c' r s : relR c r -> relS r s -> memoCall op c c' -> exists r', relR c' r' /\ relS r' (storeCall op s).
Proof.
  intros HR HS Hc. pose proof HS as [Hm Hf Hp Ho]. destruct Hc as [o id t c c' H|o id c c' H|o id t c c' H|o id c c' H|o id c c' H|c].
  - exists (setMatch r o id t). split; [eapply sim_setMatch; eauto|]. split; simpl.
    + intros. rewrite stored_setMatch, Hm. tauto.
    + intros. now rewrite (noMatchHas_ext _ _ (noMatch_setMatch r o id t)).
    + intros. now rewrite pcount_setMatch.
    + intros o' id' t'. destruct (Nat.eq_dec o o') as [<-|].
      * rewrite matchRow_setMatch_same. destruct (existsb _ _) eqn:E; [apply Ho|]. rewrite entCount_app.
        unfold entCount at 2; simpl. destruct (entryIs id' t' (Some id, t)) eqn:E'; simpl; [|specialize (Ho o id' t'); lia].
        apply entryIs_true in E'. inversion E'; subst id' t'.
        destruct (entCount id t (matchRow r o)) eqn:E2; [lia|]. exfalso.
        assert (existsb (entryIs id t) (matchRow r o) = true); [|congruence]. apply existsb_entryIs, entCount_in. lia.
      * rewrite matchRow_setMatch_other by auto. apply Ho.
  - exists (setNoMatch r o id). split; [eapply sim_setNoMatch; eauto|]. split; simpl.
    + intros. now rewrite stored_setNoMatch.
    + intros. rewrite noMatchHas_setNoMatch, Hf. split; intros [|(-> & -> & Hx)]; auto; right; repeat split; auto; intros t Ht; apply (Hx t), Hm; auto.
    + intros. now rewrite pcount_setNoMatch.
    + intros o' id' t'. rewrite matchRow_setNoMatch. apply Ho.
  - pose proof (sim_drop c r o id t HR) as Hd. rewrite H in Hd. destruct (dropMatchTo r o id t) as [r'| |] eqn:E; try contradiction.
    exists r'. split; auto.
    assert (Hrow : forall o', matchRow r' o' = if o =? o' then dropIn id t (matchRow r o') else matchRow r o').
    { unfold dropMatchTo in E. destruct (Nat.leb_spec (List.length (rMatch r)) o); [discriminate|]. inversion E; subst. intros o'. unfold matchRow; simpl.
      now rewrite nth_updNth by auto. }
    assert (Hrest : rNoMatch r' = rNoMatch r /\ rPending r' = rPending r)
      by (unfold dropMatchTo in E; destruct (_ <=? _); [discriminate|]; inversion E; auto).
    split; simpl.
    + intros o' id' t'. rewrite <- Hm. unfold stored. rewrite !entCount_in, Hrow. destruct (Nat.eqb_spec o o') as [<-|].
      * rewrite entCount_drop. specialize (Ho o id' t'). destruct (Nat.eqb_spec id id') as [<-|], (Nat.eqb_spec t t') as [<-|]; simpl; split; intros; try lia; try split; try lia; try (intros (? & ? & ?); congruence); try (exfalso; destruct H0 as [_ H0]; apply H0; auto).
      * split; [intros; split; auto; intros (-> & _); contradiction|tauto].
    + intros. rewrite <- Hf. now rewrite (noMatchHas_ext r r' (proj1 Hrest)).
    + intros. unfold pcount. rewrite (proj2 Hrest). apply Hp.
    + intros o' id' t'. rewrite Hrow. destruct (o =? o'); [|apply Ho]. rewrite entCount_drop. specialize (Ho o' id' t'). lia.
  - exists (markPending r o id). split; [eapply sim_mark; eauto|]. split; simpl; auto.
    intros. rewrite pcount_mark, Hp. auto.
  - pose proof (sim_unmark c r o id HR) as Hd. rewrite H in Hd. destruct (unmarkPending r o id) as [r'| |] eqn:E; try contradiction.
    exists r'. split; auto. destruct (unmark_match _ _ _ _ E) as [E1 E2]. split; simpl.
    + intros. now rewrite (stored_ext _ _ E1).
    + intros. now rewrite (noMatchHas_ext _ _ E2).
    + intros. now rewrite (pcount_unmark _ _ _ _ E), Hp.
    + intros o' id' t'. unfold matchRow. rewrite E1. apply Ho.
  - exists (resetPending r). split; [now apply sim_reset|]. split; simpl; auto. intros. unfold pcount; simpl. now destruct id.
Qed.

Lemma sim_run h c : memoRun h c -> exists r, relR c r /\ relS r (storeRun h).
Proof.
  induction 1 as [|h c op c' H (r & HR & HS) Hc].
  - exists emptyResults. split; [apply rel_empty|apply relS_empty].
  - unfold storeRun. rewrite fold_left_app. simpl. eapply sim_step; eauto.
Qed.

Lemma run_answers h c : memoRun h c -> answers c (storeRun h).
Proof.
  intros H. destruct (sim_run h c H) as (r & HR & HS). destruct HS as [Hm Hf Hp _].
  assert (HL : forall o id, match longestMatch r o id with
     | Some t => cLongestMatch c o id = (Z.of_nat t, true) /\ sMatch (storeRun h) o id t /\ (forall t', sMatch (storeRun h) o id t' -> t' <= t)
     | None => snd (cLongestMatch c o id) = false /\ forall t, ~ sMatch (storeRun h) o id t end).
  { intros o id. pose proof (sim_longestMatch c r o id HR) as H1. destruct (longestMatch r o id) as [t|] eqn:E.
    - apply longestMatch_some in E. split; auto. rewrite <- Hm. split; [apply E|]. intros t' Ht'. apply E, Hm, Ht'.
    - split; auto. intros t. rewrite <- Hm. revert t. now apply longestMatch_none. }
  assert (HN : forall o id, (match getAt (cNoMatch c) o with Some (Some s) => cHas s id | _ => false end) = true <-> sFail (storeRun h) o id)
    by (intros; now rewrite (sim_noMatchHas c r o id HR)).
  split.
  - intros. now rewrite (sim_hasMatchTo c r o id t HR), hasMatchTo_stored.
  - intros o id t. specialize (HL o id). destruct (longestMatch r o id) as [x|].
    + destruct HL as (-> & H1 & H2). split.
      * intros E. assert (x = t) by (inversion E; lia). subst. auto.
      * intros [H3 H4]. f_equal. f_equal. apply Nat.le_antisymm; auto.
    + destruct HL as [H1 H2]. split; [intros E; rewrite E in H1; discriminate|]. intros [H3 _]. exfalso. eapply H2; eauto.
  - intros o id. specialize (HL o id). destruct (longestMatch r o id) as [x|].
    + destruct HL as (-> & H1 & H2). split; [discriminate|]. intros H3. exfalso. eapply H3; eauto.
    + tauto.
  - intros o id. unfold cLongestResult. rewrite <- (HN o id). destruct (match getAt _ _ with Some (Some _) => _ | _ => _ end) eqn:E; [tauto|].
    destruct (cLongestMatch c o id) as [a b]. split; [|discriminate]. intros Hx. inversion Hx; congruence.
  - intros o id t. unfold cLongestResult. specialize (HN o id). destruct (match getAt _ _ with Some (Some _) => _ | _ => _ end) eqn:E.
    + split; [discriminate|]. intros [H1 _]. exfalso. apply H1, HN. auto.
    + assert (HnF : ~ sFail (storeRun h) o id) by (rewrite <- HN; discriminate).
      specialize (HL o id). destruct (longestMatch r o id) as [x|].
      * destruct HL as (-> & H1 & H2). split.
        -- intros Hx. assert (x = t) by (inversion Hx; lia). subst. auto.
        -- intros (_ & H3 & H4). f_equal. f_equal. f_equal. apply Nat.le_antisymm; auto.
      * destruct HL as [H1 H2]. destruct (cLongestMatch c o id) as [a b]. simpl in H1. subst b. split; [intros Hx; inversion Hx|].
        intros (_ & H3 & _). exfalso. eapply H2; eauto.
  - intros o id. unfold cLongestResult. specialize (HN o id). destruct (match getAt _ _ with Some (Some _) => _ | _ => _ end) eqn:E.
    + split; [discriminate|]. intros [H1 _]. exfalso. apply H1, HN. auto.
    + assert (HnF : ~ sFail (storeRun h) o id) by (rewrite <- HN; discriminate).
      specialize (HL o id). destruct (longestMatch r o id) as [x|].
      * destruct HL as (-> & H1 & H2). simpl. split; [discriminate|]. intros [_ H3]. exfalso. eapply H3; eauto.
      * destruct HL as [H1 H2]. destruct (cLongestMatch c o id) as [a b]. simpl in *. tauto.
  - intros. now rewrite (sim_pending c r o id HR), pending_pcount, Hp.
Qed.

(** what is stored can be dropped, what is marked can be unmarked: no index panic *)
Lemma run_drop h c o id t : memoRun h c -> sMatch (storeRun h) o id t -> exists c', cDropMatchTo c o id t = Ok c'.
Proof.
  intros H Hs. destruct (sim_run h c H) as (r & HR & [Hm _ _ _]). apply Hm in Hs.
  assert (Ho : o < List.length (rMatch r)).
  { destruct (Nat.lt_ge_cases o (List.length (rMatch r))); auto. unfold stored, matchRow in Hs. rewrite nth_overflow in Hs by auto. contradiction. }
  destruct (dropMatchTo_ok r o id t Ho) as [r' E]. pose proof (sim_drop c r o id t HR) as Hd. rewrite E in Hd.
  destruct (cDropMatchTo c o id t); try contradiction. eauto.
Qed.
Lemma run_unmark h c o id : memoRun h c -> 0 < sMarks (storeRun h) o id -> exists c', cUnmarkPending c o id = Ok c'.
Proof.
  intros H Hs. destruct (sim_run h c H) as (r & HR & [_ _ Hp _]). rewrite <- Hp in Hs.
  destruct (unmark_ok r o id Hs) as [r' E]. pose proof (sim_unmark c r o id HR) as Hd. rewrite E in Hd.
  destruct (cUnmarkPending c o id); try contradiction. eauto.
Qed.
Lemma run_total h c op : memoRun h c ->
  match op with OpDrop o id t => sMatch (storeRun h) o id t | OpUnmark o id => 0 < sMarks (storeRun h) o id | _ => True end ->
  exists c', memoCall op c c'.
Proof.
  intros H Hop. destruct (sim_run h c H) as (r & HR & HS). destruct op as [o id t|o id|o id t|o id|o id|].
  - destruct (setMatch_total c r o id t HR) as [c' Hc]. eexists. constructor; eauto.
  - pose proof HR as [(l & Hl & HF) _ _]. destruct (rowHasId (Z.of_nat id) (rowAt (cMatch c) o)) eqn:E.
    + eexists. apply mc_noMatch. now apply c_nomatch_old.
    + destruct (ensured_exists None _ _ o Hl) as [nm Hnm]. pose proof (isSl_ensured _ _ _ _ _ Hl Hnm) as Hl'.
      pose proof (F2_ensure relSet None None _ _ o I HF) as HF'.
      pose proof (ensureOffset_length None l o) as HL. apply nth_error_Some in HL.
      destruct (nth_error (ensureOffset None l o) o) as [p|] eqn:Er; [|congruence].
      pose proof (F2_nth _ _ _ o HF') as Hr. rewrite Er in Hr.
      assert (Hs : exists l0, isSl 0%N (match p with Some s => s | None => nilSlice end) l0).
      { destruct (nth_error (ensureOffset None (rNoMatch r) o) o) as [q|]; [|contradiction].
        destruct p, q; simpl in Hr; try contradiction; eauto. exists []. apply isSl_nil. }
      destruct Hs as [l0 Hs]. destruct (ensured_exists 0%N _ _ (id / 64) Hs) as [s1 H1].
      eexists. apply mc_noMatch. eapply c_nomatch_new; eauto; [rewrite (isSl_getAt _ _ _ _ Hl'); eauto|]. constructor. exact H1.
  - destruct (run_drop h c o id t H Hop) as [c' Hc]. eexists. constructor; eauto.
  - pose proof HR as [_ _ (l & Hl & HF)]. destruct (ensured_exists nilSlice _ _ id Hl) as [p Hp].
    pose proof (isSl_ensured _ _ _ _ _ Hl Hp) as Hl'.
    pose proof (F2_ensure (fun s row => isSl 0%Z s (map enc row)) nilSlice [] _ _ id (isSl_nil 0%Z) HF) as HF'.
    pose proof (ensureOffset_length nilSlice l id) as HL. apply nth_error_Some in HL.
    destruct (nth_error (ensureOffset nilSlice l id) id) as [row|] eqn:Er; [|congruence].
    pose proof (F2_nth _ _ _ id HF') as Hr. rewrite Er in Hr. destruct (nth_error _ _) as [x|] in Hr; [|contradiction].
    destruct (slotMark (Z.of_nat o) (elems row)) as [l0|] eqn:Es.
    + eexists. apply mc_mark. eapply c_mark_free; eauto. now rewrite (isSl_getAt _ _ _ _ Hl').
    + destruct (appended_exists _ _ _ [Z.of_nat o] Hr) as [row' Ha].
      eexists. apply mc_mark. eapply c_mark_new; eauto. now rewrite (isSl_getAt _ _ _ _ Hl').
  - destruct (run_unmark h c o id H Hop) as [c' Hc]. eexists. constructor; eauto.
  - eexists. constructor.
Qed.
