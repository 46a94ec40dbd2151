(** The memo table of results.go seen as a set of matches, a set of failures and a multiset of
    pending marks. *)
From Verif Require Import Base IdSet Results ListFacts.

(** a match of [id] from [o] to [t] is stored *)
Definition stored (r : results) (o id t : nat) : Prop := In (Some id, t) (matchRow r o).

Lemma entryIs_true id to e : entryIs id to e = true <-> e = (Some id, to).
Proof.
  destruct e as [[i|] t]; unfold entryIs; simpl.
  - rewrite andb_true_iff, !Nat.eqb_eq. split; [intros []; subst; auto | now inversion 1].
  - split; [discriminate | inversion 1].
Qed.

Lemma entryId_true id e : entryId id e = true <-> fst e = Some id.
Proof.
  destruct e as [[i|] t]; unfold entryId; simpl.
  - rewrite Nat.eqb_eq. split; [intros; subst; auto | now inversion 1].
  - split; [discriminate | inversion 1].
Qed.

Lemma existsb_entryIs id to row : existsb (entryIs id to) row = true <-> In (Some id, to) row.
Proof.
  rewrite existsb_exists. split.
  - intros (e & He & H). apply entryIs_true in H. now subst.
  - intros H. exists (Some id, to). split; auto. now apply entryIs_true.
Qed.

Lemma hasMatchTo_stored r o id t : hasMatchTo r o id t = true <-> stored r o id t.
Proof. apply existsb_entryIs. Qed.

Lemma matchRow_setMatch_other r o id to o' : o <> o' -> matchRow (setMatch r o id to) o' = matchRow r o'.
Proof.
  intros H. unfold setMatch, matchRow. destruct (existsb _ _); simpl.
  - apply nth_ensureOffset.
  - rewrite nth_updNth by apply ensureOffset_length. apply Nat.eqb_neq in H. rewrite H.
    apply nth_ensureOffset.
Qed.

Lemma matchRow_setMatch_same r o id to :
  matchRow (setMatch r o id to) o =
  if existsb (entryIs id to) (matchRow r o) then matchRow r o else matchRow r o ++ [(Some id, to)].
Proof.
  unfold setMatch, matchRow. rewrite nth_ensureOffset.
  destruct (existsb _ _); simpl.
  - apply nth_ensureOffset.
  - rewrite nth_updNth by apply ensureOffset_length. rewrite Nat.eqb_refl, nth_ensureOffset. auto.
Qed.

Lemma stored_setMatch r o id to o' id' t' :
  stored (setMatch r o id to) o' id' t' <-> stored r o' id' t' \/ (o' = o /\ id' = id /\ t' = to).
Proof.
  unfold stored. destruct (Nat.eq_dec o o') as [<-|H].
  - rewrite matchRow_setMatch_same. destruct (existsb _ _) eqn:E.
    + apply existsb_entryIs in E. split; auto. intros [|(_ & -> & ->)]; auto.
    + rewrite in_app_iff. simpl. split; intros [|]; auto.
      * destruct H as [H|[]]. inversion H; auto.
      * destruct H as (_ & -> & ->). auto.
  - rewrite matchRow_setMatch_other by auto. split; auto. intros [|(-> & _)]; auto. congruence.
Qed.

Lemma noMatch_setMatch r o id to : rNoMatch (setMatch r o id to) = rNoMatch r.
Proof. unfold setMatch. destruct (existsb _ _); auto. Qed.
Lemma pending_setMatch r o id to : rPending (setMatch r o id to) = rPending r.
Proof. unfold setMatch. destruct (existsb _ _); auto. Qed.

(** longestMatch *)
Lemma longestIn_spec id row : forall acc,
  match longestIn id row acc with
  | Some t => (acc = Some t \/ In (Some id, t) row) /\
              (forall t', acc = Some t' \/ In (Some id, t') row -> t' <= t)
  | None => acc = None /\ forall t', ~ In (Some id, t') row
  end.
Proof.
  induction row as [|e row IH]; intros acc; simpl.
  - destruct acc; split; auto. intros t' [H|[]]. inversion H; lia.
  - destruct (entryId id e) eqn:E.
    + apply entryId_true in E. destruct e as [ei et]. simpl in *. subst ei.
      set (acc' := match acc with None => Some et | Some t => if t <? et then Some et else Some t end).
      specialize (IH acc'). destruct (longestIn id row acc') as [t|].
      * destruct IH as [H1 H2]. split.
        -- destruct H1 as [H1|H1]; auto. unfold acc' in H1. destruct acc as [a|].
           ++ destruct (a <? et); inversion H1; subst; auto.
           ++ inversion H1; subst; auto.
        -- intros t' Ht'. destruct Ht' as [->|[Ht'|Ht']]; auto.
           ++ unfold acc' in *. destruct (t' <? et) eqn:L.
              ** apply Nat.ltb_lt in L. specialize (H2 et (or_introl eq_refl)). lia.
              ** apply H2; auto.
           ++ inversion Ht'; subst. unfold acc' in *. destruct acc as [a|].
              ** destruct (a <? t') eqn:L.
                 --- apply H2; auto.
                 --- apply Nat.ltb_ge in L. specialize (H2 a (or_introl eq_refl)). lia.
              ** apply H2; auto.
      * destruct IH as [H1 _]. unfold acc' in H1. destruct acc; [destruct (_ <? _)|]; discriminate.
    + specialize (IH acc).
      assert (Hne : forall t', e <> (Some id, t')).
      { intros t' ->. unfold entryId in E; simpl in E. rewrite Nat.eqb_refl in E. discriminate. }
      destruct (longestIn id row acc) as [t|].
      * destruct IH as [H1 H2]. split.
        -- destruct H1; auto.
        -- intros t' [H|[H|H]]; auto. now apply Hne in H.
      * destruct IH as [H1 H2]. split; auto. intros t' [H|H]; [now apply Hne in H | now apply H2 in H].
Qed.

Lemma longestMatch_some r o id t :
  longestMatch r o id = Some t <-> stored r o id t /\ forall t', stored r o id t' -> t' <= t.
Proof.
  unfold longestMatch, stored. pose proof (longestIn_spec id (matchRow r o) None) as H.
  destruct (longestIn id (matchRow r o) None) as [x|].
  - destruct H as [[H1|H1] H2]; [discriminate|]. split.
    + inversion 1; subst. split; auto.
    + intros [H3 H4]. f_equal. apply Nat.le_antisymm; auto.
  - destruct H as [_ H]. split; [discriminate|]. intros [H1 _]. now apply H in H1.
Qed.

Lemma longestMatch_none r o id : longestMatch r o id = None <-> forall t, ~ stored r o id t.
Proof.
  unfold longestMatch, stored. pose proof (longestIn_spec id (matchRow r o) None) as H.
  destruct (longestIn id (matchRow r o) None) as [x|].
  - destruct H as [[H1|H1] H2]; [discriminate|]. split; [discriminate|].
    intros H3. now apply H3 in H1.
  - destruct H as [_ H]. split; auto.
Qed.

(** idset *)
Lemma idset_has_set s id id' : idset_has (idset_set s id) id' = (Nat.eqb id id' || idset_has s id')%bool.
Proof.
  unfold idset_has, idset_set, divModBits.
  set (e := s ++ repeat 0%N (S (id / 64) - List.length s)).
  assert (He : id / 64 < List.length e).
  { unfold e. rewrite app_length, repeat_length. lia. }
  assert (Hx : forall i, nth i e 0%N = nth i s 0%N).
  { intros i. unfold e. destruct (Nat.lt_ge_cases i (List.length s)).
    - now rewrite app_nth1.
    - rewrite app_nth2 by lia. rewrite (nth_overflow s) by lia. apply nth_repeat. }
  assert (Hn : forall (l : list N) m, 
     match nth_error l (id' / 64) with None => false | Some w => negb (N.eqb (N.land w (N.shiftl 1 m)) 0) end
     = N.testbit (nth (id' / 64) l 0%N) m).
  { intros l m. rewrite nth_nth_error. destruct (nth_error l _) as [w|]; [|now rewrite N.bits_0].
    rewrite N.shiftl_1_l. 
    destruct (N.testbit w m) eqn:E.
    - apply negb_true_iff, N.eqb_neq. intros H.
      assert (N.testbit (N.land w (2 ^ m)) m = false) by (rewrite H; apply N.bits_0).
      rewrite N.land_spec, E, N.pow2_bits_true in H0. discriminate.
    - apply negb_false_iff, N.eqb_eq. apply N.bits_inj. intros k. rewrite N.bits_0, N.land_spec.
      destruct (N.eq_dec k m) as [->|]; [now rewrite E|].
      rewrite N.pow2_bits_false by auto. apply andb_false_r. }
  rewrite !Hn. rewrite nth_updNth by auto. rewrite Hx.
  destruct (Nat.eqb (id / 64) (id' / 64)) eqn:E.
  - apply Nat.eqb_eq in E. rewrite N.lor_spec, N.shiftl_1_l, N.pow2_bits_eqb.
    rewrite orb_comm. f_equal.
    destruct (Nat.eqb_spec id id') as [->|H]; [apply N.eqb_refl|].
    apply N.eqb_neq. intros H1. apply Nat2N.inj in H1. apply H.
    rewrite (Nat.div_mod id 64), (Nat.div_mod id' 64) by lia. lia.
  - destruct (Nat.eqb_spec id id') as [->|H]; auto. rewrite Nat.eqb_refl in E. discriminate.
Qed.

Lemma idset_has_nil id : idset_has [] id = false.
Proof. unfold idset_has, divModBits. destruct (id / 64); auto. Qed.

Lemma noMatchHas_nth r o id :
  noMatchHas r o id = match nth o (rNoMatch r) None with Some s => idset_has s id | None => false end.
Proof. unfold noMatchHas. rewrite nth_nth_error. destruct (nth_error _ _) as [[|]|]; auto. Qed.

Lemma noMatchHas_setNoMatch r o id o' id' :
  noMatchHas (setNoMatch r o id) o' id' = true <->
  noMatchHas r o' id' = true \/ (o' = o /\ id' = id /\ forall t, ~ stored r o id t).
Proof.
  unfold setNoMatch. destruct (existsb (entryId id) (matchRow r o)) eqn:E.
  - split; auto. intros [|(-> & -> & H)]; auto. exfalso.
    apply existsb_exists in E. destruct E as ((i & t) & Hi & Hid). apply entryId_true in Hid. simpl in Hid.
    subst i. now apply (H t).
  - assert (Hns : forall t, ~ stored r o id t).
    { intros t Ht. assert (existsb (entryId id) (matchRow r o) = true); [|congruence].
      apply existsb_exists. exists (Some id, t). split; auto. now apply entryId_true. }
    rewrite !noMatchHas_nth. simpl. rewrite nth_updNth by apply ensureOffset_length.
    rewrite nth_ensureOffset. destruct (Nat.eqb_spec o o') as [<-|H].
    + rewrite idset_has_set. rewrite orb_true_iff, Nat.eqb_eq.
      destruct (nth o (rNoMatch r) None); [|rewrite idset_has_nil]; intuition congruence.
    + intuition congruence.
Qed.

Lemma matchRow_setNoMatch r o id o' : matchRow (setNoMatch r o id) o' = matchRow r o'.
Proof. unfold setNoMatch. destruct (existsb _ _); auto. Qed.
Lemma stored_setNoMatch r o id o' id' t : stored (setNoMatch r o id) o' id' t <-> stored r o' id' t.
Proof. unfold stored. rewrite matchRow_setNoMatch. tauto. Qed.
Lemma pending_setNoMatch r o id : rPending (setNoMatch r o id) = rPending r.
Proof. unfold setNoMatch. destruct (existsb _ _); auto. Qed.

(** pending marks, counted *)
Fixpoint slotCount (o : nat) (l : list (option nat)) : nat :=
  match l with
  | [] => 0
  | s :: l' => (if slotIs o s then 1 else 0) + slotCount o l'
  end.
Definition pcount (r : results) (o id : nat) : nat := slotCount o (nth id (rPending r) []).

Lemma pending_pcount r o id : pending r o id = true <-> 0 < pcount r o id.
Proof.
  unfold pending, pcount. induction (nth id (rPending r) []) as [|s l IH]; simpl; [split; [discriminate|lia]|].
  rewrite orb_true_iff, IH. destruct (slotIs o s); simpl; split; intros; auto; try lia.
Qed.
Lemma pending_false r o id : pending r o id = false <-> pcount r o id = 0.
Proof.
  pose proof (pending_pcount r o id) as [H1 H2]. destruct (pending r o id); split; intros H; auto.
  - discriminate.
  - specialize (H1 eq_refl). lia.
  - destruct (pcount r o id); auto. specialize (H2 ltac:(lia)). discriminate.
Qed.

Lemma slotCount_markIn o l : forall o', slotCount o' (markIn o l) = (if Nat.eqb o o' then 1 else 0) + slotCount o' l.
Proof.
  induction l as [|[s|] l IH]; intros o'; simpl; auto. rewrite IH. lia.
Qed.
Lemma slotCount_unmarkIn o l : forall o', slotCount o' (unmarkIn o l) = slotCount o' l - (if Nat.eqb o o' then 1 else 0).
Proof.
  induction l as [|s l IH]; intros o'; simpl; auto.
  destruct (slotIs o s) eqn:E; simpl.
  - destruct s as [x|]; simpl in *; [|discriminate]. apply Nat.eqb_eq in E. subst x. lia.
  - rewrite IH. destruct (slotIs o' s) eqn:E'; [|lia]. simpl.
    destruct (Nat.eqb_spec o o') as [->|]; [congruence|]. lia.
Qed.

Lemma pcount_mark r o id o' id' :
  pcount (markPending r o id) o' id' = pcount r o' id' + (if Nat.eqb id id' && Nat.eqb o o' then 1 else 0).
Proof.
  unfold pcount, markPending; simpl. rewrite nth_updNth by apply ensureOffset_length.
  rewrite nth_ensureOffset. destruct (Nat.eqb id id'); simpl; [|lia].
  rewrite slotCount_markIn. lia.
Qed.

Lemma pcount_unmark r o id r' : unmarkPending r o id = Ok r' -> forall o' id',
  pcount r' o' id' = pcount r o' id' - (if Nat.eqb id id' && Nat.eqb o o' then 1 else 0).
Proof.
  unfold unmarkPending. destruct (_ <=? _) eqn:E; [discriminate|]. inversion 1; subst; clear H.
  apply Nat.leb_gt in E. intros. unfold pcount; simpl. rewrite nth_updNth by auto.
  destruct (Nat.eqb id id'); simpl; [|lia]. apply slotCount_unmarkIn.
Qed.

Lemma unmark_ok r o id : 0 < pcount r o id -> exists r', unmarkPending r o id = Ok r'.
Proof.
  intros H. unfold unmarkPending. destruct (_ <=? _) eqn:E; [|eauto].
  apply Nat.leb_le in E. unfold pcount in H. rewrite nth_overflow in H by auto. simpl in H. lia.
Qed.
Lemma unmark_no_fuel r o id : unmarkPending r o id <> NoFuel.
Proof. unfold unmarkPending. destruct (_ <=? _); discriminate. Qed.

Lemma unmark_match r o id r' : unmarkPending r o id = Ok r' -> rMatch r' = rMatch r /\ rNoMatch r' = rNoMatch r.
Proof. unfold unmarkPending. destruct (_ <=? _); [discriminate|]. inversion 1; auto. Qed.
Lemma mark_match r o id : rMatch (markPending r o id) = rMatch r /\ rNoMatch (markPending r o id) = rNoMatch r.
Proof. auto. Qed.

Lemma pcount_setMatch r o id t o' id' : pcount (setMatch r o id t) o' id' = pcount r o' id'.
Proof. unfold pcount. now rewrite pending_setMatch. Qed.
Lemma pcount_setNoMatch r o id o' id' : pcount (setNoMatch r o id) o' id' = pcount r o' id'.
Proof. unfold pcount. now rewrite pending_setNoMatch. Qed.

Lemma stored_ext r r' : rMatch r' = rMatch r -> forall o id t, stored r' o id t <-> stored r o id t.
Proof. intros H o id t. unfold stored, matchRow. rewrite H. tauto. Qed.
Lemma noMatchHas_ext r r' : rNoMatch r' = rNoMatch r -> forall o id, noMatchHas r' o id = noMatchHas r o id.
Proof. intros H o id. unfold noMatchHas. now rewrite H. Qed.
