(** The slices with capacity of Cap.v refine the lists of IdSet.v and Results.v, whatever the
    runtime chooses as capacity. *)
From Verif Require Import Base IdSet Results Cap StoreSpec ListFacts ResultsFacts.

(** the slice shows the list [l], and only zero elements are hidden behind it *)
Definition isSl {A} (zero : A) (s : slice A) (l : list A) : Prop :=
  slLen s = List.length l /\ exists k, slArr s = l ++ repeat zero k.

Lemma isSl_nil {A} (z : A) : isSl z nilSlice [].
Proof. split; auto. now exists 0. Qed.

Lemma firstn_len {A} (l m : list A) : firstn (List.length l) (l ++ m) = l.
Proof. induction l; simpl; auto. now f_equal. Qed.
Lemma skipn_len {A} (l m : list A) n : skipn (List.length l + n) (l ++ m) = skipn n m.
Proof. induction l; simpl; auto. Qed.

Lemma skipn_repeat {A} (z : A) k : forall n, skipn n (repeat z k) = repeat z (k - n).
Proof. induction k; intros [|n]; simpl; auto. Qed.

Lemma isSl_elems {A} (z : A) s l : isSl z s l -> elems s = l.
Proof. intros [H [k Hk]]. unfold elems. rewrite H, Hk. apply firstn_len. Qed.

Lemma isSl_getAt {A} (z : A) s l i : isSl z s l -> getAt s i = nth_error l i.
Proof.
  intros [H [k Hk]]. unfold getAt. rewrite H, Hk. destruct (Nat.ltb_spec i (List.length l)).
  - now rewrite nth_error_app1.
  - symmetry. apply nth_error_None. auto.
Qed.

Lemma isSl_appended {A} (z : A) s l xs s' : isSl z s l -> appended z s xs s' -> isSl z s' (l ++ xs).
Proof.
  intros [H [k Hk]] Ha. destruct Ha as [Hf | c Hf Hc]; split; cbn [slLen slArr]; try (rewrite app_length; lia).
  - exists (k - List.length xs). rewrite H, Hk, firstn_len, skipn_len, skipn_repeat. now rewrite app_assoc.
  - eexists. rewrite H, Hk, firstn_len. now rewrite app_assoc.
Qed.

Lemma isSl_times {A} (z : A) k : forall s l s', isSl z s l -> appendTimes z k s s' -> isSl z s' (l ++ repeat z k).
Proof.
  induction k; intros s l s' H Ha; inversion Ha as [|k' s0 s1 s2 Ha1 Ha2]; subst.
  - simpl. now rewrite app_nil_r.
  - pose proof (isSl_appended _ _ _ _ _ H Ha1) as H'. specialize (IHk _ _ _ H' Ha2). simpl.
    now rewrite <- app_assoc in IHk.
Qed.

Lemma repeat_plus {A} (z : A) a b : repeat z (a + b) = repeat z a ++ repeat z b.
Proof. induction a; simpl; auto. now f_equal. Qed.

Lemma isSl_reslice {A} (z : A) s l n : isSl z s l -> List.length l <= n -> n <= capOf s ->
  isSl z (reslice n s) (l ++ repeat z (n - List.length l)).
Proof.
  intros [H [k Hk]] H1 H2. unfold capOf in H2. rewrite Hk, app_length, repeat_length in H2.
  split; cbn [slLen slArr reslice].
  - rewrite app_length, repeat_length. lia.
  - exists (k - (n - List.length l)). rewrite Hk, <- app_assoc, <- repeat_plus. f_equal. f_equal. lia.
Qed.

Lemma isSl_ensured {A} (z : A) s l o s' : isSl z s l -> ensured z s o s' -> isSl z s' (ensureOffset z l o).
Proof.
  intros H Ha. pose proof H as [Hl [k Hk]]. unfold ensureOffset. destruct Ha as [H1|H1 H2|s' H1 H2 H3].
  - rewrite Hl in H1. replace (S o - _) with 0 by lia. simpl. now rewrite app_nil_r.
  - apply isSl_reslice; auto. lia.
  - assert (Hc : List.length l <= capOf s) by (unfold capOf; rewrite Hk, app_length; lia).
    pose proof (isSl_reslice _ _ _ (capOf s) H Hc ltac:(lia)) as Hr.
    pose proof (isSl_times _ _ _ _ _ Hr H3) as Ht.
    rewrite <- app_assoc, <- repeat_plus in Ht.
    replace (capOf s - List.length l + (S o - capOf s)) with (S o - List.length l) in Ht by lia. auto.
Qed.

Lemma updNth_app {A} (f : A -> A) l m : forall i, i < List.length l -> updNth i f (l ++ m) = updNth i f l ++ m.
Proof. induction l; intros [|i] H; simpl in *; auto; try lia. f_equal. apply IHl. lia. Qed.

Lemma isSl_setAt {A} (z : A) s l i f : isSl z s l -> i < List.length l -> isSl z (setAt i f s) (updNth i f l).
Proof.
  intros [H [k Hk]] Hi. split; cbn [slLen slArr setAt].
  - now rewrite updNth_length.
  - exists k. rewrite Hk. now apply updNth_app.
Qed.

Lemma isSl_overwrite {A} (z : A) s l l' : isSl z s l -> List.length l' = List.length l -> isSl z (overwrite l' s) l'.
Proof.
  intros [H [k Hk]] Hl. split; cbn [slLen slArr overwrite]; [lia|].
  exists k. rewrite H, Hk. f_equal. replace (List.length l) with (List.length l + 0) by lia. apply skipn_len.
Qed.

(** an allocation is always possible: the operations on slices are total *)
Lemma appended_exists {A} (z : A) s l xs : isSl z s l -> exists s', appended z s xs s'.
Proof.
  intros H. destruct (Nat.le_gt_cases (slLen s + List.length xs) (capOf s)); eexists; [now apply app_fits | eapply app_grows; eauto].
Qed.
Lemma times_exists {A} (z : A) k : forall s l, isSl z s l -> exists s', appendTimes z k s s'.
Proof.
  induction k; intros s l H; [eexists; constructor|].
  destruct (appended_exists z s l [z] H) as [s1 H1].
  destruct (IHk s1 _ (isSl_appended _ _ _ _ _ H H1)) as [s2 H2]. eexists. econstructor; eauto.
Qed.
Lemma ensured_exists {A} (z : A) s l o : isSl z s l -> exists s', ensured z s o s'.
Proof.
  intros H. destruct (Nat.lt_ge_cases o (slLen s)); [eexists; now apply en_long|].
  destruct (Nat.lt_ge_cases o (capOf s)); [eexists; now apply en_cap|].
  assert (Hc : List.length l <= capOf s) by (destruct H as [? [k Hk]]; unfold capOf; rewrite Hk, app_length; lia).
  pose proof (isSl_reslice _ _ _ (capOf s) H Hc ltac:(lia)) as Hr.
  destruct (times_exists z (S o - capOf s) _ _ Hr) as [s' Hs]. eexists. eapply en_grow; eauto.
Qed.

(** id sets *)
Lemma sim_set s l id s' : isSl 0%N s l -> cSet s id s' -> isSl 0%N s' (idset_set l id).
Proof.
  intros H [s1 H1]. pose proof (isSl_ensured _ _ _ _ _ H H1) as H2.
  apply (isSl_setAt _ _ _ (id / 64) (fun w => N.lor w (N.shiftl 1 (N.of_nat (id mod 64))))) in H2;
    [exact H2 | apply ensureOffset_length].
Qed.
Lemma sim_unset s l id : isSl 0%N s l -> isSl 0%N (cUnset s id) (idset_unset l id).
Proof.
  intros H. unfold cUnset, idset_unset, divModBits. pose proof H as [-> _].
  destruct (Nat.leb_spec (List.length l) (id / 64)); auto. now apply isSl_setAt.
Qed.
Lemma sim_has s l id : isSl 0%N s l -> cHas s id = idset_has l id.
Proof. intros H. unfold cHas, idset_has, divModBits. now rewrite (isSl_getAt _ _ _ _ H). Qed.

Lemma lastOp_app id h h' acc : lastOp id (h ++ h') acc = lastOp id h' (lastOp id h acc).
Proof. revert acc; induction h as [|[i b] h IH]; simpl; auto. Qed.

Lemma idset_has_bit s id : idset_has s id = N.testbit (nth (id / 64) s 0%N) (N.of_nat (id mod 64)).
Proof.
  unfold idset_has, divModBits. rewrite nth_nth_error. destruct (nth_error s _) as [w|]; [|now rewrite N.bits_0].
  rewrite N.shiftl_1_l. set (m := N.of_nat (id mod 64)).
  destruct (N.testbit w m) eqn:E.
  - apply negb_true_iff, N.eqb_neq. intros H.
    assert (H0 : N.testbit (N.land w (2 ^ m)) m = false) by (rewrite H; apply N.bits_0).
    rewrite N.land_spec, E, N.pow2_bits_true in H0. discriminate.
  - apply negb_false_iff, N.eqb_eq. apply N.bits_inj. intros k. rewrite N.bits_0, N.land_spec.
    destruct (N.eq_dec k m) as [->|]; [now rewrite E|].
    rewrite N.pow2_bits_false by auto. apply andb_false_r.
Qed.

Lemma idset_has_unset s id id' : idset_has (idset_unset s id) id' = (negb (Nat.eqb id id') && idset_has s id')%bool.
Proof.
  rewrite !idset_has_bit. unfold idset_unset, divModBits.
  destruct (Nat.leb_spec (List.length s) (id / 64)) as [H|H].
  - destruct (Nat.eqb_spec id id') as [<-|]; auto. rewrite (nth_overflow s) by auto. now rewrite N.bits_0.
  - rewrite nth_updNth by auto. destruct (Nat.eqb_spec (id / 64) (id' / 64)) as [E|E].
    + rewrite N.ldiff_spec, N.shiftl_1_l, N.pow2_bits_eqb.
      destruct (N.eqb_spec (N.of_nat (id mod 64)) (N.of_nat (id' mod 64))) as [E2|E2].
      * apply Nat2N.inj in E2. assert (id = id') by (pose proof (Nat.div_mod id 64); pose proof (Nat.div_mod id' 64); lia). subst.
        rewrite Nat.eqb_refl. simpl. now rewrite andb_false_r.
      * destruct (Nat.eqb_spec id id') as [->|]; [congruence|]. simpl. now rewrite andb_true_r.
    + destruct (Nat.eqb_spec id id') as [->|]; [congruence|]. auto.
Qed.

Lemma idRun_refines h s : idRun h s -> exists l, isSl 0%N s l /\ forall id, idset_has l id = lastOp id h false.
Proof.
  induction 1 as [|h s id s' H (l & Hl & IH) Hs|h s id H (l & Hl & IH)].
  - exists []. split; [apply isSl_nil|]. intros id. unfold idset_has, divModBits. now destruct (id / 64).
  - exists (idset_set l id). split; [eapply sim_set; eauto|]. intros id'. rewrite lastOp_app. simpl.
    rewrite idset_has_set, IH. now destruct (id =? id').
  - exists (idset_unset l id). split; [now apply sim_unset|]. intros id'. rewrite lastOp_app. simpl.
    rewrite idset_has_unset, IH. now destruct (id =? id').
Qed.

(** the words keep to 64 bits *)
Definition wordsOk (l : list N) : Prop := Forall (fun w => (w < 2 ^ 64)%N) l.
Lemma lt_pow2 w : (w < 2 ^ 64)%N <-> forall k, (64 <= k)%N -> N.testbit w k = false.
Proof.
  split.
  - intros H k Hk. destruct (N.eq_dec w 0) as [->|Hw]; [apply N.bits_0|].
    apply N.bits_above_log2. assert (N.log2 w < 64)%N by (apply (proj1 (N.log2_lt_pow2 w 64 ltac:(lia))); auto). lia.
  - intros H. destruct (N.eq_dec w 0) as [->|Hw]; [reflexivity|].
    apply N.log2_lt_pow2; [lia|]. destruct (N.lt_ge_cases (N.log2 w) 64) as [|Hge]; auto.
    specialize (H _ Hge). rewrite N.bit_log2 in H by auto. discriminate.
Qed.
Lemma Forall_updNth {A} (P : A -> Prop) f l : forall i, Forall P l -> (forall x, P x -> P (f x)) -> Forall P (updNth i f l).
Proof. induction l; intros [|i] H Hf; inversion H; subst; simpl; constructor; auto. Qed.
Lemma idRun_words h s : idRun h s -> forall l, isSl 0%N s l -> wordsOk l.
Proof.
  assert (U : forall A (z : A) s l l', isSl z s l -> isSl z s l' -> l = l')
    by (intros A z s1 l l' H1 H2; rewrite <- (isSl_elems _ _ _ H1); now apply isSl_elems with z).
  induction 1 as [|h s id s' H IH Hs|h s id H IH]; intros l' Hl'.
  - rewrite (U _ _ _ _ _ Hl' (isSl_nil _)). constructor.
  - destruct (idRun_refines _ _ H) as (l & Hl & _). rewrite (U _ _ _ _ _ Hl' (sim_set _ _ _ _ Hl Hs)).
    unfold idset_set, divModBits. apply Forall_updNth.
    + apply Forall_app. split; [now apply IH|]. apply Forall_forall. intros x Hx. apply repeat_spec in Hx. now subst.
    + intros w Hw. apply lt_pow2. intros k Hk. rewrite N.lor_spec, N.shiftl_1_l. rewrite lt_pow2 in Hw. rewrite Hw by auto.
      rewrite N.pow2_bits_false; auto. pose proof (Nat.mod_upper_bound id 64). lia.
  - destruct (idRun_refines _ _ H) as (l & Hl & _). rewrite (U _ _ _ _ _ Hl' (sim_unset _ _ id Hl)).
    unfold idset_unset, divModBits. destruct (_ <=? _); [now apply IH|]. apply Forall_updNth; [now apply IH|].
    intros w Hw. apply lt_pow2. intros k Hk. rewrite N.ldiff_spec. rewrite lt_pow2 in Hw. now rewrite Hw.
Qed.

(** the memo table *)
Definition enc (x : option nat) : Z := match x with Some i => Z.of_nat i | None => (-1)%Z end.
Fixpoint flat (row : list (option nat * nat)) : list Z :=
  match row with [] => [] | (i, t) :: row' => enc i :: Z.of_nat t :: flat row' end.

Definition relSet (p : option cIdSet) (q : option idSet) : Prop :=
  match p, q with
  | None, None => True
  | Some s, Some l => isSl 0%N s l
  | _, _ => False
  end.
Record relR (c : cResults) (r : results) : Prop := {
  rr_noMatch : exists l, isSl None (cNoMatch c) l /\ Forall2 relSet l (rNoMatch r);
  rr_match : exists l, isSl nilSlice (cMatch c) l /\ Forall2 (fun s row => isSl 0%Z s (flat row)) l (rMatch r);
  rr_pending : exists l, isSl nilSlice (cPending c) l /\ Forall2 (fun s row => isSl 0%Z s (map enc row)) l (rPending r) }.

Lemma enc_eqb i id : (enc i =? Z.of_nat id)%Z = match i with Some i => i =? id | None => false end.
Proof.
  destruct i as [i|]; cbn [enc].
  - destruct (Nat.eqb_spec i id) as [->|]; [apply Z.eqb_refl | apply Z.eqb_neq; lia].
  - apply Z.eqb_neq. lia.
Qed.
Lemma nat_eqb t to : (Z.of_nat t =? Z.of_nat to)%Z = (t =? to).
Proof. exact (enc_eqb (Some t) to). Qed.
Lemma rowHas_flat id to row : rowHas (Z.of_nat id) (Z.of_nat to) (flat row) = existsb (entryIs id to) row.
Proof.
  induction row as [|[i t] row IH]; simpl; auto. rewrite enc_eqb, nat_eqb, IH. unfold entryIs; simpl.
  destruct i as [i|]; simpl; auto; destruct (i =? id), (t =? to); auto.
Qed.
Lemma rowHasId_flat id row : rowHasId (Z.of_nat id) (flat row) = existsb (entryId id) row.
Proof.
  induction row as [|[i t] row IH]; simpl; auto. rewrite enc_eqb, IH. unfold entryId; simpl.
  destruct i as [i|]; simpl; auto.
Qed.
Lemma rowDrop_flat id to row : rowDrop (Z.of_nat id) (Z.of_nat to) (flat row) = flat (dropIn id to row).
Proof.
  induction row as [|[i t] row IH]; simpl; auto. rewrite enc_eqb, nat_eqb, IH. unfold entryIs; simpl.
  destruct i as [i|]; simpl; auto; destruct (i =? id), (t =? to); auto.
Qed.
Lemma flat_length row : List.length (flat row) = 2 * List.length row.
Proof. induction row as [|[i t] row IH]; simpl; auto. rewrite IH. lia. Qed.
Lemma dropIn_length id to row : List.length (dropIn id to row) = List.length row.
Proof. induction row; simpl; auto. destruct (entryIs _ _ _); simpl; auto. Qed.
Lemma flat_app a b : flat (a ++ b) = flat a ++ flat b.
Proof. induction a as [|[i t] a IH]; simpl; auto. now rewrite IH. Qed.
Lemma rowLongest_flat id row : forall acc,
  rowLongest (Z.of_nat id) (flat row) (enc acc) (match acc with Some _ => true | None => false end) =
  (enc (longestIn id row acc), match longestIn id row acc with Some _ => true | None => false end).
Proof.
  induction row as [|[i t] row IH]; intros acc; simpl; auto. rewrite enc_eqb. unfold entryId; simpl.
  destruct i as [i|]; simpl; auto. destruct (i =? id); simpl; auto.
  rewrite <- IH. destruct acc as [a|]; simpl.
  - destruct (Nat.ltb_spec a t), (Z.ltb_spec (Z.of_nat a) (Z.of_nat t)); try lia; auto.
  - destruct (Z.ltb_spec (-1) (Z.of_nat t)); try lia. auto.
Qed.
Lemma slotMark_some o row l : slotMark (Z.of_nat o) (map enc row) = Some l -> l = map enc (markIn o row).
Proof.
  revert l; induction row as [|[x|] row IH]; intros l; simpl; [discriminate| |].
  - destruct (Z.eqb_spec (Z.of_nat x) (-1)); [lia|]. destruct (slotMark _ _) as [l'|]; [|discriminate].
    inversion 1; subst. now rewrite (IH l' eq_refl).
  - now inversion 1.
Qed.
Lemma slotMark_none o row : slotMark (Z.of_nat o) (map enc row) = None -> markIn o row = row ++ [Some o].
Proof.
  induction row as [|[x|] row IH]; simpl; auto; [|discriminate].
  destruct (Z.eqb_spec (Z.of_nat x) (-1)); [lia|]. destruct (slotMark _ _) as [l'|]; [discriminate|].
  intros _. now rewrite IH.
Qed.
Lemma slotMark_length o row : forall l, slotMark o row = Some l -> List.length l = List.length row.
Proof.
  induction row as [|x row IH]; intros l; simpl; [discriminate|]. destruct (_ =? _)%Z; [now inversion 1|].
  destruct (slotMark o row) as [l'|]; [|discriminate]. inversion 1; subst. simpl. f_equal. now apply IH.
Qed.
Lemma slotUnmark_enc o row : slotUnmark (Z.of_nat o) (map enc row) = map enc (unmarkIn o row).
Proof.
  induction row as [|x row IH]; simpl; auto. rewrite enc_eqb, IH. unfold slotIs. destruct x as [x|]; simpl; auto.
  destruct (x =? o); auto.
Qed.
Lemma unmarkIn_length o row : List.length (unmarkIn o row) = List.length row.
Proof. induction row; simpl; auto. destruct (slotIs _ _); simpl; auto. Qed.
Lemma pending_enc o row : existsb (Z.eqb (Z.of_nat o)) (map enc row) = existsb (slotIs o) row.
Proof.
  induction row as [|x row IH]; simpl; auto. rewrite Z.eqb_sym, enc_eqb, IH. unfold slotIs. destruct x as [x|]; simpl; auto.
Qed.

(** Forall2 *)
Lemma F2_length {A B} (R : A -> B -> Prop) l l' : Forall2 R l l' -> List.length l = List.length l'.
Proof. induction 1; simpl; auto. Qed.
Lemma F2_ensure {A B} (R : A -> B -> Prop) a b l l' o : R a b -> Forall2 R l l' -> Forall2 R (ensureOffset a l o) (ensureOffset b l' o).
Proof.
  intros Hab H. unfold ensureOffset. rewrite (F2_length _ _ _ H). apply Forall2_app; auto.
  induction (S o - List.length l'); simpl; constructor; auto.
Qed.
Lemma F2_upd {A B} (R : A -> B -> Prop) f g l l' i : (forall a b, nth_error l i = Some a -> nth_error l' i = Some b -> R a b -> R (f a) (g b)) ->
  Forall2 R l l' -> Forall2 R (updNth i f l) (updNth i g l').
Proof.
  intros Hf H. revert i Hf. induction H; intros [|i] Hf; simpl; constructor; auto.
Qed.
Lemma F2_nth {A B} (R : A -> B -> Prop) l l' i : Forall2 R l l' ->
  match nth_error l i, nth_error l' i with Some a, Some b => R a b | None, None => True | _, _ => False end.
Proof. intros H. revert i; induction H; intros [|i]; simpl; auto. apply IHForall2. Qed.

Lemma matchRowAt s l rows o : isSl nilSlice s l -> Forall2 (fun s row => isSl 0%Z s (flat row)) l rows ->
  rowAt s o = flat (nth o rows []).
Proof.
  intros H HF. unfold rowAt. rewrite (isSl_getAt _ _ _ _ H), nth_nth_error. pose proof (F2_nth _ _ _ o HF) as Hn.
  destruct (nth_error l o), (nth_error rows o); try contradiction; auto. now apply isSl_elems in Hn.
Qed.
Lemma pendingRowAt s l rows o : isSl nilSlice s l -> Forall2 (fun s row => isSl 0%Z s (map enc row)) l rows ->
  rowAt s o = map enc (nth o rows []).
Proof.
  intros H HF. unfold rowAt. rewrite (isSl_getAt _ _ _ _ H), nth_nth_error. pose proof (F2_nth _ _ _ o HF) as Hn.
  destruct (nth_error l o), (nth_error rows o); try contradiction; auto. now apply isSl_elems in Hn.
Qed.

Lemma rel_empty : relR cEmpty emptyResults.
Proof. split; exists []; split; try apply isSl_nil; constructor. Qed.

Lemma sim_setMatch c r o id t c' : relR c r -> cSetMatch c o id t c' -> relR c' (setMatch r o id t).
Proof.
  intros [Hn (l & Hl & HF) Hp] H. unfold setMatch.
  pose proof (F2_ensure (fun s row => isSl 0%Z s (flat row)) nilSlice [] _ _ o (isSl_nil 0%Z) HF) as HF'.
  destruct H as [m Hm Hh|m row row' Hm Hh Hg Ha]; pose proof (isSl_ensured _ _ _ _ _ Hl Hm) as Hl';
    rewrite (matchRowAt _ _ _ o Hl' HF'), rowHas_flat in Hh; rewrite Hh.
  - split; simpl; eauto.
  - split; simpl; auto. exists (updNth o (fun _ => row') (ensureOffset nilSlice l o)). split.
    + apply isSl_setAt; auto. apply ensureOffset_length.
    + apply F2_upd; auto. intros a b Ea Eb Hab. rewrite (isSl_getAt _ _ _ _ Hl') in Hg.
      assert (row = a) by congruence. subst a. rewrite flat_app. simpl. eapply isSl_appended; eauto.
Qed.

Lemma sim_setNoMatch c r o id c' : relR c r -> cSetNoMatch c o id c' -> relR c' (setNoMatch r o id).
Proof.
  intros HR H. pose proof HR as [(l & Hl & HF) (lm & Hm & HFm) Hp]. unfold setNoMatch.
  destruct H as [Hh|nm p s' Hh He Hg Hs]; rewrite (matchRowAt _ _ _ o Hm HFm), rowHasId_flat in Hh;
    unfold matchRow; rewrite Hh; auto.
  pose proof (F2_ensure relSet None None _ _ o I HF) as HF'.
  pose proof (isSl_ensured _ _ _ _ _ Hl He) as Hl'.
  split; simpl; eauto. exists (updNth o (fun _ => Some s') (ensureOffset None l o)). split.
  - apply isSl_setAt; auto. apply ensureOffset_length.
  - apply F2_upd; auto. intros a b Ea Eb Hab. rewrite (isSl_getAt _ _ _ _ Hl') in Hg.
    assert (p = a) by congruence. subst a. simpl. eapply sim_set; [|exact Hs].
    destruct p, b; try contradiction; auto. apply isSl_nil.
Qed.

Lemma sim_drop c r o id t : relR c r ->
  match cDropMatchTo c o id t, dropMatchTo r o id t with
  | Ok c', Ok r' => relR c' r'
  | Panic p, Panic q => p = q
  | _, _ => False
  end.
Proof.
  intros [Hn (l & Hl & HF) Hp]. unfold cDropMatchTo, dropMatchTo. rewrite (isSl_getAt _ _ _ _ Hl), <- (F2_length _ _ _ HF).
  destruct (nth_error l o) as [row|] eqn:E.
  - assert (Hlt : o < List.length l) by (apply nth_error_Some; congruence).
    destruct (Nat.leb_spec (List.length l) o); [lia|]. split; simpl; auto.
    eexists. split; [apply isSl_setAt; eauto|]. apply F2_upd; auto.
    intros a b Ea Eb Hab. assert (row = a) by congruence. subst a.
    rewrite (isSl_elems _ _ _ Hab), rowDrop_flat. eapply isSl_overwrite; eauto. rewrite !flat_length, dropIn_length. auto.
  - apply nth_error_None in E. destruct (Nat.leb_spec (List.length l) o); [auto|lia].
Qed.

Lemma sim_reset c r : relR c r -> relR (cResetPending c) (resetPending r).
Proof. intros [Hn Hm Hp]. split; simpl; auto. exists []. split; [apply isSl_nil|constructor]. Qed.

Lemma sim_mark c r o id c' : relR c r -> cMarkPending c o id c' -> relR c' (markPending r o id).
Proof.
  intros [Hn Hm (l & Hl & HF)] H.
  pose proof (F2_ensure (fun s row => isSl 0%Z s (map enc row)) nilSlice [] _ _ id (isSl_nil 0%Z) HF) as HF'.
  destruct H as [p row l0 He Hg Hs|p row row' He Hg Hs Ha]; pose proof (isSl_ensured _ _ _ _ _ Hl He) as Hl';
    rewrite (isSl_getAt _ _ _ _ Hl') in Hg; split; simpl; auto.
  - eexists. split; [apply isSl_setAt; [exact Hl'|apply ensureOffset_length]|].
    apply F2_upd; auto. intros a b Ea Eb Hab. assert (row = a) by congruence. subst a.
    rewrite (isSl_elems _ _ _ Hab) in Hs. pose proof (slotMark_length _ _ _ Hs) as HL. apply slotMark_some in Hs. subst l0.
    eapply isSl_overwrite; eauto.
  - eexists. split; [apply isSl_setAt; [exact Hl'|apply ensureOffset_length]|].
    apply F2_upd; auto. intros a b Ea Eb Hab. assert (row = a) by congruence. subst a.
    rewrite (isSl_elems _ _ _ Hab) in Hs. apply slotMark_none in Hs. rewrite Hs, map_app. simpl. eapply isSl_appended; eauto.
Qed.

Lemma sim_unmark c r o id : relR c r ->
  match cUnmarkPending c o id, unmarkPending r o id with
  | Ok c', Ok r' => relR c' r'
  | Panic p, Panic q => p = q
  | _, _ => False
  end.
Proof.
  intros [Hn Hm (l & Hl & HF)]. unfold cUnmarkPending, unmarkPending. rewrite (isSl_getAt _ _ _ _ Hl), <- (F2_length _ _ _ HF).
  destruct (nth_error l id) as [row|] eqn:E.
  - assert (Hlt : id < List.length l) by (apply nth_error_Some; congruence).
    destruct (Nat.leb_spec (List.length l) id); [lia|]. split; simpl; auto.
    eexists. split; [apply isSl_setAt; eauto|]. apply F2_upd; auto.
    intros a b Ea Eb Hab. assert (row = a) by congruence. subst a.
    rewrite (isSl_elems _ _ _ Hab), slotUnmark_enc. eapply isSl_overwrite; eauto. rewrite !map_length, unmarkIn_length. auto.
  - apply nth_error_None in E. destruct (Nat.leb_spec (List.length l) id); [auto|lia].
Qed.

Lemma sim_hasMatchTo c r o id t : relR c r -> cHasMatchTo c o id t = hasMatchTo r o id t.
Proof.
  intros [_ (l & Hl & HF) _]. unfold cHasMatchTo, hasMatchTo. rewrite (matchRowAt _ _ _ o Hl HF). apply rowHas_flat.
Qed.
Lemma sim_longestMatch c r o id : relR c r ->
  match longestMatch r o id with
  | Some t => cLongestMatch c o id = (Z.of_nat t, true)
  | None => snd (cLongestMatch c o id) = false
  end.
Proof.
  intros [_ (l & Hl & HF) _]. unfold cLongestMatch, longestMatch, matchRow.
  rewrite (isSl_getAt _ _ _ _ Hl), nth_nth_error. pose proof (F2_nth _ _ _ o HF) as Hn.
  destruct (nth_error l o), (nth_error (rMatch r) o); try contradiction; simpl; auto.
  rewrite (isSl_elems _ _ _ Hn). pose proof (rowLongest_flat id l0 None) as H. simpl in H. rewrite H.
  destruct (longestIn id l0 None); auto.
Qed.
Lemma sim_noMatchHas c r o id : relR c r ->
  (match getAt (cNoMatch c) o with Some (Some s) => cHas s id | _ => false end) = noMatchHas r o id.
Proof.
  intros [(l & Hl & HF) _ _]. unfold noMatchHas. rewrite (isSl_getAt _ _ _ _ Hl). pose proof (F2_nth _ _ _ o HF) as Hn.
  destruct (nth_error l o) as [[s|]|], (nth_error (rNoMatch r) o) as [[q|]|]; simpl in *; try contradiction; auto.
  now apply sim_has.
Qed.
Lemma sim_pending c r o id : relR c r -> cPendingAt c o id = pending r o id.
Proof.
  intros [_ _ (l & Hl & HF)]. unfold cPendingAt, pending. rewrite (pendingRowAt _ _ _ id Hl HF). apply pending_enc.
Qed.

(** totality: whatever the state, the runtime can carry out the operation *)
Lemma setMatch_total c r o id t : relR c r -> exists c', cSetMatch c o id t c'.
Proof.
  intros [_ (l & Hl & HF) _]. destruct (ensured_exists nilSlice _ _ o Hl) as [m Hm].
  destruct (rowHas (Z.of_nat id) (Z.of_nat t) (rowAt m o)) eqn:E; [eexists; eapply c_match_old; eauto|].
  pose proof (isSl_ensured _ _ _ _ _ Hl Hm) as Hl'.
  pose proof (F2_ensure (fun s row => isSl 0%Z s (flat row)) nilSlice [] _ _ o (isSl_nil 0%Z) HF) as HF'.
  pose proof (ensureOffset_length nilSlice l o) as HL. apply nth_error_Some in HL.
  destruct (nth_error (ensureOffset nilSlice l o) o) as [row|] eqn:Er; [|congruence].
  pose proof (F2_nth _ _ _ o HF') as Hr. rewrite Er in Hr. destruct (nth_error _ _) as [x|] in Hr; [|contradiction].
  destruct (appended_exists _ _ _ [Z.of_nat id; Z.of_nat t] Hr) as [row' Ha].
  eexists. eapply c_match_new; eauto. now rewrite (isSl_getAt _ _ _ _ Hl').
Qed.
