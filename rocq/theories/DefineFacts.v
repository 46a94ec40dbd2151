(** Facts about the definition calls, in the vocabulary of DefSpec.v. *)
From Coq Require Import Permutation.
From Verif Require Import TextSpec Base Utf8 Escape IdSet Results Parser Build Syntax Define ListFacts Lang Sound Grammar WsLang ApiSpec DefSpec InitWalk InitRun InitOk SyntaxFacts InitCore InitSpec InitFuel Rep ParseFacts Restrict Live LangGen Api Utf8Facts WsApi ApiFacts.

(** ** flags *)
Lemma checkIn_some table d err : checkCommitTypeIn table d = Some err ->
  exists a ict b, In (a, ict) table /\ In b ict /\ hasFlag (dCommit d) a = true /\ hasFlag (dCommit d) b = true /\ err = ErrIncompatible (dName d) a b.
Proof.
  induction table as [|[a ict] table IH]; simpl; [discriminate|]. destruct (hasFlag (dCommit d) a) eqn:Ea.
  - destruct (find _ ict) as [b|] eqn:Ef.
    + intros H; inversion H; subst. apply find_some in Ef. destruct Ef. exists a, ict, b. auto 10.
    + intros H. apply IH in H. destruct H as (a1 & i1 & b1 & H1 & H2). exists a1, i1, b1. tauto.
  - intros H. apply IH in H. destruct H as (a1 & i1 & b1 & H1 & H2). exists a1, i1, b1. tauto.
Qed.
Lemma checkIn_none table d : checkCommitTypeIn table d = None ->
  forall a ict b, In (a, ict) table -> In b ict -> hasFlag (dCommit d) a = true -> hasFlag (dCommit d) b = false.
Proof.
  induction table as [|[a ict] table IH]; simpl; [intros _ ? ? ? []|]. destruct (hasFlag (dCommit d) a) eqn:Ea.
  - destruct (find _ ict) as [b|] eqn:Ef; [discriminate|]. intros H a1 i1 b1 [E|Hi] Hb Hf; [|eauto].
    inversion E; subst. apply (find_none _ _ Ef _ Hb).
  - intros H a1 i1 b1 [E|Hi] Hb Hf; [inversion E; subst; congruence|eauto].
Qed.
Lemma table_pairs a b : In (a, b) incompatiblePairs <-> exists ict, In (a, ict) incompatibleCommitTypes /\ In b ict.
Proof.
  unfold incompatiblePairs, incompatibleCommitTypes. simpl. split.
  - intros H. repeat (destruct H as [H|H]; [inversion H; subst; eexists; split; [auto 6|simpl; auto 6]|]); destruct H.
  - intros (ict & H & Hb). repeat (destruct H as [H|H]; [inversion H; subst; simpl in Hb; intuition (subst; auto 12)|]); destruct H.
Qed.
(** the answer of the check does not depend on the iteration order of the Go map *)
Theorem check_any_order table d : Permutation table incompatibleCommitTypes ->
  match checkCommitTypeIn table d with
  | Some err => exists a b, incompatibleFlags (dCommit d) a b /\ err = ErrIncompatible (dName d) a b
  | None => forall a b, ~ incompatibleFlags (dCommit d) a b
  end.
Proof.
  intros Hp. destruct (checkCommitTypeIn table d) as [err|] eqn:E.
  - apply checkIn_some in E. destruct E as (a & ict & b & H1 & H2 & H3 & H4 & ->). exists a, b. split; auto. split; auto.
    apply table_pairs. exists ict. split; auto. eapply Permutation_in; eauto.
  - intros a b (H1 & H2 & H3). apply table_pairs in H1. destruct H1 as (ict & H1 & Hb). apply Permutation_sym in Hp. apply (Permutation_in _ Hp) in H1.
    pose proof (checkIn_none _ _ E a ict b H1 Hb H2). congruence.
Qed.

Lemma applyRoot_err s a s' err : applyRoot s a = (s', Some err) -> err = ErrMultipleRoots.
Proof.
  unfold applyRoot. destruct (nth_error (sHeap s) a) as [d|]; [|discriminate]. destruct (_ && _); [intros H; inversion H; auto|].
  match goal with |- (let (_, _) := ?x in _) = _ -> _ => destruct x end. discriminate.
Qed.
Lemma setDefinition_err h r a h' r' err : setDefinition h r a = (h', r', Some err) -> exists d, nth_error h a = Some d /\ err = ErrDuplicateDefinition (dName d).
Proof.
  unfold setDefinition. destruct (nth_error h a) as [d|]; [|discriminate]. destruct (lookup _ _); [|discriminate]. intros H; inversion H; eauto.
Qed.
Lemma register_err s d s' err : register s d = (s', Some err) ->
  err = ErrSyntaxInitialized /\ sInitialized s = true /\ s' = s \/
  err = ErrMultipleRoots \/
  (exists a b, incompatibleFlags (dCommit d) a b /\ err = ErrIncompatible (dName d) a b) \/
  exists n, err = ErrDuplicateDefinition n.
Proof.
  unfold register. destruct (sInitialized s) eqn:Ei; [intros H; inversion H; subst; auto|].
  pose proof (check_any_order incompatibleCommitTypes d (Permutation_refl _)) as Hc. unfold checkCommitType.
  destruct (checkCommitTypeIn _ d) as [e|]; [intros H; inversion H; subst; auto|].
  destruct (applyRoot _ _) as [s1 [e|]] eqn:Er; [intros H; inversion H; subst; apply applyRoot_err in Er; auto|].
  destruct (setDefinition _ _ _) as [[h1 r1] [e|]] eqn:Es; intros H; inversion H; subst. apply setDefinition_err in Es. destruct Es as (d1 & _ & ->). eauto.
Qed.
Lemma register_incompat s d s' n a b : register s d = (s', Some (ErrIncompatible n a b)) -> n = dName d /\ incompatibleFlags (dCommit d) a b.
Proof.
  intros H. apply register_err in H. destruct H as [(H & _)|[H|[(a1 & b1 & H1 & H2)|(n1 & H)]]]; try discriminate. inversion H2; subst; auto.
Qed.
Lemma register_refuses s d a b : sInitialized s = false -> incompatibleFlags (dCommit d) a b ->
  exists s' a' b', register s d = (s', Some (ErrIncompatible (dName d) a' b')) /\ incompatibleFlags (dCommit d) a' b'.
Proof.
  intros Hi Hf. unfold register. rewrite Hi. pose proof (check_any_order incompatibleCommitTypes d (Permutation_refl _)) as Hc. unfold checkCommitType.
  destruct (checkCommitTypeIn _ d) as [e|]; [|exfalso; eapply Hc; eauto]. destruct Hc as (a' & b' & H1 & ->). eauto.
Qed.
Lemma incompat_bits ct k a b : (forall p, In p incompatiblePairs -> fst p <> 2 ^ k /\ snd p <> 2 ^ k)%N -> incompatibleFlags (N.lor ct (2 ^ k)) a b <-> incompatibleFlags ct a b.
Proof.
  intros Hk. unfold incompatibleFlags. split; intros (H1 & H2 & H3); split; auto; pose proof (Hk _ H1) as [N1 N2]; simpl in N1, N2.
  all: assert (Hp : forall p, In p incompatiblePairs -> exists i j, fst p = (2 ^ i)%N /\ snd p = (2 ^ j)%N)
    by (intros p Hp; simpl in Hp; repeat (destruct Hp as [<-|Hp]; [simpl; (exists 1%N + exists 2%N + exists 4%N + exists 6%N); (exists 7%N + exists 4%N + exists 5%N + exists 6%N); split; reflexivity|]); destruct Hp).
  all: destruct (Hp _ H1) as (i & j & Ei & Ej); simpl in Ei, Ej; subst a b.
  - rewrite !flag_lor_other in * by (intros E; subst; congruence). auto.
  - rewrite !flag_lor_other by (intros E; subst; congruence). auto.
Qed.
Lemma incompat_user ct a b : incompatibleFlags (N.lor ct CUserDefined) a b <-> incompatibleFlags ct a b.
Proof. apply (incompat_bits ct 8). intros p Hp. repeat (destruct Hp as [<-|Hp]; [split; discriminate|]). destruct Hp. Qed.
Lemma incompat_nows ct a b : incompatibleFlags (N.lor ct CNoWhitespace) a b <-> incompatibleFlags ct a b.
Proof. apply (incompat_bits ct 3). intros p Hp. repeat (destruct Hp as [<-|Hp]; [split; discriminate|]). destruct Hp. Qed.
Lemma char_compat n cnot chars ranges a b : ~ incompatibleFlags (dCommit (newChar n cnot chars ranges)) a b.
Proof. intros (H & H1 & H2). simpl in *. repeat (destruct H as [H|H]; [inversion H; subst; vm_compute in H1, H2; discriminate|]). destruct H. Qed.

Lemma charSeqLoop_err name chars : forall s i s' err, charSeqLoop s name i chars = (s', Some err) ->
  exists s1 c j s2, register s1 (newChar (childName name j) false [c] []) = (s2, Some err) /\ (sInitialized s = sInitialized s1).
Proof.
  induction chars as [|c chars IH]; intros s i s' err H; simpl in H; [discriminate|].
  destruct (register s _) as [s1 [e|]] eqn:E.
  - inversion H; subst. exists s, c, i, s'. split; [exact E|reflexivity].
  - apply IH in H. destruct H as (s2 & c2 & j & s3 & H1 & H2). exists s2, c2, j, s3. split; auto. rewrite <- H2. apply register_flags in E. symmetry. tauto.
Qed.

Theorem define_incompat s d s' n a b : defineCall s d = (s', Some (ErrIncompatible n a b)) -> n = callName d /\ incompatibleFlags (callFlags d) a b.
Proof.
  unfold defineCall. destruct (isValidSymbol (callName d)); [|discriminate].
  destruct d as [nm ct|nm ct cn ch rs|nm ct chars|nm ct items|nm ct opts]; simpl; unfold anyChar, class, charSequence, sequence, choice.
  - destruct (register s _) as [s1 [e|]] eqn:E; intros H.
    + inversion H; subst. apply register_incompat in E. destruct E as [_ E]. exfalso. eapply char_compat; eauto.
    + apply register_incompat in H. simpl in H. rewrite incompat_user in H. auto.
  - destruct (register s _) as [s1 [e|]] eqn:E; intros H.
    + inversion H; subst. apply register_incompat in E. destruct E as [_ E]. exfalso. eapply char_compat; eauto.
    + apply register_incompat in H. simpl in H. rewrite incompat_user in H. auto.
  - destruct (charSeqLoop s nm 0 chars) as [s1 [e|]] eqn:E; intros H.
    + inversion H; subst. apply charSeqLoop_err in E. destruct E as (s2 & c & j & s3 & E & _). apply register_incompat in E. destruct E as [_ E]. exfalso. eapply char_compat; eauto.
    + apply register_incompat in H. simpl in H. rewrite incompat_nows, incompat_user in H. auto.
  - intros H. apply register_incompat in H. simpl in H. rewrite incompat_user in H. auto.
  - intros H. apply register_incompat in H. simpl in H. rewrite incompat_user in H. auto.
Qed.
Lemma char_err s n cnot chars ranges s' err : sInitialized s = false -> register s (newChar n cnot chars ranges) = (s', Some err) ->
  exists m, err = ErrDuplicateDefinition m.
Proof.
  intros Hi H. pose proof H as H0. apply register_err in H. destruct H as [(_ & H & _)|[H|[(a & b & H & _)|H]]]; auto; [congruence| |exfalso; eapply char_compat; eauto].
  exfalso. subst err. unfold register in H0. rewrite Hi in H0. change (checkCommitType (newChar n cnot chars ranges)) with (@None gerr) in H0.
  match type of H0 with context [applyRoot ?s ?a] => destruct (applyRoot s a) as [s1 [e|]] eqn:Er end.
  - unfold applyRoot in Er. cbn [sHeap] in Er. rewrite nth_error_app2, Nat.sub_diag in Er by lia. cbn [nth_error] in Er.
    change (hasFlag (dCommit (newChar n cnot chars ranges)) CRoot) with false in Er. simpl in Er. destruct (sExplicitRoot s); simpl in Er; discriminate.
  - destruct (setDefinition _ _ _) as [[h1 r1] [e|]] eqn:Es; inversion H0; subst. apply setDefinition_err in Es. destruct Es as (? & _ & ?). discriminate.
Qed.
Theorem define_refuses s d a b : sInitialized s = false -> isValidSymbol (callName d) = true -> incompatibleFlags (callFlags d) a b ->
  exists s' err, defineCall s d = (s', Some err) /\
  ((exists a' b', err = ErrIncompatible (callName d) a' b' /\ incompatibleFlags (callFlags d) a' b') \/
   (exists m, err = ErrDuplicateDefinition m) /\ match d with DSequence _ _ _ => False | DChoice _ _ _ => False | _ => True end).
Proof.
  intros Hi Hv Hf. unfold defineCall. rewrite Hv.
  assert (Hreg : forall s ct d', sInitialized s = false -> dCommit d' = ct -> (forall a b, incompatibleFlags ct a b <-> incompatibleFlags (callFlags d) a b) -> dName d' = callName d ->
     exists s' err, register s d' = (s', Some err) /\ exists a' b', err = ErrIncompatible (callName d) a' b' /\ incompatibleFlags (callFlags d) a' b').
  { intros s0 ct d' H1 H2 H3 H4. destruct (register_refuses s0 d' a b) as (s' & a' & b' & E & Hf'); auto.
    - rewrite H2. apply H3. auto.
    - exists s', (ErrIncompatible (dName d') a' b'). split; auto. exists a', b'. rewrite H4. split; auto. apply H3. rewrite <- H2. auto. }
  destruct d as [nm ct|nm ct cn ch rs|nm ct chars|nm ct items|nm ct opts]; simpl; unfold anyChar, class, charSequence, sequence, choice.
  - destruct (register s _) as [s1 [e|]] eqn:E.
    + apply char_err in E; auto. destruct E as (m & ->). eauto 10.
    + apply register_flags in E. destruct E as (_ & E & _). rewrite Hi in E.
      destruct (Hreg s1 (N.lor ct CUserDefined) (newSequence nm (N.lor ct CUserDefined) [mkItem (childName nm 0) 0 0]) E eq_refl) as (s' & err & H1 & H2); [intros; apply incompat_user|reflexivity|].
      exists s', err. auto.
  - destruct (register s _) as [s1 [e|]] eqn:E.
    + apply char_err in E; auto. destruct E as (m & ->). eauto 10.
    + apply register_flags in E. destruct E as (_ & E & _). rewrite Hi in E.
      destruct (Hreg s1 (N.lor ct CUserDefined) (newSequence nm (N.lor ct CUserDefined) [mkItem (childName nm 0) 0 0]) E eq_refl) as (s' & err & H1 & H2); [intros; apply incompat_user|reflexivity|].
      exists s', err. auto.
  - destruct (charSeqLoop s nm 0 chars) as [s1 [e|]] eqn:E.
    + apply charSeqLoop_err in E. destruct E as (s2 & c & j & s3 & E & E2). apply char_err in E; [|congruence]. destruct E as (m & ->). eauto 10.
    + assert (Hi1 : sInitialized s1 = false).
      { clear Hf Hreg Hv. revert s Hi E. generalize 0. induction chars as [|c chars IH]; intros i s Hi E; simpl in E; [inversion E; subst; auto|].
        destruct (register s _) as [s2 [e|]] eqn:E2; [discriminate|]. apply register_flags in E2. destruct E2 as (_ & E2 & _). eapply IH; [|exact E]. congruence. }
      destruct (Hreg s1 (N.lor (N.lor ct CUserDefined) CNoWhitespace) (newSequence nm (N.lor (N.lor ct CUserDefined) CNoWhitespace) (namesToSequenceItems (map (childName nm) (seq 0 (List.length chars))))) Hi1 eq_refl) as (s' & err & H1 & H2);
        [intros; rewrite incompat_nows; apply incompat_user|reflexivity|].
      exists s', err. auto.
  - destruct (Hreg s (N.lor ct CUserDefined) (newSequence nm (N.lor ct CUserDefined) items) Hi eq_refl) as (s' & err & H1 & H2); [intros; apply incompat_user|reflexivity|]. exists s', err. auto.
  - destruct (Hreg s (N.lor ct CUserDefined) (newChoice nm (N.lor ct CUserDefined) opts) Hi eq_refl) as (s' & err & H1 & H2); [intros; apply incompat_user|reflexivity|]. exists s', err. auto.
Qed.

(** ** names and identities *)
Definition entryAt (h : dheap) (a : addr) : list (string * nat) :=
  match nth_error h a with Some d => [(dName d, dId d)] | None => [] end.
Lemma registered_of s : registered s = flat_map (entryAt (sHeap s)) (gDefinitions (regOf s)).
Proof. unfold registered, regOf. destruct (sRegistry s); auto. Qed.
Lemma flat_map_ext_in {A B} (f g : A -> list B) l : (forall a, In a l -> f a = g a) -> flat_map f l = flat_map g l.
Proof. induction l as [|a l IH]; simpl; intros H; auto. rewrite H by auto. f_equal. auto. Qed.

Lemma regInv_entries h r : regInv h r -> NoDup (map fst (flat_map (entryAt h) (gDefinitions r))) /\
  map snd (flat_map (entryAt h) (gDefinitions r)) = seq 1 (List.length (gDefinitions r)) /\
  forall n, In n (map fst (flat_map (entryAt h) (gDefinitions r))) <-> lookup (gDefinition r) n <> None.
Proof.
  intros [I1 I2 I3 I4]. split; [|split].
  - clear I1 I4. assert (Hn : forall a, In a (gDefinitions r) -> exists d, nth_error h a = Some d /\ lookup (gDefinition r) (dName d) = Some a).
    { intros a Ha. apply In_nth_error in Ha. destruct Ha as [i Hi]. destruct (I3 i a Hi) as (d & H1 & _ & H2). eauto. }
    clear I3. induction (gDefinitions r) as [|a l IH]; simpl; [constructor|]. inversion I2 as [|? ? N1 N2]; subst.
    destruct (Hn a (or_introl eq_refl)) as (d & Hd & Hl). unfold entryAt at 1. rewrite Hd. simpl. constructor.
    + intros Hin. apply in_map_iff in Hin. destruct Hin as ([n i] & En & Hin). simpl in En. subst n. apply in_flat_map in Hin. destruct Hin as (b & Hb & Hin).
      destruct (Hn b (or_intror Hb)) as (d' & Hd' & Hl'). unfold entryAt in Hin. rewrite Hd' in Hin. destruct Hin as [Hin|[]]. inversion Hin. rewrite H0 in Hl'. rewrite Hl in Hl'. inversion Hl'; subst. contradiction.
    + apply IH; auto. intros b Hb. apply Hn. right; auto.
  - clear I1 I2 I4. assert (Hg : forall l k, (forall i a, nth_error l i = Some a -> exists d, nth_error h a = Some d /\ dId d = S (k + i)) ->
      map snd (flat_map (entryAt h) l) = seq (S k) (List.length l)).
    { induction l as [|a l IH]; intros k Hk; simpl; auto. destruct (Hk 0 a eq_refl) as (d & Hd & Ei). unfold entryAt at 1. rewrite Hd. simpl. rewrite Ei, Nat.add_0_r. f_equal.
      apply IH. intros i b Hi. destruct (Hk (S i) b Hi) as (d' & Hd' & Ei'). exists d'. split; auto. rewrite Ei'. lia. }
    apply Hg. intros i a Hi. destruct (I3 i a Hi) as (d & H1 & H2 & _). eauto.
  - intros n. split.
    + intros Hin. apply in_map_iff in Hin. destruct Hin as ([m i] & En & Hin). simpl in En. subst m. apply in_flat_map in Hin. destruct Hin as (a & Ha & Hin).
      apply In_nth_error in Ha. destruct Ha as [j Hj]. destruct (I3 j a Hj) as (d & H1 & _ & H2). unfold entryAt in Hin. rewrite H1 in Hin. destruct Hin as [Hin|[]]. inversion Hin; subst. congruence.
    + intros H. destruct (lookup (gDefinition r) n) as [a|] eqn:E; [|congruence]. destruct (I4 n a E) as (Ha & d & Hd & <-).
      apply in_map_iff. exists (dName d, dId d). split; auto. apply in_flat_map. exists a. split; auto. unfold entryAt. rewrite Hd. left; auto.
Qed.
Theorem registered_ok s : reachable s -> sInitFailed s = false -> sInitialized s = false ->
  NoDup (map fst (registered s)) /\ map snd (registered s) = seq 1 (List.length (registered s)).
Proof.
  intros Hr H1 H2. apply reachable_sinv in Hr. unfold sinv in Hr. rewrite H1, H2 in Hr. pose proof (di_reg _ Hr) as R. rewrite registered_of.
  apply regInv_entries in R. destruct R as (A & B & _). split; auto. rewrite B. f_equal. apply (f_equal (@List.length nat)) in B. rewrite map_length, seq_length in B. auto.
Qed.

Lemma entry_commit l h h' a : commitEv l h h' -> entryAt h' a = entryAt h a.
Proof.
  intros H. unfold entryAt. specialize (H a). destruct (nth_error h a) as [d|].
  - destruct H as (d' & -> & -> & -> & _). auto.
  - rewrite H. auto.
Qed.
Lemma register_names s d s' e : dinv s -> sInitialized s = false -> register s d = (s', e) ->
  match e with
  | None => ~ In (dName d) (map fst (registered s)) /\ map fst (registered s') = map fst (registered s) ++ [dName d]
  | Some err => registered s' = registered s /\ (forall n, err = ErrDuplicateDefinition n -> n = dName d /\ In n (map fst (registered s)))
  end.
Proof.
  intros HD Hi H. pose proof (di_reg _ HD) as R. pose proof (regInv_entries _ _ R) as (_ & _ & Hin). rewrite (registered_of s). unfold register in H. rewrite Hi in H.
  set (s1 := mkSyntax (sHeap s ++ [d]) _ _ _ _ _ _) in H.
  assert (Hb : forall a, In a (gDefinitions (regOf s)) -> a < List.length (sHeap s)).
  { intros a Ha. apply In_nth_error in Ha. destruct Ha as [i Hi']. destruct (ri_defs _ _ R i a Hi') as (d' & Hd' & _). apply nth_error_Some. congruence. }
  assert (E1 : flat_map (entryAt (sHeap s1)) (gDefinitions (regOf s)) = flat_map (entryAt (sHeap s)) (gDefinitions (regOf s))).
  { apply flat_map_ext_in. intros a Ha. unfold entryAt. simpl. rewrite nth_error_app1; auto. }
  destruct (checkCommitType d) as [err|] eqn:Ec.
  { inversion H; subst. split; [rewrite registered_of; exact E1|]. intros n ->. apply checkIn_some in Ec. destruct Ec as (? & ? & ? & _ & _ & _ & _ & ?). discriminate. }
  destruct (applyRoot s1 (List.length (sHeap s))) as [s2 [err|]] eqn:Ea.
  - pose proof (applyRoot_err _ _ _ _ Ea) as ->. apply applyRoot_ev in Ea. destruct Ea as (A1 & A2 & _). inversion H; subst.
    split; [|intros; discriminate]. rewrite registered_of. unfold regOf at 1. rewrite A2. simpl. fold (regOf s). rewrite <- E1. apply flat_map_ext_in. intros. eapply entry_commit; eauto.
  - apply applyRoot_ev in Ea. destruct Ea as (A1 & A2 & _). fold (regOf s) in H.
    assert (Hh : nth_error (sHeap s1) (List.length (sHeap s)) = Some d) by (simpl; rewrite nth_error_app2, Nat.sub_diag; auto).
    assert (Hnm : exists d', nth_error (sHeap s2) (List.length (sHeap s)) = Some d' /\ dName d' = dName d).
    { specialize (A1 (List.length (sHeap s))). rewrite Hh in A1. destruct A1 as (d' & H1 & H2 & _). eauto. }
    destruct Hnm as (d' & Hd' & En). unfold setDefinition in H. rewrite Hd' in H. rewrite En in H.
    destruct (lookup (gDefinition (regOf s)) (dName d)) as [b|] eqn:El; inversion H; subst; clear H.
    + rewrite registered_of. cbn [regOf sRegistry sHeap]. split.
      * rewrite <- E1. apply flat_map_ext_in. intros. eapply entry_commit; eauto.
      * intros n Hn. inversion Hn; subst. split; auto. apply Hin. congruence.
    + split; [intros X; apply Hin in X; congruence|]. rewrite registered_of. cbn [regOf sRegistry sHeap gDefinitions]. rewrite flat_map_app, map_app. f_equal.
      * f_equal. rewrite <- E1. apply flat_map_ext_in. intros a Ha. rewrite <- (entry_commit _ _ _ a A1). unfold entryAt. rewrite nth_error_updNth.
        destruct (Nat.eqb_spec (List.length (sHeap s)) a) as [<-|]; auto. apply Hb in Ha. lia.
      * simpl. unfold entryAt. rewrite nth_error_updNth, Nat.eqb_refl, Hd'. simpl. rewrite En. auto.
Qed.
Definition grows (s : syntax) (names : list string) (s' : syntax) (e : option gerr) : Prop :=
  match e with
  | None => map fst (registered s') = map fst (registered s) ++ names
  | Some err => (exists k, map fst (registered s') = map fst (registered s) ++ firstn k names) /\
                forall n, err = ErrDuplicateDefinition n -> In n names /\ In n (map fst (registered s))
  end.
(** a number of registrations, one after the other *)
Fixpoint registerAll (s : syntax) (l : list defobj) : syntax * option gerr :=
  match l with
  | [] => (s, None)
  | d :: l' => match register s d with (s, Some e) => (s, Some e) | (s, None) => registerAll s l' end
  end.
Lemma registerAll_app l1 : forall s l2, registerAll s (l1 ++ l2) = match registerAll s l1 with (s, Some e) => (s, Some e) | (s, None) => registerAll s l2 end.
Proof. induction l1 as [|d l1 IH]; intros s l2; simpl; auto. destruct (register s d) as [s1 [e|]]; auto. Qed.
Lemma charSeqLoop_all name chars : forall s i, charSeqLoop s name i chars =
  registerAll s (map (fun ic => newChar (childName name (fst ic)) false [snd ic] []) (combine (seq i (List.length chars)) chars)).
Proof. induction chars as [|c chars IH]; intros s i; simpl; auto. destruct (register s _) as [s1 [e|]]; auto. Qed.
Lemma defineRaw_all s d : defineRaw s d = registerAll s (callObjs d).
Proof.
  destruct d as [nm ct|nm ct cn ch rs|nm ct chars|nm ct items|nm ct opts]; simpl; unfold anyChar, class, charSequence, sequence, choice.
  - destruct (register s _) as [s1 [e|]]; auto. destruct (register s1 _) as [s2 [e|]]; auto.
  - destruct (register s _) as [s1 [e|]]; auto. destruct (register s1 _) as [s2 [e|]]; auto.
  - rewrite registerAll_app, charSeqLoop_all. destruct (registerAll s _) as [s1 [e|]]; auto. simpl. destruct (register s1 _) as [s2 [e|]]; auto.
  - destruct (register s _) as [s1 [e|]]; auto.
  - destruct (register s _) as [s1 [e|]]; auto.
Qed.
Lemma registerAll_names l : forall s s' e, dinv s -> sInitialized s = false -> (forall d, In d l -> freshK (dKind d)) -> NoDup (map dName l) -> registerAll s l = (s', e) ->
  grows s (map dName l) s' e /\ (e = None -> forall n, In n (map dName l) -> ~ In n (map fst (registered s))).
Proof.
  induction l as [|d l IH]; intros s s' e HD Hi Hf Hn H; simpl in H.
  - inversion H; subst. simpl. rewrite app_nil_r. split; auto.
  - destruct (register s d) as [s1 [err|]] eqn:E.
    + inversion H; subst. apply register_names in E; auto. destruct E as [E1 E2]. split; [|discriminate]. split.
      * exists 0. simpl. rewrite app_nil_r, E1. auto.
      * intros n Hd. apply E2 in Hd. destruct Hd as [-> Hd]. split; auto. left; auto.
    + pose proof (register_names _ _ _ _ HD Hi E) as [N1 N2].
      assert (D1 : dinv s1) by (apply (register_dinv s d s1 None HD); [apply Hf; left; auto|exact E]).
      pose proof (register_flags _ _ _ _ E) as (_ & F & _). rewrite Hi in F. simpl in Hn. inversion Hn as [|? ? X1 X2]; subst.
      destruct (IH s1 s' e D1 F (fun d Hd => Hf d (or_intror Hd)) X2 H) as [G1 G2]. unfold grows in *. rewrite N2 in *. destruct e as [err|].
      * split; [|discriminate]. destruct G1 as [(k & Gk) Gd]. split.
        { exists (S k). simpl. rewrite Gk, <- app_assoc. auto. }
        intros n Hd. apply Gd in Hd. destruct Hd as [Hd1 Hd2]. split; [right; auto|]. apply in_app_or in Hd2. destruct Hd2 as [Hd2|[<-|[]]]; auto. contradiction.
      * split; [rewrite G1, <- app_assoc; auto|]. intros _ n [<-|Hin]; auto. intros Hr. apply (G2 eq_refl n Hin). apply in_or_app; auto.
Qed.
Lemma callNames_objs d : map dName (callObjs d) = callNames d.
Proof.
  destruct d as [nm ct|nm ct cn ch rs|nm ct chars|nm ct items|nm ct opts]; simpl; auto. rewrite map_app, map_map. simpl. f_equal.
  generalize 0. induction chars as [|c chars IH]; intros i; simpl; auto. f_equal. auto.
Qed.
Lemma string_app_inv (n a b : string) : (n ++ a)%string = (n ++ b)%string -> a = b.
Proof. induction n as [|c n IH]; simpl; intros H; auto. inversion H; auto. Qed.
Lemma childName_inj n i j : childName n i = childName n j -> i = j.
Proof. unfold childName. intros H. apply string_app_inv in H. inversion H as [H1]. apply WsNames.itoaNat_inj; auto. Qed.
Lemma childName_longer n i : childName n i <> n.
Proof. unfold childName. intros H. apply (f_equal list_ascii_of_string) in H. rewrite WsNames.list_ascii_app in H. apply (f_equal (@List.length _)) in H. rewrite app_length in H. simpl in H. lia. Qed.
Lemma callNames_nodup d : NoDup (callNames d).
Proof.
  assert (H2 : forall n, NoDup [childName n 0; n]).
  { intros n. constructor; [intros [H|[]]; symmetry in H; apply childName_longer in H; auto|]. constructor; [intros []|constructor]. }
  destruct d as [nm ct|nm ct cn ch rs|nm ct chars|nm ct items|nm ct opts]; simpl; auto; try (constructor; [intros []|constructor]).
  apply NoDup_app_one.
  - apply FinFun.Injective_map_NoDup; [intros i j; apply childName_inj|apply seq_NoDup].
  - intros H. apply in_map_iff in H. destruct H as (i & H & _). apply childName_longer in H. auto.
Qed.
Lemma callObjs_fresh d o : In o (callObjs d) -> freshK (dKind o).
Proof.
  destruct d as [nm ct|nm ct cn ch rs|nm ct chars|nm ct items|nm ct opts]; simpl; intros H;
  repeat (destruct H as [<-|H]; [auto|]); try destruct H.
  apply in_app_or in H. destruct H as [H|[<-|[]]]; auto. apply in_map_iff in H. destruct H as (x & <- & _). auto.
Qed.
Theorem define_names s d s' e : reachable s -> sInitFailed s = false -> sInitialized s = false -> defineCall s d = (s', e) ->
  match e with
  | None => map fst (registered s') = map fst (registered s) ++ callNames d /\
            forall n, In n (callNames d) -> ~ In n (map fst (registered s))
  | Some err => (exists k, map fst (registered s') = map fst (registered s) ++ firstn k (callNames d)) /\
            forall n, err = ErrDuplicateDefinition n -> In n (callNames d) /\ In n (map fst (registered s))
  end.
Proof.
  intros Hr H1 H2 H. unfold defineCall in H. destruct (isValidSymbol (callName d)).
  - rewrite defineRaw_all in H. apply reachable_sinv in Hr. unfold sinv in Hr. rewrite H1, H2 in Hr.
    assert (En : callNames (withUserDefined d) = callNames d) by (destruct d; auto).
    apply registerAll_names in H; auto; [|apply callObjs_fresh|rewrite callNames_objs; apply callNames_nodup].
    rewrite callNames_objs, En in H. unfold grows in H. destruct e as [err|]; [tauto|]. destruct H as [G1 G2]. auto.
  - inversion H; subst. split; [exists 0; simpl; rewrite app_nil_r; auto|intros; discriminate].
Qed.

(** ** symbols *)
Theorem valid_symbol n : isValidSymbol n = true <-> forall r, In r (stringRunes n) -> ~ reserved r.
Proof.
  unfold isValidSymbol. rewrite forallb_forall. split; intros H r Hr; specialize (H r Hr).
  - intros Hres. apply matchChar_inClass in H. simpl in H. apply H. left. exact Hres.
  - apply matchChar_inClass. simpl. intros [Hc|(lo & hi & [] & _)]. apply H. exact Hc.
Qed.
Theorem define_symbol s d : (isValidSymbol (callName d) = false -> defineCall s d = (s, Some ErrInvalidSymbolName)) /\
  (isValidSymbol (callName d) = true -> snd (defineCall s d) <> Some ErrInvalidSymbolName).
Proof.
  unfold defineCall. split; intros ->; auto. rewrite defineRaw_all. revert s. induction (callObjs (withUserDefined d)) as [|o l IH]; intros s; simpl; [discriminate|].
  destruct (register s o) as [s1 [e|]] eqn:E; [|apply IH]. simpl. apply register_err in E. intros H; inversion H; subst.
  destruct E as [(H1 & _)|[H1|[(a & b & _ & H1)|(n & H1)]]]; discriminate.
Qed.
Theorem valid_no_child n m i : isValidSymbol n = true -> n <> childName m i.
Proof.
  intros H ->. apply valid_colonFree in H. apply H. unfold childName. rewrite WsNames.list_ascii_app. apply in_or_app. right. left. reflexivity.
Qed.
Theorem valid_bytes n b : isValidSymbol n = true -> In b (bytesOf n) -> ~ reserved b.
Proof.
  intros H Hb Hr. assert (Hlt : (b < 128)%Z) by (unfold reserved in Hr; simpl in Hr; lia).
  apply decode_ascii in Hb; auto. rewrite valid_symbol in H. exact (H b Hb Hr).
Qed.

(** ** quantifiers *)
Theorem normalize_spec it : let (n, mn, mx) := normalizeItemRange it in
  n = siName it /\
  (siMin it = 0 /\ siMax it = 0 -> mn = 1 /\ mx = 1)%Z /\
  (~ (siMin it = 0 /\ siMax it = 0) -> mn = Z.max 0 (siMin it) /\ (0 < siMax it -> mx = siMax it) /\ (siMax it <= 0 -> mx = -1))%Z.
Proof.
  unfold normalizeItemRange. destruct (Z.eqb_spec (siMin it) 0), (Z.eqb_spec (siMax it) 0); simpl; (split; [auto|]); split; try lia;
  destruct (Z.leb_spec (siMin it) 0), (Z.leb_spec (siMax it) 0); lia.
Qed.
Theorem normalize_idem it : normalizeItemRange (normalizeItemRange it) = normalizeItemRange it.
Proof.
  unfold normalizeItemRange. destruct (Z.eqb_spec (siMin it) 0), (Z.eqb_spec (siMax it) 0); simpl; auto;
  destruct (Z.leb_spec (siMin it) 0), (Z.leb_spec (siMax it) 0); simpl;
  repeat match goal with |- context [Z.eqb ?a ?b] => destruct (Z.eqb_spec a b); try lia; simpl end;
  repeat match goal with |- context [Z.leb ?a ?b] => destruct (Z.leb_spec a b); try lia; simpl end; auto; f_equal; lia.
Qed.

(** ** escaping *)
Lemma runesContain_In rs r : runesContain rs r = true <-> In r rs.
Proof.
  induction rs as [|x rs IH]; simpl; [split; [discriminate|intros []]|]. destruct (Z.eqb_spec x r); [subst; tauto|]. rewrite IH. split; [auto|intros [H|H]; [contradiction|auto]].
Qed.
Theorem escape_unescape esc banned chars : In esc banned -> (forall c, In c banned -> ~ In c controlLetters) ->
  unescape esc banned (escape esc banned chars) = Some chars.
Proof.
  intros He Hb. unfold unescape. induction chars as [|c chars IH]; simpl; auto. destruct (runesContain banned c) eqn:E.
  - apply runesContain_In in E. specialize (Hb c E). unfold controlLetters in Hb. simpl in Hb. unfold escapeChar.
    repeat match goal with |- context [Z.eqb c ?b] => destruct (Z.eqb_spec c b); [subst; simpl; rewrite Z.eqb_refl, IH; reflexivity|] end.
    simpl. rewrite Z.eqb_refl, IH. simpl. f_equal. f_equal. unfold unescapeChar.
    repeat match goal with |- context [Z.eqb c ?b] => destruct (Z.eqb_spec c b); [exfalso; apply Hb; auto 10|] end. auto.
  - simpl. destruct (Z.eqb_spec c esc) as [->|]; [apply runesContain_In in He; congruence|]. rewrite E, IH. auto.
Qed.

Theorem escape_clean esc banned chars : wellEscaped esc banned (escape esc banned chars).
Proof.
  induction chars as [|c chars IH]; simpl; [constructor|]. destruct (runesContain banned c) eqn:E.
  - unfold escapeChar. repeat match goal with |- context [Z.eqb c ?b] => destruct (Z.eqb c b); [simpl; constructor; auto|] end. simpl. constructor; auto.
  - apply we_plain; auto. intros H. apply runesContain_In in H. congruence.
Qed.

(** ** life cycle *)
Theorem Init_again s s' : Inits s s' None -> forall n, Init n s' = Ok (s', None).
Proof.
  intros [k H] n. unfold Init in H. destruct (sInitFailed s) eqn:Ef; [discriminate|]. destruct (sInitialized s) eqn:Ei.
  - inversion H; subst. unfold Init. rewrite Ef, Ei. auto.
  - destruct (sRoot s) as [root|]; [|discriminate]. destruct (nth_error (sHeap s) root) as [rd|]; [|discriminate]. destruct (sRegistry s) as [reg|]; [|discriminate].
    destruct (checkCommitType rd); [discriminate|]. binv H. destruct x as [[h r] rt]. binv H. destruct x as [h1 [e1|]]; [discriminate|]. binv H. inversion H; subst. reflexivity.
Qed.
Lemma Inits_initialized s s' : Inits s s' None -> sInitialized s' = true.
Proof.
  intros [k H]. unfold Init in H. destruct (sInitFailed s) eqn:Ef; [discriminate|]. destruct (sInitialized s) eqn:Ei.
  - inversion H; subst. auto.
  - destruct (sRoot s) as [root|]; [|discriminate]. destruct (nth_error (sHeap s) root) as [rd|]; [|discriminate]. destruct (sRegistry s) as [reg|]; [|discriminate].
    destruct (checkCommitType rd); [discriminate|]. binv H. destruct x as [[h r] rt]. binv H. destruct x as [h1 [e1|]]; [discriminate|]. binv H. inversion H; subst. reflexivity.
Qed.
Theorem define_after_init s s' d : Inits s s' None ->
  defineCall s' d = (s', Some (if isValidSymbol (callName d) then ErrSyntaxInitialized else ErrInvalidSymbolName)).
Proof.
  intros H. apply Inits_initialized in H. unfold defineCall. destruct (isValidSymbol (callName d)); auto. rewrite defineRaw_all.
  assert (Hr : forall o, register s' o = (s', Some ErrSyntaxInitialized)) by (intros; unfold register; rewrite H; auto).
  destruct (callObjs_split (withUserDefined d)) as (chs & o & -> & _). destruct chs as [|c chs]; simpl; rewrite Hr; auto.
Qed.
Theorem read_after_init s s' n input e : Inits s s' None -> ReadSyntax n s' input e = Ok (s', Some ErrSyntaxInitialized).
Proof. intros H. apply Inits_initialized in H. unfold ReadSyntax. rewrite H. auto. Qed.

Inductive rawSteps (s : syntax) : syntax -> Prop :=
| raw_none : rawSteps s s
| raw_one s1 d s2 err : rawSteps s s1 -> defineRaw s1 d = (s2, err) -> rawSteps s s2.
Lemma rawSteps_trans s1 s2 s3 : rawSteps s1 s2 -> rawSteps s2 s3 -> rawSteps s1 s3.
Proof. intros H1 H2. induction H2; eauto using rawSteps. Qed.
Lemma rawSteps_reachable s s' : rawSteps s s' -> reachable s -> reachable s'.
Proof. induction 1 as [|s1 d s2 err H IH E]; intros Hr; auto. exact (re_define _ _ _ _ (IH Hr) E). Qed.
Lemma rawSteps_flags s s' : rawSteps s s' -> sInitFailed s' = sInitFailed s /\ sInitialized s' = sInitialized s.
Proof. induction 1 as [|s1 d s2 err H [I1 I2] E]; auto. apply defineRaw_flags in E. destruct E as (E1 & E2 & _). split; congruence. Qed.
Section read.
Variable tokens : list rune.
Definition rawP (e : node) := forall s name ct s' r, defineExpression tokens s name ct e = Ok (s', r) -> rawSteps s s'.
Fixpoint seqGo (s : syntax) (name : string) (ct : commitType) (i : nat) (items : list seqItem) (l : list node) : res (syntax * option gerr) :=
         match l with
         | [] => Ok (sequence s name ct items)
         | Node _ _ _ ns :: l' =>
           match ns with
           | [] => Panic PanicIndex
           | m :: _ =>
             let defaultName := childName name i in
             x <- (if String.eqb (nName m) "symbol" then Ok (nodeText tokens m, (s, None))
                   else se <- defineExpression tokens s defaultName (N.lor CAlias (N.land ct CNoWhitespace)) m ;;
                        Ok (defaultName, se)) ;;
             match x with
             | (_, (s, Some err)) => Ok (s, Some err)
             | (ref, (s, None)) =>
               q <- itemQuantity tokens ns ;;
               match q with
               | None => Ok (s, Some ErrAtoi)
               | Some (mn, mx) => seqGo s name ct (S i) (items ++ [mkItem ref mn mx]) l'
               end
             end
           end
         end.
Fixpoint choiceGo (s : syntax) (name : string) (ct : commitType) (i : nat) (refs : list string) (l : list node) : res (syntax * option gerr) :=
         match l with
         | [] => Ok (choice s name ct refs)
         | m :: l' =>
           let defaultName := childName name i in
           x <- (if String.eqb (nName m) "symbol" then Ok (nodeText tokens m, (s, None))
                 else se <- defineExpression tokens s defaultName (N.lor (N.land ct CNoWhitespace) CAlias) m ;;
                      Ok (defaultName, se)) ;;
           match x with
           | (_, (s, Some err)) => Ok (s, Some err)
           | (ref, (s, None)) => choiceGo s name ct (S i) (refs ++ [ref]) l'
           end
         end.
Lemma defineExpression_eq s name ct ename from to nodes : defineExpression tokens s name ct (Node ename from to nodes) =
    let e := Node ename from to nodes in
    if String.eqb ename "any-char" then Ok (anyChar s name ct)
    else if String.eqb ename "char-class" then defineClass tokens s name ct nodes
    else if String.eqb ename "char-sequence" then defineCharSequence tokens s name ct nodes
    else if String.eqb ename "symbol" then Ok (sequence s name ct [mkItem (nodeText tokens e) 0 0])
    else if String.eqb ename "sequence" then seqGo s name ct 0 [] nodes
    else if String.eqb ename "choice" then choiceGo s name ct 0 [] nodes
    else Ok (s, None).
Proof.
  simpl. destruct (String.eqb ename "any-char"); auto. destruct (String.eqb ename "char-class"); auto. destruct (String.eqb ename "char-sequence"); auto.
  destruct (String.eqb ename "symbol"); auto. destruct (String.eqb ename "sequence").
  - match goal with |- ?f s 0 [] nodes = _ => assert (G : forall nodes s i items, f s i items nodes = seqGo s name ct i items nodes); [|apply G] end.
    clear. induction nodes as [|[x y z ns] nodes IH]; intros s i items; simpl; auto.
    destruct ns as [|m ns]; auto. match goal with |- bind ?x _ = bind ?x _ => destruct x as [[rf [s1 [err|]]]| |]; simpl; auto end.
    match goal with |- bind ?x _ = bind ?x _ => destruct x as [[[mn mx]|]| |]; simpl; auto end.
  - destruct (String.eqb ename "choice"); auto.
    match goal with |- ?f s 0 [] nodes = _ => assert (G : forall nodes s i items, f s i items nodes = choiceGo s name ct i items nodes); [|apply G] end.
    clear. induction nodes as [|m nodes IH]; intros s i items; simpl; auto.
    match goal with |- bind ?x _ = bind ?x _ => destruct x as [[rf [s1 [err|]]]| |]; simpl; auto end.
Qed.
Lemma raw_of s d : rawSteps s (fst (defineRaw s d)).
Proof. destruct (defineRaw s d) as [s' e] eqn:E. eapply raw_one; [apply raw_none|exact E]. Qed.
Lemma raw_of_eq s d s' e : Ok (defineRaw s d) = Ok (s', e) -> rawSteps s s'.
Proof. intros H. inversion H as [H1]. eapply raw_one; [apply raw_none|exact H1]. Qed.
Fixpoint size (n : node) : nat := match n with Node _ _ _ l => S (fold_right (fun x k => size x + k) 0 l) end.
Lemma size_in m l : In m l -> size m <= fold_right (fun x k => size x + k) 0 l.
Proof. induction l; simpl; [intros []|intros [->|H]; [lia|specialize (IHl H); lia]]. Qed.
Lemma defineExpression_raw : forall k e, size e < k -> rawP e.
Proof.
  induction k as [|k IH]; intros e Hk; [lia|]. destruct e as [ename from to nodes]. simpl in Hk. intros s name ct s' r H. rewrite defineExpression_eq in H. cbv zeta in H.
  destruct (String.eqb ename "any-char"); [apply (raw_of_eq _ (DAnyChar name ct)) in H; auto|].
  destruct (String.eqb ename "char-class").
  { unfold defineClass in H. match type of H with (let (_, _) := ?p in _) = _ => destruct p as [cn n] end. binv H. destruct x as [x1 x2]. apply (raw_of_eq _ (DClass name ct cn x1 x2)) in H; auto. }
  destruct (String.eqb ename "char-sequence").
  { unfold defineCharSequence in H. binv H. apply (raw_of_eq _ (DCharSequence name ct x)) in H; auto. }
  destruct (String.eqb ename "symbol"); [apply (raw_of_eq _ (DSequence name ct [mkItem (nodeText tokens (Node ename from to nodes)) 0 0])) in H; auto|].
  assert (Hall : forall m, In m nodes -> size m < k) by (intros m Hm; apply size_in in Hm; lia).
  assert (Hsub : forall m ns x y z, In (Node x y z ns) nodes -> In m ns -> size m < k).
  { intros m ns x y z H1 H2. apply Hall in H1. simpl in H1. apply size_in in H2. lia. }
  clear Hk. destruct (String.eqb ename "sequence").
  - revert H. generalize (@nil seqItem) as items. generalize 0 as i. revert s. induction nodes as [|[x y z ns] nodes IHn]; intros s i items H; simpl in H.
    + apply (raw_of_eq _ (DSequence name ct items)) in H; auto.
    + destruct ns as [|m ns]; [discriminate|]. binv H. destruct x0 as [rf [s1 err]].
      assert (S1 : rawSteps s s1).
      { destruct (String.eqb (nName m) "symbol"); [inversion E; subst; apply raw_none|]. binv E. destruct x0 as [s2 e2]. inversion E; subst.
        eapply IH; [|exact E0]. eapply Hsub; [left; reflexivity|left; auto]. }
      destruct err as [err|]; [inversion H; subst; auto|]. binv H. destruct x0 as [[mn mx]|]; [|inversion H; subst; auto].
      apply IHn in H; [eapply rawSteps_trans; eauto| |]; intros; [apply Hall; right; auto|eapply Hsub; [right; eauto|eauto]].
  - destruct (String.eqb ename "choice"); [|inversion H; subst; apply raw_none].
    revert H. generalize (@nil string) as refs. generalize 0 as i. revert s. induction nodes as [|m nodes IHn]; intros s i items H; simpl in H.
    + apply (raw_of_eq _ (DChoice name ct items)) in H; auto.
    + binv H. destruct x as [rf [s1 err]].
      assert (S1 : rawSteps s s1).
      { destruct (String.eqb (nName m) "symbol"); [inversion E; subst; apply raw_none|]. binv E. destruct x as [s2 e2]. inversion E; subst.
        eapply IH; [|exact E0]. apply Hall. left; auto. }
      destruct err as [err|]; [inversion H; subst; auto|].
      apply IHn in H; [eapply rawSteps_trans; eauto| |]; intros; [apply Hall; right; auto|eapply Hsub; [right; eauto|eauto]].
Qed.
Lemma addDefinitions_raw l : forall s s' r, addDefinitions tokens s l = Ok (s', r) -> rawSteps s s'.
Proof.
  induction l as [|n l IH]; intros s s' r H; simpl in H; [inversion H; subst; apply raw_none|]. binv H. destruct x as [s1 e].
  assert (S1 : rawSteps s s1).
  { unfold addDefinition in E. destruct (nNodes n) as [|a [|b m]]; try discriminate. eapply defineExpression_raw; [|exact E]. eauto. }
  destruct e; [inversion H; subst; auto|]. eapply rawSteps_trans; eauto.
Qed.
End read.
Theorem read_raw n s input e s' r : ReadSyntax n s input e = Ok (s', r) -> rawSteps s s'.
Proof.
  unfold ReadSyntax. destruct (sInitialized s); [intros H; inversion H; subst; apply raw_none|]. intros H. binv H. destruct x as [t tk|err].
  - unfold define in H. eapply addDefinitions_raw. exact H.
  - inversion H; subst. apply raw_none.
Qed.
Lemma call_raw s d s' e : defineCall s d = (s', e) -> rawSteps s s'.
Proof. unfold defineCall. destruct (isValidSymbol _); intros H; [eapply raw_one; [apply raw_none|exact H]|inversion H; subst; apply raw_none]. Qed.
Theorem apiSteps_reachable s s' : apiSteps s s' -> reachable s -> reachable s'.
Proof.
  induction 1 as [|s1 s2 H IH E]; intros Hr; auto. specialize (IH Hr). destruct E as [d err E|n i e err E|n err E|n i e o E].
  - exact (rawSteps_reachable _ _ (call_raw _ _ _ _ E) IH).
  - exact (rawSteps_reachable _ _ (read_raw _ _ _ _ _ _ E) IH).
  - exact (re_init _ _ _ _ IH E).
  - exact (re_parse _ _ _ _ _ _ IH E).
Qed.
Lemma apiSteps_start s1 s2 s3 : apiStep s1 s2 -> apiSteps s2 s3 -> apiSteps s1 s3.
Proof. intros H1 H2. induction H2; eauto using apiSteps. Qed.
Lemma apiSteps_trans s1 s2 s3 : apiSteps s1 s2 -> apiSteps s2 s3 -> apiSteps s1 s3.
Proof. intros H1 H2. induction H2; eauto using apiSteps. Qed.
Lemma defineAll_steps calls : forall s s' r, defineAll s calls = (s', r) -> apiSteps s s'.
Proof.
  induction calls as [|d calls IH]; intros s s' r H; simpl in H; [inversion H; subst; constructor|].
  destruct (defineCall s d) as [s1 [e|]] eqn:E; [inversion H; subst; eapply apiSteps_start; [eapply as_define; eauto|constructor]|].
  eapply apiSteps_start; [eapply as_define; eauto|eauto].
Qed.
(** initialized once and for all *)
Lemma apiStep_initialized s s' : sInitialized s = true -> sInitFailed s = false -> apiStep s s' -> s' = s.
Proof.
  intros Hi Hf [d err E|n i e err E|n err E|n i e o E].
  - unfold defineCall in E. destruct (isValidSymbol _); [|inversion E; auto]. apply defineRaw_flags in E. tauto.
  - unfold ReadSyntax in E. rewrite Hi in E. inversion E; auto.
  - unfold Init in E. rewrite Hf, Hi in E. inversion E; auto.
  - unfold Parse, Init in E. rewrite Hf, Hi in E. simpl in E. destruct (sRoot s); [|discriminate]. binv E. inversion E; auto.
Qed.
Theorem initialized_forever s s' s2 : Inits s s' None -> apiSteps s' s2 -> s2 = s'.
Proof.
  intros H0 H. pose proof (Inits_initialized _ _ H0) as Hi. assert (Hf : sInitFailed s' = false).
  { pose proof (Init_again _ _ H0 0) as H1. unfold Init in H1. destruct (sInitFailed s'); [discriminate|auto]. }
  induction H as [|s1 s2 H IH E]; auto. subst. eapply apiStep_initialized; eauto.
Qed.
(** a failed validation is final *)
Lemma apiStep_failed s s' : sInitFailed s = true -> apiStep s s' -> sInitFailed s' = true.
Proof.
  intros Hf [d err E|n i e err E|n err E|n i e o E].
  - apply call_raw, rawSteps_flags in E. destruct E; congruence.
  - apply read_raw, rawSteps_flags in E. destruct E; congruence.
  - unfold Init in E. rewrite Hf in E. inversion E; subst; auto.
  - unfold Parse, Init in E. rewrite Hf in E. simpl in E. inversion E; subst; auto.
Qed.
Lemma Inits_failed s s' n : Inits s s' (Some (ErrParserNotFound n)) -> sInitFailed s' = true.
Proof.
  intros [k H]. unfold Init in H. destruct (sInitFailed s) eqn:Ef; [discriminate|]. destruct (sInitialized s) eqn:Ei; [discriminate|].
  destruct (sRoot s) as [root|]; [|discriminate]. destruct (nth_error (sHeap s) root) as [rd|]; [|discriminate]. destruct (sRegistry s) as [reg|]; [|discriminate].
  destruct (checkCommitType rd) eqn:Ec; [inversion H; subst; exfalso; unfold checkCommitType in Ec; apply checkIn_some in Ec; destruct Ec as (? & ? & ? & _ & _ & _ & _ & Hx); discriminate|].
  binv H. destruct x as [[h r] rt]. binv H. destruct x as [h1 [e1|]]; [inversion H; subst; reflexivity|binv H; discriminate].
Qed.
Theorem failed_forever s s' n s2 : Inits s s' (Some (ErrParserNotFound n)) -> apiSteps s' s2 ->
  (forall k, Init k s2 = Ok (s2, Some ErrInitFailed)) /\ forall k input e, Parse k s2 input e = Ok (s2, Failed ErrInitFailed).
Proof.
  intros H H2. apply Inits_failed in H. assert (Hf : sInitFailed s2 = true) by (induction H2; auto; eapply apiStep_failed; eauto).
  unfold Parse, Init. rewrite Hf. split; intros; reflexivity.
Qed.
