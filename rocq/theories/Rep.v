(** The state after a list of successful definition calls. *)
From Verif Require Import Base Utf8 IdSet Results Parser Build Syntax ListFacts SyntaxFacts Lang Grammar.

(** the objects that a call registers, in order *)
Definition callObjs (d : defcall) : list defobj :=
  match d with
  | DAnyChar n ct => [newChar (childName n 0) true [] []; newSequence n ct [mkItem (childName n 0) 0 0]]
  | DClass n ct cnot chars ranges => [newChar (childName n 0) cnot chars ranges; newSequence n ct [mkItem (childName n 0) 0 0]]
  | DCharSequence n ct chars =>
    map (fun ic => newChar (childName n (fst ic)) false [snd ic] []) (combine (seq 0 (List.length chars)) chars) ++
    [newSequence n (N.lor ct CNoWhitespace) (namesToSequenceItems (map (childName n) (seq 0 (List.length chars))))]
  | DSequence n ct items => [newSequence n ct items]
  | DChoice n ct options => [newChoice n ct options]
  end.

Definition rootFlag (d : defobj) : bool := hasFlag (dCommit d) CRoot.
Fixpoint findIdx (i : nat) (l : list defobj) : option nat :=
  match l with [] => None | d :: l' => if rootFlag d then Some i else findIdx (S i) l' end.
(** index of the root: the one with the flag, or else the last *)
Definition rootIdx (objs : list defobj) : option nat :=
  match findIdx 0 objs with
  | Some i => Some i
  | None => match objs with [] => None | _ => Some (List.length objs - 1) end
  end.
Fixpoint kwIdx (i : nat) (l : list defobj) : list nat :=
  match l with [] => [] | d :: l' => if hasFlag (dCommit d) CKeyword then i :: kwIdx (S i) l' else kwIdx (S i) l' end.
Definition isCharK (k : dkind) : bool := match k with KChar _ _ _ => true | _ => false end.

Record rep (objs : list defobj) (s : syntax) : Prop := mkRep {
  rp_init : sInitialized s = false;
  rp_failed : sInitFailed s = false;
  rp_len : List.length (sHeap s) = List.length objs;
  rp_obj : forall a o, nth_error objs a = Some o ->
     exists d, nth_error (sHeap s) a = Some d /\ dName d = dName o /\ dKind d = dKind o /\ dId d = S a /\
       (isCharK (dKind o) = true -> dCommit d = dCommit o) /\
       (isCharK (dKind o) = false ->
        sameBut [7%N] (dCommit o) (dCommit d) /\ (hasFlag (dCommit d) CRoot = true <-> sRoot s = Some a));
  rp_fresh : forall o, In o objs -> freshK (dKind o) /\ checkCommitType o = None /\
                       (isCharK (dKind o) = true -> dCommit o = CAlias);
  rp_defs : gDefinitions (regOf s) = seq 0 (List.length objs);
  rp_reg : regInv (sHeap s) (regOf s);
  rp_expl : sExplicitRoot s = existsb rootFlag objs;
  rp_root : sRoot s = rootIdx objs;
  rp_kws : sKeywords s = kwIdx 0 objs;
  rp_some : objs <> [] -> sRegistry s <> None }.

Lemma rep_empty : rep [] emptySyntax.
Proof.
  constructor; simpl; auto; try congruence.
  - intros [|a] o; discriminate.
  - intros o [].
  - apply regInv_empty.
Qed.

Lemma findIdx_app i l x : findIdx i (l ++ [x]) = match findIdx i l with Some j => Some j | None => if rootFlag x then Some (i + List.length l) else None end.
Proof.
  revert i. induction l as [|y l IH]; intros i; simpl; [rewrite Nat.add_0_r; auto|]. destruct (rootFlag y); auto.
  rewrite IH. destruct (findIdx (S i) l); auto. destruct (rootFlag x); auto. f_equal. lia.
Qed.
Lemma findIdx_none i l : findIdx i l = None <-> existsb rootFlag l = false.
Proof. revert i. induction l as [|y l IH]; intros i; simpl; [tauto|]. destruct (rootFlag y); simpl; [split; discriminate|apply IH]. Qed.
Lemma findIdx_range i l j : findIdx i l = Some j -> i <= j < i + List.length l /\ exists d, nth_error l (j - i) = Some d /\ rootFlag d = true.
Proof.
  revert i. induction l as [|y l IH]; intros i; simpl; [discriminate|]. destruct (rootFlag y) eqn:E.
  - intros H; inversion H; subst. split; [lia|]. rewrite Nat.sub_diag. exists y. auto.
  - intros H. apply IH in H. destruct H as [H1 (d & H2 & H3)]. split; [lia|]. exists d. split; auto.
    replace (j - i) with (S (j - S i)) by lia. auto.
Qed.
Lemma kwIdx_app i l x : kwIdx i (l ++ [x]) = kwIdx i l ++ (if hasFlag (dCommit x) CKeyword then [i + List.length l] else []).
Proof.
  revert i. induction l as [|y l IH]; intros i; simpl; [rewrite Nat.add_0_r; destruct (hasFlag _ _); auto|].
  rewrite IH. replace (S i + List.length l) with (i + S (List.length l)) by lia. destruct (hasFlag (dCommit y) CKeyword); auto.
Qed.
Lemma nth_app_last {A} (l : list A) x : nth_error (l ++ [x]) (List.length l) = Some x.
Proof. rewrite nth_error_app2, Nat.sub_diag; auto. Qed.
Lemma flag_lor c : hasFlag (N.lor c CRoot) CRoot = true.
Proof. change CRoot with (2 ^ 7)%N. rewrite hasFlag_bit, N.lor_spec, N.pow2_bits_true. apply orb_true_r. Qed.
Lemma flag_ldiff c : hasFlag (N.ldiff c CRoot) CRoot = false.
Proof. change CRoot with (2 ^ 7)%N. rewrite hasFlag_bit, N.ldiff_spec, N.pow2_bits_true. apply andb_false_r. Qed.
Lemma setCommit_kind c d : dKind (setCommitType c d) = dKind d /\ dName (setCommitType c d) = dName d /\ dId (setCommitType c d) = dId d.
Proof. unfold setCommitType. destruct (dKind d) eqn:E; simpl; auto. Qed.
Lemma setCommit_char c d : isCharK (dKind d) = true -> setCommitType c d = d.
Proof. unfold setCommitType. destruct (dKind d); simpl; auto; discriminate. Qed.
Lemma setCommit_commit c d : isCharK (dKind d) = false -> dCommit (setCommitType c d) = c.
Proof. unfold setCommitType. destruct (dKind d); simpl; auto; discriminate. Qed.

Lemma rep_register objs s o s' : rep objs s -> freshK (dKind o) ->
  (isCharK (dKind o) = true -> dCommit o = CAlias) ->
  register s o = (s', None) -> rep (objs ++ [o]) s'.
Proof.
  intros [R1 R2 R3 R4 R5 R6 R7 R8 R9 R10 R11] Hf Hc H. unfold register in H. rewrite R1 in H.
  set (a := List.length (sHeap s)) in *. assert (Ha : a = List.length objs) by (unfold a; auto).
  set (s1 := mkSyntax (sHeap s ++ [o]) _ _ _ _ _ _) in H.
  destruct (checkCommitType o) eqn:Ec; [discriminate|].
  destruct (applyRoot s1 a) as [s2 [err|]] eqn:Ea; [discriminate|].
  destruct (setDefinition (sHeap s2) _ a) as [[h3 reg3] e3] eqn:Es.
  assert (e3 = None) by congruence. subst e3.
  assert (Hs' : s' = mkSyntax h3 (Some reg3) (sInitialized s2) (sInitFailed s2) (sExplicitRoot s2)
     (if hasFlag (dCommit o) CKeyword then sKeywords s2 ++ [a] else sKeywords s2) (sRoot s2)) by congruence. clear H.
  (* the effect of applyRoot *)
  pose proof (applyRoot_ev _ _ _ _ Ea) as (E1 & E2 & E3 & E4 & E5 & _).
  assert (Hlen2 : List.length (sHeap s2) = S a).
  { rewrite (commitEv_len _ _ _ E1). simpl. rewrite app_length. simpl. lia. }
  assert (Hroot2 : sExplicitRoot s2 = (rootFlag o || sExplicitRoot s) /\
     sRoot s2 = (if rootFlag o || negb (sExplicitRoot s) then Some a else sRoot s) /\
     forall b d, nth_error (sHeap s ++ [o]) b = Some d -> exists d2, nth_error (sHeap s2) b = Some d2 /\
       (isCharK (dKind d) = true -> d2 = d) /\
       (isCharK (dKind d) = false -> (hasFlag (dCommit d) CRoot = true <-> (sRoot s = Some b \/ (b = a /\ rootFlag o = true))) ->
        (hasFlag (dCommit d2) CRoot = true <-> sRoot s2 = Some b))).
  { unfold applyRoot in Ea. simpl sHeap in Ea. change (nth_error (sHeap s ++ [o]) a) with (nth_error (sHeap s ++ [o]) (List.length (sHeap s))) in Ea.
    rewrite nth_app_last in Ea. fold (rootFlag o) in Ea. simpl sExplicitRoot in Ea. simpl sRoot in Ea.
    destruct (rootFlag o && sExplicitRoot s) eqn:Eb; [discriminate|].
    assert (Hsr : forall r, sRoot s = Some r -> r < a).
    { intros r Hr. rewrite R9 in Hr. unfold rootIdx in Hr. destruct (findIdx 0 objs) eqn:Ef.
      - inversion Hr; subst. apply findIdx_range in Ef. lia.
      - destruct objs; [discriminate|]. inversion Hr; subst. simpl in *. lia. }
    destruct (rootFlag o || negb (sExplicitRoot s)) eqn:Eo.
    - inversion Ea; subst s2; clear Ea; simpl. split; [destruct (rootFlag o); auto|]. split; auto.
      intros b d Hd. rewrite nth_error_updNth. destruct (Nat.eqb_spec a b) as [->|Hne].
      + assert (Hn : nth_error match sRoot s with Some r => updNth r (fun d0 => setCommitType (N.ldiff (dCommit d0) CRoot) d0) (sHeap s ++ [o]) | None => sHeap s ++ [o] end b = Some d).
        { destruct (sRoot s) as [r|] eqn:Er; auto. rewrite nth_error_updNth. destruct (Nat.eqb_spec r b) as [->|]; auto. specialize (Hsr b eq_refl). lia. }
        rewrite Hn. simpl. eexists. split; [reflexivity|]. split; [intros; apply setCommit_char; auto|].
        intros Hk _. rewrite setCommit_commit by auto. rewrite flag_lor. tauto.
      + destruct (sRoot s) as [r|] eqn:Er.
        * rewrite nth_error_updNth. destruct (Nat.eqb_spec r b) as [->|Hne2].
          -- rewrite Hd. simpl. eexists. split; [reflexivity|]. split; [intros; apply setCommit_char; auto|].
             intros Hk _. rewrite setCommit_commit by auto. rewrite flag_ldiff. split; [discriminate|congruence].
          -- exists d. split; auto. split; auto. intros _ Hiff. rewrite Hiff. split; [intros [|[]]; congruence|congruence].
        * exists d. split; auto. split; auto. intros _ Hiff. rewrite Hiff. split; [intros [|[]]; congruence|congruence].
    - assert (rootFlag o = false /\ sExplicitRoot s = true) as [Eo1 Eo2].
      { destruct (rootFlag o), (sExplicitRoot s); simpl in *; auto; discriminate. }
      rewrite Eo1 in *. inversion Ea; subst s2; clear Ea; simpl. split; auto. split; auto.
      assert (Hh : match sRoot s with Some _ => sHeap s ++ [o] | None => sHeap s ++ [o] end = sHeap s ++ [o]) by (destruct (sRoot s); auto).
      intros b d Hd. exists d. rewrite Hh. split; auto. split; auto. intros _ Hiff. rewrite Hiff. split; [intros [|[_ ?]]; [auto|discriminate]|auto]. }
  destruct Hroot2 as (X1 & X2 & X3).
  apply setDefinition_inv in Es.
  2:{ eapply regInv_commit; eauto. simpl. apply regInv_app. exact R7. }
  2:{ lia. }
  destruct Es as (I3 & d3 & Hd3 & Hl & Hh3 & Hg1 & Hg2).
  assert (Hseed : gIdSeed match sRegistry s with Some r => r | None => emptyRegistry end = a).
  { fold (regOf s). rewrite (ri_seed _ _ R7), R6, seq_length. auto. }
  rewrite Hseed in Hh3.
  assert (Hroot : sRoot s2 = rootIdx (objs ++ [o])).
  { rewrite X2. unfold rootIdx. rewrite findIdx_app, app_length. simpl. rewrite R8.
    destruct (findIdx 0 objs) as [i|] eqn:Ef.
    - assert (Ht : existsb rootFlag objs = true).
      { destruct (existsb rootFlag objs) eqn:Ee; auto. apply findIdx_none with (i := 0) in Ee. congruence. }
      rewrite Ht in *. simpl. assert (rootFlag o = false) as ->.
      { destruct (rootFlag o) eqn:Ero; auto. exfalso. unfold applyRoot in Ea. simpl sHeap in Ea. unfold a in Ea. rewrite nth_app_last in Ea.
        fold (rootFlag o) in Ea. simpl sExplicitRoot in Ea. rewrite Ero, R8 in Ea. discriminate. }
      simpl. rewrite R9. unfold rootIdx. rewrite Ef. auto.
    - apply findIdx_none in Ef. rewrite Ef. simpl. rewrite orb_true_r. rewrite Ha. destruct (rootFlag o); [auto|].
      destruct (objs ++ [o]) eqn:El; [destruct objs; discriminate|]. f_equal. lia. }
  subst s'. constructor; simpl.
  - rewrite E3. auto.
  - rewrite E4. auto.
  - rewrite Hh3, updNth_length, Hlen2, app_length. simpl. lia.
  - intros b ob Hb. rewrite Hh3, nth_error_updNth.
    assert (Hcase : (b < a /\ nth_error objs b = Some ob) \/ (b = a /\ ob = o)).
    { destruct (Nat.lt_ge_cases b (List.length objs)).
      - left. split; [lia|]. rewrite nth_error_app1 in Hb; auto.
      - right. rewrite nth_error_app2 in Hb; auto. destruct (b - List.length objs) as [|[|]] eqn:Eb; simpl in Hb; try discriminate.
        inversion Hb. split; auto. lia. }
    destruct Hcase as [[Hlt Hob]|[-> ->]].
    + destruct (Nat.eqb_spec a b) as [|_]; [lia|]. destruct (R4 b ob Hob) as (d & Hd & N1 & N2 & N3 & N4 & N5).
      assert (Hd1 : nth_error (sHeap s ++ [o]) b = Some d) by (rewrite nth_error_app1; auto).
      destruct (X3 b d Hd1) as (d2 & Hd2 & Y1 & Y2). specialize (E1 b). simpl in E1. rewrite Hd1, Hd2 in E1.
      destruct E1 as (d2' & Ed & Z1 & Z2 & Z3 & Z4 & Z5). inversion Ed; subst d2'.
      exists d2. split; auto. split; [congruence|]. split; [congruence|]. split; [congruence|]. rewrite N2 in Y1, Y2. split.
      * intros Hk. rewrite (Y1 Hk). auto.
      * intros Hk. destruct (N5 Hk) as [M1 M2]. split; [eapply sameBut_trans; eauto|]. apply Y2; auto. rewrite M2.
        split; auto. intros [|[? _]]; auto; lia.
    + rewrite Nat.eqb_refl, Hd3. simpl. eexists. split; [reflexivity|]. simpl.
      assert (Hd1 : nth_error (sHeap s ++ [o]) a = Some o) by apply nth_app_last.
      destruct (X3 a o Hd1) as (d2 & Hd2 & Y1 & Y2). rewrite Hd3 in Hd2. inversion Hd2; subst d2.
      specialize (E1 a). simpl in E1. rewrite Hd1, Hd3 in E1. destruct E1 as (d2' & Ed & Z1 & Z2 & Z3 & Z4 & Z5). inversion Ed; subst d2'.
      split; auto. split; auto. split; auto. split.
      * intros Hk. rewrite (Y1 Hk). auto.
      * intros Hk. split; auto. apply Y2; auto. unfold rootFlag. split; auto. intros [Hr|[_ Hr]]; auto.
        rewrite R9 in Hr. unfold rootIdx in Hr. destruct (findIdx 0 objs) eqn:Ef.
        -- inversion Hr; subst. apply findIdx_range in Ef. lia.
        -- destruct objs; [discriminate|]. inversion Hr as [Hr']. simpl in *. lia.
  - intros ob Hin. apply in_app_or in Hin. destruct Hin as [Hin|[<-|[]]]; auto.
  - change (regOf _) with reg3. rewrite Hg1. fold (regOf s). rewrite R6, app_length, seq_app. simpl. f_equal. f_equal. auto.
  - auto.
  - rewrite X1, R8, existsb_app. simpl. rewrite orb_false_r. apply orb_comm.
  - auto.
  - rewrite kwIdx_app, E5. simpl. rewrite R10, Ha. destruct (hasFlag _ _); auto. rewrite app_nil_r. auto.
  - intros _. discriminate.
Qed.

Lemma rep_charSeqLoop name chars : forall objs s i s', rep objs s -> charSeqLoop s name i chars = (s', None) ->
  rep (objs ++ map (fun ic => newChar (childName name (fst ic)) false [snd ic] []) (combine (seq i (List.length chars)) chars)) s'.
Proof.
  induction chars as [|c chars IH]; intros objs s i s' Hr H; cbn [charSeqLoop] in H.
  - inversion H; subst. simpl. rewrite app_nil_r. auto.
  - destruct (register s _) as [s1 [err|]] eqn:E; [discriminate|]. apply rep_register with (objs := objs) in E; auto; try (simpl; auto).
    apply IH with (objs := objs ++ [newChar (childName name i) false [c] []]) in H; auto. simpl in *. rewrite <- app_assoc in H. auto.
Qed.
Lemma rep_define objs s d s' : rep objs s -> defineRaw s d = (s', None) -> rep (objs ++ callObjs d) s'.
Proof.
  intros Hr H. destruct d; cbn [defineRaw callObjs] in *; unfold anyChar, class, charSequence, sequence, choice in H.
  - destruct (register s (newChar _ _ _ _)) as [s1 [err|]] eqn:E; [discriminate|]. apply rep_register with (objs := objs) in E; auto; try (simpl; auto).
    eapply rep_register in H; eauto; try (simpl; auto; discriminate). rewrite <- app_assoc in H. auto.
  - destruct (register s (newChar _ _ _ _)) as [s1 [err|]] eqn:E; [discriminate|]. apply rep_register with (objs := objs) in E; auto; try (simpl; auto).
    eapply rep_register in H; eauto; try (simpl; auto; discriminate). rewrite <- app_assoc in H. auto.
  - destruct (charSeqLoop s name 0 chars) as [s1 [err|]] eqn:E; [discriminate|]. apply rep_charSeqLoop with (objs := objs) in E; auto.
    eapply rep_register in H; eauto; try (simpl; auto; discriminate). rewrite <- app_assoc in H. auto.
  - eapply rep_register in H; eauto; try (simpl; auto; discriminate).
  - eapply rep_register in H; eauto; try (simpl; auto; discriminate).
Qed.

(** calls without the name check and without adding the userDefined flag, as define.go makes them *)
Fixpoint rawAll (s : syntax) (calls : list defcall) : syntax * option gerr :=
  match calls with
  | [] => (s, None)
  | d :: calls' =>
    match defineRaw s d with
    | (s, Some e) => (s, Some e)
    | (s, None) => rawAll s calls'
    end
  end.
Lemma rep_rawAll calls : forall objs s s', rep objs s -> rawAll s calls = (s', None) -> rep (objs ++ flat_map callObjs calls) s'.
Proof.
  induction calls as [|d calls IH]; intros objs s s' Hr H; cbn [rawAll] in H.
  - inversion H; subst. simpl. rewrite app_nil_r. auto.
  - destruct (defineRaw s d) as [s1 [err|]] eqn:E; [discriminate|]. eapply rep_define in E; eauto. eapply IH in H; eauto.
    simpl. rewrite app_assoc. auto.
Qed.
Lemma defineAll_raw calls : forall s s', defineAll s calls = (s', None) ->
  rawAll s (map withUserDefined calls) = (s', None) /\ forall d, In d calls -> isValidSymbol (callName d) = true.
Proof.
  induction calls as [|d calls IH]; intros s s' H; cbn [defineAll] in H; [inversion H; subst; split; [auto|intros d []]|].
  unfold defineCall in H. destruct (isValidSymbol (callName d)) eqn:Ev; [|discriminate]. cbn [map rawAll].
  destruct (defineRaw s (withUserDefined d)) as [s1 [err|]]; [discriminate|]. apply IH in H. destruct H as [H1 H2].
  split; auto. intros x [<-|Hx]; auto.
Qed.
Theorem rep_defineAll calls s : defineAll emptySyntax calls = (s, None) -> rep (flat_map callObjs (map withUserDefined calls)) s.
Proof.
  intros H. apply defineAll_raw in H. destruct H as [H _]. apply rep_rawAll with (objs := []) in H; auto. apply rep_empty.
Qed.
