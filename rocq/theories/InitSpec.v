(** Init as a whole, for every state that definition calls can produce. *)
From Verif Require Import Base Utf8 IdSet Results Parser Build Syntax ListFacts ParseFacts TermFacts NoPanic Sound RunFacts InitWalk InitRun InitOk SyntaxFacts InitCore.

(** ** from definitions to parsers *)
Section FINAL.
Variables (m : list (string * addr)) (h0 h' : dheap).
Hypothesis Hfin : forall b, finalAt m h0 h' b.
Hypothesis Hmap : mapOk m h0.
Let P := map toParser h'.

Lemma final_len : List.length h' = List.length h0.
Proof.
  destruct (Nat.lt_trichotomy (List.length h') (List.length h0)) as [Hl|[?|Hl]]; auto; exfalso.
  - pose proof (Hfin (List.length h')) as H. unfold finalAt in H.
    destruct (nth_error h0 (List.length h')) eqn:E; [|apply nth_error_None in E; lia].
    destruct H as (d' & Hd' & _). assert (nth_error h' (List.length h') <> None) as Hn by congruence. apply nth_error_Some in Hn. lia.
  - pose proof (Hfin (List.length h0)) as H. unfold finalAt in H.
    assert (nth_error h0 (List.length h0) = None) as E by (apply nth_error_None; lia). rewrite E in H. apply nth_error_None in H. lia.
Qed.
Lemma P_len : List.length P = List.length h0.
Proof. unfold P. rewrite map_length. apply final_len. Qed.
Lemma P_nth a o : nth_error P a = Some o -> exists d0 d', nth_error h0 a = Some d0 /\ nth_error h' a = Some d' /\ toParser d' = o.
Proof.
  unfold P. rewrite nth_error_map'. intros H. destruct (nth_error h' a) as [d'|] eqn:E; [|discriminate]. simpl in H. inversion H.
  pose proof (Hfin a) as Hf. unfold finalAt in Hf. destruct (nth_error h0 a) as [d0|] eqn:E0; [|congruence]. eauto.
Qed.

Lemma kids_lt names x : In x (lookups m names) -> x < List.length h0.
Proof. intros H. apply lookups_In in H. destruct H as (n & _ & Hn). eauto. Qed.
Lemma kids_len names : List.length (lookups m names) <= List.length names.
Proof. unfold lookups. induction names as [|n l IH]; simpl; auto. destruct (lookup m n); simpl; lia. Qed.

Lemma final_seq a name id commit items ranges gs ac : nth_error P a = Some (PSeq name id commit items ranges gs ac) ->
  exists d0 oi its rs ids0 gs0 ac0 v0 i0, nth_error h0 a = Some d0 /\ dKind d0 = KSeq oi its rs ids0 gs0 ac0 v0 i0 /\
    name = dName d0 /\ id = dId d0 /\ commit = dCommit d0 /\
    ((items = [] /\ ranges = rs /\ ac = false /\ ~ inited h' a) \/
     (items = lookups m (map siName its) /\ ranges = rs ++ map itemRange (map normalizeItemRange its) /\
      ac = forallb (isCharAt h0) items /\ inited h' a /\ (forall r, In r (map siName its) -> lookup m r <> None) /\
      forall x, In x items -> inited h' x)).
Proof.
  intros H. destruct (P_nth _ _ H) as (d0 & d' & Hd0 & Hd' & E). pose proof (Hfin a) as Hf. unfold finalAt in Hf. rewrite Hd0, Hd' in Hf.
  destruct Hf as (d'' & Ed & Hf). inversion Ed; subst d''. clear Ed. rewrite E in Hf.
  destruct (dKind d0) as [x y z|oi its rs ids0 gs0 ac0 v0 i0|opts od gs0 v0 i0] eqn:Ek.
  - discriminate.
  - destruct Hf as (gs' & [(Hi & Hf)|(Hi & Df & Ki & Hf)]); inversion Hf; subst.
    + exists d0, oi, its, rs, ids0, gs0, ac0, v0, i0. repeat (split; auto). left. repeat (split; auto).
      intros (d'' & E1 & E2). rewrite Hd' in E1. inversion E1; subst. congruence.
    + exists d0, oi, its, rs, ids0, gs0, ac0, v0, i0. repeat (split; auto). right. repeat (split; auto). exists d'. auto.
  - destruct Hf as (gs' & [(Hi & Hf)|(Hi & Df & Ki & Hf)]); discriminate.
Qed.
Lemma final_choice a name id commit options gs : nth_error P a = Some (PChoice name id commit options gs) ->
  exists d0 opts od gs0 v0 i0, nth_error h0 a = Some d0 /\ dKind d0 = KChoice opts od gs0 v0 i0 /\
    name = dName d0 /\ id = dId d0 /\ commit = dCommit d0 /\
    ((options = [] /\ ~ inited h' a) \/
     (options = lookups m opts /\ inited h' a /\ (forall r, In r opts -> lookup m r <> None) /\
      forall x, In x options -> inited h' x)).
Proof.
  intros H. destruct (P_nth _ _ H) as (d0 & d' & Hd0 & Hd' & E). pose proof (Hfin a) as Hf. unfold finalAt in Hf. rewrite Hd0, Hd' in Hf.
  destruct Hf as (d'' & Ed & Hf). inversion Ed; subst d''. clear Ed. rewrite E in Hf.
  destruct (dKind d0) as [x y z|oi its rs ids0 gs0 ac0 v0 i0|opts od gs0 v0 i0] eqn:Ek.
  - discriminate.
  - destruct Hf as (gs' & [(Hi & Hf)|(Hi & Df & Ki & Hf)]); discriminate.
  - destruct Hf as (gs' & [(Hi & Hf)|(Hi & Df & Ki & Hf)]); inversion Hf; subst.
    + exists d0, opts, od, gs0, v0, i0. repeat (split; auto). left. split; auto.
      intros (d'' & E1 & E2). rewrite Hd' in E1. inversion E1; subst. congruence.
    + exists d0, opts, od, gs0, v0, i0. repeat (split; auto). right. repeat (split; auto). exists d'. auto.
Qed.
Lemma final_char a : isCharAt h0 a = true -> exists name id cn ch rs, nth_error P a = Some (PChar name id cn ch rs).
Proof.
  rewrite isCharAt_tag. intros H. pose proof (Hfin a) as Hf. unfold finalAt in Hf. destruct (nth_error h0 a) as [d0|]; [|discriminate].
  destruct Hf as (d' & Hd' & Hf). unfold P. rewrite nth_error_map', Hd'. simpl.
  destruct (dKind d0); simpl in H; try discriminate. rewrite Hf. repeat eexists.
Qed.

Lemma final_allChars : allCharsOk P.
Proof.
  intros p name id commit items ranges gs H a Ha. destruct (final_seq _ _ _ _ _ _ _ _ H) as (d0 & oi & its & rs & i1 & i2 & i3 & i4 & i5 & _ & _ & _ & _ & _ & Hor).
  destruct Hor as [(_ & _ & E & _)|(E1 & _ & E2 & _)]; [discriminate|].
  symmetry in E2. rewrite forallb_forall in E2. apply E2 in Ha. apply final_char in Ha. destruct Ha as (? & ? & ? & ? & ? & ->). auto.
Qed.
Lemma final_wf kws : (forall k, In k kws -> k < List.length h0) -> wfHeap P kws.
Proof.
  intros Hk. split; [|split].
  - intros a name id commit items ranges gs ac H. rewrite P_len.
    destruct (final_seq _ _ _ _ _ _ _ _ H) as (d0 & oi & its & rs & i1 & i2 & i3 & i4 & i5 & _ & _ & _ & _ & _ & Hor).
    destruct Hor as [(-> & _)|(-> & -> & _)]; [split; [intros x []|simpl; lia]|].
    split; [intros x Hx; eapply kids_lt; eauto|].
    pose proof (kids_len (map siName its)). rewrite app_length, !map_length in *. lia.
  - intros a name id commit options gs H x Hx. rewrite P_len.
    destruct (final_choice _ _ _ _ _ _ H) as (d0 & opts & od & g & v & i & _ & _ & _ & _ & _ & Hor).
    destruct Hor as [(-> & _)|(-> & _)]; [destruct Hx|eapply kids_lt; eauto].
  - intros k H. rewrite P_len. auto.
Qed.
Lemma final_kwOk kws : (forall a, In a kws -> exists d, nth_error h0 a = Some d /\ hasFlag (dCommit d) CNoKeyword = false) ->
  kwOk P kws.
Proof.
  intros Hk kw name id commit items ranges gs Hin H.
  destruct (final_seq _ _ _ _ _ _ _ _ H) as (d0 & oi & its & rs & i1 & i2 & i3 & i4 & i5 & Hd0 & _ & _ & _ & -> & _).
  destruct (Hk kw Hin) as (d & Hd & Hf). congruence.
Qed.
End FINAL.

(** ** the first half of Init *)
(** syntax.go:317-325 *)
Definition prepare (s : syntax) (reg : registry) (root : addr) : res (dheap * registry * addr) :=
  let h := preinitAll (sHeap s) (gDefinitions reg) in
  if hasWhitespace h (gDefinitions reg) then
    x <- applyWhitespace h (gDefinitions reg) ;;
    let '(h, defs, root) := x in
    let (h, reg) := newRegistry h defs in
    Ok (h, reg, root)
  else Ok (h, reg, root).

Lemma Init_split n s : Init n s =
  if sInitFailed s then Ok (s, Some ErrInitFailed)
  else if sInitialized s then Ok (s, None)
  else
    match sRoot s with
    | None => Ok (s, Some ErrNoParsersDefined)
    | Some root =>
      match nth_error (sHeap s) root, sRegistry s with
      | Some rd, Some reg =>
        match checkCommitType rd with
        | Some e => Ok (s, Some e)
        | None =>
          x <- prepare s reg root ;;
          let '(h, reg, root) := x in
          y <- initCore (gDefinition reg) n (sKeywords s ++ [root]) h ;;
          match y with
          | (h, Some e) => Ok (setFailed s h reg root, Some e)
          | (h, None) => Ok (mkSyntax h (Some reg) true false (sExplicitRoot s) (sKeywords s) (Some root), None)
          end
        end
      | _, _ => Panic PanicNil
      end
    end.
Proof.
  unfold Init, prepare, initCore. destruct (sInitFailed s); auto. destruct (sInitialized s); auto. destruct (sRoot s) as [root|]; auto.
  destruct (nth_error (sHeap s) root) as [rd|]; auto. destruct (sRegistry s) as [reg|]; auto. destruct (checkCommitType rd); auto.
  match goal with |- bind ?a ?f = bind ?b ?g => destruct b as [[[h r] rt]|p|]; cbn [bind]; auto end.
  destruct (validateAll _ _ _ _) as [[h1 [e|]]|p|]; cbn [bind]; auto.
  destruct (forAddrs _ _ _); auto.
Qed.

Definition unwalked (h : dheap) : Prop := Forall (fun d => unwalkedK (dKind d)) h.
(** the objects stay at their addresses and keep the NoKeyword flag *)
Definition kwEv (h h' : dheap) : Prop :=
  forall a d, nth_error h a = Some d -> exists d', nth_error h' a = Some d' /\
  hasFlag (dCommit d') CNoKeyword = hasFlag (dCommit d) CNoKeyword.
Lemma kwEv_refl h : kwEv h h.
Proof. intros a d Hd. eauto. Qed.
Lemma kwEv_trans a b c : kwEv a b -> kwEv b c -> kwEv a c.
Proof.
  intros H1 H2 x d Hd. destruct (H1 x d Hd) as (d1 & Hd1 & E1). destruct (H2 x d1 Hd1) as (d2 & Hd2 & E2).
  exists d2. split; congruence.
Qed.
Lemma kwEv_upd h a f : (forall d, hasFlag (dCommit (f d)) CNoKeyword = hasFlag (dCommit d) CNoKeyword) -> kwEv h (updNth a f h).
Proof.
  intros Hf x d Hd. rewrite nth_error_updNth, Hd. destruct (a =? x); [|eauto]. simpl. eauto.
Qed.
Lemma kwEv_app h x : kwEv h (h ++ x).
Proof.
  intros a d Hd. exists d. split; auto. rewrite nth_error_app1; auto. apply nth_error_Some. congruence.
Qed.
Lemma kwEv_len h h' : kwEv h h' -> List.length h <= List.length h'.
Proof.
  intros H. destruct (Nat.le_gt_cases (List.length h) (List.length h')) as [|Hl]; auto. exfalso.
  destruct (nth_error h (List.length h')) as [d|] eqn:E; [|apply nth_error_None in E; lia].
  destruct (H _ _ E) as (d' & Hd' & _). assert (nth_error h' (List.length h') <> None) as Hn by congruence. apply nth_error_Some in Hn. lia.
Qed.
Lemma kwEv_commit l h h' : ~ In 5%N l -> commitEv l h h' -> kwEv h h'.
Proof.
  intros Hl H a d Hd. specialize (H a). rewrite Hd in H. destruct H as (d' & Hd' & _ & _ & _ & Hs & _).
  exists d'. split; auto. apply (sameBut_flag l _ _ 5); auto.
Qed.

Lemma unwalked_upd h a f : (forall d, unwalkedK (dKind d) -> unwalkedK (dKind (f d))) -> unwalked h -> unwalked (updNth a f h).
Proof.
  intros Hf H. revert a. induction H as [|d h Hd H IH]; intros [|a]; simpl; constructor; auto. apply IH.
Qed.
Lemma unwalked_preinit d : unwalkedK (dKind d) -> unwalkedK (dKind (preinit d)).
Proof. unfold preinit, initRanges. destruct (dKind d) eqn:E; simpl; rewrite ?E; auto. Qed.
Lemma preinit_commit d : dCommit (preinit d) = dCommit d.
Proof. unfold preinit, initRanges. destruct (dKind d); auto. Qed.
Lemma unwalked_setCommit c d : unwalkedK (dKind d) -> unwalkedK (dKind (setCommitType c d)).
Proof. unfold setCommitType. destruct (dKind d) eqn:E; simpl; rewrite ?E; auto. Qed.

(** both facts together *)
Definition prepEv (h h' : dheap) : Prop := kwEv h h' /\ (unwalked h -> unwalked h').
Lemma prepEv_refl h : prepEv h h.
Proof. split; [apply kwEv_refl|auto]. Qed.
Lemma prepEv_trans a b c : prepEv a b -> prepEv b c -> prepEv a c.
Proof. intros [A1 A2] [B1 B2]. split; [eapply kwEv_trans; eauto|auto]. Qed.
Lemma prepEv_app h x : unwalked x -> prepEv h (h ++ x).
Proof. intros H. split; [apply kwEv_app|]. intros Hh. apply Forall_app. auto. Qed.

Lemma preinitAll_ev defs : forall h, prepEv h (preinitAll h defs) /\ List.length (preinitAll h defs) = List.length h.
Proof.
  unfold preinitAll. induction defs as [|a defs IH]; intros h; simpl; [split; [apply prepEv_refl|auto]|].
  destruct (IH (updNth a preinit h)) as [H1 H2]. rewrite updNth_length in H2. split; auto.
  eapply prepEv_trans; eauto. split.
  - apply kwEv_upd. intros d. rewrite preinit_commit. auto.
  - apply unwalked_upd. intros. apply unwalked_preinit; auto.
Qed.

Lemma nokw_alias c : hasFlag (N.lor c CAlias) CNoKeyword = hasFlag c CNoKeyword.
Proof. apply (sameBut_flag [1%N] _ _ 5); [intros [|[]]; discriminate|]. apply (sameBut_lor c 1). Qed.
Lemma nokw_root c : hasFlag (N.ldiff c CRoot) CNoKeyword = hasFlag c CNoKeyword.
Proof. apply (sameBut_flag [7%N] _ _ 5); [intros [|[]]; discriminate|]. apply (sameBut_ldiff c 7). Qed.
Lemma setCommit_nokw f d : (forall c, hasFlag (f c) CNoKeyword = hasFlag c CNoKeyword) ->
  hasFlag (dCommit (setCommitType (f (dCommit d)) d)) CNoKeyword = hasFlag (dCommit d) CNoKeyword.
Proof. intros H. unfold setCommitType. destruct (dKind d); simpl; auto. Qed.

Lemma splitWhitespaceDefs_ev defs : forall h h' ws rest, splitWhitespaceDefs h defs = (h', ws, rest) ->
  prepEv h h' /\ List.length h' = List.length h /\ (forall a, In a ws \/ In a rest <-> In a defs).
Proof.
  induction defs as [|a defs IH]; intros h h' ws rest H; simpl in H.
  - inversion H; subst. split; [apply prepEv_refl|]. split; auto. simpl. tauto.
  - destruct (hasFlag (commitAt h a) CWhitespace).
    + destruct (splitWhitespaceDefs _ defs) as [[h1 ws1] rest1] eqn:E. inversion H; subst. apply IH in E. destruct E as (E1 & E2 & E3).
      rewrite updNth_length in E2. split; [|split; auto].
      * eapply prepEv_trans; eauto. split.
        -- apply kwEv_upd. intros d. apply (setCommit_nokw (fun c => N.lor c CAlias)). apply nokw_alias.
        -- apply unwalked_upd. intros. apply unwalked_setCommit; auto.
      * intros x. specialize (E3 x). simpl. tauto.
    + destruct (splitWhitespaceDefs _ defs) as [[h1 ws1] rest1] eqn:E. inversion H; subst. apply IH in E. destruct E as (E1 & E2 & E3).
      split; auto. split; auto. intros x. specialize (E3 x). simpl. tauto.
Qed.

Lemma wsItems_unwalked name items : forall i, unwalked (fst (wsItems name i items)).
Proof.
  induction items as [|it items IH]; intros i; cbn [wsItems]; [constructor|].
  destruct (wsItems name (S i) items) as [defs rest] eqn:E. specialize (IH (S i)). rewrite E in IH. simpl in IH.
  destruct (Z.eqb _ _); [auto|]. destruct (Z.ltb _ _); simpl; repeat constructor; auto.
Qed.
Lemma applyWhitespaceToSeq_unwalked name ct items : unwalked (applyWhitespaceToSeq name ct items).
Proof.
  unfold applyWhitespaceToSeq. pose proof (wsItems_unwalked name items 0). destruct (wsItems name 0 items) as [defs its].
  apply Forall_app. split; auto. repeat constructor.
Qed.

Lemma applyWhitespaceToDefs_ev defs : forall h h' defs', applyWhitespaceToDefs h defs = (h', defs') ->
  (forall a, In a defs -> a < List.length h) ->
  prepEv h h' /\ List.length h <= List.length h' /\ (forall a, In a defs' -> a < List.length h').
Proof.
  induction defs as [|a defs IH]; intros h h' defs' H Hr; cbn [applyWhitespaceToDefs] in H.
  - inversion H; subst. split; [apply prepEv_refl|]. split; auto.
  - assert (Hkeep : (let (h, rest) := applyWhitespaceToDefs h defs in (h, a :: rest)) = (h', defs') ->
       prepEv h h' /\ List.length h <= List.length h' /\ (forall a, In a defs' -> a < List.length h')).
    { destruct (applyWhitespaceToDefs h defs) as [h1 rest] eqn:E. intros H1; inversion H1; subst.
      apply IH in E; [|intros; apply Hr; right; auto]. destruct E as (E1 & E2 & E3). split; auto. split; auto.
      intros x [<-|Hx]; auto. assert (a < List.length h) by (apply Hr; left; auto). lia. }
    destruct (nth_error h a) as [[name id ct k]|] eqn:Hd; [|auto].
    destruct k as [? ? ?|oi items ranges itemDefs gs ac v i|? ? ? ? ?]; auto.
    destruct (hasFlag ct CNoWhitespace); auto. clear Hkeep.
    set (new := applyWhitespaceToSeq name ct items) in *.
    destruct (applyWhitespaceToDefs (h ++ new) defs) as [h1 rest] eqn:E. inversion H; subst.
    apply IH in E.
    2:{ intros x Hx. rewrite app_length. assert (x < List.length h) by (apply Hr; right; auto). lia. }
    rewrite app_length in E. destruct E as (E1 & E2 & E3). split; [|split; [lia|]].
    + eapply prepEv_trans; eauto. apply prepEv_app. apply applyWhitespaceToSeq_unwalked.
    + intros x Hx. apply in_app_or in Hx. destruct Hx as [Hx|Hx]; auto. apply in_seq in Hx. lia.
Qed.

Lemma applyWhitespaceToRoot_ev h root h' root' : applyWhitespaceToRoot h root = (h', root') ->
  prepEv h h' /\ List.length h' = S (List.length h) /\ root' = List.length h.
Proof.
  unfold applyWhitespaceToRoot. intros H. inversion H; subst. clear H. rewrite app_length, updNth_length. simpl.
  split; [|split; lia]. eapply prepEv_trans; [|apply prepEv_app; repeat constructor]. split.
  - apply kwEv_upd. intros d.
    assert (Hs : forall c dd, dCommit (setCommitType c (setName dd d)) = dCommit (setCommitType c d)).
    { intros. unfold setCommitType, setName. simpl. destruct (dKind d); auto. }
    rewrite Hs. apply (setCommit_nokw (fun c => N.lor (N.ldiff c CRoot) CAlias)). intros c. rewrite nokw_alias, nokw_root. auto.
  - apply unwalked_upd. intros d Hd. apply unwalked_setCommit. auto.
Qed.

Lemma last_In {A} (l : list A) x : last (map (@Some A) l) None = Some x -> In x l.
Proof.
  induction l as [|y l IH]; simpl; [discriminate|]. destruct l as [|z l]; simpl in *; [intros H; inversion H; auto|].
  intros H. right. auto.
Qed.

Lemma applyWhitespace_ev h defs h' defs' root' : applyWhitespace h defs = Ok (h', defs', root') ->
  (forall a, In a defs -> a < List.length h) ->
  prepEv h h' /\ (forall a, In a defs' -> a < List.length h') /\ root' < List.length h'.
Proof.
  unfold applyWhitespace. intros H Hr. destruct (splitWhitespaceDefs h defs) as [[h1 ws] rest] eqn:E1.
  apply splitWhitespaceDefs_ev in E1. destruct E1 as (A1 & A2 & A3).
  set (h2 := h1 ++ [newChoice _ _ _]) in H. destruct (applyWhitespaceToDefs h2 rest) as [h3 defs3] eqn:E3.
  assert (L2 : List.length h2 = S (List.length h1)) by (unfold h2; rewrite app_length; simpl; lia).
  apply applyWhitespaceToDefs_ev in E3.
  2:{ intros a Ha. assert (In a defs) by (apply A3; auto). apply Hr in H0. lia. }
  destruct E3 as (B1 & B2 & B3). destruct (splitRoot h3 defs3) as [[oroot|] defs4] eqn:E4; [|discriminate].
  destruct (applyWhitespaceToRoot h3 oroot) as [h5 root5] eqn:E5. inversion H; subst. clear H.
  apply applyWhitespaceToRoot_ev in E5. destruct E5 as (C1 & C2 & C3). unfold splitRoot in E4. inversion E4 as [[E4a E4b]]. clear E4.
  apply last_In in E4a. apply filter_In in E4a. destruct E4a as [E4a _].
  split; [|split; [|lia]].
  - apply prepEv_trans with h1; auto. apply prepEv_trans with h2; [apply prepEv_app; repeat constructor|].
    apply prepEv_trans with h3; auto.
  - intros a Ha. apply in_app_or in Ha. destruct Ha as [Ha|Ha].
    + subst defs4. apply filter_In in Ha. destruct Ha as [Ha _]. apply B3 in Ha. lia.
    + apply in_app_or in Ha. destruct Ha as [Ha|Ha].
      * assert (In a defs) as Hi by (apply A3; auto). apply Hr in Hi. lia.
      * simpl in Ha. destruct Ha as [<-|[<-|[<-|[]]]]; try lia. apply B3 in E4a. lia.
Qed.

Lemma newRegistryLoop_inv defs : forall h r h' r', regInv h r -> (forall a, In a defs -> a < List.length h) ->
  newRegistryLoop h r defs = (h', r') -> regInv h' r' /\ prepEv h h' /\ List.length h' = List.length h.
Proof.
  induction defs as [|a defs IH]; intros h r h' r' Hi Hr H; cbn [newRegistryLoop] in H.
  - inversion H; subst. split; auto. split; auto. apply prepEv_refl.
  - destruct (setDefinition h r a) as [[h1 r1] e] eqn:E. pose proof E as E0. apply setDefinition_inv in E; auto; [|apply Hr; left; auto].
    destruct E as (I1 & d & Hd & Hm).
    assert (prepEv h h1 /\ List.length h1 = List.length h) as [P1 L1].
    { destruct e as [err|]; destruct Hm as (_ & -> & _); [split; [apply prepEv_refl|auto]|].
      split; [|apply updNth_length]. split; [apply kwEv_upd; auto|apply unwalked_upd; auto]. }
    apply IH in H; auto.
    + destruct H as (H1 & H2 & H3). split; auto. split; [eapply prepEv_trans; eauto|lia].
    + intros x Hx. rewrite L1. apply Hr. right; auto.
Qed.

Lemma prepare_spec s reg root h' reg' root' : dinv s -> sRegistry s = Some reg -> root < List.length (sHeap s) ->
  prepare s reg root = Ok (h', reg', root') ->
  unwalked h' /\ mapOk (gDefinition reg') h' /\ root' < List.length h' /\ kwEv (sHeap s) h'.
Proof.
  intros [F R Rt K] Hreg Hroot H. unfold prepare in H. unfold regOf in R. rewrite Hreg in R.
  destruct (preinitAll_ev (gDefinitions reg) (sHeap s)) as [P1 L1]. set (h1 := preinitAll _ _) in *.
  assert (U0 : unwalked (sHeap s)).
  { apply Forall_forall. intros d Hd. apply In_nth_error in Hd. destruct Hd as [a Ha]. destruct (F a d Ha). auto. }
  assert (Hdr : forall a, In a (gDefinitions reg) -> a < List.length (sHeap s)).
  { intros a Ha. apply In_nth_error in Ha. destruct Ha as [i Hi]. destruct (ri_defs _ _ R i a Hi) as (d & Hd & _).
    apply nth_error_Some. congruence. }
  destruct (hasWhitespace h1 (gDefinitions reg)).
  - binv H. destruct x as [[h2 defs2] root2]. destruct (newRegistry h2 defs2) as [h3 reg3] eqn:E3. inversion H; subst. clear H.
    apply applyWhitespace_ev in E; [|intros a Ha; rewrite L1; auto]. destruct E as (A1 & A2 & A3).
    unfold newRegistry in E3. apply newRegistryLoop_inv in E3; auto; [|apply regInv_empty]. destruct E3 as (B1 & B2 & B3).
    assert (PE : prepEv (sHeap s) h') by (eapply prepEv_trans; [eauto|eapply prepEv_trans; eauto]).
    destruct PE as [PE1 PE2]. split; auto. split; [|split; [lia|auto]].
    intros n a Hn. destruct (ri_map _ _ B1 n a Hn) as (_ & d & Hd & _). apply nth_error_Some. congruence.
  - inversion H; subst. destruct P1 as [PE1 PE2]. split; auto. split; [|split; [lia|auto]].
    intros n a Hn. destruct (ri_map _ _ R n a Hn) as (_ & d & Hd & _). rewrite L1. apply nth_error_Some. congruence.
Qed.

(** ** the parsers of a syntax that Init accepted *)
Record pwf (P : pheap) (kws : list addr) (root : addr) : Prop := mkPwf {
  pw_ac : allCharsOk P;
  pw_kw : kwOk P kws;
  pw_wf : wfHeap P kws;
  pw_root : root < List.length P }.

Record iinv (s : syntax) : Prop := mkIinv {
  ii_root : exists root, sRoot s = Some root /\ pwf (parsers s) (sKeywords s) root }.

Lemma Init_dinv n s s' : dinv s -> sInitFailed s = false -> sInitialized s = false -> Init n s = Ok (s', None) ->
  sInitialized s' = true /\ iinv s'.
Proof.
  intros D Hf Hi H. rewrite Init_split, Hf, Hi in H. pose proof D as [F R Rt K].
  destruct (sRoot s) as [root|] eqn:Er; [|discriminate]. destruct (nth_error (sHeap s) root) as [rd|] eqn:Ed; [|discriminate].
  destruct (sRegistry s) as [reg|] eqn:Eg; [|discriminate]. destruct (checkCommitType rd); [discriminate|].
  binv H. destruct x as [[h1 reg1] root1]. binv H. destruct x as [h2 [e|]]; [discriminate|]. inversion H; subst. clear H.
  apply prepare_spec in E; auto; [|apply nth_error_Some; congruence]. destruct E as (U & M & Rr & Kv).
  assert (Hun : forall a d, nth_error h1 a = Some d -> unwalkedK (dKind d)).
  { intros a d Hd. unfold unwalked in U. rewrite Forall_forall in U. apply U. eapply nth_error_In; eauto. }
  apply initCore_ok in E0; auto. destruct E0 as (Fin & In1 & G).
  assert (Hk : forall a, In a (sKeywords s) -> exists d, nth_error h1 a = Some d /\ hasFlag (dCommit d) CNoKeyword = false).
  { intros a Ha. destruct (K a Ha) as (d & Hd & Hfl). destruct (Kv a d Hd) as (d' & Hd' & E). exists d'. split; congruence. }
  split; auto. constructor. exists root1. split; auto. simpl. constructor.
  - eapply final_allChars; eauto.
  - eapply final_kwOk; eauto.
  - eapply final_wf; eauto. intros k Hkk. destruct (Hk k Hkk) as (d & Hd & _). apply nth_error_Some. congruence.
  - unfold parsers. simpl. erewrite P_len; eauto.
Qed.

(** ** reachable states *)
Inductive reachable : syntax -> Prop :=
| re_new : reachable emptySyntax
| re_define s d s' e : reachable s -> defineRaw s d = (s', e) -> reachable s'
| re_init s n s' e : reachable s -> Init n s = Ok (s', e) -> reachable s'
| re_parse s n input e s' o : reachable s -> Parse n s input e = Ok (s', o) -> reachable s'.

Definition sinv (s : syntax) : Prop :=
  if sInitFailed s then True else if sInitialized s then iinv s else dinv s.

Lemma register_flags s d s' e : register s d = (s', e) -> sInitFailed s' = sInitFailed s /\ sInitialized s' = sInitialized s /\
  (sInitialized s = true -> s' = s /\ e = Some ErrSyntaxInitialized).
Proof.
  unfold register. destruct (sInitialized s) eqn:Ei; [intros H; inversion H; subst; auto|].
  set (s1 := mkSyntax _ _ _ _ _ _ _). destruct (checkCommitType d).
  - intros H; inversion H; subst. simpl. split; auto. split; auto. discriminate.
  - destruct (applyRoot s1 _) as [s2 [err|]] eqn:Ea; apply applyRoot_ev in Ea; destruct Ea as (_ & _ & E3 & E4 & _).
    + intros H; inversion H; subst. simpl in *. split; auto. split; [rewrite E3; auto|discriminate].
    + destruct (setDefinition _ _ _) as [[h3 reg3] e3]. intros H; inversion H; subst. simpl. split; auto. split; [rewrite E3; auto|discriminate].
Qed.
Lemma defineRaw_flags s d s' e : defineRaw s d = (s', e) -> sInitFailed s' = sInitFailed s /\ sInitialized s' = sInitialized s /\
  (sInitialized s = true -> s' = s).
Proof.
  intros H.
  assert (Hp : sInitFailed s' = sInitFailed s /\ sInitialized s' = sInitialized s /\ (sInitialized s = true -> s' = s)).
  { eapply (defineRaw_pres (fun s' => sInitFailed s' = sInitFailed s /\ sInitialized s' = sInitialized s /\ (sInitialized s = true -> s' = s))); eauto.
    intros s1 d1 s2 e1 (A & B & C) _ Hr. apply register_flags in Hr. destruct Hr as (A1 & B1 & C1).
    split; [congruence|]. split; [congruence|]. intros Hs. rewrite <- C; auto. apply C1. congruence. }
  auto.
Qed.

Lemma Init_sinv n s s' e : sinv s -> Init n s = Ok (s', e) -> sinv s'.
Proof.
  intros Hs H. unfold sinv in Hs. destruct (sInitFailed s) eqn:Ef.
  { unfold Init in H. rewrite Ef in H. inversion H; subst. unfold sinv. rewrite Ef. auto. }
  destruct (sInitialized s) eqn:Ei.
  { unfold Init in H. rewrite Ef, Ei in H. inversion H; subst. unfold sinv. rewrite Ef, Ei. auto. }
  destruct e as [err|].
  - rewrite Init_split, Ef, Ei in H. unfold sinv.
    destruct (sRoot s) as [root|]; [|inversion H; subst; rewrite Ef, Ei; auto].
    destruct (nth_error (sHeap s) root) as [rd|]; [|discriminate].
    destruct (sRegistry s) as [reg|]; [|discriminate]. destruct (checkCommitType rd); [inversion H; subst; rewrite Ef, Ei; auto|].
    binv H. destruct x as [[h1 reg1] root1]. binv H. destruct x as [h2 [e|]]; inversion H; subst. simpl. auto.
  - apply Init_dinv in H; auto. destruct H as [H1 H2]. unfold sinv. destruct (sInitFailed s'); auto. rewrite H1. auto.
Qed.

Lemma reachable_sinv s : reachable s -> sinv s.
Proof.
  induction 1 as [|s d s' e H IH Hd|s n s' e H IH Hi|s n input e s' o H IH Hp].
  - apply dinv_empty.
  - unfold sinv in *. pose proof (defineRaw_flags _ _ _ _ Hd) as (E1 & E2 & E3). rewrite E1, E2.
    destruct (sInitFailed s); auto. destruct (sInitialized s) eqn:Ei; [rewrite E3; auto|].
    eapply defineRaw_dinv; eauto.
  - eapply Init_sinv; eauto.
  - unfold Parse in Hp. binv Hp. destruct x as [s1 [err|]].
    + inversion Hp; subst. eapply Init_sinv; eauto.
    + destruct (sRoot s1) as [root|]; [|discriminate]. binv Hp. inversion Hp; subst. eapply Init_sinv; eauto.
Qed.

(** ** Init stops, and with fuel above a bound only one outcome is possible *)
Lemma Init_fuel s : reachable s -> exists n0, forall n, n0 <= n -> Init n s <> NoFuel.
Proof.
  intros Hr. apply reachable_sinv in Hr. unfold sinv in Hr.
  destruct (sInitFailed s) eqn:Ef. { exists 0. intros n _. unfold Init. rewrite Ef. discriminate. }
  destruct (sInitialized s) eqn:Ei. { exists 0. intros n _. unfold Init. rewrite Ef, Ei. discriminate. }
  destruct (sRoot s) as [root|] eqn:Er. 2:{ exists 0. intros n _. rewrite Init_split, Ef, Ei, Er. discriminate. }
  destruct (nth_error (sHeap s) root) as [rd|] eqn:Ed. 2:{ exists 0. intros n _. rewrite Init_split, Ef, Ei, Er, Ed. discriminate. }
  destruct (sRegistry s) as [reg|] eqn:Eg. 2:{ exists 0. intros n _. rewrite Init_split, Ef, Ei, Er, Ed, Eg. discriminate. }
  destruct (checkCommitType rd) eqn:Ec. { exists 0. intros n _. rewrite Init_split, Ef, Ei, Er, Ed, Eg, Ec. discriminate. }
  destruct (prepare s reg root) as [[[h1 reg1] root1]|p|] eqn:Ep.
  - exists (S (List.length h1)). intros n Hn. rewrite Init_split, Ef, Ei, Er, Ed, Eg, Ec, Ep. cbn [bind].
    pose proof Hr as [F R Rt K]. apply prepare_spec in Ep; auto; [|apply nth_error_Some; congruence]. destruct Ep as (U & M & Rr & Kv).
    apply bind_noFuel.
    + apply initCore_good; auto.
      * intros a d Hd. unfold unwalked in U. rewrite Forall_forall in U. apply U. eapply nth_error_In; eauto.
      * intros a Ha. apply in_app_or in Ha. destruct Ha as [Ha|[<-|[]]]; auto. destruct (K a Ha) as (d & Hd & _).
        destruct (Kv a d Hd) as (d' & Hd' & _). apply nth_error_Some. congruence.
    + intros [h2 [e|]] _; discriminate.
  - exists 0. intros n _. rewrite Init_split, Ef, Ei, Er, Ed, Eg, Ec, Ep. discriminate.
  - exfalso. unfold prepare in Ep. destruct (hasWhitespace _ _); [|discriminate]. unfold applyWhitespace in Ep.
    destruct (splitWhitespaceDefs _ _) as [[h1 ws] rest]. destruct (applyWhitespaceToDefs _ rest) as [h3 defs3].
    destruct (splitRoot h3 defs3) as [[o|] defs4]; [|discriminate]. destruct (applyWhitespaceToRoot h3 o). cbn [bind] in Ep.
    destruct (newRegistry _ _). discriminate.
Qed.

