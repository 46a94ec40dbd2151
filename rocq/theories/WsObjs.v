(** What the whitespace rewriting of Init does to the list of the definition objects. *)
From Verif Require Import Base Utf8 IdSet Results Parser Build Syntax ListFacts SyntaxFacts InitWalk InitRun InitCore InitSpec Lang Grammar Rep Live LangGen Api.

Definition objsAt (h : dheap) (D : list addr) (O : list defobj) : Prop := Forall2 (fun a o => nth_error h a = Some o) D O.

Lemma objsAt_ext h h' D O : objsAt h D O -> (forall a, In a D -> nth_error h' a = nth_error h a) -> objsAt h' D O.
Proof. unfold objsAt. induction 1 as [|a o D O Ho H IH]; intros He; constructor; [rewrite He; [auto|left; auto]|apply IH; intros; apply He; right; auto]. Qed.
Lemma objsAt_app h D D' O O' : objsAt h D O -> objsAt h D' O' -> objsAt h (D ++ D') (O ++ O').
Proof. apply Forall2_app. Qed.
Lemma objsAt_lt h D O : objsAt h D O -> forall a, In a D -> a < List.length h.
Proof. induction 1 as [|a o D O Ho H IH]; intros b Hb; [destruct Hb|]. destruct Hb as [<-|Hb]; auto. apply nth_error_Some. congruence. Qed.
Lemma objsAt_grow h x D O : objsAt h D O -> objsAt (h ++ x) D O.
Proof. intros H. apply (objsAt_ext h); auto. intros a Ha. apply nth_error_app1. eapply objsAt_lt; eauto. Qed.
Lemma objsAt_seq h x : objsAt (h ++ x) (seq (List.length h) (List.length x)) x.
Proof.
  revert h. induction x as [|o x IH]; intros h; constructor; [rewrite nth_error_app2, Nat.sub_diag; auto|].
  specialize (IH (h ++ [o])). rewrite <- app_assoc, app_length in IH. simpl in IH. rewrite Nat.add_1_r in IH. exact IH.
Qed.
Lemma objsAt_all h : objsAt h (seq 0 (List.length h)) h.
Proof. apply (objsAt_seq [] h). Qed.
Lemma objsAt_In h D O o : objsAt h D O -> In o O -> exists a, In a D /\ nth_error h a = Some o.
Proof. induction 1 as [|a b D O Hb H IH]; intros Hi; [destruct Hi|]; destruct Hi as [<-|Ho]; [exists a; split; [left|]; auto|]. destruct (IH Ho) as (c & Hc & E). exists c. split; auto. right; auto. Qed.
Lemma objsAt_addr h D O a : objsAt h D O -> In a D -> exists o, In o O /\ nth_error h a = Some o.
Proof. induction 1 as [|b o D O Hb H IH]; intros Hi; [destruct Hi|]; destruct Hi as [<-|Ho]; [exists o; split; [left|]; auto|]. destruct (IH Ho) as (c & Hc & E). exists c. split; auto. right; auto. Qed.
Lemma objsAt_filter h f g D O : objsAt h D O -> (forall a o, nth_error h a = Some o -> f a = g o) -> objsAt h (filter f D) (filter g O).
Proof. induction 1; intros Hfg; simpl; [constructor|]. rewrite (Hfg _ _ H). destruct (g y); [constructor; auto|]; apply IHForall2; auto. Qed.

Definition isWs (d : defobj) : bool := hasFlag (dCommit d) CWhitespace.
Definition aliased (d : defobj) : defobj := setCommitType (N.lor (dCommit d) CAlias) d.
Definition rw (d : defobj) : list defobj :=
  match d with
  | mkDef name _ ct (KSeq _ items _ _ _ _ _ _) => if hasFlag ct CNoWhitespace then [d] else applyWhitespaceToSeq name ct items
  | _ => [d]
  end.
(** objects that stay registered *)
Definition keeps (d : defobj) : bool :=
  match dKind d with KSeq _ _ _ _ _ _ _ _ => hasFlag (dCommit d) CNoWhitespace | _ => true end.
Definition wsrooted (d : defobj) : defobj :=
  setCommitType (N.lor (N.ldiff (dCommit d) CRoot) CAlias) (setName (patchName [dName d; "wsroot"%string]) d).
Definition rewritten (l : list defobj) (rt : defobj) : list defobj :=
  filter (fun o => negb (rootFlag o)) (flat_map rw (filter (fun d => negb (isWs d)) l)) ++
  map aliased (filter isWs l) ++
  [newChoice whitespaceName CAlias (map dName (filter isWs l)); wsrooted rt;
   newSequence (dName rt) CRoot [whitespaceItem; mkItem (patchName [dName rt; "wsroot"%string]) 1 1; whitespaceItem]].

Lemma splitWs_spec h : forall D O h' ws rest, objsAt h D O -> NoDup D -> splitWhitespaceDefs h D = (h', ws, rest) ->
  objsAt h' ws (map aliased (filter isWs O)) /\ objsAt h' rest (filter (fun d => negb (isWs d)) O) /\
  List.length h' = List.length h /\ (forall a, ~ In a ws -> nth_error h' a = nth_error h a) /\
  NoDup (rest ++ ws) /\ (forall a, In a (rest ++ ws) <-> In a D).
Proof.
  intros D O. revert h D. induction O as [|o O IH]; intros h D h' ws rest HO Hn H; inversion HO as [|a o' D0 O0 Ha HD]; subst.
  - inversion H; subst. repeat split; auto; constructor.
  - inversion Hn; subst. cbn [splitWhitespaceDefs] in H. unfold commitAt in H at 1. rewrite Ha in H. fold (isWs o) in H. simpl filter. destruct (isWs o); simpl.
    + set (h1 := updNth a _ h) in *. destruct (splitWhitespaceDefs h1 D0) as [[h2 ws2] rest2] eqn:E. inversion H; subst.
      assert (HO1 : objsAt h1 D0 O). { apply (objsAt_ext h); auto. intros b Hb. unfold h1. rewrite nth_error_updNth. destruct (Nat.eqb_spec a b); subst; [contradiction|auto]. }
      destruct (IH h1 D0 _ _ _ HO1 H3 E) as (A1 & A2 & A3 & A4 & A5 & A6).
      assert (Hnw : ~ In a (rest ++ ws2)) by (rewrite A6; auto).
      split; [|split; [auto|split; [|split; [|split]]]].
      * constructor; [|auto]. rewrite A4 by (intros X; apply Hnw, in_or_app; auto). unfold h1. rewrite nth_error_updNth, Nat.eqb_refl, Ha. auto.
      * rewrite A3. unfold h1. apply updNth_length.
      * intros b Hb. rewrite A4 by (intros X; apply Hb; right; auto). unfold h1. rewrite nth_error_updNth. destruct (Nat.eqb_spec a b); [exfalso; apply Hb; left; auto|auto].
      * apply NoDup_Add with (a := a) (l := rest ++ ws2); [apply Add_app|]. split; auto.
      * intros b. rewrite in_app_iff. simpl. rewrite <- A6, in_app_iff. tauto.
    + destruct (splitWhitespaceDefs h D0) as [[h2 ws2] rest2] eqn:E. inversion H; subst.
      destruct (IH h D0 _ _ _ HD H3 E) as (A1 & A2 & A3 & A4 & A5 & A6).
      assert (Hnw : ~ In a (rest2 ++ ws)) by (rewrite A6; auto).
      split; [auto|]. split; [|split; [auto|split; [auto|split]]].
      * constructor; auto. rewrite A4; auto. intros X; apply Hnw, in_or_app; auto.
      * simpl. constructor; auto.
      * intros b. simpl. rewrite A6. tauto.
Qed.

Lemma applyDefs_spec : forall O h D h' D', objsAt h D O -> NoDup D -> applyWhitespaceToDefs h D = (h', D') ->
  objsAt h' D' (flat_map rw O) /\ (exists x, h' = h ++ x) /\ NoDup D' /\ (forall a, In a D' -> In a D \/ List.length h <= a) /\
  (forall a o, In a D -> nth_error h a = Some o -> keeps o = true -> In a D').
Proof.
  induction O as [|o O IH]; intros h D h' D' HO Hn H; inversion HO as [|a o' D0 O0 Ha HD]; subst.
  - inversion H; subst. split; [constructor|]. split; [exists []; rewrite app_nil_r; auto|]. split; [constructor|]. split; [intros a []|intros a o []].
  - inversion Hn; subst. cbn [applyWhitespaceToDefs] in H. rewrite Ha in H.
    assert (Hcommon : (let (h, rest) := applyWhitespaceToDefs h D0 in (h, a :: rest)) = (h', D') -> rw o = [o] ->
      objsAt h' D' (flat_map rw (o :: O)) /\ (exists x, h' = h ++ x) /\ NoDup D' /\ (forall b, In b D' -> In b (a :: D0) \/ List.length h <= b) /\
      (forall b o1, In b (a :: D0) -> nth_error h b = Some o1 -> keeps o1 = true -> In b D')).
    { intros H0 Hrw. destruct (applyWhitespaceToDefs h D0) as [h1 D1] eqn:E. inversion H0; subst.
      destruct (IH _ _ _ _ HD H3 E) as (A1 & (x & ->) & A3 & A4 & A5). simpl. rewrite Hrw. split; [|split; [eauto|split; [|split]]].
      - constructor; auto. rewrite nth_error_app1; auto. apply nth_error_Some. congruence.
      - constructor; auto. intros Hin. apply A4 in Hin. destruct Hin as [|Hin]; [contradiction|]. assert (a < List.length h) by (apply nth_error_Some; congruence). lia.
      - intros b [<-|Hb]; [left; left; auto|]. apply A4 in Hb. simpl. tauto.
      - intros b o1 [<-|Hb] Ho1 Hr1; [left; auto|]. right. eauto. }
    destruct o as [name id ct k]. destruct k as [cn ch rs|oi items rs a1 a2 a3 a4 a5|opts od g v i].
    + apply Hcommon; auto.
    + simpl rw. destruct (hasFlag ct CNoWhitespace) eqn:Ef.
      * apply Hcommon; auto. simpl. rewrite Ef. auto.
      * clear Hcommon. set (new := applyWhitespaceToSeq name ct items) in *.
        destruct (applyWhitespaceToDefs (h ++ new) D0) as [h1 D1] eqn:E. inversion H; subst.
        assert (HD' : objsAt (h ++ new) D0 O) by (apply objsAt_grow; auto).
        destruct (IH _ _ _ _ HD' H3 E) as (A1 & (x & ->) & A3 & A4 & A5). simpl. rewrite Ef. fold new.
        assert (A4' : forall b, In b D1 -> In b D0 \/ List.length h + List.length new <= b) by (intros b Hb; apply A4 in Hb; rewrite app_length in Hb; auto).
        split; [|split; [|split; [|split]]].
        -- apply objsAt_app; auto. apply objsAt_grow. apply objsAt_seq.
        -- exists (new ++ x). apply app_assoc_reverse.
        -- assert (Hgen : forall l, NoDup l -> (forall b, In b l -> ~ In b D1) -> NoDup (l ++ D1)).
           { induction l as [|y l IHl]; simpl; intros Hl Hd; auto. inversion Hl; subst. constructor.
             - rewrite in_app_iff. intros [|Hy]; [contradiction|]. apply (Hd y); auto.
             - apply IHl; auto. }
           apply Hgen; [apply seq_NoDup|]. intros b Hb Hb1. apply in_seq in Hb. apply A4' in Hb1. destruct Hb1 as [Hb1|]; [|lia].
           pose proof (objsAt_lt _ _ _ HD b Hb1). lia.
        -- intros b Hb. apply in_app_iff in Hb. destruct Hb as [Hb|Hb]; [apply in_seq in Hb; right; lia|]. apply A4' in Hb. simpl. destruct Hb; [auto|right; lia].
        -- intros b o1 [<-|Hb] Ho1 Hr1.
           ++ rewrite Ha in Ho1. inversion Ho1; subst. unfold keeps in Hr1. simpl in Hr1. congruence.
           ++ apply in_or_app. right. apply (A5 b o1 Hb); auto. rewrite nth_error_app1; auto; apply nth_error_Some; congruence.
    + apply Hcommon; auto.
Qed.

Lemma NoDup_app_both {A} (l l' : list A) : NoDup (l ++ l') -> NoDup l /\ NoDup l'.
Proof.
  induction l as [|x l IH]; simpl; intros H; [split; [constructor|auto]|]. inversion H; subst. destruct (IH H3). split; auto. constructor; auto.
  intros Hx. apply H2, in_or_app; auto.
Qed.
(** the whole rewriting *)
Lemma applyWhitespace_spec h h' D' root' rt : applyWhitespace h (seq 0 (List.length h)) = Ok (h', D', root') ->
  filter rootFlag (flat_map rw (filter (fun d => negb (isWs d)) h)) = [rt] ->
  objsAt h' D' (rewritten h rt) /\ NoDup D' /\ In root' D' /\
  nth_error h' root' = Some (newSequence (dName rt) CRoot [whitespaceItem; mkItem (patchName [dName rt; "wsroot"%string]) 1 1; whitespaceItem]) /\
  (forall a o, nth_error h a = Some o -> keeps o = true -> isWs o = false -> In a D' /\ (rootFlag o = false -> nth_error h' a = Some o)).
Proof.
  unfold applyWhitespace. intros H Hrt.
  destruct (splitWhitespaceDefs h (seq 0 (List.length h))) as [[h1 ws] rest] eqn:E1.
  destruct (splitWs_spec h _ h _ _ _ (objsAt_all h) (seq_NoDup _ _) E1) as (A1 & A2 & A3 & A4 & A5 & A6).
  set (ch := newChoice whitespaceName CAlias (map (nameAt h1) ws)) in *.
  destruct (applyWhitespaceToDefs (h1 ++ [ch]) rest) as [h2 D2] eqn:E2.
  assert (NDrest : NoDup rest) by (apply NoDup_app_both in A5; tauto).
  destruct (applyDefs_spec _ _ _ _ _ (objsAt_grow _ [ch] _ _ A2) NDrest E2) as (B1 & (x & B2) & B3 & B4 & B5).
  set (O4 := flat_map rw (filter (fun d => negb (isWs d)) h)) in *.
  unfold splitRoot in H.
  assert (Hfl : forall a o, nth_error h2 a = Some o -> hasFlag (commitAt h2 a) CRoot = rootFlag o) by (intros a o Ho; unfold commitAt; rewrite Ho; auto).
  pose proof (objsAt_filter h2 _ rootFlag _ _ B1 Hfl) as C1. rewrite Hrt in C1.
  assert (Hfl' : forall a o, nth_error h2 a = Some o -> negb (hasFlag (commitAt h2 a) CRoot) = negb (rootFlag o)) by (intros a o Ho; rewrite (Hfl a o Ho); auto).
  pose proof (objsAt_filter h2 _ (fun o => negb (rootFlag o)) _ _ B1 Hfl') as C2.
  set (Dr := filter (fun a => hasFlag (commitAt h2 a) CRoot) D2) in *. set (Dn := filter (fun a => negb (hasFlag (commitAt h2 a) CRoot)) D2) in *.
  inversion C1 as [|r o Dr0 O0 Hr Hnil HDr HO]; subst o O0. inversion Hnil; subst Dr0. assert (HDr' : [r] = Dr) by exact HDr. clear HDr. rename HDr' into HDr. change (filter (fun a => hasFlag (commitAt h2 a) CRoot) D2) with Dr in H. rewrite <- HDr in H. simpl in H.
  unfold applyWhitespaceToRoot in H. assert (Enm : nameAt h2 r = dName rt) by (unfold nameAt; rewrite Hr; auto). rewrite Enm in H.
  set (newR := newSequence (dName rt) CRoot _) in *.
  set (h3 := updNth r _ h2) in *. injection H as <- <- <-.
  assert (L2 : List.length h2 = List.length h + 1 + List.length x) by (subst h2; rewrite !app_length; simpl; lia).
  assert (L3 : List.length h3 = List.length h2) by apply updNth_length.
  assert (HrD2 : In r D2) by (assert (X : In r Dr) by (rewrite <- HDr; left; auto); unfold Dr in X; apply filter_In in X; tauto).
  assert (Hrl : r < List.length h2) by (apply nth_error_Some; congruence).
  assert (Hrn : ~ In r Dn).
  { unfold Dn. rewrite filter_In. intros [_ Hf]. rewrite (Hfl r rt Hr) in Hf. assert (X : rootFlag rt = true).
    { assert (Y : In rt (filter rootFlag O4)) by (rewrite Hrt; left; auto). apply filter_In in Y. tauto. } rewrite X in Hf. discriminate. }
  assert (Hwslt : forall a, In a (rest ++ ws) -> a < List.length h) by (intros a Ha; apply A6 in Ha; apply in_seq in Ha; lia).
  assert (Hdisj : forall a, In a D2 -> In a rest \/ List.length h + 1 <= a) by (intros a Ha; apply B4 in Ha; rewrite app_length, A3 in Ha; auto).
  assert (Hwsnot : forall a, In a ws -> ~ In a D2).
  { intros a Ha Hd. apply Hdisj in Hd. destruct Hd as [Hd|Hd].
    - revert A5 Hd Ha. clear. intros. induction rest as [|y l IH]; [destruct Hd|]. simpl in A5. inversion A5; subst. destruct Hd as [->|Hd]; auto. apply H1, in_or_app; auto.
    - pose proof (Hwslt a (in_or_app _ _ _ (or_intror Ha))). lia. }
  assert (Hchnot : ~ In (List.length h1) D2).
  { intros Hd. apply Hdisj in Hd. destruct Hd as [Hd|Hd]; [|lia]. pose proof (Hwslt _ (in_or_app _ _ _ (or_introl Hd))). lia. }
  assert (N3 : forall a, a <> r -> a < List.length h2 -> nth_error (h3 ++ [newR]) a = nth_error h2 a).
  { intros a Hne Hl. rewrite nth_error_app1 by lia. unfold h3. rewrite nth_error_updNth. destruct (Nat.eqb_spec r a); [congruence|auto]. }
  assert (Hws2 : objsAt h2 ws (map aliased (filter isWs h))) by (subst h2; apply objsAt_grow, objsAt_grow; auto).
  assert (Hch2 : nth_error h2 (List.length h1) = Some ch) by (subst h2; rewrite <- app_assoc, nth_error_app2, Nat.sub_diag; auto).
  assert (Ech : ch = newChoice whitespaceName CAlias (map dName (filter isWs h))).
  { unfold ch. f_equal. clear - A1. revert A1. generalize (filter isWs h). intros l. revert ws. induction l as [|o l IH]; intros ws H; inversion H; subst; simpl; auto.
    f_equal; auto. unfold nameAt. match goal with X : nth_error h1 _ = Some _ |- _ => rewrite X end. apply setCommit_kind. }
  split; [|split; [|split; [|split]]].
  - unfold rewritten. fold O4. apply objsAt_app; [|apply objsAt_app].
    + apply (objsAt_ext h2); [exact C2|]. intros a Ha. apply N3; [intros ->; apply Hrn; exact Ha|]. eapply objsAt_lt; [exact C2|exact Ha].
    + apply (objsAt_ext h2); auto. intros a Ha. apply N3; [intros ->; apply (Hwsnot r); auto|]. eapply objsAt_lt; eauto.
    + constructor; [|constructor; [|constructor; [|constructor]]].
      * rewrite N3; [congruence|intros E; apply Hchnot; rewrite E; auto|]. apply nth_error_Some. congruence.
      * rewrite nth_error_app1 by lia. unfold h3. rewrite nth_error_updNth, Nat.eqb_refl, Hr. reflexivity.
      * apply nth_app_last.
  - assert (NDn : NoDup Dn) by (apply NoDup_filter; auto). assert (NDw : NoDup ws) by (apply NoDup_app_both in A5; tauto).
    assert (Hg : forall l l', NoDup l -> NoDup l' -> (forall b : nat, In b l -> ~ In b l') -> NoDup (l ++ l')).
    { clear. induction l as [|y l IHl]; simpl; intros l' Hl Hl' Hd; auto. inversion Hl; subst. constructor.
      - rewrite in_app_iff. intros [|Hy]; [contradiction|]. apply (Hd y); auto.
      - apply IHl; auto. }
    assert (Hdn : forall a, In a Dn -> In a D2) by (intros a Ha; unfold Dn in Ha; apply filter_In in Ha; tauto).
    assert (Hr1 : r <> List.length h1) by congruence.
    apply Hg; [auto| |].
    + apply Hg; [auto| |].
      * constructor; [|constructor; [|constructor; [|constructor]]].
        -- intros [E|[E|[]]]; [congruence|lia].
        -- intros [E|[]]. lia.
        -- intros [].
      * intros b Hb [E|[E|[E|[]]]]; subst b; [|apply (Hwsnot r); auto|]; pose proof (Hwslt _ (in_or_app _ _ _ (or_intror Hb))); lia.
    + intros b Hb Hb'. apply in_app_or in Hb'. destruct Hb' as [Hb'|[E|[E|[E|[]]]]]; subst.
      * apply (Hwsnot b); auto.
      * apply Hchnot; auto.
      * apply Hrn; auto.
      * apply Hdn in Hb. pose proof (objsAt_lt _ _ _ B1 _ Hb). lia.
  - apply in_or_app. right. apply in_or_app. right. right. right. left. auto.
  - apply nth_app_last.
  - intros a o Ho Hk Hw.
    assert (Hal : a < List.length h) by (apply nth_error_Some; congruence).
    assert (Hnws : ~ In a ws).
    { intros Hin. destruct (objsAt_addr _ _ _ a A1 Hin) as (o1 & Ho1 & Hn1). apply in_map_iff in Ho1. destruct Ho1 as (o2 & <- & Hf). apply filter_In in Hf. destruct Hf as [_ Hf].
      revert Hin. clear - E1 Ho Hw. (* ws holds only flagged ones *)
      assert (Hg : forall D h h' ws rest, splitWhitespaceDefs h D = (h', ws, rest) -> nth_error h a = Some o -> ~ In a ws).
      { induction D as [|b D IH]; intros h0 h' ws0 rest0 H Ha; cbn [splitWhitespaceDefs] in H; [inversion H; subst; auto|].
        destruct (hasFlag (commitAt h0 b) CWhitespace) eqn:Ef.
        - destruct (splitWhitespaceDefs (updNth b _ h0) D) as [[h2 ws2] rest2] eqn:E. inversion H; subst.
          assert (b <> a). { intros ->. unfold commitAt in Ef. rewrite Ha in Ef. unfold isWs in Hw. congruence. }
          apply IH in E; [|rewrite nth_error_updNth; destruct (Nat.eqb_spec b a); [contradiction|auto]]. intros [|]; auto.
        - destruct (splitWhitespaceDefs h0 D) as [[h2 ws2] rest2] eqn:E. inversion H; subst. eapply IH; eauto. }
      apply (Hg _ _ _ _ _ E1 Ho). }
    assert (Hrest : In a rest) by (assert (X : In a (rest ++ ws)) by (apply A6, in_seq; lia); apply in_app_or in X; tauto).
    assert (Ho1 : nth_error (h1 ++ [ch]) a = Some o) by (rewrite nth_error_app1 by lia; rewrite A4; auto).
    pose proof (B5 a o Hrest Ho1 Hk) as Hd2.
    assert (Ho2 : nth_error h2 a = Some o) by (rewrite B2, nth_error_app1; auto; apply nth_error_Some; congruence).
    split.
    + destruct (rootFlag o) eqn:Ero.
      * assert (X : In a Dr) by (unfold Dr; apply filter_In; split; auto; rewrite (Hfl a o Ho2); auto). rewrite <- HDr in X. destruct X as [<-|[]].
        apply in_or_app. right. apply in_or_app. right. right. left. auto.
      * apply in_or_app. left. unfold Dn. apply filter_In. split; auto. rewrite (Hfl a o Ho2), Ero. auto.
    + intros Ero. rewrite N3; auto; [|lia]. intros ->. rewrite Hr in Ho2. inversion Ho2; subst.
      assert (X : In o (filter rootFlag O4)) by (rewrite Hrt; left; auto). apply filter_In in X. destruct X. congruence.
Qed.
