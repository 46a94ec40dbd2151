(** From definition calls to the language of Parse, without whitespace definitions. *)
From Verif Require Import Base Utf8 IdSet Results Parser Build Syntax ListFacts ResultsFacts ParseFacts TermFacts NoPanic Lang Sound RunFacts Restrict Grammar WsLang ApiSpec InitWalk InitRun InitOk SyntaxFacts InitCore InitSpec InitFuel Rep Live LangGen.

Lemma Forall2_len {A B} (Q : A -> B -> Prop) l l' : Forall2 Q l l' -> List.length l = List.length l'.
Proof. induction 1; simpl; auto. Qed.

(** sequences, choices and what they refer to *)
Definition usedIn (P : pheap) (a : addr) : Prop :=
  (exists o, nth_error P a = Some o /\ nonChar o) \/ exists p o, nth_error P p = Some o /\ nonChar o /\ In a (kidsOf o).

(** what the proofs about matching need to know of the parsers of an initialized syntax *)
Record apiOk (R : string -> option rule) (rootN : string) (P : pheap) (kws : list addr) (root : addr) : Prop := mkApiOk {
  ao_ids : uniqueIds P;
  ao_gens : gensOk P;
  ao_pwf : pwf P kws root;
  ao_nonChar : exists o, nth_error P root = Some o /\ nonChar o /\ nodeName o = rootN;
  ao_obj : forall a o K w, nth_error P a = Some o -> nonChar o -> (lang P K a w <-> gen R K (nodeName o) w);
  ao_kids : (forall a n i c items rs gs ac x, nth_error P a = Some (PSeq n i c items rs gs ac) -> In x items ->
               exists o, nth_error P x = Some o /\ forall K w, lang P K x w <-> gen R K (nodeName o) w) /\
            (forall a n i c options gs x, nth_error P a = Some (PChoice n i c options gs) -> In x options ->
               exists o, nth_error P x = Some o /\ forall K w, lang P K x w <-> gen R K (nodeName o) w);
  ao_visible : forall o, nth_error P root = Some o -> hasFlag (commitTypeOf o) CAlias = false;
  ao_rule : forall a o, nth_error P a = Some o -> nonChar o -> ruleOk R P a /\ forall x, In x (kidsOf o) -> ruleOk R P x;
  ao_ident : exists (byName : string -> option addr) (byId : nat -> option addr), forall a o, usedIn P a -> nth_error P a = Some o ->
    byName (nodeName o) = Some a /\ byId (nodeID o) = Some a }.

Section API.
Variables (reg : registry) (n : nat) (kws : list addr) (root : addr) (h0 h' : dheap).
Let m := gDefinition reg.
Hypothesis Hun : forall a d, nth_error h0 a = Some d -> unwalkedK (dKind d).
Hypothesis Hreg : regInv h0 reg.
Hypothesis Hcore : initCore m n (kws ++ [root]) h0 = Ok (h', None).
Hypothesis Hargs : forall a, In a (kws ++ [root]) -> In a (gDefinitions reg).
Hypothesis Hshape : forall a d, nth_error h0 a = Some d -> inited h' a -> rangeShape d.
Hypothesis Hkws : forall a, In a kws -> exists d, nth_error h0 a = Some d /\ hasFlag (dCommit d) CNoKeyword = false.
Hypothesis Hrootc : isCharAt h0 root = false.
Hypothesis Hroota : forall d, nth_error h0 root = Some d -> hasFlag (dCommit d) CAlias = false.
Let P := map toParser h'.
Let PL := restrict P (liveIn h').

Lemma api_final : (forall b, finalAt m h0 h' b) /\ (forall a, In a (kws ++ [root]) -> inited h' a) /\ gInv h'.
Proof. exact (live_final reg n kws root h0 h' Hun Hcore). Qed.

Lemma registered_lookup a d : In a (gDefinitions reg) -> nth_error h0 a = Some d -> lookup m (dName d) = Some a.
Proof.
  intros H Hd. apply In_nth_error in H. destruct H as [i Hi]. destruct (ri_defs _ _ Hreg i a Hi) as (d1 & Hd1 & _ & El). unfold m. congruence.
Qed.
Lemma api_name a d0 d' : nth_error h0 a = Some d0 -> nth_error h' a = Some d' -> nodeName (toParser d') = dName d0.
Proof.
  intros H0 H1. destruct api_final as (F & _). pose proof (F a) as Fa. unfold finalAt in Fa. rewrite H0 in Fa.
  destruct Fa as (d'' & E & Fa). rewrite H1 in E. inversion E; subst d''.
  destruct (dKind d0).
  - rewrite Fa. auto.
  - destruct Fa as (gs & [(_ & Fa)|(_ & _ & _ & Fa)]); rewrite Fa; auto.
  - destruct Fa as (gs & [(_ & Fa)|(_ & _ & _ & Fa)]); rewrite Fa; auto.
Qed.
Lemma api_id a d0 d' : nth_error h0 a = Some d0 -> nth_error h' a = Some d' -> nodeID (toParser d') = dId d0.
Proof.
  intros H0 H1. destruct api_final as (F & _). pose proof (F a) as Fa. unfold finalAt in Fa. rewrite H0 in Fa.
  destruct Fa as (d'' & E & Fa). rewrite H1 in E. inversion E; subst d''.
  destruct (dKind d0).
  - rewrite Fa. auto.
  - destruct Fa as (gs & [(_ & Fa)|(_ & _ & _ & Fa)]); rewrite Fa; auto.
  - destruct Fa as (gs & [(_ & Fa)|(_ & _ & _ & Fa)]); rewrite Fa; auto.
Qed.
Lemma api_ident a d0 o : In a (gDefinitions reg) -> nth_error h0 a = Some d0 -> inited h' a -> nth_error PL a = Some o ->
  lookup m (nodeName o) = Some a /\ nth_error (gDefinitions reg) (nodeID o - 1) = Some a.
Proof.
  intros Hr Hd (d' & Hd' & Hi) Ho. assert (Eo : o = toParser d').
  { unfold PL in Ho. rewrite restrict_live in Ho by (apply liveIn_inited; exists d'; auto). unfold P in Ho. rewrite nth_error_map', Hd' in Ho. inversion Ho; auto. }
  subst o. rewrite (api_name a d0 d'), (api_id a d0 d') by auto.
  apply In_nth_error in Hr. destruct Hr as [i Hr]. destruct (ri_defs _ _ Hreg i a Hr) as (d1 & Hd1 & Ei & El).
  rewrite Hd in Hd1. inversion Hd1; subst d1. split; auto. rewrite Ei. simpl. rewrite Nat.sub_0_r. auto.
Qed.
Lemma api_kid a nm K w : lookup m nm = Some a -> inited h' a ->
  exists o, nth_error PL a = Some o /\ nodeName o = nm /\ (lang PL K a w <-> gen (heapRule m h0) K nm w).
Proof.
  intros Hl Hi. pose proof Hi as (d' & Hd' & Hin). exists (toParser d').
  assert (E : nth_error PL a = Some (toParser d')).
  { unfold PL. rewrite restrict_live by (apply liveIn_inited; auto). unfold P. rewrite nth_error_map', Hd'. auto. }
  split; auto. destruct (ri_map _ _ Hreg nm a Hl) as (_ & d0 & Hd0 & En). split.
  - rewrite (api_name a d0 d'); auto.
  - apply (live_lang reg n kws root h0 h' Hun Hcore Hshape K nm a w); auto.
Qed.

Lemma api_rule a nm : lookup m nm = Some a -> inited h' a -> ruleOk (heapRule m h0) PL a.
Proof.
  intros Hl Hi. destruct api_final as (F & _).
  assert (Hnames : forall x k, lookup m k = Some x -> inited h' x -> hasName PL x k).
  { intros x k Hk Hx. destruct (api_kid x k [] [] Hk Hx) as (o & Ho & En & _). exists o. auto. }
  assert (Hlist : forall l, (forall r, In r l -> lookup m r <> None) -> (forall x, In x (lookups m l) -> inited h' x) -> Forall2 (hasName PL) (lookups m l) l).
  { induction l as [|k l IH]; intros H1 H2; [constructor|]. destruct (lookup m k) as [x|] eqn:Ek; [|exfalso; apply (H1 k); [left; auto|auto]].
    rewrite (lookups_cons reg) with (1 := Ek) in *. constructor; [apply Hnames; auto; apply H2; left; auto|]. apply IH; [intros; apply H1; right; auto|intros; apply H2; right; auto]. }
  destruct (PL_shape reg n kws root h0 h' Hun Hcore Hshape a nm Hl Hi) as (d0 & Hd0 & HR & Hk). fold m in HR, Hk. fold P in Hk. fold PL in Hk.
  destruct (api_kid a nm [] [] Hl Hi) as (o & Ho & En & _).
  unfold ruleOk. rewrite Ho. unfold objRule in HR. destruct (dKind d0) as [cn ch rs|oi its rs i1 i2 i3 i4 i5|opts od g v i] eqn:Ek.
  - destruct Hk as (n1 & id1 & E). rewrite Ho in E. inversion E; subst o. simpl in En. subst n1. auto.
  - destruct Hk as (n1 & id1 & items & gs & ac & rest & E & E1 & E2 & E3). rewrite Ho in E. inversion E; subst o. simpl in En. subst n1.
    exists (dCommit d0), its, rest. split; auto. split; auto. subst items. specialize (Hlist _ E2 E3). split; [|split].
    + clear - Hlist. set (ks := lookups m (map siName its)) in *. clearbody ks. revert ks Hlist. induction its; simpl; intros ks H; inversion H; subst; constructor; auto.
    + rewrite map_map. auto.
    + assert (HoP : nth_error P a = Some (PSeq nm id1 (dCommit d0) (lookups m (map siName its)) (map itemRange (map normalizeItemRange its) ++ rest) gs ac)).
      { unfold PL in Ho. rewrite restrict_live in Ho; auto. apply liveIn_inited; auto. }
      destruct (final_seq _ _ _ F _ _ _ _ _ _ _ _ HoP) as (d1 & oi1 & its1 & rs1 & j1 & j2 & j3 & j4 & j5 & _ & _ & _ & _ & _ & Hor).
      destruct Hor as [(_ & _ & _ & Hni)|(_ & _ & Eac & _)]; [contradiction|]. rewrite Eac.
      assert (Hch : forall x, In x (lookups m (map siName its)) -> isCharAt h0 x = charAt PL x).
      { intros x Hx. pose proof (E3 x Hx) as Hxi. apply lookups_In in Hx. destruct Hx as (k & _ & Hk1).
        destruct (PL_shape reg n kws root h0 h' Hun Hcore Hshape x k Hk1 Hxi) as (dx & Hdx & _ & Hkx). rewrite isCharAt_tag, Hdx. unfold charAt.
        destruct (dKind dx); simpl.
        - destruct Hkx as (? & ? & Ex). fold P in Ex. fold PL in Ex. rewrite Ex. auto.
        - destruct Hkx as (? & ? & ? & ? & ? & ? & Ex & _). fold P in Ex. fold PL in Ex. rewrite Ex. auto.
        - destruct Hkx as (? & ? & ? & ? & Ex & _). fold P in Ex. fold PL in Ex. rewrite Ex. auto. }
      clear - Hch. induction (lookups m (map siName its)) as [|x l IH]; simpl; auto. rewrite Hch by (left; auto). rewrite IH; auto. intros; apply Hch; right; auto.
  - destruct Hk as (n1 & id1 & os1 & gs & E & E1 & E2 & E3). rewrite Ho in E. inversion E; subst o. simpl in En. subst n1.
    exists (dCommit d0), opts. split; auto. split; auto. subst os1. apply Hlist; auto.
Qed.

Lemma root_reg : exists d, nth_error h0 root = Some d /\ lookup m (dName d) = Some root.
Proof.
  assert (In root (gDefinitions reg)) by (apply Hargs, in_or_app; right; left; auto).
  apply In_nth_error in H. destruct H as [i Hi]. destruct (ri_defs _ _ Hreg i root Hi) as (d1 & Hd1 & _ & El). eauto.
Qed.

Theorem api_ok : apiOk (heapRule m h0) (nameAt h0 root) PL kws root.
Proof.
  destruct api_final as (F & A & G). pose proof (live_map reg h0 Hreg) as Hmap.
  assert (Cl : closedLive P (liveIn h') kws) by (apply (live_closed reg n kws root h0 h' Hun Hcore)).
  assert (Wf : wfHeap P kws).
  { apply (final_wf m h0 h' F Hmap). intros k Hk. destruct (Hkws k Hk) as (d & Hd & _). apply nth_error_Some. congruence. }
  assert (Hlp : List.length PL = List.length P) by apply restrict_len.
  constructor.
  - apply (live_ids reg n kws root h0 h' Hun Hreg Hcore Hargs).
  - apply (live_gens reg n kws root h0 h' Hun Hreg Hcore Hargs).
  - constructor.
    + intros p name id commit items ranges gs H x Hx. apply restrict_seq in H. destruct H as [H Hl].
      pose proof (final_allChars m h0 h' F p name id commit items ranges gs H x Hx) as Hc.
      destruct Cl as (C1 & _). unfold PL; rewrite restrict_live; auto. eapply C1; eauto.
    + intros kw name id commit items ranges gs Hin H. apply restrict_seq in H. destruct H as [H Hl].
      eapply (final_kwOk m h0 h' F kws Hkws); eauto.
    + destruct Wf as (W1 & W2 & W3). split; [|split].
      * intros a name id commit items ranges gs ac H. apply restrict_seq in H. destruct H as [H Hl]. rewrite Hlp. eapply W1; eauto.
      * intros a name id commit options gs H. apply restrict_choice in H. destruct H as [H Hl]. rewrite Hlp. eapply W2; eauto.
      * intros k Hk. rewrite Hlp. auto.
    + rewrite Hlp. destruct root_reg as (d & Hd & _). unfold P. rewrite (P_len m h0 h' F). apply nth_error_Some. congruence.
  - assert (Hi : inited h' root) by (apply A, in_or_app; right; left; auto). destruct root_reg as (d & Hd & Hl).
    destruct (api_kid root (dName d) [] [] Hl Hi) as (o & Ho & Hn & _). exists o. split; auto. split.
    + assert (E : nth_error P root = Some o) by (unfold PL in Ho; rewrite restrict_live in Ho; auto; apply liveIn_inited; auto).
      destruct (P_nth m h0 h' F root o E) as (d0 & d' & Hd0 & Hd' & Et). rewrite Hd in Hd0. inversion Hd0; subst d0.
      rewrite isCharAt_tag, Hd in Hrootc. pose proof (F root) as Fa. unfold finalAt in Fa. rewrite Hd in Fa.
      destruct Fa as (d'' & E1 & Fa). rewrite Hd' in E1. inversion E1; subst d''. rewrite Et in Fa.
      destruct (dKind d); simpl in *; try discriminate.
      * destruct Fa as (gs & [(_ & Fa)|(_ & _ & _ & Fa)]); rewrite Fa; exact I.
      * destruct Fa as (gs & [(_ & Fa)|(_ & _ & _ & Fa)]); rewrite Fa; exact I.
    + unfold nameAt. rewrite Hd. auto.
  - intros a o K w Ho No. pose proof Ho as Ho'. apply (live_reg reg n kws root h0 h' Hun Hreg Hcore Hargs) in Ho'; auto.
    destruct Ho' as (_ & Hi & Hr & d0 & d' & Hd0 & Hd' & Et & _).
    pose proof (registered_lookup a d0 Hr Hd0) as Hl. destruct (api_kid a (dName d0) K w Hl Hi) as (o1 & E1 & En & Hw). congruence.
  - split.
    + intros a name i c items rs gs ac x H Hx. apply restrict_seq in H. destruct H as [H Hl].
      destruct (final_seq _ _ _ F _ _ _ _ _ _ _ _ H) as (d0 & oi & its & rs0 & i1 & i2 & i3 & i4 & i5 & _ & _ & _ & _ & _ & Hor).
      destruct Hor as [(E & _)|(E & _ & _ & _ & _ & Ki)]; subst; [destruct Hx|].
      pose proof (Ki x Hx) as Hi. apply lookups_In in Hx. destruct Hx as (nm & _ & Hn).
      destruct (api_kid x nm [] [] Hn Hi) as (o & Ho & En & _). exists o. split; auto. intros K w.
      destruct (api_kid x nm K w Hn Hi) as (o' & Ho' & En' & Hw). congruence.
    + intros a name i c options gs x H Hx. apply restrict_choice in H. destruct H as [H Hl].
      destruct (final_choice _ _ _ F _ _ _ _ _ _ H) as (d0 & opts & od & g & v & i1 & _ & _ & _ & _ & _ & Hor).
      destruct Hor as [(E & _)|(E & _ & _ & Ki)]; subst; [destruct Hx|].
      pose proof (Ki x Hx) as Hi. apply lookups_In in Hx. destruct Hx as (nm & _ & Hn).
      destruct (api_kid x nm [] [] Hn Hi) as (o & Ho & En & _). exists o. split; auto. intros K w.
      destruct (api_kid x nm K w Hn Hi) as (o' & Ho' & En' & Hw). congruence.
  - intros o Ho. destruct root_reg as (d & Hd & _).
    assert (Hi : inited h' root) by (apply A, in_or_app; right; left; auto).
    assert (E : nth_error P root = Some o) by (unfold PL in Ho; rewrite restrict_live in Ho; auto; apply liveIn_inited; auto).
    destruct (P_nth m h0 h' F root o E) as (d0 & d' & Hd0 & Hd' & Et). rewrite Hd in Hd0. inversion Hd0; subst d0.
    rewrite isCharAt_tag, Hd in Hrootc. pose proof (F root) as Fa. unfold finalAt in Fa. rewrite Hd in Fa.
    destruct Fa as (d'' & E1 & Fa). rewrite Hd' in E1. inversion E1; subst d''. rewrite Et in Fa. pose proof (Hroota d Hd) as Hra.
    destruct (dKind d); simpl in *; try discriminate.
    + destruct Fa as (gs & [(_ & Fa)|(_ & _ & _ & Fa)]); rewrite Fa; exact Hra.
    + destruct Fa as (gs & [(_ & Fa)|(_ & _ & _ & Fa)]); rewrite Fa; exact Hra.
  - intros a o Ho No. pose proof Ho as Ho'. apply (live_reg reg n kws root h0 h' Hun Hreg Hcore Hargs) in Ho'; auto.
    destruct Ho' as (HP & Hi & Hr & d0 & d' & Hd0 & Hd' & Et & _).
    split; [apply (api_rule a (dName d0)); auto; apply registered_lookup; auto|].
    intros x Hx. destruct o as [|name i c items rs gs ac|name i c options gs]; [destruct Hx| |]; simpl in Hx.
    + destruct (final_seq _ _ _ F _ _ _ _ _ _ _ _ HP) as (d1 & oi & its & rs0 & i1 & i2 & i3 & i4 & i5 & _ & _ & _ & _ & _ & Hor).
      destruct Hor as [(E & _)|(E & _ & _ & _ & _ & Ki)]; subst; [destruct Hx|].
      pose proof (Ki x Hx) as Hxi. apply lookups_In in Hx. destruct Hx as (nm & _ & Hn). apply (api_rule x nm); auto.
    + destruct (final_choice _ _ _ F _ _ _ _ _ _ HP) as (d1 & opts & od & g & v & i1 & _ & _ & _ & _ & _ & Hor).
      destruct Hor as [(E & _)|(E & _ & _ & Ki)]; subst; [destruct Hx|].
      pose proof (Ki x Hx) as Hxi. apply lookups_In in Hx. destruct Hx as (nm & _ & Hn). apply (api_rule x nm); auto.
  - exists (lookup m), (fun i => nth_error (gDefinitions reg) (i - 1)). intros a o Hu Ho. destruct Hu as [(o1 & Ho1 & No)|(p & op & Hop & No & Hx)].
    + apply (live_reg reg n kws root h0 h' Hun Hreg Hcore Hargs) in Ho1; auto.
      destruct Ho1 as (_ & Hi & Hr & d0 & d' & Hd0 & _). apply (api_ident a d0); auto.
    + assert (Hk : exists nm, lookup m nm = Some a /\ inited h' a).
      { apply (live_reg reg n kws root h0 h' Hun Hreg Hcore Hargs) in Hop; auto. destruct Hop as (HP & _).
        destruct op as [|name i c items rs gs ac|name i c options gs]; [destruct Hx| |]; simpl in Hx.
        - destruct (final_seq _ _ _ F _ _ _ _ _ _ _ _ HP) as (d1 & oi & its & rs0 & i1 & i2 & i3 & i4 & i5 & _ & _ & _ & _ & _ & Hor).
          destruct Hor as [(E & _)|(E & _ & _ & _ & _ & Ki)]; subst; [destruct Hx|].
          pose proof (Ki a Hx) as Hxi. apply lookups_In in Hx. destruct Hx as (nm & _ & Hn). eauto.
        - destruct (final_choice _ _ _ F _ _ _ _ _ _ HP) as (d1 & opts & od & g & v & i1 & _ & _ & _ & _ & _ & Hor).
          destruct Hor as [(E & _)|(E & _ & _ & Ki)]; subst; [destruct Hx|].
          pose proof (Ki a Hx) as Hxi. apply lookups_In in Hx. destruct Hx as (nm & _ & Hn). eauto. }
      destruct Hk as (nm & Hl & Hi). destruct (ri_map _ _ Hreg nm a Hl) as (Hr & d0 & Hd0 & _). apply (api_ident a d0); auto.
Qed.

(** literal keywords *)
Lemma api_literal kw d name chars : In kw kws -> nth_error h0 kw = Some d ->
  (exists oi rs a1 a2 a3 a4 a5, dKind d = KSeq oi (map normalizeItemRange (namesToSequenceItems (map (childName name) (seq 0 (List.length chars))))) rs a1 a2 a3 a4 a5) ->
  (forall i c, nth_error chars i = Some c -> exists x dx, lookup m (childName name i) = Some x /\ nth_error h0 x = Some dx /\ dKind dx = KChar false [c] []) ->
  literal PL kw chars.
Proof.
  intros Hin Hd (oi & rs & a1 & a2 & a3 & a4 & a5 & Ek) Hch. destruct api_final as (F & A & G).
  assert (Hi : inited h' kw) by (apply A, in_or_app; auto).
  pose proof Hi as (d' & Hd' & Hin'). pose proof (F kw) as Fa. unfold finalAt in Fa. rewrite Hd, Ek in Fa. destruct Fa as (d'' & E & gs & Fa).
  rewrite Hd' in E. inversion E; subst d''. destruct Fa as [(X & _)|(_ & Df & Ki & Fa)]; [congruence|].
  assert (HP : nth_error PL kw = Some (toParser d')).
  { unfold PL. rewrite restrict_live by (apply liveIn_inited; auto). unfold P. rewrite nth_error_map', Hd'. auto. }
  rewrite Fa in HP.
  set (names := map siName _) in *.
  assert (En : names = map (childName name) (seq 0 (List.length chars))).
  { unfold names. rewrite refs_norm. unfold namesToSequenceItems. rewrite map_map. simpl. apply map_id. }
  set (kids := lookups m names) in *.
  assert (Hkids : Forall2 (fun a r => exists n0 i, nth_error PL a = Some (PChar n0 i false [r] [])) kids chars /\ Forall (fun a => isCharAt h0 a = true) kids).
  { assert (Hgen : forall cs i, (forall j c, nth_error cs j = Some c -> nth_error chars (i + j) = Some c) ->
       incl (lookups m (map (childName name) (seq i (List.length cs)))) kids ->
       Forall2 (fun a r => exists n0 i, nth_error PL a = Some (PChar n0 i false [r] [])) (lookups m (map (childName name) (seq i (List.length cs)))) cs /\
       Forall (fun a => isCharAt h0 a = true) (lookups m (map (childName name) (seq i (List.length cs))))).
    { induction cs as [|c cs IH]; intros i Hc Hinc; [split; constructor|].
      pose proof (Hc 0 c eq_refl) as H0. rewrite Nat.add_0_r in H0. destruct (Hch i c H0) as (x & dx & Hx & Hdx & Ekx).
      change (map (childName name) (seq i (List.length (c :: cs)))) with (childName name i :: map (childName name) (seq (S i) (List.length cs))) in *.
      rewrite (lookups_cons reg) with (1 := Hx) in *. destruct (IH (S i)) as [H1 H2].
      - intros j c0 Hj. specialize (Hc (S j) c0 Hj). rewrite <- Nat.add_succ_comm in Hc. auto.
      - intros y Hy. apply Hinc. right; auto.
      - assert (Hx' : inited h' x) by (apply Ki, Hinc; left; auto).
        split; constructor; auto.
        + pose proof (F x) as Fx. unfold finalAt in Fx. rewrite Hdx, Ekx in Fx. destruct Fx as (dx' & Hdx' & Ex).
          exists (dName dx), (dId dx). unfold PL. rewrite restrict_live by (apply liveIn_inited; auto). unfold P. rewrite nth_error_map', Hdx'. simpl. congruence.
        + rewrite isCharAt_tag, Hdx, Ekx. auto. }
    specialize (Hgen chars 0). rewrite <- En in Hgen. apply Hgen; [auto|intros y Hy; auto]. }
  destruct Hkids as [K1 K2].
  assert (Eac : forallb (isCharAt h0) kids = true) by (apply forallb_forall; rewrite Forall_forall in K2; auto).
  rewrite Eac in HP.
  eexists _, _, _, _, _, _. split; [exact HP|]. split.
  - destruct (Hkws kw Hin) as (d1 & Hd1 & Hf). congruence.
  - split; [exact K1|]. intros i Hlt. pose proof (Forall2_len _ _ _ K1) as Hl. assert (Hlt2 : i < List.length chars) by (rewrite <- Hl; exact Hlt). clear Hlt.
    pose proof (Hshape kw d Hd Hi) as Hs. unfold rangeShape in Hs. rewrite Ek in Hs.
    assert (Hnorm : forall i, i < List.length chars -> forall rest, nth_error (map itemRange (map normalizeItemRange (map normalizeItemRange (namesToSequenceItems (map (childName name) (seq 0 (List.length chars)))))) ++ rest) i = Some (1, 1)%Z).
    { intros j Hj rest. unfold namesToSequenceItems. rewrite !map_map. simpl.
      rewrite nth_error_app1 by (rewrite map_length, seq_length; auto).
      rewrite nth_error_map'. destruct (nth_error (seq 0 (List.length chars)) j) eqn:Ej; auto. exfalso. apply nth_error_None in Ej. rewrite seq_length in Ej. lia. }
    destruct Hs as [Hs|Hs]; rewrite Hs.
    + simpl app. rewrite <- (app_nil_r (map itemRange _)). apply Hnorm; auto.
    + apply Hnorm; auto.
Qed.
End API.

(** ** definition calls *)
Lemma preinitAll_map h : preinitAll h (seq 0 (List.length h)) = map preinit h.
Proof.
  unfold preinitAll. assert (Hg : forall l pre, fold_left (fun h a => updNth a preinit h) (seq (List.length pre) (List.length l)) (pre ++ l) = pre ++ map preinit l).
  { induction l as [|d l IH]; intros pre; simpl; auto.
    assert (E : updNth (List.length pre) preinit (pre ++ d :: l) = (pre ++ [preinit d]) ++ l).
    { clear. induction pre; simpl; auto. f_equal. auto. }
    rewrite E. replace (S (List.length pre)) with (List.length (pre ++ [preinit d])) by (rewrite app_length; simpl; lia).
    rewrite IH. rewrite <- app_assoc. auto. }
  apply (Hg h []).
Qed.

Definition objPair (o : defobj) : string * rule := (dName o, objRule o).

Lemma sameFlags_bits c c' : (forall k, In k [1; 2; 3; 5]%N -> N.testbit c k = N.testbit c' k) -> sameFlags c c'.
Proof.
  intros H. assert (H' : forall k, In k [1; 2; 3; 5]%N -> hasFlag c (2 ^ k)%N = hasFlag c' (2 ^ k)%N).
  { intros k Hk. rewrite !hasFlag_bit. auto. }
  split; [apply (H' 5%N); simpl; auto|]. split; [|apply (H' 1%N); simpl; auto]. unfold compact. f_equal; [apply (H' 3%N)|apply (H' 2%N)]; simpl; auto.
Qed.
Lemma sameBut_flags c c' : sameBut [7%N] c c' -> sameFlags c' c.
Proof.
  intros H. apply sameFlags_bits. intros k Hk. apply H. simpl in *. intros [<-|[]]. destruct Hk as [E|[E|[E|[E|[]]]]]; discriminate.
Qed.
Lemma heapRule_objs objs s : rep objs s -> forall nm,
  sameOpt (heapRule (gDefinition (regOf s)) (map preinit (sHeap s)) nm) (ruleIn (map objPair objs) nm).
Proof.
  intros [R1 R2 R3 R4 R5 R6 R7 R8 R9 R10 R11] nm. unfold heapRule.
  assert (Hlk : forall a o, nth_error objs a = Some o -> lookup (gDefinition (regOf s)) (dName o) = Some a).
  { intros a o Ho. destruct (R4 a o Ho) as (d & Hd & En & _).
    assert (Ha : nth_error (gDefinitions (regOf s)) a = Some a).
    { rewrite R6. rewrite nth_error_nth' with (d := 0) by (rewrite seq_length; apply nth_error_Some; congruence). rewrite seq_nth by (apply nth_error_Some; congruence). auto. }
    destruct (ri_defs _ _ R7 a a Ha) as (d1 & Hd1 & _ & El). rewrite Hd in Hd1. inversion Hd1; subst d1. rewrite <- En. exact El. }
  assert (Hin : forall l, (forall o, In o l -> In o objs) -> forall r, ruleIn (map objPair l) nm = Some r -> exists o, In o l /\ dName o = nm /\ objRule o = r).
  { induction l as [|o l IH]; intros Hl r; simpl; [discriminate|]. destruct (String.eqb_spec (dName o) nm).
    - intros H; inversion H; subst. eauto.
    - intros H. apply IH in H; [|intros; apply Hl; right; auto]. destruct H as (o' & H1 & H2). eauto. }
  assert (Hnone : forall l, ruleIn (map objPair l) nm = None -> forall o, In o l -> dName o <> nm).
  { induction l as [|o l IH]; intros H o' Ho; [destruct Ho|]. simpl in H. destruct (String.eqb_spec (dName o) nm); [discriminate|].
    destruct Ho as [<-|Ho]; auto. }
  destruct (ruleIn (map objPair objs) nm) as [r|] eqn:Er.
  - apply Hin in Er; auto. destruct Er as (o & Ho & En & Eo). apply In_nth_error in Ho. destruct Ho as [a Ha].
    pose proof (Hlk a o Ha) as Hl. rewrite En in Hl. rewrite Hl. rewrite nth_error_map'.
    destruct (R4 a o Ha) as (d & Hd & N1 & N2 & N3 & N4 & N5). rewrite Hd. simpl. rewrite <- Eo. unfold objRule, preinit, initRanges.
    rewrite <- N2 in *. destruct (dKind d) as [cn ch rs|oi its rs i1 i2 i3 i4 i5|opts od g v i] eqn:Ek; simpl.
    + rewrite Ek. constructor.
    + constructor.
      * destruct (N5 eq_refl) as [Hs _]. apply sameBut_flags; auto.
      * clear. induction its as [|it its IH]; constructor; auto. split; [apply siName_norm|apply itemRange_norm2].
    + rewrite Ek. constructor. destruct (N5 eq_refl) as [Hs _]. apply sameBut_flags; auto.
  - destruct (lookup (gDefinition (regOf s)) nm) as [a|] eqn:El; [|exact I].
    destruct (ri_map _ _ R7 nm a El) as (_ & d & Hd & En). exfalso.
    destruct (nth_error objs a) as [o|] eqn:Eo.
    + destruct (R4 a o Eo) as (d1 & Hd1 & N1 & _). apply (Hnone objs Er o); [eapply nth_error_In; eauto|congruence].
    + apply nth_error_None in Eo. assert (a < List.length (sHeap s)) by (apply nth_error_Some; congruence). lia.
Qed.

Lemma flag_lor_other c k j : k <> j -> hasFlag (N.lor c (2 ^ k)%N) (2 ^ j)%N = hasFlag c (2 ^ j)%N.
Proof. intros H. rewrite !hasFlag_bit, N.lor_spec, N.pow2_bits_false by auto. apply orb_false_r. Qed.

(** the rules of the registered objects are the rules of the calls *)
Definition samePair (a b : string * rule) : Prop := fst a = fst b /\ sameRule (snd a) (snd b).
Lemma ruleIn_same l l' nm : Forall2 samePair l l' -> sameOpt (ruleIn l nm) (ruleIn l' nm).
Proof.
  induction 1 as [|[k r] [k' r'] l l' [H1 H2] H IH]; simpl; auto. simpl in *. subst. destruct (String.eqb k' nm); auto.
Qed.
Lemma sameRule_once ct ct' names : sameFlags ct ct' -> sameRule (RSeq ct (namesToSequenceItems names)) (RSeq ct' (map once names)).
Proof.
  intros H. constructor; auto. unfold namesToSequenceItems. induction names; constructor; auto. split; auto.
Qed.
Lemma callRules_same d : Forall2 samePair (map objPair (callObjs d)) (callRules d).
Proof.
  destruct d as [nm ct|nm ct cn ch rs|nm ct chars|nm ct items|nm ct opts]; simpl; unfold objPair; simpl; unfold objRule; simpl.
  - constructor; [split; simpl; auto; constructor|]. constructor; [split; simpl; auto|constructor].
    apply (sameRule_once _ _ [childName nm 0]); auto.
  - constructor; [split; simpl; auto; constructor|]. constructor; [split; simpl; auto|constructor].
    apply (sameRule_once _ _ [childName nm 0]); auto.
  - rewrite map_app. apply Forall2_app.
    + rewrite map_map. generalize 0. induction chars as [|c chars IH]; intros i; simpl; constructor; auto. split; simpl; auto. constructor.
    + simpl. constructor; auto. split; simpl; auto. rewrite <- (map_map (childName nm) once). apply sameRule_once. auto.
  - constructor; [split; simpl; auto|constructor]. constructor; auto. apply Forall2_refl, sameItem_refl.
  - constructor; [split; simpl; auto; constructor; auto|constructor].
Qed.
Lemma callsRules_same calls : Forall2 samePair (map objPair (flat_map callObjs calls)) (flat_map callRules calls).
Proof.
  induction calls as [|d calls IH]; simpl; [constructor|]. rewrite map_app. apply Forall2_app; auto. apply callRules_same.
Qed.
(** the userDefined flag does not matter for the rules *)
Lemma userDefined_flag ct k : k <> 8%N -> hasFlag (N.lor ct CUserDefined) (2 ^ k)%N = hasFlag ct (2 ^ k)%N.
Proof. intros H. apply (flag_lor_other ct 8 k). auto. Qed.
Lemma userDefined_rules calls : Forall2 samePair (flat_map callRules (map withUserDefined calls)) (flat_map callRules calls).
Proof.
  assert (Hf : forall ct, sameFlags (N.lor ct CUserDefined) ct).
  { intros ct. apply sameFlags_bits. intros k Hk. rewrite N.lor_spec. change CUserDefined with (2 ^ 8)%N. rewrite N.pow2_bits_false; [apply orb_false_r|].
    intros <-. destruct Hk as [E|[E|[E|[E|[]]]]]; discriminate. }
  assert (Hr : forall l, Forall2 samePair l l) by (induction l; constructor; auto; split; auto; apply sameRule_refl).
  assert (Hs : forall nm ct its, samePair (nm, RSeq (N.lor ct CUserDefined) its) (nm, RSeq ct its)).
  { intros. split; simpl; auto. constructor; auto. apply Forall2_refl, sameItem_refl. }
  induction calls as [|d calls IH]; simpl; [constructor|]. apply Forall2_app; auto.
  destruct d as [nm ct|nm ct cn ch rs|nm ct chars|nm ct items|nm ct opts]; simpl.
  - constructor; [split; auto; constructor|]. constructor; [apply Hs|constructor].
  - constructor; [split; auto; constructor|]. constructor; [apply Hs|constructor].
  - apply Forall2_app; [apply Hr|]. constructor; [|constructor]. split; simpl; auto. constructor; [|apply Forall2_refl, sameItem_refl].
    replace (N.lor (N.lor ct CUserDefined) CNoWhitespace) with (N.lor (N.lor ct CNoWhitespace) CUserDefined); [apply Hf|].
    rewrite <- !N.lor_assoc. f_equal.
  - constructor; [apply Hs|constructor].
  - constructor; [split; auto; constructor; auto|constructor].
Qed.
Lemma userDefined_grammar calls nm : sameOpt (grammarOf (map withUserDefined calls) nm) (grammarOf calls nm).
Proof. apply ruleIn_same, userDefined_rules. Qed.
Lemma userDefined_name d : callName (withUserDefined d) = callName d.
Proof. destruct d; auto. Qed.
Lemma userDefined_flags d k : k <> 8%N -> hasFlag (callFlags (withUserDefined d)) (2 ^ k)%N = hasFlag (callFlags d) (2 ^ k)%N.
Proof. intros H. destruct d; apply userDefined_flag; auto. Qed.
Lemma userDefined_root calls : rootName (map withUserDefined calls) = rootName calls.
Proof.
  unfold rootName. rewrite map_map. rewrite (map_ext (fun d => Some (callName (withUserDefined d))) (fun d => Some (callName d))) by (intros d; rewrite userDefined_name; auto).
  assert (Hf : find isRoot (map withUserDefined calls) = option_map withUserDefined (find isRoot calls)).
  { induction calls as [|d l IH]; simpl; auto. unfold isRoot at 1 3. change CRoot with (2 ^ 7)%N. rewrite userDefined_flags by discriminate.
    destruct (hasFlag _ _); auto. }
  rewrite Hf. destruct (find isRoot calls); simpl; auto. rewrite userDefined_name. auto.
Qed.
Lemma userDefined_kt calls : keywordTexts (map withUserDefined calls) = keywordTexts calls.
Proof.
  unfold keywordTexts. induction calls as [|d l IH]; simpl; auto. f_equal; auto. destruct d; simpl; auto.
  change CKeyword with (2 ^ 4)%N. rewrite userDefined_flag by discriminate. auto.
Qed.
Lemma userDefined_ranges calls : sensibleRanges calls -> sensibleRanges (map withUserDefined calls).
Proof.
  intros H n ct items it Hin Hit Hm. apply in_map_iff in Hin. destruct Hin as (d & E & Hd). destruct d; simpl in E; inversion E; subst. eapply H; eauto.
Qed.
Lemma userDefined_ws calls : noWhitespaceDefs calls -> noWhitespaceDefs (map withUserDefined calls).
Proof.
  intros H d Hd. apply in_map_iff in Hd. destruct Hd as (d0 & <- & Hd). change CWhitespace with (2 ^ 2)%N. rewrite userDefined_flags by discriminate. apply H; auto.
Qed.

(** the root *)
Lemma findIdx_shift l : forall i, findIdx i l = option_map (fun j => i + j) (findIdx 0 l).
Proof.
  induction l as [|o l IH]; intros i; simpl; auto. destruct (rootFlag o); [simpl; f_equal; lia|]. rewrite (IH (S i)), (IH 1).
  destruct (findIdx 0 l); simpl; auto.
Qed.
Lemma findIdx_app2 l l' : findIdx 0 (l ++ l') = match findIdx 0 l with Some i => Some i | None => option_map (fun j => List.length l + j) (findIdx 0 l') end.
Proof.
  induction l as [|o l IH]; simpl; [destruct (findIdx 0 l'); auto|]. destruct (rootFlag o); auto. rewrite !(findIdx_shift _ 1), IH.
  destruct (findIdx 0 l); simpl; auto. destruct (findIdx 0 l'); auto.
Qed.
Lemma callObjs_split d : exists chs o, callObjs d = chs ++ [o] /\ (forall c, In c chs -> isCharK (dKind c) = true /\ rootFlag c = false /\ hasFlag (dCommit c) CKeyword = false /\ hasFlag (dCommit c) CWhitespace = false) /\
  dName o = callName d /\ rootFlag o = isRoot d /\ isCharK (dKind o) = false /\ hasFlag (dCommit o) CWhitespace = hasFlag (callFlags d) CWhitespace /\
  hasFlag (dCommit o) CKeyword = hasFlag (callFlags d) CKeyword.
Proof.
  assert (F2 : forall ct, hasFlag (N.lor ct CNoWhitespace) CRoot = hasFlag ct CRoot) by (intros; apply (flag_lor_other ct 3 7); discriminate).
  assert (F4 : forall ct, hasFlag (N.lor ct CNoWhitespace) CWhitespace = hasFlag ct CWhitespace) by (intros; apply (flag_lor_other ct 3 2); discriminate).
  assert (F6 : forall ct, hasFlag (N.lor ct CNoWhitespace) CKeyword = hasFlag ct CKeyword) by (intros; apply (flag_lor_other ct 3 4); discriminate).
  unfold isRoot, rootFlag. destruct d as [nm ct|nm ct cn ch rs|nm ct chars|nm ct items|nm ct opts]; simpl.
  - eexists [_], _. split; [reflexivity|]. split; [intros c [<-|[]]; auto|]. simpl. auto.
  - eexists [_], _. split; [reflexivity|]. split; [intros c [<-|[]]; auto|]. simpl. auto.
  - eexists _, _. split; [reflexivity|]. split.
    + intros c Hc. apply in_map_iff in Hc. destruct Hc as (x & <- & _). auto.
    + simpl. rewrite ?F2, ?F4, ?F6. auto.
  - eexists [], _. split; [reflexivity|]. split; [intros c []|]. simpl. auto.
  - eexists [], _. split; [reflexivity|]. split; [intros c []|]. simpl. auto.
Qed.
Lemma findIdx_nil chs : (forall c, In c chs -> rootFlag c = false) -> findIdx 0 chs = None.
Proof. intros H. apply findIdx_none. induction chs; simpl; auto. rewrite H by (left; auto). apply IHchs. intros; apply H; right; auto. Qed.

Lemma last_app_one {A} (l : list A) x d : last (l ++ [x]) d = x.
Proof. induction l as [|y l IH]; simpl; auto. destruct (l ++ [x]) eqn:E; [destruct l; discriminate|]. auto. Qed.

Lemma root_name calls i : rootIdx (flat_map callObjs calls) = Some i ->
  exists o, nth_error (flat_map callObjs calls) i = Some o /\ rootName calls = Some (dName o) /\ isCharK (dKind o) = false.
Proof.
  set (objs := flat_map callObjs calls). unfold rootIdx, rootName.
  assert (Hf : match findIdx 0 objs with
    | Some i => exists o d, nth_error objs i = Some o /\ find isRoot calls = Some d /\ callName d = dName o /\ isCharK (dKind o) = false
    | None => find isRoot calls = None end).
  { unfold objs. induction calls as [|d calls IH]; simpl; auto. rewrite findIdx_app2.
    destruct (callObjs_split d) as (chs & o & Ec & Hc & En & Er & Ek & _). rewrite Ec in *.
    rewrite findIdx_app, (findIdx_nil chs) by (intros c Hcc; apply Hc; auto). rewrite Er. destruct (isRoot d).
    - simpl. exists o, d. rewrite nth_error_app1 by (rewrite app_length; simpl; lia). rewrite nth_app_last. auto.
    - destruct (findIdx 0 (flat_map callObjs calls)) as [j|]; simpl; auto.
      destruct IH as (o1 & d1 & H1 & H2 & H3 & H4). exists o1, d1. rewrite nth_error_app2 by lia. replace (_ + j - _) with j by lia. auto. }
  intros H. destruct (findIdx 0 objs) as [j|] eqn:Ef.
  - inversion H; subst j. destruct Hf as (o & d & H1 & H2 & H3 & H4). exists o. rewrite H2. split; auto. split; auto. congruence.
  - rewrite Hf. assert (Hi : i = List.length objs - 1 /\ objs <> []) by (destruct objs; [discriminate|split; congruence]).
    clear H. destruct Hi as [-> Hne]. unfold objs in *. clear objs Ef Hf.
    destruct calls as [|d0 calls0] using rev_ind; [simpl in Hne; congruence|]. clear IHcalls0.
    rewrite flat_map_app. simpl. rewrite app_nil_r. destruct (callObjs_split d0) as (chs & o & Ec & Hc & En & Er & Ek & _). rewrite Ec.
    exists o. rewrite app_assoc. rewrite app_length. simpl. rewrite Nat.add_sub. rewrite nth_app_last. split; auto. split; auto.
    rewrite map_app. simpl. rewrite last_app_one. congruence.
Qed.

Lemma apiOk_same R R' nm P kws root : (forall n, sameOpt (R n) (R' n)) -> apiOk R nm P kws root -> apiOk R' nm P kws root.
Proof.
  intros HR [A1 A2 A3 A4 A5 [A6 A7] A9 A8 A10]. constructor; auto.
  - intros a o K w Ho No. rewrite (A5 a o K w Ho No). apply gen_same; auto.
  - split.
    + intros. destruct (A6 a n i c items rs gs ac x H H0) as (o & Ho & Hw). exists o. split; auto. intros K w. rewrite Hw. apply gen_same; auto.
    + intros. destruct (A7 a n i c options gs x H H0) as (o & Ho & Hw). exists o. split; auto. intros K w. rewrite Hw. apply gen_same; auto.
  - intros a o Ho No. destruct (A8 a o Ho No) as [B1 B2]. split; [eapply ruleOk_same; eauto|]. intros x Hx. eapply ruleOk_same; eauto.
Qed.

Lemma kwIdx_In l : forall i a, In a (kwIdx i l) <-> exists j o, a = i + j /\ nth_error l j = Some o /\ hasFlag (dCommit o) CKeyword = true.
Proof.
  induction l as [|d l IH]; intros i a; simpl.
  - split; [intros []|]. intros (j & o & _ & H & _). destruct j; discriminate.
  - assert (Hs : (exists j o, a = S i + j /\ nth_error l j = Some o /\ hasFlag (dCommit o) CKeyword = true) <->
                 exists j o, a = i + S j /\ nth_error l j = Some o /\ hasFlag (dCommit o) CKeyword = true).
    { split; intros (j & o & E & H); exists j, o; split; auto; lia. }
    destruct (hasFlag (dCommit d) CKeyword) eqn:E; simpl; rewrite IH, Hs; split.
    + intros [<-|(j & o & H1 & H2 & H3)]; [exists 0, d; split; [lia|auto]|]. exists (S j), o. auto.
    + intros ([|j] & o & H1 & H2 & H3); simpl in *; [left; lia|]. right. exists j, o. auto.
    + intros (j & o & H1 & H2 & H3). exists (S j), o. auto.
    + intros ([|j] & o & H1 & H2 & H3); simpl in *; [congruence|]. exists j, o. auto.
Qed.

Lemma rep_lookup objs s : rep objs s -> forall a o, nth_error objs a = Some o -> lookup (gDefinition (regOf s)) (dName o) = Some a.
Proof.
  intros [R1 R2 R3 R4 R5 R6 R7 R8 R9 R10 R11] a o Ho. destruct (R4 a o Ho) as (d & Hd & En & _).
  assert (Ha : nth_error (gDefinitions (regOf s)) a = Some a).
  { rewrite R6. rewrite nth_error_nth' with (d := 0) by (rewrite seq_length; apply nth_error_Some; congruence). rewrite seq_nth by (apply nth_error_Some; congruence). auto. }
  destruct (ri_defs _ _ R7 a a Ha) as (d1 & Hd1 & _ & El). rewrite Hd in Hd1. inversion Hd1; subst d1. rewrite <- En. exact El.
Qed.

Lemma existsb_false {A} (f : A -> bool) l : (forall x, In x l -> f x = false) -> existsb f l = false.
Proof. induction l; simpl; auto. intros H. rewrite H by auto. apply IHl. auto. Qed.

(** sequences of calls, with and without userDefined, have the same objects up to flags *)
Lemma call_objs_in calls o : In o (flat_map callObjs calls) ->
  exists d, In d calls /\ In o (callObjs d).
Proof. rewrite in_flat_map. auto. Qed.

Lemma callObjs_sane calls : sensibleRanges calls -> forall o, In o (flat_map callObjs calls) -> saneObj o.
Proof.
  intros Hs o Ho. apply call_objs_in in Ho. destruct Ho as (d & Hd & Ho). unfold saneObj, saneItem.
  destruct d as [nm ct|nm ct cn ch rs|nm ct chars|nm ct items|nm ct opts]; simpl in Ho.
  - destruct Ho as [<-|[<-|[]]]; simpl; auto. constructor; auto. simpl. lia.
  - destruct Ho as [<-|[<-|[]]]; simpl; auto. constructor; auto. simpl. lia.
  - apply in_app_or in Ho. destruct Ho as [Ho|[<-|[]]].
    + apply in_map_iff in Ho. destruct Ho as (x & <- & _). simpl. auto.
    + simpl. apply Forall_forall. unfold namesToSequenceItems. intros it Hit. apply in_map_iff in Hit. destruct Hit as (x & <- & _). simpl. lia.
  - destruct Ho as [<-|[]]. simpl. apply Forall_forall. intros it Hit. eapply Hs; eauto.
  - destruct Ho as [<-|[]]. simpl. auto.
Qed.

Lemma nth_combine_seq (chars : list rune) : forall i k c, nth_error chars i = Some c ->
  nth_error (combine (seq k (List.length chars)) chars) i = Some (k + i, c).
Proof.
  induction chars as [|x l IH]; intros i k c H; [destruct i; discriminate|]. destruct i as [|i]; simpl in *.
  - inversion H; subst. rewrite Nat.add_0_r. auto.
  - rewrite (IH i (S k) c H). f_equal. f_equal. lia.
Qed.

Lemma callObjs_main d o : In o (callObjs d) -> isCharK (dKind o) = false ->
  dName o = callName d /\ forall k, k <> 3%N -> hasFlag (dCommit o) (2 ^ k)%N = hasFlag (callFlags d) (2 ^ k)%N.
Proof.
  intros Ho Hc. destruct d as [nm ct|nm ct cn ch rs|nm ct chars|nm ct items|nm ct opts]; simpl in Ho; unfold newChar, newSequence, newChoice in Ho.
  - destruct Ho as [<-|[<-|[]]]; [discriminate|]. auto.
  - destruct Ho as [<-|[<-|[]]]; [discriminate|]. auto.
  - apply in_app_or in Ho. destruct Ho as [Ho|[<-|[]]]; [apply in_map_iff in Ho; destruct Ho as (x & <- & _); discriminate|]. simpl. split; auto.
    intros k Hk. apply (flag_lor_other ct 3 k). auto.
  - destruct Ho as [<-|[]]. auto.
  - destruct Ho as [<-|[]]. auto.
Qed.
Definition ruleAlias (r : rule) : bool :=
  match r with RChar _ _ _ => true | RSeq ct _ => hasFlag ct CAlias | RChoice ct _ => hasFlag ct CAlias end.
Lemma ruleIn_pair l n r : ruleIn l n = Some r -> In (n, r) l.
Proof. induction l as [|[k q] l IH]; simpl; [discriminate|]. destruct (String.eqb_spec k n); intros H; [inversion H; subst; auto|auto]. Qed.
Lemma grammar_alias calls n r : noWhitespaceDefs calls -> grammarOf calls n = Some r -> ruleAlias r = false -> visible calls n.
Proof.
  intros Hw H Ha. apply ruleIn_pair, in_flat_map in H. destruct H as (d & Hd & H). exists d. split; auto.
  assert (X : callName d = n /\ hasFlag (callFlags d) CAlias = false).
  { destruct d as [nm ct|nm ct cn ch rs|nm ct chars|nm ct items|nm ct opts]; simpl in H.
    - destruct H as [H|[H|[]]]; inversion H; subst; [discriminate|]. auto.
    - destruct H as [H|[H|[]]]; inversion H; subst; [discriminate|]. auto.
    - apply in_app_or in H. destruct H as [H|[H|[]]].
      + exfalso. clear Hd. revert H. generalize 0. induction chars as [|c chars IH]; simpl; intros i H; [exact H|]. destruct H as [H|H]; [inversion H; subst; discriminate|eapply IH; eauto].
      + inversion H; subst. split; auto. rewrite <- Ha. symmetry. apply (flag_lor_other ct 3 1). discriminate.
    - destruct H as [H|[]]; inversion H; subst; auto.
    - destruct H as [H|[]]; inversion H; subst; auto. }
  destruct X. auto.
Qed.
(** the keyword parsers and the keyword texts *)
Definition kwsOk (calls : list defcall) (PL : pheap) (kws : list addr) : Prop :=
  (forall w, In w (keywordTexts calls) -> exists kw, In kw kws /\ literal PL kw w) /\
  (literalKeywords calls -> forall kw, In kw kws -> exists w, In w (keywordTexts calls) /\ literal PL kw w).

(** the objects of a literal *)
Lemma literal_objs calls n ct chars : In (DCharSequence n ct chars) calls ->
  let objs := flat_map callObjs calls in
  exists j o, nth_error objs j = Some o /\ (dName o = n /\ hasFlag (dCommit o) CKeyword = hasFlag ct CKeyword) /\
    dKind o = KSeq (namesToSequenceItems (map (childName n) (seq 0 (List.length chars)))) (namesToSequenceItems (map (childName n) (seq 0 (List.length chars)))) [] [] [] false false false /\
    forall i c, nth_error chars i = Some c -> exists x, nth_error objs x = Some (newChar (childName n i) false [c] []).
Proof.
  intros Hin objs.
  assert (Hall : forall o, In o (callObjs (DCharSequence n ct chars)) -> In o objs).
  { intros o Ho. unfold objs. apply in_flat_map. eauto. }
  simpl in Hall.
  set (sq := newSequence n _ _) in Hall.
  assert (Hs : In sq objs) by (apply Hall, in_or_app; right; left; auto).
  apply In_nth_error in Hs. destruct Hs as [j Hj]. exists j, sq. split; auto. split; [|split].
  - split; auto. simpl. apply (flag_lor_other _ 3 4). discriminate.
  - reflexivity.
  - intros i c Hc. apply In_nth_error. apply Hall. apply in_or_app. left. apply in_map_iff. exists (i, c). split; auto.
    eapply nth_error_In. apply (nth_combine_seq chars i 0 c Hc).
Qed.

Lemma alias_incompat d : checkCommitType d = None -> hasFlag (dCommit d) CAlias = true -> hasFlag (dCommit d) CRoot = false.
Proof.
  intros H Ha. destruct (hasFlag (dCommit d) CRoot) eqn:E; auto. exfalso.
  unfold checkCommitType in H. simpl in H. rewrite Ha, E in H. simpl in H. discriminate.
Qed.
Lemma kwsOk_intro calls s PL : rep (flat_map callObjs calls) s ->
  (forall nm ct chars, In (DCharSequence nm ct chars) calls -> hasFlag ct CKeyword = true ->
     exists j o, nth_error (flat_map callObjs calls) j = Some o /\ dName o = nm /\ In j (sKeywords s) /\ literal PL j chars) ->
  kwsOk calls PL (sKeywords s).
Proof.
  intros Hr H. split.
  - intros w Hw. unfold keywordTexts in Hw. apply in_flat_map in Hw. destruct Hw as (c & Hcin & Hw).
    destruct c as [| |nm ct chars| |]; try (destruct Hw; fail). destruct (hasFlag ct CKeyword) eqn:Ef; [|destruct Hw]. destruct Hw as [<-|[]].
    destruct (H nm ct chars Hcin Ef) as (j & o & _ & _ & Hj & Hl). eauto.
  - intros Hlk kw Hin. pose proof Hr as [R1 R2 R3 R4 R5 R6 R7 R8 R9 R10 R11]. rewrite R10 in Hin. apply kwIdx_In in Hin. destruct Hin as (j & o & -> & Ho & Hf). simpl.
    pose proof (nth_error_In _ _ Ho) as Hin. apply in_flat_map in Hin. destruct Hin as (d & Hd & Hin).
    assert (Hc : isCharK (dKind o) = false).
    { destruct (isCharK (dKind o)) eqn:E; auto. pose proof (R5 o (nth_error_In _ _ Ho)) as (_ & _ & X). rewrite (X E) in Hf. discriminate. }
    destruct (callObjs_main d o Hin Hc) as [En Hfl]. pose proof (Hfl 4%N ltac:(discriminate)) as Hk. change (2 ^ 4)%N with CKeyword in Hk. rewrite Hf in Hk. symmetry in Hk.
    destruct (Hlk d Hd Hk) as (nm & ct & chars & ->). simpl in *. destruct (H nm ct chars Hd Hk) as (j' & o' & Ho' & En' & _ & Hl).
    assert (j = j').
    { pose proof (rep_lookup _ _ Hr _ _ Ho) as L1. pose proof (rep_lookup _ _ Hr _ _ Ho') as L2. congruence. }
    subst j'. exists chars. split; auto. unfold keywordTexts. apply in_flat_map. eexists. split; [exact Hd|]. simpl. rewrite Hk. left; auto.
Qed.

Theorem setup_raw_noWs calls s fuel s' : rawAll emptySyntax calls = (s, None) -> noWhitespaceDefs calls -> Init fuel s = Ok (s', None) ->
  exists PL root name, sRoot s' = Some root /\ rootName calls = Some name /\
    liveParsers (parsers s') (sKeywords s') root PL /\
    apiOk (grammarOf calls) name PL (sKeywords s') root /\
    (sensibleRanges calls -> rangesOk PL) /\
    kwsOk calls PL (sKeywords s').
Proof.
  intros Hdef Hws HI. pose proof (rep_rawAll calls [] _ _ rep_empty Hdef) as Hr. simpl in Hr. set (objs := flat_map callObjs calls) in *.
  pose proof Hr as [R1 R2 R3 R4 R5 R6 R7 R8 R9 R10 R11].
  rewrite Init_split, R1, R2 in HI.
  destruct (sRoot s) as [root|] eqn:Er; [|discriminate]. destruct (nth_error (sHeap s) root) as [rd|] eqn:Ed; [|discriminate].
  destruct (sRegistry s) as [reg|] eqn:Eg; [|discriminate]. destruct (checkCommitType rd) eqn:Ecc; [discriminate|].
  assert (Ereg : regOf s = reg) by (unfold regOf; rewrite Eg; auto). rewrite Ereg in *.
  binv HI. destruct x as [[h0 reg1] root1]. binv HI. destruct x as [h' [e|]]; [discriminate|]. inversion HI; subst s'. clear HI. cbn [sRoot sKeywords] in *.
  unfold prepare in E. rewrite R6, <- R3, preinitAll_map in E.
  assert (Hobj : forall a d, nth_error (sHeap s) a = Some d -> exists o, nth_error objs a = Some o /\ dName d = dName o /\ dKind d = dKind o /\
     sameBut [7%N] (dCommit o) (dCommit d)).
  { intros a d Hd. destruct (nth_error objs a) as [o|] eqn:Eo; [|apply nth_error_None in Eo; assert (a < List.length (sHeap s)) by (apply nth_error_Some; congruence); lia].
    destruct (R4 a o Eo) as (d1 & Hd1 & N1 & N2 & N3 & N4 & N5). exists o. rewrite Hd in Hd1. inversion Hd1; subst d1. split; auto. split; auto. split; auto.
    destruct (isCharK (dKind o)); [rewrite N4 by auto; apply sameBut_refl|apply N5; auto]. }
  assert (Hnows : hasWhitespace (map preinit (sHeap s)) (seq 0 (List.length (sHeap s))) = false).
  { unfold hasWhitespace. apply existsb_false. intros a _. unfold commitAt. rewrite nth_error_map'. destruct (nth_error (sHeap s) a) as [d|] eqn:Hd; [|reflexivity].
    simpl. rewrite preinit_commit. destruct (Hobj a d Hd) as (o & Ho & _ & _ & Hs).
    replace (hasFlag (dCommit d) CWhitespace) with (hasFlag (dCommit o) CWhitespace) by (symmetry; apply (sameBut_flag [7%N] (dCommit o) (dCommit d) 2); auto; intros [H|[]]; discriminate).
    apply nth_error_In in Ho. apply call_objs_in in Ho. destruct Ho as (c & Hc & Ho).
    destruct (callObjs_split c) as (chs & o1 & Ec & Hch & _ & _ & _ & Ew & _). rewrite Ec in Ho. apply in_app_or in Ho. destruct Ho as [Ho|[<-|[]]].
    - apply Hch; auto.
    - rewrite Ew. apply Hws; auto. }
  rewrite Hnows in E. inversion E; subst h0 reg1 root1. clear E.
  set (h0 := map preinit (sHeap s)) in *.
  assert (Hnth : forall a d, nth_error h0 a = Some d -> exists d0, nth_error (sHeap s) a = Some d0 /\ d = preinit d0).
  { intros a d. unfold h0. rewrite nth_error_map'. destruct (nth_error (sHeap s) a) as [d0|]; simpl; [|discriminate]. intros H; inversion H. eauto. }
  assert (Hfr : forall a d, nth_error (sHeap s) a = Some d -> freshK (dKind d)).
  { intros a d Hd. destruct (Hobj a d Hd) as (o & Ho & _ & Ek & _). rewrite Ek. apply R5. eapply nth_error_In; eauto. }
  assert (Hun : forall a d, nth_error h0 a = Some d -> unwalkedK (dKind d)).
  { intros a d Hd. destruct (Hnth a d Hd) as (d0 & Hd0 & ->). apply unwalked_preinit. apply (Hfr a d0 Hd0). }
  assert (Hpre : forall d, dName (preinit d) = dName d /\ dId (preinit d) = dId d).
  { intros d. unfold preinit, initRanges. destruct (dKind d); auto. }
  assert (Hreg : regInv h0 reg).
  { destruct R7 as [I1 I2 I3 I4]. constructor; auto.
    - intros i a Hi. destruct (I3 i a Hi) as (d & Hd & Ei & El). exists (preinit d). unfold h0. rewrite nth_error_map', Hd. simpl.
      destruct (Hpre d) as [-> ->]. auto.
    - intros n a Hl. destruct (I4 n a Hl) as (H1 & d & Hd & En). split; auto. exists (preinit d). unfold h0. rewrite nth_error_map', Hd. simpl.
      destruct (Hpre d) as [-> _]. auto. }
  assert (Hall : forall a, a < List.length (sHeap s) -> In a (gDefinitions reg)) by (intros; rewrite R6, <- R3; apply in_seq; lia).
  assert (Hkw : forall a, In a (sKeywords s) -> exists o d, nth_error objs a = Some o /\ hasFlag (dCommit o) CKeyword = true /\ nth_error (sHeap s) a = Some d).
  { intros a Ha. rewrite R10 in Ha. apply kwIdx_In in Ha. destruct Ha as (j & o & -> & Ho & Hf). simpl.
    destruct (R4 j o Ho) as (d & Hd & _). eauto 10. }
  assert (Hargs : forall a, In a (sKeywords s ++ [root]) -> In a (gDefinitions reg)).
  { intros a Ha. apply Hall. apply in_app_or in Ha. destruct Ha as [Ha|[<-|[]]]; [|apply nth_error_Some; congruence].
    destruct (Hkw a Ha) as (o & d & _ & _ & Hd). apply nth_error_Some. congruence. }
  assert (Hshape : forall a d, nth_error h0 a = Some d -> inited h' a -> rangeShape d).
  { intros a d Hd _. destruct (Hnth a d Hd) as (d0 & Hd0 & ->). pose proof (Hfr a d0 Hd0) as [_ Hf]. unfold rangeShape, preinit, initRanges.
    destruct (dKind d0) eqn:Ek; simpl; rewrite ?Ek; auto. destruct Hf as [_ ->]. simpl. right. rewrite !map_map. apply map_ext. intros it.
    unfold itemRange, normalizeItemRange. destruct (Z.eqb_spec (siMin it) 0), (Z.eqb_spec (siMax it) 0); simpl; auto;
      destruct (Z.leb_spec (siMin it) 0), (Z.leb_spec (siMax it) 0); simpl; auto;
      repeat match goal with |- context [Z.eqb ?a ?b] => destruct (Z.eqb_spec a b); try lia; simpl end;
      repeat match goal with |- context [Z.leb ?a ?b] => destruct (Z.leb_spec a b); try lia; simpl end; auto; lia. }
  assert (Hkws : forall a, In a (sKeywords s) -> exists d, nth_error h0 a = Some d /\ hasFlag (dCommit d) CNoKeyword = false).
  { intros a Ha. destruct (Hkw a Ha) as (o & d & Ho & Hf & Hd). exists (preinit d). unfold h0. rewrite nth_error_map', Hd. split; auto.
    rewrite preinit_commit. destruct (Hobj a d Hd) as (o' & Ho' & _ & _ & Hs). rewrite Ho in Ho'. inversion Ho'; subst o'.
    replace (hasFlag (dCommit d) CNoKeyword) with (hasFlag (dCommit o) CNoKeyword) by (symmetry; apply (sameBut_flag [7%N] (dCommit o) (dCommit d) 5); auto; intros [H|[]]; discriminate).
    apply kw_not_nokw; auto. apply R5. eapply nth_error_In; eauto. }
  destruct (root_name calls root) as (o & Ho & Hn & Hc); [fold objs; rewrite <- R9; auto|]. fold objs in Ho.
  destruct (R4 root o Ho) as (d & Hd & N1 & N2 & _). rewrite Ed in Hd. inversion Hd; subst d. clear Hd.
  assert (Hrootc : isCharAt h0 root = false).
  { rewrite isCharAt_tag. unfold h0. rewrite nth_error_map', Ed. simpl. unfold preinit, initRanges. rewrite <- N2 in Hc.
    destruct (dKind rd) eqn:Ek; simpl in *; try rewrite Ek; auto; discriminate. }
  assert (Hroota : forall d, nth_error h0 root = Some d -> hasFlag (dCommit d) CAlias = false).
  { intros d1 Hd1. unfold h0 in Hd1. rewrite nth_error_map', Ed in Hd1. simpl in Hd1. inversion Hd1; subst d1. rewrite preinit_commit.
    destruct (hasFlag (dCommit rd) CAlias) eqn:Ea; auto. pose proof (alias_incompat rd Ecc Ea) as Hx.
    destruct (R4 root o Ho) as (d2 & Hd2 & _ & _ & _ & _ & N5). rewrite Ed in Hd2. inversion Hd2; subst d2. destruct (N5 Hc) as [_ S2].
    unfold rootFlag in S2. rewrite (proj2 S2 eq_refl) in Hx. discriminate. }
  exists (restrict (map toParser h') (liveIn h')), root, (dName o). split; auto. split; auto. split.
  { exists (liveIn h'). split; [auto|]. split; [apply (live_closed reg fuel (sKeywords s) root h0 h' Hun E0)|apply (live_root reg fuel (sKeywords s) root h0 h' Hun E0)]. }
  split; [|split].
  - assert (En : nameAt h0 root = dName o).
    { unfold nameAt, h0. rewrite nth_error_map', Ed. simpl. destruct (Hpre rd) as [-> _]. auto. }
    rewrite <- En. eapply apiOk_same; [|apply (api_ok reg fuel (sKeywords s) root h0 h' Hun Hreg E0 Hargs Hshape Hkws Hrootc Hroota)].
    intros nm. eapply sameOpt_trans; [|apply ruleIn_same, callsRules_same]. rewrite <- Ereg. apply heapRule_objs. exact Hr.
  - intros Hs. apply (live_ranges reg fuel (sKeywords s) root h0 h' Hun E0). intros a d Hd Hi. split; [|eapply Hshape; eauto].
    destruct (Hnth a d Hd) as (d0 & Hd0 & ->). destruct (Hobj a d0 Hd0) as (o1 & Ho1 & _ & Ek & _).
    apply nth_error_In in Ho1. apply (callObjs_sane calls Hs) in Ho1. unfold saneObj, preinit, initRanges in *. rewrite <- Ek in Ho1.
    destruct (dKind d0) eqn:E0k; simpl; rewrite ?E0k; auto. clear - Ho1. induction Ho1; constructor; auto. apply saneItem_norm; auto.
  - apply (kwsOk_intro calls s _ Hr). intros nm ct chars Hcin Ef.
    destruct (literal_objs calls nm ct chars Hcin) as (j & o1 & Ho1 & [Hnj Hf] & Hk & Hch). fold objs in Ho1, Hch.
    assert (Hj : In j (sKeywords s)). { rewrite R10. apply kwIdx_In. exists j, o1. split; auto. split; auto. congruence. }
    exists j, o1. split; auto. split; auto. split; auto. destruct (R4 j o1 Ho1) as (d1 & Hd1 & M1 & M2 & _).
    apply (api_literal reg fuel (sKeywords s) root h0 h' Hun E0 Hshape Hkws Hrootc j (preinit d1) nm chars); auto.
    + unfold h0. rewrite nth_error_map', Hd1. auto.
    + rewrite Hk in M2. unfold preinit, initRanges. rewrite M2. simpl. repeat eexists.
    + intros i c Hc'. destruct (Hch i c Hc') as (x & Hx). destruct (R4 x _ Hx) as (dx & Hdx & X1 & X2 & _).
      exists x, (preinit dx). split; [rewrite <- Ereg; apply (rep_lookup objs s Hr x _ Hx)|].
      split; [unfold h0; rewrite nth_error_map', Hdx; auto|]. unfold preinit, initRanges. rewrite X2. simpl. rewrite X2. auto.
Qed.

Lemma userDefined_kws calls PL kws : kwsOk (map withUserDefined calls) PL kws -> kwsOk calls PL kws.
Proof.
  unfold kwsOk. rewrite userDefined_kt. intros [H1 H2]. split; auto. intros Hl. apply H2. intros d Hd Hf. apply in_map_iff in Hd. destruct Hd as (d0 & <- & Hd).
  change CKeyword with (2 ^ 4)%N in Hf. rewrite userDefined_flags in Hf by discriminate. destruct (Hl d0 Hd Hf) as (n & ct & chars & ->). simpl. eauto.
Qed.
Theorem setup_noWs calls s fuel s' : defineAll emptySyntax calls = (s, None) -> noWhitespaceDefs calls -> Init fuel s = Ok (s', None) ->
  exists PL root name, sRoot s' = Some root /\ rootName calls = Some name /\
    liveParsers (parsers s') (sKeywords s') root PL /\
    apiOk (grammarOf calls) name PL (sKeywords s') root /\
    (sensibleRanges calls -> rangesOk PL) /\
    kwsOk calls PL (sKeywords s').
Proof.
  intros Hd Hw HI. apply defineAll_raw in Hd. destruct Hd as [Hd _].
  destruct (setup_raw_noWs _ _ _ _ Hd (userDefined_ws _ Hw) HI) as (PL & root & name & H1 & H2 & H3 & H4 & H5 & H6).
  exists PL, root, name. rewrite userDefined_root in H2. apply userDefined_kws in H6.
  split; [auto|]. split; [auto|]. split; [auto|]. split; [|split; [|auto]].
  - eapply apiOk_same; [|exact H4]. apply userDefined_grammar.
  - intros Hs. apply H5, userDefined_ranges, Hs.
Qed.

(** ** C02: an accepted input is a word of the grammar *)
Theorem api_sound calls s fuel s' input e n toks : defineAll emptySyntax calls = (s, None) -> noWhitespaceDefs calls -> sensibleRanges calls ->
  Parse fuel s input e = Ok (s', Tree n toks) ->
  exists name, rootName calls = Some name /\ gen (grammarOf calls) (keywordTexts calls) name input.
Proof.
  intros Hd Hw Hs HP. unfold Parse in HP. binv HP. destruct x as [s1 [err|]]; [discriminate|].
  destruct (setup_noWs _ _ _ _ Hd Hw E) as (PL & root & name & Er & En & Epi & A & Rg & Kw). rewrite Er in HP. binv HP. rewrite (live_run _ _ _ _ Epi) in E0.
  inversion HP; subst. clear HP. exists name. split; auto. destruct A as [A1 A2 A3 (o & Ho & No & Eo) A5 _ _ _ _].
  unfold parseInput in E0. apply run_tree in E0. destruct E0 as (-> & -> & _ & c & ob & c1 & rest & ok & c2 & Hp & _ & Hob & Hst & _).
  rewrite Ho in Hob. inversion Hob; subst ob.
  apply (parse_sound PL (sKeywords s') (keywordTexts calls) input A1 A2 (Rg Hs) (proj1 Kw)) in Hp.
  apply (ci_G _ _ _ _ Hp) in Hst. pose proof (Hst root o Ho No eq_refl) as Hl.
  rewrite slice_full in Hl. rewrite <- Eo. apply (A5 root o _ _ Ho No). auto.
Qed.
