(** The rewritten definitions have different names. *)
From Verif Require Import Base Utf8 IdSet Results Parser Build Syntax ListFacts SyntaxFacts Lang Grammar Rep Live LangGen Api WsObjs WsGen WsNames.

Lemma NoDup_app_intro {A} (l l' : list A) : NoDup l -> NoDup l' -> (forall x, In x l -> ~ In x l') -> NoDup (l ++ l').
Proof.
  induction l as [|y l IH]; simpl; intros Hl Hl' Hd; auto. inversion Hl; subst. constructor.
  - rewrite in_app_iff. intros [|Hy]; [contradiction|]. apply (Hd y); auto.
  - apply IH; auto.
Qed.

Definition helperName (n nm : string) (i : nat) (xs : list string) : Prop :=
  exists x kind j, In x xs /\ (kind = "wsrest" \/ kind = "wsopt")%string /\ i <= j /\ n = patchName [x; nm; kind; itoaNat j].
Lemma wsItems_names nm items : forall i o, In o (fst (wsItems nm i items)) -> helperName (dName o) nm i (map siName items).
Proof.
  induction items as [|it items IH]; intros i o; cbn [wsItems]; [intros []|].
  destruct (wsItems nm (S i) items) as [defs rest] eqn:E. specialize (IH (S i)). rewrite E in IH. simpl in IH.
  assert (IH' : In o defs -> helperName (dName o) nm i (siName it :: map siName items)).
  { intros Ho. destruct (IH o Ho) as (x & kind & j & H1 & H2 & H3 & H4). exists x, kind, j. split; [right; auto|]. split; auto. split; [lia|auto]. }
  assert (A : forall kind, (kind = "wsrest" \/ kind = "wsopt")%string -> helperName (patchName [siName it; nm; kind; itoaNat i]) nm i (siName it :: map siName items)).
  { intros kind Hk. exists (siName it), kind, i. split; [left; auto|]. auto. }
  simpl map. destruct (siMax it =? 1)%Z; [apply IH'|]. destruct (0 <? siMin it)%Z; simpl.
  - intros [<-|Ho]; auto. apply A; auto.
  - intros [<-|[<-|Ho]]; auto; apply A; auto.
Qed.
Lemma kind_free kind : (kind = "wsrest" \/ kind = "wsopt")%string -> colonFree kind.
Proof. intros [-> | ->]; unfold colonFree; simpl; intuition discriminate. Qed.
Lemma kind_not kind : (kind = "wsrest" \/ kind = "wsopt")%string -> ~ isItoa kind.
Proof. intros [-> | ->]; apply itoa_not; reflexivity. Qed.

Section DISTINCT.
Variables (l : list defobj) (rt : defobj).
Hypothesis Hndl : NoDup (map dName l).
Hypothesis Hrt : filter rootFlag (flat_map rw (filter (fun d => negb (isWs d)) l)) = [rt].
Hypothesis Hrefs : forall o x, In o l -> In x (refsOf o) -> exists c, comps x c.
Hypothesis Hcomps : forall o, In o l -> exists c, comps (dName o) c.
Definition spacedSeq (n : string) : Prop := exists o, In o l /\ keeps o = false /\ dName o = n.
Hypothesis Htell : tellable spacedSeq.

Lemma ref_comps o x : In o l -> In x (refsOf o) -> exists c, comps x c.
Proof. apply Hrefs. Qed.

(** the helpers of one sequence *)
Lemma helpers_nodup nm cn : comps nm cn -> spacedSeq nm -> forall items i, (forall x, In x (map siName items) -> exists c, comps x c) ->
  NoDup (map dName (fst (wsItems nm i items))).
Proof.
  intros Hn Hs. induction items as [|it items IH]; intros i Hx; cbn [wsItems]; [constructor|].
  pose proof (wsItems_names nm items (S i)) as Hnames. specialize (IH (S i)).
  destruct (wsItems nm (S i) items) as [defs rest] eqn:E. simpl in Hnames, IH.
  assert (IH' : NoDup (map dName defs)) by (apply IH; intros; apply Hx; right; auto).
  destruct (Hx (siName it) (or_introl eq_refl)) as (ci & Hci).
  assert (A : forall kind, (kind = "wsrest" \/ kind = "wsopt")%string -> ~ In (patchName [siName it; nm; kind; itoaNat i]) (map dName defs)).
  { intros kind Hk Hin. apply in_map_iff in Hin. destruct Hin as (o & Eo & Ho). destruct (Hnames o Ho) as (x & kind' & j & H1 & H2 & H3 & H4). rewrite Eo in H4.
    destruct (Hx x (or_intror H1)) as (cx & Hcx).
    apply (helper_inj spacedSeq _ _ _ _ _ _ _ _ ci cn cx cn) in H4; auto using kind_free. destruct H4 as (_ & _ & _ & ->). lia. }
  destruct (siMax it =? 1)%Z; [auto|]. destruct (0 <? siMin it)%Z.
  - constructor; auto. apply A; auto.
  - constructor; [|constructor; auto; apply A; auto]. intros [E1|Hin]; [|revert Hin; apply A; auto].
    apply (helper_inj spacedSeq _ _ _ _ _ _ _ _ ci cn ci cn) in E1; auto using kind_free. destruct E1 as (_ & _ & E1 & _). discriminate.
Qed.

Definition isHelper (n : string) : Prop := exists o, In o l /\ keeps o = false /\ helperName n (dName o) 0 (refsOf o).
Lemma helper_shape n : isHelper n -> exists lc, lc <> [] /\ Forall colonFree lc /\ n = String.concat ":" lc /\ (exists x, In x (tl lc) /\ ~ isItoa x) /\ exists pre k, lc = pre ++ [itoaNat k].
Proof.
  intros (o & Ho & Hk & (x & kind & j & H1 & H2 & H3 & H4)). destruct (ref_comps o x Ho H1) as (cx & Hcx). destruct (Hcomps o Ho) as (co & Hco).
  destruct (comps_free _ _ Hcx), (comps_free _ _ Hco).
  exists (cx ++ co ++ [kind; itoaNat j]). split; [destruct cx; [congruence|discriminate]|]. split; [apply free_helper; auto using kind_free|].
  split; [rewrite H4; apply patch_comps; auto|]. split.
  - exists kind. split; [|apply kind_not; auto]. destruct cx; [congruence|]. simpl. apply in_or_app. right. apply in_or_app. right. left. auto.
  - exists (cx ++ co ++ [kind]), j. rewrite <- !app_assoc. auto.
Qed.
Lemma helper_not_user n : isHelper n -> ~ In n (map dName l).
Proof.
  intros H Hin. destruct (helper_shape n H) as (lc & A1 & A2 & A3 & A4 & _). apply in_map_iff in Hin. destruct Hin as (o & <- & Ho). destruct (Hcomps o Ho) as (co & Hco).
  apply (comps_bad _ lc A1 A2 A3 A4 co Hco).
Qed.

Lemma rw_names o n : In o l -> In n (map dName (rw o)) -> n = dName o \/ (keeps o = false /\ helperName n (dName o) 0 (refsOf o)).
Proof.
  intros Ho Hin. destruct (keeps o) eqn:Ek.
  - rewrite rw_keeps in Hin by auto. destruct Hin as [<-|[]]; auto.
  - destruct (rw_seq o Ek) as (oi & items & rs & a1 & a2 & a3 & a4 & a5 & E & Hf & Er). rewrite Er, map_app in Hin. apply in_app_or in Hin. destruct Hin as [Hin|[<-|[]]]; auto.
    right. split; auto. apply in_map_iff in Hin. destruct Hin as (h & <- & Hh). apply wsItems_names in Hh. unfold refsOf. rewrite E. auto.
Qed.
Lemma rw_nodup o : In o l -> NoDup (map dName (rw o)).
Proof.
  intros Ho. destruct (keeps o) eqn:Ek; [rewrite rw_keeps by auto; constructor; [intros []|constructor]|].
  destruct (rw_seq o Ek) as (oi & items & rs & a1 & a2 & a3 & a4 & a5 & E & Hf & Er). rewrite Er, map_app. destruct (Hcomps o Ho) as (co & Hco).
  apply NoDup_app_intro.
  - eapply helpers_nodup; eauto; [exists o; auto|]. intros x Hx. apply (ref_comps o); auto. unfold refsOf. rewrite E. auto.
  - constructor; [intros []|constructor].
  - intros x Hx [<-|[]]. simpl in Hx. apply in_map_iff in Hx. destruct Hx as (h & Eh & Hh). apply wsItems_names in Hh. rewrite Eh in Hh.
    apply (helper_not_user (dName o)); [|apply in_map; auto]. exists o. unfold refsOf. rewrite E. auto.
Qed.
Lemma flat_nodup L : incl L l -> NoDup (map dName L) -> NoDup (map dName (flat_map rw L)).
Proof.
  induction L as [|o L IH]; simpl; intros Hi Hn; [constructor|]. inversion Hn; subst. rewrite map_app.
  assert (Ho : In o l) by (apply Hi; left; auto). assert (HL : incl L l) by (intros x Hx; apply Hi; right; auto).
  apply NoDup_app_intro; [apply rw_nodup; auto|apply IH; auto|].
  intros n Hn1 Hn2. apply in_map_iff in Hn2. destruct Hn2 as (x & Ex & Hx). apply in_flat_map in Hx. destruct Hx as (o' & Ho' & Hx).
  assert (Hn2 : In n (map dName (rw o'))) by (rewrite <- Ex; apply in_map; auto).
  assert (Hne : dName o <> dName o') by (intros E; apply H1; rewrite E; apply in_map; auto).
  apply rw_names in Hn1; auto. apply rw_names in Hn2; auto.
  assert (Hh : forall y, In y l -> keeps y = false -> helperName n (dName y) 0 (refsOf y) -> isHelper n) by (intros y; exists y; auto).
  destruct Hn1 as [->|[K1 Hn1]], Hn2 as [E|[K2 Hn2]].
  - auto.
  - apply (helper_not_user (dName o)); eauto. apply in_map; auto.
  - apply (helper_not_user n); [eapply Hh; eauto|]. rewrite E. apply in_map; auto.
  - destruct Hn1 as (x1 & k1 & j1 & A1 & A2 & A3 & A4), Hn2 as (x2 & k2 & j2 & B1 & B2 & B3 & B4). rewrite A4 in B4.
    destruct (ref_comps o x1 Ho A1) as (c1 & C1). destruct (ref_comps o' x2 (HL _ Ho') B1) as (c2 & C2). destruct (Hcomps o Ho) as (co & Co). destruct (Hcomps o' (HL _ Ho')) as (co' & Co').
    apply (helper_inj spacedSeq _ _ _ _ _ _ _ _ c1 co c2 co') in B4; auto using kind_free; [tauto|exists o; auto|exists o'; auto].
Qed.

Lemma filter_map_nodup {A} (f : A -> bool) (g : A -> string) L : NoDup (map g L) -> NoDup (map g (filter f L)).
Proof.
  induction L as [|x L IH]; simpl; intros H; auto. inversion H; subst. destruct (f x); simpl; auto. constructor; auto.
  intros Hin. apply H2. apply in_map_iff in Hin. destruct Hin as (y & <- & Hy). apply filter_In in Hy. apply in_map. tauto.
Qed.

Theorem rewritten_nodup : NoDup (map dName (rewritten l rt)).
Proof.
  pose proof (fun o => root_iff l rt Hndl Hrt o) as Hri. pose proof (ws_not_root l rt Hndl Hrt) as Hwr.
  destruct (rt_main l rt Hrt) as (ro & Hro & Hrow & Ero). destruct (main_in l ro Hro Hrow) as (_ & Q2 & _).
  assert (Enr : dName rt = dName ro) by (rewrite Ero; auto). destruct (Hcomps ro Hro) as (cr & Hcr). destruct (comps_free _ _ Hcr) as [Hcr0 Hcrf].
  set (restL := filter (fun d => negb (isWs d)) l). assert (Hrl : incl restL l) by (intros x Hx; apply filter_In in Hx; tauto).
  assert (Hrw : forall o, In o restL -> isWs o = false) by (intros o Ho; apply filter_In in Ho; destruct Ho as [_ Ho]; apply negb_true_iff in Ho; auto).
  assert (ND4 : NoDup (map dName (flat_map rw restL))) by (apply flat_nodup; auto; apply filter_map_nodup; auto).
  assert (Ews : map dName (map aliased (filter isWs l)) = map dName (filter isWs l)) by (rewrite map_map; apply map_ext; intros o; apply setCommit_kind).
  assert (Hn4 : forall o, In o (flat_map rw restL) -> (exists o', In o' restL /\ dName o = dName o') \/ isHelper (dName o)).
  { intros o Ho. apply in_flat_map in Ho. destruct Ho as (o' & Ho' & Ho). destruct (rw_names o' (dName o)) as [E|[K1 H]]; [auto|apply in_map; auto|left; eauto|right; exists o'; auto]. }
  (* the two new names with one component that is no index *)
  assert (Hroot2 : patchName [dName rt; "wsroot"%string] = String.concat ":" (cr ++ ["wsroot"%string])).
  { rewrite Enr. destruct Hcr as (c & ds & Ec & En & _). unfold patchName. rewrite cat_app by (auto; discriminate). rewrite <- En. reflexivity. }
  assert (Fwsroot : Forall colonFree (cr ++ ["wsroot"%string])).
  { apply Forall_app. split; auto. constructor; [unfold colonFree; simpl; intuition discriminate|constructor]. }
  assert (Fws : Forall colonFree [""; "ws"]%string).
  { constructor; [unfold colonFree; simpl; tauto|]. constructor; [unfold colonFree; simpl; intuition discriminate|constructor]. }
  assert (U1 : forall o, In o l -> dName o <> whitespaceName).
  { intros o Ho E. destruct (Hcomps o Ho) as (co & Hco). refine (comps_bad _ [""; "ws"]%string _ Fws E _ co Hco); [discriminate|].
    exists "ws"%string. split; [left; auto|apply itoa_not; reflexivity]. }
  assert (U2 : forall o, In o l -> dName o <> patchName [dName rt; "wsroot"%string]).
  { intros o Ho E. destruct (Hcomps o Ho) as (co & Hco). rewrite Hroot2 in E. refine (comps_bad _ (cr ++ ["wsroot"%string]) _ Fwsroot E _ co Hco); [destruct cr; discriminate|].
    exists "wsroot"%string. split; [|apply itoa_not; reflexivity]. destruct cr; [congruence|]. simpl. apply in_or_app. right; left; auto. }
  assert (Hlast : forall n lc x, isHelper n -> Forall colonFree (lc ++ [x]) -> ~ isItoa x -> n <> String.concat ":" (lc ++ [x])).
  { intros n lc x Hh Hf Hx E. destruct (helper_shape n Hh) as (l1 & A1 & A2 & A3 & _ & pre & k & A5). rewrite A3 in E.
    apply cat_inj in E; auto; [|destruct lc; discriminate]. rewrite A5 in E. apply app_inj_tail in E. destruct E as [_ E]. apply Hx. exists k. auto. }
  assert (V1 : forall n, isHelper n -> n <> whitespaceName).
  { intros n Hh. apply (Hlast n [""]%string "ws"%string); auto. apply itoa_not; reflexivity. }
  assert (V2 : forall n, isHelper n -> n <> patchName [dName rt; "wsroot"%string]).
  { intros n Hh. rewrite Hroot2. apply Hlast; auto. apply itoa_not; reflexivity. }
  assert (U3 : whitespaceName <> patchName [dName rt; "wsroot"%string]).
  { rewrite Hroot2. intros E. change whitespaceName with (String.concat ":" ([""] ++ ["ws"]))%string in E.
    apply cat_inj in E; auto; [|discriminate|destruct cr; discriminate]. apply app_inj_tail in E. destruct E as [_ E]. discriminate. }
  unfold rewritten. fold restL. rewrite !map_app, Ews. simpl map.
  rewrite (proj1 (wsrooted_name rt)).
  apply NoDup_app_intro; [apply filter_map_nodup; auto|apply NoDup_app_intro; [apply filter_map_nodup; auto| |]|].
  - constructor; [|constructor; [|constructor; [|constructor]]].
    + intros [E|[E|[]]]; [apply U3; auto|]. rewrite Enr in E. apply (U1 ro); auto.
    + intros [E|[]]. rewrite Enr in E at 1. apply (U2 ro); auto.
    + intros [].
  - intros n Hn. apply in_map_iff in Hn. destruct Hn as (o & <- & Ho). apply filter_In in Ho. destruct Ho as [Ho Hw]. intros [E|[E|[E|[]]]].
    + apply (U1 o); auto.
    + apply (U2 o); auto.
    + apply (Hwr o); auto.
  - intros n Hn Hn2. apply in_map_iff in Hn. destruct Hn as (o & <- & Ho). apply filter_In in Ho. destruct Ho as [Ho Hr]. apply negb_true_iff in Hr.
    destruct (Hn4 o Ho) as [(o' & Ho' & Eo)|Hh].
    + apply in_app_or in Hn2. destruct Hn2 as [Hn2|[E|[E|[E|[]]]]].
      * apply in_map_iff in Hn2. destruct Hn2 as (o2 & E2 & Ho2). apply filter_In in Ho2. destruct Ho2 as [Ho2 Hw2].
        assert (o2 = o') by (apply (name_inj l Hndl); auto; congruence). subst o2. rewrite (Hrw o' Ho') in Hw2. discriminate.
      * apply (U1 o'); auto. congruence.
      * apply (U2 o'); auto. congruence.
      * (* the name of the root, but the object has no root flag *)
        assert (Erw : o = rt); [|subst o; destruct (rt_true l rt Hrt); congruence].
        destruct (rt_true l rt Hrt) as [_ Hin]. fold restL in Hin. revert E Ho Hin ND4. generalize (flat_map rw restL). clear. intros L E H1 H2 Hn.
        induction L as [|x L IH]; [destruct H1|]. simpl in Hn. inversion Hn; subst. destruct H1 as [->|H1], H2 as [->|H2]; auto; exfalso; apply H3.
        -- rewrite <- E. apply in_map; auto.
        -- rewrite E. apply in_map; auto.
    + apply in_app_or in Hn2. destruct Hn2 as [Hn2|[E|[E|[E|[]]]]].
      * apply (helper_not_user _ Hh). apply in_map_iff in Hn2. destruct Hn2 as (o2 & <- & Ho2). apply filter_In in Ho2. apply in_map. tauto.
      * apply (V1 _ Hh). auto.
      * apply (V2 _ Hh). auto.
      * apply (helper_not_user _ Hh). rewrite <- E, Enr. apply in_map; auto.
Qed.
End DISTINCT.
