(** The whitespace rewriting of two lists of definitions that agree on some names. *)
From Verif Require Import Base Utf8 IdSet Results Parser Build Syntax ListFacts SyntaxFacts InitWalk InitRun InitCore InitSpec Rep LangGen Api WsObjs WsGen WsNames WsDistinct WsRefs SameRun.

Lemma nf_isWs d d' : nf d = nf d' -> isWs d = isWs d'.
Proof. intros H. unfold isWs. rewrite (nf_commit _ _ H). auto. Qed.
Lemma nf_rootFlag d d' : nf d = nf d' -> rootFlag d = rootFlag d'.
Proof. intros H. unfold rootFlag. rewrite (nf_commit _ _ H). auto. Qed.
Lemma nf_keeps d d' : nf d = nf d' -> keeps d = keeps d'.
Proof. intros H. unfold keeps. rewrite (nf_commit _ _ H). pose proof (f_equal dKind H) as Hk. unfold nf in Hk. simpl in Hk. destruct (dKind d), (dKind d'); inversion Hk; auto. Qed.
Lemma nf_aliased d d' : nf d = nf d' -> nf (aliased d) = nf (aliased d').
Proof. intros H. unfold aliased. rewrite (nf_commit _ _ H). apply nf_setCommit; auto. Qed.
Lemma nf_wsrooted d d' : nf d = nf d' -> nf (wsrooted d) = nf (wsrooted d').
Proof. intros H. unfold wsrooted. rewrite (nf_commit _ _ H), (nf_name _ _ H). apply nf_setCommit, nf_setName; auto. Qed.
Definition seqItems (d : defobj) : list seqItem := match dKind d with KSeq _ items _ _ _ _ _ _ => items | _ => [] end.
Lemma nf_seqItems d d' : nf d = nf d' -> seqItems d = seqItems d'.
Proof. intros H. unfold seqItems. pose proof (f_equal dKind H) as Hk. unfold nf in Hk. simpl in Hk. destruct (dKind d), (dKind d'); inversion Hk; auto. Qed.
Lemma rw_split d : keeps d = false -> rw d = fst (wsItems (dName d) 0 (seqItems d)) ++ [main d] /\ main d = newSequence (dName d) (dCommit d) (snd (wsItems (dName d) 0 (seqItems d))) /\ refsOf d = map siName (seqItems d).
Proof.
  intros Hk. destruct (rw_seq d Hk) as (oi & items & rs & a1 & a2 & a3 & a4 & a5 & Ek & Hf & ->). unfold main, seqItems, refsOf. rewrite Ek, Hf. auto.
Qed.
Lemma main_keeps d : keeps d = true -> main d = d.
Proof. unfold keeps, main. destruct (dKind d); auto. intros ->. auto. Qed.
Lemma nf_main d d' : nf d = nf d' -> nf (main d) = nf (main d').
Proof.
  intros H. pose proof (nf_keeps _ _ H) as Hk. destruct (keeps d) eqn:E.
  - rewrite !main_keeps; auto.
  - destruct (rw_split d E) as (_ & -> & _). symmetry in Hk. destruct (rw_split d' Hk) as (_ & -> & _). rewrite (nf_name _ _ H), (nf_commit _ _ H), (nf_seqItems _ _ H). auto.
Qed.
Lemma main_commit d : dName (main d) = dName d /\ dCommit (main d) = dCommit d.
Proof. unfold main. destruct (dKind d); auto. destruct (hasFlag _ _); auto. Qed.
Lemma aliased_refs d : refsOf (aliased d) = refsOf d /\ dName (aliased d) = dName d.
Proof. unfold aliased, setCommitType, refsOf. destruct (dKind d) eqn:E; simpl; rewrite ?E; auto. Qed.
Lemma wsrooted_refs d : refsOf (wsrooted d) = refsOf d /\ dName (wsrooted d) = patchName [dName d; "wsroot"%string].
Proof. unfold wsrooted, setCommitType, refsOf. simpl. destruct (dKind d) eqn:E; simpl; rewrite ?E; auto. Qed.

Section KNOWN.
Variables (l l' : list defobj) (r r' : defobj) (U : string -> Prop).
Let rt := main r.
Let rt' := main r'.
Hypothesis HU : forall n, U n -> (~ In n (map dName l) /\ ~ In n (map dName l') /\ colonFree n) \/
  (exists o o', In o l /\ In o' l' /\ dName o = n /\ nf o = nf o' /\ forall x, In x (refsOf o) -> U x).
Hypothesis Hw : map dName (filter isWs l) = map dName (filter isWs l').
Hypothesis HwU : forall n, In n (map dName (filter isWs l)) -> U n.
Hypothesis Hr : In r l /\ In r' l' /\ nf r = nf r' /\ isWs r = false /\ (forall x, In x (refsOf r) -> U x) /\ U (dName r).
Hypothesis Hrl : forall o, In o l -> rootFlag o = true -> o = r.
Hypothesis Hrl' : forall o, In o l' -> rootFlag o = true -> o = r'.

Definition helpers (o : defobj) : list defobj := fst (wsItems (dName o) 0 (seqItems o)).
Definition knownWs (n : string) : Prop :=
  n = whitespaceName \/ n = dName r \/ n = patchName [dName r; "wsroot"%string] \/ U n \/
  exists o o' x, In o l /\ In o' l' /\ nf o = nf o' /\ (forall y, In y (refsOf o) -> U y) /\ keeps o = false /\ isWs o = false /\ In x (helpers o) /\ n = dName x.

Lemma rt_name : dName rt = dName r. Proof. apply main_commit. Qed.
Lemma rt_name' : dName rt' = dName r. Proof. unfold rt'. rewrite (proj1 (main_commit r')). symmetry. apply nf_name. tauto. Qed.
Lemma in_rw L rt0 o x : In o L -> isWs o = false -> In x (rw o) -> rootFlag x = false -> In x (rewritten L rt0).
Proof.
  intros Ho Hws Hx Hf. unfold rewritten. apply in_or_app. left. apply filter_In. rewrite Hf. split; auto. apply in_flat_map. exists o. split; auto. apply filter_In. rewrite Hws. auto.
Qed.
Lemma in_ws L rt0 o : In o L -> isWs o = true -> In (aliased o) (rewritten L rt0).
Proof. intros Ho Hws. unfold rewritten. apply in_or_app. right. apply in_or_app. left. apply in_map, filter_In. auto. Qed.
Lemma helper_commit o x : In x (helpers o) -> rootFlag x = false.
Proof. intros Hx. apply wsItems_alias in Hx. destruct Hx as [Hc _]. unfold rootFlag. rewrite Hc. reflexivity. Qed.
Lemma U_known n : U n -> knownWs n. Proof. unfold knownWs. auto. Qed.
(** references of the rewritten sequence and of its helpers *)
Lemma spaced_known o o' x y : In o l -> In o' l' -> nf o = nf o' -> (forall y, In y (refsOf o) -> U y) -> keeps o = false -> isWs o = false ->
  (In x (helpers o) \/ x = main o) -> In y (refsOf x) -> knownWs y.
Proof.
  intros Ho Ho' Hn Hy Hk Hws Hx Hin. destruct (rw_split o Hk) as (_ & Em & Er). destruct (wsItems_refs (dName o) (seqItems o) 0) as [R1 R2].
  assert (G : y = whitespaceName \/ In y (map siName (seqItems o)) \/ exists z, In z (helpers o) /\ dName z = y).
  { destruct Hx as [Hx| ->]; [apply (R2 x y Hx); rewrite <- refsOf_refs; auto|]. rewrite Em in Hin. apply R1. exact Hin. }
  destruct G as [->|[G|(z & Hz & <-)]]; [left; auto| |].
  - apply U_known, Hy. rewrite Er. auto.
  - do 4 right. exists o, o', z. repeat (split; auto).
Qed.
Lemma not_free L rt0 n : In n (map dName (rewritten L rt0)) -> colonFree n -> In n (map dName L) \/ n = dName rt0.
Proof.
  intros Hin Hc. unfold rewritten in Hin. rewrite !map_app, !in_app_iff in Hin. destruct Hin as [Hin|[Hin|Hin]].
  - apply in_map_iff in Hin. destruct Hin as (x & <- & Hx). apply filter_In in Hx. destruct Hx as [Hx _]. apply in_flat_map in Hx. destruct Hx as (o & Ho & Hx). apply filter_In in Ho. destruct Ho as [Ho _].
    destruct (keeps o) eqn:Hk; [rewrite (rw_keeps o Hk) in Hx; destruct Hx as [<-|[]]; left; apply in_map; auto|].
    destruct (rw_split o Hk) as (E & _). rewrite E in Hx. apply in_app_or in Hx. destruct Hx as [Hx|[<-|[]]].
    + exfalso. apply wsItems_names in Hx. unfold helperName in Hx. decompose [ex and] Hx. match goal with E : dName x = patchName _ |- _ => rewrite E in Hc end. revert Hc. apply patch_not_free.
    + left. rewrite (proj1 (main_commit o)). apply in_map; auto.
  - rewrite map_map in Hin. apply in_map_iff in Hin. destruct Hin as (o & <- & Ho). apply filter_In in Ho. left. rewrite (proj2 (aliased_refs o)). apply in_map. tauto.
  - simpl in Hin. destruct Hin as [<-|[<-|[<-|[]]]]; auto.
    + exfalso. apply Hc. left. reflexivity.
    + exfalso. rewrite (proj2 (wsrooted_refs rt0)) in Hc. revert Hc. apply patch_not_free.
Qed.

Theorem known_rewritten : known knownWs (rewritten l rt) (rewritten l' rt').
Proof.
  destruct Hr as (Hr1 & Hr2 & Hr3 & Hr4 & Hr5 & Hr6).
  assert (Hroot : In (newSequence (dName rt) CRoot [whitespaceItem; mkItem (patchName [dName rt; "wsroot"%string]) 1 1; whitespaceItem]) (rewritten l rt)) by (unfold rewritten; rewrite !in_app_iff; simpl; auto 8).
  assert (Hroot' : In (newSequence (dName rt') CRoot [whitespaceItem; mkItem (patchName [dName rt'; "wsroot"%string]) 1 1; whitespaceItem]) (rewritten l' rt')) by (unfold rewritten; rewrite !in_app_iff; simpl; auto 8).
  intros n Hn.
  assert (Hdec : n = dName r \/ n <> dName r) by (destruct (string_dec n (dName r)); auto).
  destruct Hdec as [->|Hne].
  { right. do 2 eexists. split; [exact Hroot|]. split; [exact Hroot'|]. rewrite rt_name, rt_name'. split; [auto|]. split; [auto|]. apply Forall_forall. intros x Hx. simpl in Hx. destruct Hx as [<-|[<-|[<-|[]]]]; unfold knownWs; auto. }
  destruct Hn as [->|[->|[->|[Hn|Hn]]]]; [|contradiction| | |].
  - right. exists (newChoice whitespaceName CAlias (map dName (filter isWs l))), (newChoice whitespaceName CAlias (map dName (filter isWs l'))).
    split; [unfold rewritten; rewrite !in_app_iff; simpl; auto 8|]. split; [unfold rewritten; rewrite !in_app_iff; simpl; auto 8|]. split; [auto|]. split; [rewrite Hw; auto|].
    simpl. apply Forall_forall. intros x Hx. apply U_known, HwU, Hx.
  - right. exists (wsrooted rt), (wsrooted rt'). split; [unfold rewritten; rewrite !in_app_iff; simpl; auto 8|]. split; [unfold rewritten; rewrite !in_app_iff; simpl; auto 8|].
    split; [rewrite (proj2 (wsrooted_refs rt)), rt_name; auto|]. split; [apply nf_wsrooted, nf_main; auto|]. rewrite (proj1 (wsrooted_refs rt)). apply Forall_forall. intros x Hx.
    destruct (keeps r) eqn:Hk; [unfold rt in Hx; rewrite main_keeps in Hx by auto; apply U_known; auto|]. eapply (spaced_known r r' (main r)); eauto.
  - destruct (HU n Hn) as [(X & Y & Z)|(o & o' & Ho & Ho' & En & Enf & Hrefs)].
    + left. split; intros Hin; apply not_free in Hin; auto; destruct Hin as [Hin|Hin]; auto; [rewrite rt_name in Hin|rewrite rt_name' in Hin]; contradiction.
    + assert (Rf : rootFlag o = false) by (destruct (rootFlag o) eqn:E; auto; exfalso; apply Hne; rewrite <- En; f_equal; apply Hrl; auto).
      pose proof Rf as Rf'. rewrite (nf_rootFlag _ _ Enf) in Rf'.
      right. destruct (isWs o) eqn:Ew.
      * pose proof Ew as Ew'. rewrite (nf_isWs _ _ Enf) in Ew'. exists (aliased o), (aliased o'). split; [apply in_ws; auto|]. split; [apply in_ws; auto|].
        rewrite (proj1 (aliased_refs o)), (proj2 (aliased_refs o)). split; auto. split; [apply nf_aliased; auto|]. apply Forall_forall. intros x Hx. apply U_known; auto.
      * pose proof Ew as Ew'. rewrite (nf_isWs _ _ Enf) in Ew'. destruct (keeps o) eqn:Hk.
        -- pose proof Hk as Hk'. rewrite (nf_keeps _ _ Enf) in Hk'. exists o, o'. split; [eapply in_rw; eauto; rewrite rw_keeps; simpl; auto|]. split; [eapply in_rw; eauto; rewrite rw_keeps; simpl; auto|].
           split; auto. split; auto. apply Forall_forall. intros x Hx. apply U_known; auto.
        -- pose proof Hk as Hk'. rewrite (nf_keeps _ _ Enf) in Hk'. destruct (rw_split o Hk) as (E1 & _). destruct (rw_split o' Hk') as (E2 & _). exists (main o), (main o').
           split; [eapply in_rw; eauto; [rewrite E1; apply in_or_app; right; left; auto|unfold rootFlag in *; rewrite (proj2 (main_commit o)); auto]|].
           split; [eapply in_rw; eauto; [rewrite E2; apply in_or_app; right; left; auto|unfold rootFlag in *; rewrite (proj2 (main_commit o')); auto]|].
           split; [rewrite (proj1 (main_commit o)); auto|]. split; [apply nf_main; auto|]. apply Forall_forall. intros x Hx. eapply (spaced_known o o' (main o)); eauto.
  - right. destruct Hn as (o & o' & x & Ho & Ho' & Enf & Hrefs & Hk & Hws & Hx & ->). pose proof Hk as Hk'. rewrite (nf_keeps _ _ Enf) in Hk'. pose proof Hws as Hws'. rewrite (nf_isWs _ _ Enf) in Hws'.
    destruct (rw_split o Hk) as (E1 & _). destruct (rw_split o' Hk') as (E2 & _).
    assert (Hx' : In x (helpers o')) by (unfold helpers in *; rewrite <- (nf_name _ _ Enf), <- (nf_seqItems _ _ Enf); auto).
    exists x, x. split; [eapply in_rw; eauto; [rewrite E1; apply in_or_app; left; auto|eapply helper_commit; eauto]|]. split; [eapply in_rw; eauto; [rewrite E2; apply in_or_app; left; auto|eapply helper_commit; eauto]|].
    split; auto. split; auto. apply Forall_forall. intros y Hy. eapply (spaced_known o o' x); eauto.
Qed.
End KNOWN.
