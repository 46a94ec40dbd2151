(** The rules of the definitions after the whitespace is applied. *)
From Verif Require Import Base Utf8 IdSet Results Parser Build Syntax ListFacts SyntaxFacts InitWalk InitRun InitCore InitSpec Lang Grammar WsLang Rep Live LangGen Api WsObjs WsGen.

Definition ruleFlag (f : commitType) (r : rule) : bool :=
  match r with RChar _ _ _ => false | RSeq ct _ => hasFlag ct f | RChoice ct _ => hasFlag ct f end.

Record wsShape (R0 : string -> option rule) (wsN : list string) (root wsroot : string) (R1 : string -> option rule) : Prop := mkWsShape {
  sh_ws : R1 whitespaceName = Some (RChoice CAlias wsN);
  sh_root : R1 root = Some (RSeq CRoot [whitespaceItem; mkItem wsroot 1 1; whitespaceItem]);
  sh_body : forall n r, R0 n = Some r -> exists ct,
    R1 (if String.eqb n root then wsroot else n) = Some (match r with
      | RChar a b c => RChar a b c
      | RChoice _ opts => RChoice ct opts
      | RSeq c items => RSeq ct (if compact c then items else snd (wsItems n 0 items)) end) /\
    ((forall a b c, r <> RChar a b c) -> hasFlag ct CNoKeyword = ruleFlag CNoKeyword r /\
      hasFlag ct CAlias = (ruleFlag CAlias r || existsb (String.eqb n) wsN || String.eqb n root)%bool);
  sh_helper : forall n ct items x, R0 n = Some (RSeq ct items) -> compact ct = false -> In x (fst (wsItems n 0 items)) ->
    R1 (dName x) = Some (objRule x);
  sh_normal : forall n ct items, R0 n = Some (RSeq ct items) -> Forall normal items;
  sh_only : forall n, R1 n <> None -> n = whitespaceName \/ n = root \/
    (exists m, R0 m <> None /\ n = if String.eqb m root then wsroot else m) \/
    (exists m ct items x, R0 m = Some (RSeq ct items) /\ compact ct = false /\ In x (fst (wsItems m 0 items)) /\ n = dName x) }.

Section WSSHAPE.
Variables (l : list defobj) (rt : defobj).
Let N := rewritten l rt.
Let R0 := ruleIn (map objPair l).
Let R1 := ruleIn (map objPair N).
Let names := map dName l.
Let wsN := map dName (filter isWs l).
Let root := dName rt.
Let wsroot := patchName [root; "wsroot"%string].
Hypothesis Hnd : NoDup (map dName N).
Hypothesis Hndl : NoDup (map dName l).
Hypothesis Hrt : filter rootFlag (flat_map rw (filter (fun d => negb (isWs d)) l)) = [rt].
Hypothesis Hrefs : forall o x, In o l -> In x (refsOf o) -> In x names.
Hypothesis Hnorm : forall o oi items rs a1 a2 a3 a4 a5, In o l -> dKind o = KSeq oi items rs a1 a2 a3 a4 a5 -> Forall normal items.

Lemma isWs_named o : In o l -> existsb (String.eqb (dName o)) wsN = isWs o.
Proof.
  intros Ho. destruct (isWs o) eqn:E.
  - apply existsb_exists. exists (dName o). split; [|apply String.eqb_refl]. apply in_map, filter_In. auto.
  - apply Bool.not_true_is_false. intros X. apply existsb_exists in X. destruct X as (n & Hn & En). apply String.eqb_eq in En. subst n.
    apply in_map_iff in Hn. destruct Hn as (o' & En & Ho'). apply filter_In in Ho'. destruct Ho' as [Ho' Hw].
    assert (o' = o) by (apply (name_inj l) ; auto). congruence.
Qed.
Lemma flag_or_alias ct : hasFlag (N.lor ct CAlias) CAlias = true.
Proof. change CAlias with (2 ^ 1)%N. rewrite hasFlag_bit, N.lor_spec, N.pow2_bits_true, orb_true_r. auto. Qed.
Lemma wsrooted_alias d : isCharK (dKind d) = false -> hasFlag (dCommit (wsrooted d)) CAlias = true.
Proof. unfold wsrooted, setCommitType. destruct d as [n i c []]; simpl; try discriminate; intros _; apply flag_or_alias. Qed.
Lemma aliased_alias d : isCharK (dKind d) = false -> hasFlag (dCommit (aliased d)) CAlias = true.
Proof. unfold aliased, setCommitType. destruct d as [n i c []]; simpl; try discriminate; intros _; apply flag_or_alias. Qed.

Theorem ws_shape : wsShape R0 wsN root wsroot R1.
Proof.
  constructor.
  - apply N_ws; auto.
  - apply N_root; auto.
  - intros n r Hr. apply ruleIn_inv in Hr. destruct Hr as (o & Ho & <- & <-).
    rewrite (isWs_named o Ho).
    assert (Hk : (forall a b c, objRule o <> RChar a b c) -> isCharK (dKind o) = false /\ forall f, ruleFlag f (objRule o) = hasFlag (dCommit o) f).
    { unfold objRule. destruct (dKind o); simpl; intros H; auto. exfalso. eapply H; eauto. }
    destruct (String.eqb_spec (dName o) root) as [E|Hne].
    + destruct (rt_main l rt Hrt) as (r & Hr & Hrw & Er). destruct (main_in l r Hr Hrw) as (_ & Q2 & Q3).
      assert (o = r). { apply (name_inj l); auto. unfold root in E. rewrite Er, Q2 in E. auto. } subst r.
      assert (Q4 : isCharK (dKind o) = false -> isCharK (dKind rt) = false).
      { rewrite Er. unfold main. destruct (dKind o) eqn:Eo; simpl; auto; try discriminate; destruct (hasFlag (dCommit o) CNoWhitespace); simpl; rewrite ?Eo; auto. }
      exists (dCommit (wsrooted rt)). split.
      * unfold R1, N, wsroot, root. rewrite (N_wsroot l rt Hnd). unfold objRule. rewrite (proj2 (wsrooted_name rt)). rewrite Er.
        unfold main. unfold compact. unfold isWs in Hrw. destruct (dKind o) eqn:Eo; rewrite ?Eo; auto. rewrite Hrw. rewrite orb_false_r. destruct (hasFlag (dCommit o) CNoWhitespace); simpl; rewrite ?Eo; auto.
      * intros H. destruct (Hk H) as [Hc Hf]. rewrite !Hf, wsrooted_nokw, Er, Q3, <- Er. split; auto. rewrite wsrooted_alias by auto. rewrite orb_true_r. auto.
    + destruct (isWs o) eqn:Hw.
      * exists (dCommit (aliased o)). split.
        -- unfold R1, N. rewrite (N_wsdef l rt Hnd) by auto. unfold objRule. unfold aliased at 1 2. rewrite (proj1 (setCommit_kind _ o)). unfold compact. unfold isWs in Hw.
           destruct (dKind o); auto. rewrite Hw, orb_true_r. auto.
        -- intros H. destruct (Hk H) as [Hc Hf]. rewrite !Hf, aliased_nokw, aliased_alias by auto. rewrite orb_true_r. auto.
      * exists (dCommit (main o)). destruct (main_in l o Ho Hw) as (_ & M2 & M3). split.
        -- unfold R1, N. rewrite (N_main l rt Hnd Hndl Hrt) by auto. unfold objRule. rewrite M3. unfold compact. unfold isWs in Hw.
           unfold main. destruct (dKind o) eqn:Eo; rewrite ?Eo; auto. rewrite Hw, orb_false_r. destruct (hasFlag (dCommit o) CNoWhitespace); simpl; rewrite ?Eo; auto.
        -- intros H. destruct (Hk H) as [Hc Hf]. rewrite !Hf, M3, !orb_false_r. auto.
  - intros n ct items x Hr Hc Hx. apply ruleIn_inv in Hr. destruct Hr as (o & Ho & <- & Eo). apply (R1_in l rt Hnd). eapply helpers; eauto.
  - intros n ct items Hr. apply ruleIn_inv in Hr. destruct Hr as (o & Ho & <- & Eo). unfold objRule in Eo. destruct (dKind o) eqn:Ek; inversion Eo; subst. eapply Hnorm; eauto.
  - intros n Hn. destruct (R1 n) as [r|] eqn:Er; [|contradiction]. apply ruleIn_inv in Er. destruct Er as (o & Ho & <- & _).
    assert (Hsome : forall x, In x l -> R0 (dName x) <> None) by (intros x Hx; unfold R0; rewrite ruleIn_In; auto; discriminate).
    unfold N, rewritten in Ho. apply in_app_or in Ho. destruct Ho as [Ho|Ho]; [|apply in_app_or in Ho; destruct Ho as [Ho|Ho]].
    + apply filter_In in Ho. destruct Ho as [Ho Hr]. apply in_flat_map in Ho. destruct Ho as (d & Hd & Ho). apply filter_In in Hd. destruct Hd as [Hd Hw].
      apply negb_true_iff in Hw. apply negb_true_iff in Hr.
      assert (Hmain : o = main d -> exists m, R0 m <> None /\ dName o = if String.eqb m root then wsroot else m).
      { intros ->. exists (dName d). split; auto. destruct (main_in l d Hd Hw) as (_ & M2 & M3). rewrite M2. destruct (String.eqb_spec (dName d) root) as [E|]; auto.
        exfalso. apply (root_iff l rt Hndl Hrt d Hd Hw) in E. unfold rootFlag in *. rewrite M3 in Hr. congruence. }
      destruct (keeps d) eqn:Ek.
      * rewrite rw_keeps in Ho by auto. destruct Ho as [<-|[]]. right; right; left. apply Hmain. unfold main, keeps in *. destruct (dKind d) eqn:Eo; auto. rewrite Ek. auto.
      * destruct (rw_seq d Ek) as (oi & items & rs & a1 & a2 & a3 & a4 & a5 & E & Hf & Erw). rewrite Erw in Ho. apply in_app_or in Ho. destruct Ho as [Ho|[<-|[]]].
        -- right; right; right. exists (dName d), (dCommit d), items, o. split; [|split; [|auto]].
           ++ unfold R0. rewrite ruleIn_In by auto. unfold objRule. rewrite E. auto.
           ++ unfold compact. unfold isWs in Hw. rewrite Hf, Hw. auto.
        -- right; right; left. apply Hmain. unfold main. rewrite E, Hf. auto.
    + apply in_map_iff in Ho. destruct Ho as (d & <- & Hd). apply filter_In in Hd. destruct Hd as [Hd Hw]. right; right; left. exists (dName d). split; auto.
      pose proof (ws_not_root l rt Hndl Hrt d Hd Hw) as Hne. destruct (String.eqb_spec (dName d) root); [contradiction|]. apply setCommit_kind.
    + destruct Ho as [<-|[<-|[<-|[]]]]; [left; auto| |right; left; auto]. right; right; left. exists root. rewrite String.eqb_refl. split; [|apply wsrooted_name].
      destruct (rt_main l rt Hrt) as (r' & Hr & Hrw & E). destruct (main_in l r' Hr Hrw) as (_ & Q2 & _). unfold root. rewrite E, Q2. auto.
Qed.
End WSSHAPE.
