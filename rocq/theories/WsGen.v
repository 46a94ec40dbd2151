(** The language of the rewritten definitions is the whitespace language of the definitions. *)
From Verif Require Import Base Utf8 IdSet Results Parser Build Syntax ListFacts SyntaxFacts InitWalk InitRun InitCore InitSpec Lang Grammar WsLang Rep Live LangGen Api WsObjs.

Lemma ruleIn_In O o : NoDup (map dName O) -> In o O -> ruleIn (map objPair O) (dName o) = Some (objRule o).
Proof.
  induction O as [|x O IH]; simpl; intros Hn Hi; [destruct Hi|]. inversion Hn; subst. destruct Hi as [->|Hi].
  - rewrite String.eqb_refl. auto.
  - destruct (String.eqb_spec (dName x) (dName o)) as [E|]; auto. exfalso. apply H1. rewrite E. apply in_map; auto.
Qed.
Lemma ruleIn_inv O n r : ruleIn (map objPair O) n = Some r -> exists o, In o O /\ dName o = n /\ objRule o = r.
Proof.
  induction O as [|x O IH]; simpl; [discriminate|]. destruct (String.eqb_spec (dName x) n).
  - intros H; inversion H; subst. exists x. auto.
  - intros H. destruct (IH H) as (o & Ho & H1). exists o. auto.
Qed.

(** items and repetitions over any predicate *)
Inductive repOf (P : string -> list rune -> Prop) (n : string) : nat -> list rune -> Prop :=
| repOf_0 : repOf P n 0 []
| repOf_S k u v : P n u -> repOf P n k v -> repOf P n (S k) (u ++ v).
Inductive itemsOf (P : string -> list rune -> Prop) : list seqItem -> list rune -> Prop :=
| itemsOf_nil : itemsOf P [] []
| itemsOf_cons it items k u v : quantity (siMin it) (siMax it) k -> repOf P (siName it) k u -> itemsOf P items v -> itemsOf P (it :: items) (u ++ v).
Lemma gen_rect' (R : string -> option rule) K (P : string -> list rune -> Prop) :
  (forall n cn ch rs r, R n = Some (RChar cn ch rs) -> inClass cn ch rs r -> P n [r]) ->
  (forall n ct items w, R n = Some (RSeq ct items) -> (hasFlag ct CNoKeyword = true -> ~ In w K) -> itemsOf P items w -> P n w) ->
  (forall n ct options o w, R n = Some (RChoice ct options) -> In o options -> P o w -> P n w) ->
  forall n w, gen R K n w -> P n w.
Proof.
  intros H1 H2 H3.
  assert (Hm : (forall n w, gen R K n w -> P n w) /\ (forall its w, genItems R K its w -> itemsOf P its w) /\ (forall n k w, genRep R K n k w -> repOf P n k w)).
  { apply gen_mutind; intros; eauto; try (econstructor; eauto; fail). }
  apply Hm.
Qed.

Definition normal (it : seqItem) : Prop := (0 <= siMin it)%Z /\ (siMax it = -1 \/ 1 <= siMax it)%Z.
Definition refsOf (d : defobj) : list string :=
  match dKind d with KChar _ _ _ => [] | KSeq _ items _ _ _ _ _ _ => map siName items | KChoice options _ _ _ _ => options end.

Lemma rw_keeps d : keeps d = true -> rw d = [d].
Proof. unfold keeps, rw. destruct d as [n i c k]; simpl. destruct k; auto. intros ->. auto. Qed.
Lemma rw_seq d : keeps d = false -> exists oi items rs a1 a2 a3 a4 a5, dKind d = KSeq oi items rs a1 a2 a3 a4 a5 /\
  hasFlag (dCommit d) CNoWhitespace = false /\ rw d = fst (wsItems (dName d) 0 items) ++ [newSequence (dName d) (dCommit d) (snd (wsItems (dName d) 0 items))].
Proof.
  unfold keeps, rw. destruct d as [n i c k]; simpl. destruct k; simpl; try discriminate. intros Hf. rewrite Hf.
  unfold applyWhitespaceToSeq. destruct (wsItems n 0 items) eqn:E. simpl. do 8 eexists. split; [reflexivity|]. rewrite E. simpl. split; auto.
Qed.
(** the helpers carry no flags but alias *)
Lemma wsItems_alias nm items : forall i o, In o (fst (wsItems nm i items)) -> dCommit o = CAlias /\ exists its, o = newSequence (dName o) CAlias its.
Proof.
  induction items as [|it items IH]; intros i o; cbn [wsItems]; [intros []|].
  destruct (wsItems nm (S i) items) as [defs rest] eqn:E. specialize (IH (S i)). rewrite E in IH. simpl in IH.
  destruct (siMax it =? 1)%Z; [apply IH|]. destruct (0 <? siMin it)%Z; simpl.
  - intros [<-|Ho]; [split; eauto; eexists; reflexivity|auto].
  - intros [<-|[<-|Ho]]; [split; eauto; eexists; reflexivity|split; eauto; eexists; reflexivity|auto].
Qed.

Section WSGEN.
Variables (l : list defobj) (rt : defobj) (K : list (list rune)).
Let N := rewritten l rt.
Let R0 := ruleIn (map objPair l).
Let R1 := ruleIn (map objPair N).
Let names := map dName l.
Let wsN := map dName (filter isWs l).
Let root := dName rt.
Let wsroot := patchName [root; "wsroot"%string].
Hypothesis Hnd : NoDup (map dName N).
Hypothesis Hndl : NoDup (map dName l).
Hypothesis Hrt : filter rootFlag (flat_map rw (filter (fun d => negb (isWs d)) l)) = [rt].
Hypothesis Hrefs : forall o x, In o l -> In x (refsOf o) -> In x names.
Hypothesis Hnorm : forall o oi items rs a1 a2 a3 a4 a5, In o l -> dKind o = KSeq oi items rs a1 a2 a3 a4 a5 -> Forall normal items.

Notation W := (wgen R0 K wsN root).
Notation B := (wbody R0 K wsN root).
Notation S_ := (wspace R0 K wsN root).

Lemma R1_in o : In o N -> R1 (dName o) = Some (objRule o).
Proof. apply ruleIn_In; auto. Qed.
Lemma R1_new n ct items : In (newSequence n ct items) N -> R1 n = Some (RSeq ct items).
Proof. intros H. apply (R1_in _ H). Qed.
Lemma R0_in o : In o l -> R0 (dName o) = Some (objRule o).
Proof. apply ruleIn_In; auto. Qed.

Lemma rt_true : rootFlag rt = true /\ In rt (flat_map rw (filter (fun d => negb (isWs d)) l)).
Proof. assert (X : In rt [rt]) by (left; auto). rewrite <- Hrt in X. apply filter_In in X. tauto. Qed.
Lemma root_unique o : In o (flat_map rw (filter (fun d => negb (isWs d)) l)) -> rootFlag o = true -> o = rt.
Proof. intros H1 H2. assert (X : In o [rt]) by (rewrite <- Hrt; apply filter_In; auto). destruct X as [|[]]; auto. Qed.
(** the main object of a definition after rewriting *)
Definition main (o : defobj) : defobj :=
  match dKind o with
  | KSeq _ items _ _ _ _ _ _ => if hasFlag (dCommit o) CNoWhitespace then o else newSequence (dName o) (dCommit o) (snd (wsItems (dName o) 0 items))
  | _ => o
  end.
Lemma main_in o : In o l -> isWs o = false -> In (main o) (flat_map rw (filter (fun d => negb (isWs d)) l)) /\ dName (main o) = dName o /\ dCommit (main o) = dCommit o.
Proof.
  intros Ho Hw.
  assert (X : In (main o) (rw o) /\ dName (main o) = dName o /\ dCommit (main o) = dCommit o).
  { destruct (keeps o) eqn:Ek.
    - rewrite rw_keeps by auto. unfold main, keeps in *. destruct (dKind o) eqn:Eo; simpl; auto. rewrite Ek. auto.
    - destruct (rw_seq o Ek) as (oi & items & rs & a1 & a2 & a3 & a4 & a5 & E & Hf & ->). unfold main. rewrite E, Hf. split; [apply in_or_app; right; left; auto|auto]. }
  destruct X as (X & Y & Z). split; auto. apply in_flat_map. exists o. split; auto. apply filter_In. rewrite Hw. auto.
Qed.
Lemma rt_main : exists o, In o l /\ isWs o = false /\ rt = main o.
Proof using Hrt.
  clear Hnd Hndl Hrefs Hnorm.
  destruct rt_true as [Ht Hi]. apply in_flat_map in Hi. destruct Hi as (o & Ho & Hi). apply filter_In in Ho. destruct Ho as [Ho Hw]. apply negb_true_iff in Hw.
  exists o. split; auto. split; auto. destruct (keeps o) eqn:Ek.
  - rewrite rw_keeps in Hi by auto. destruct Hi as [<-|[]]. unfold main, keeps in *. destruct (dKind o) eqn:Eo; auto. rewrite Ek. auto.
  - destruct (rw_seq o Ek) as (oi & items & rs & a1 & a2 & a3 & a4 & a5 & E & Hf & Er). rewrite Er in Hi. apply in_app_or in Hi. destruct Hi as [Hi|[<-|[]]].
    + apply wsItems_alias in Hi. destruct Hi as [Hc _]. unfold rootFlag in Ht. rewrite Hc in Ht. discriminate.
    + unfold main. rewrite E, Hf. auto.
Qed.
Lemma name_inj o o' : In o l -> In o' l -> dName o = dName o' -> o = o'.
Proof.
  intros H1 H2 E. assert (Hg : forall l, NoDup (map dName l) -> In o l -> In o' l -> o = o').
  { clear - E. intros l0. induction l0 as [|x l0 IH]; simpl; intros Hn H1 H2; [destruct H1|]. inversion Hn; subst.
    destruct H1 as [->|H1], H2 as [->|H2]; auto; exfalso; apply H3; [rewrite E|rewrite <- E]; apply in_map; auto. }
  apply (Hg l); auto.
Qed.
Lemma root_iff o : In o l -> isWs o = false -> (rootFlag o = true <-> dName o = root).
Proof.
  intros Ho Hw. destruct (main_in o Ho Hw) as (M1 & M2 & M3). destruct rt_main as (r & Hr & Hrw & Er). destruct (main_in r Hr Hrw) as (Q1 & Q2 & Q3).
  split; intros H.
  - unfold root. rewrite <- (root_unique (main o)); auto. unfold rootFlag. rewrite M3. auto.
  - unfold root in H. rewrite Er, Q2 in H. apply name_inj in H; auto. subst o. unfold rootFlag. rewrite <- Q3, <- Er. apply rt_true.
Qed.
Lemma ws_not_root o : In o l -> isWs o = true -> dName o <> root.
Proof.
  intros Ho Hw E. destruct rt_main as (r & Hr & Hrw & Er). destruct (main_in r Hr Hrw) as (_ & Q2 & _).
  unfold root in E. rewrite Er, Q2 in E. apply name_inj in E; auto. congruence.
Qed.

(** the objects of the rewritten list *)
Lemma N_ws : R1 whitespaceName = Some (RChoice CAlias wsN).
Proof. apply (R1_in (newChoice whitespaceName CAlias wsN)). unfold N, rewritten. apply in_or_app; right. apply in_or_app; right. left. auto. Qed.
Lemma N_root : R1 root = Some (RSeq CRoot [whitespaceItem; mkItem wsroot 1 1; whitespaceItem]).
Proof. apply R1_new. unfold N, rewritten. apply in_or_app; right. apply in_or_app; right. right; right; left. auto. Qed.
Lemma wsrooted_name d : dName (wsrooted d) = patchName [dName d; "wsroot"%string] /\ dKind (wsrooted d) = dKind d.
Proof. unfold wsrooted. destruct (setCommit_kind (N.lor (N.ldiff (dCommit d) CRoot) CAlias) (setName (patchName [dName d; "wsroot"%string]) d)) as (-> & -> & _). auto. Qed.
Lemma wsrooted_nokw d : hasFlag (dCommit (wsrooted d)) CNoKeyword = hasFlag (dCommit d) CNoKeyword.
Proof.
  unfold wsrooted, setCommitType. destruct (dKind (setName _ d)); simpl; auto.
  - change CAlias with (2 ^ 1)%N. change CNoKeyword with (2 ^ 5)%N. change CRoot with (2 ^ 7)%N. rewrite !hasFlag_bit, N.lor_spec, N.ldiff_spec. rewrite (N.pow2_bits_false 1 5), (N.pow2_bits_false 7 5) by discriminate. rewrite andb_true_r, orb_false_r. auto.
  - change CAlias with (2 ^ 1)%N. change CNoKeyword with (2 ^ 5)%N. change CRoot with (2 ^ 7)%N. rewrite !hasFlag_bit, N.lor_spec, N.ldiff_spec. rewrite (N.pow2_bits_false 1 5), (N.pow2_bits_false 7 5) by discriminate. rewrite andb_true_r, orb_false_r. auto.
Qed.
Lemma N_wsroot : R1 wsroot = Some (objRule (wsrooted rt)).
Proof.
  unfold wsroot, root. rewrite <- (proj1 (wsrooted_name rt)). apply R1_in. unfold N, rewritten. apply in_or_app; right. apply in_or_app; right. right; left. auto.
Qed.
Lemma N_wsdef o : In o l -> isWs o = true -> R1 (dName o) = Some (objRule (aliased o)).
Proof.
  intros Ho Hw. assert (E : dName (aliased o) = dName o) by apply setCommit_kind. rewrite <- E. apply R1_in. unfold N, rewritten. apply in_or_app; right. apply in_or_app; left.
  apply in_map. apply filter_In. auto.
Qed.
Lemma aliased_nokw d : hasFlag (dCommit (aliased d)) CNoKeyword = hasFlag (dCommit d) CNoKeyword.
Proof.
  unfold aliased, setCommitType. destruct (dKind d); simpl; auto; change CAlias with (2 ^ 1)%N; change CNoKeyword with (2 ^ 5)%N; apply flag_lor_other; discriminate.
Qed.
Lemma N_main o : In o l -> isWs o = false -> dName o <> root -> R1 (dName o) = Some (objRule (main o)).
Proof.
  intros Ho Hw Hne. destruct (main_in o Ho Hw) as (M1 & M2 & M3). rewrite <- M2. apply R1_in. unfold N, rewritten. apply in_or_app; left.
  apply filter_In. split; auto. apply negb_true_iff. destruct (rootFlag (main o)) eqn:E; auto. exfalso. apply Hne. apply root_iff; auto. unfold rootFlag in *. rewrite <- M3. auto.
Qed.
Lemma N_helper o oi items rs a1 a2 a3 a4 a5 x : In o l -> isWs o = false -> dKind o = KSeq oi items rs a1 a2 a3 a4 a5 -> hasFlag (dCommit o) CNoWhitespace = false ->
  In x (fst (wsItems (dName o) 0 items)) -> In x N.
Proof.
  intros Ho Hw Ek Hf Hx. unfold N, rewritten. apply in_or_app; left. apply filter_In. split.
  - apply in_flat_map. exists o. split; [apply filter_In; rewrite Hw; auto|]. destruct o as [nm id ct k]; simpl in *. subst k. simpl. rewrite Hf.
    unfold applyWhitespaceToSeq. destruct (wsItems nm 0 items) eqn:E. simpl in *. apply in_or_app; auto.
  - apply wsItems_alias in Hx. destruct Hx as [Hc _]. unfold rootFlag. rewrite Hc. reflexivity.
Qed.

(** ** from the specification to the rewritten rules *)
Notation G := (gen R1 K).
Definition bodyName (n : string) : string := if String.eqb n root then wsroot else n.

Lemma gen1 n u : G n u -> genRep R1 K n 1 u.
Proof. intros H. rewrite <- (app_nil_r u). constructor; auto. constructor. Qed.
Lemma quantity1 k : quantity 1 1 k <-> k = 1.
Proof. unfold quantity. lia. Qed.
Lemma quantity_ws k : quantity (siMin whitespaceItem) (siMax whitespaceItem) k.
Proof. simpl. unfold quantity. lia. Qed.
Lemma genItems_app a b u v : genItems R1 K a u -> genItems R1 K b v -> genItems R1 K (a ++ b) (u ++ v).
Proof. intros H Hb. induction H; simpl; auto. rewrite <- app_assoc. econstructor; eauto. Qed.
Lemma items1 n u : G n u -> genItems R1 K [mkItem n 1 1] u.
Proof. intros H. rewrite <- (app_nil_r u). apply genItems_cons with (k := 1); [apply quantity1; auto|apply gen1; auto|constructor]. Qed.
Lemma itemsW k u : genRep R1 K whitespaceName k u -> genItems R1 K [whitespaceItem] u.
Proof. intros H. rewrite <- (app_nil_r u). apply genItems_cons with (k := k); [apply quantity_ws|auto|constructor]. Qed.
Lemma itemsQ n mn mx k u : quantity mn mx k -> genRep R1 K n k u -> genItems R1 K [mkItem n mn mx] u.
Proof. intros Hq H. rewrite <- (app_nil_r u). apply genItems_cons with (k := k); auto. constructor. Qed.

Definition restShape (n x : string) : Prop := R1 n = Some (RSeq CAlias [whitespaceItem; mkItem x 1 1]).
Lemma rest_gen n x k s u : restShape n x -> genRep R1 K whitespaceName k s -> G x u -> G n (s ++ u).
Proof.
  intros Hr Hs Hu. eapply gen_seq; [exact Hr|discriminate|]. apply (genItems_app [whitespaceItem] [mkItem x 1 1]); [eapply itemsW; eauto|apply items1; auto].
Qed.

Lemma whole n r : R0 n = Some r -> exists o, In o l /\ dName o = n /\ objRule o = r.
Proof. apply ruleIn_inv. Qed.
Lemma body_rule o : In o l -> exists ct, R1 (bodyName (dName o)) = Some (match objRule o with
   | RChar a b c => RChar a b c | RChoice _ opts => RChoice ct opts
   | RSeq c items => RSeq ct (if compact c then items else snd (wsItems (dName o) 0 items)) end) /\
   hasFlag ct CNoKeyword = hasFlag (dCommit o) CNoKeyword.
Proof.
  intros Ho. unfold bodyName. destruct (String.eqb_spec (dName o) root) as [E|Hne].
  - destruct rt_main as (r & Hr & Hrw & Er). destruct (main_in r Hr Hrw) as (_ & Q2 & Q3).
    assert (o = r). { apply name_inj; auto. unfold root in E. rewrite Er, Q2 in E. auto. } subst r.
    exists (dCommit (wsrooted rt)). rewrite N_wsroot. unfold objRule. rewrite (proj2 (wsrooted_name rt)), wsrooted_nokw. rewrite Er. rewrite Q3. split; auto.
    unfold main. unfold compact. unfold isWs in Hrw. destruct (dKind o) eqn:Eo; rewrite ?Eo; auto. rewrite Hrw. rewrite orb_false_r. destruct (hasFlag (dCommit o) CNoWhitespace); simpl; rewrite ?Eo; auto.
  - destruct (isWs o) eqn:Hw.
    + exists (dCommit (aliased o)). rewrite N_wsdef by auto. rewrite aliased_nokw. split; auto. unfold objRule. unfold aliased at 1 2. rewrite (proj1 (setCommit_kind _ o)). unfold compact. unfold isWs in Hw.
      destruct (dKind o); auto. rewrite Hw, orb_true_r. auto.
    + exists (dCommit (main o)). destruct (main_in o Ho Hw) as (_ & M2 & M3). rewrite N_main by auto. rewrite M3. split; auto. unfold objRule. rewrite M3. unfold compact. unfold isWs in Hw.
      unfold main. destruct (dKind o) eqn:Eo; rewrite ?Eo; auto. rewrite Hw, orb_false_r. destruct (hasFlag (dCommit o) CNoWhitespace); simpl; rewrite ?Eo; auto.
Qed.
Lemma helpers o ct items x : In o l -> objRule o = RSeq ct items -> compact ct = false -> In x (fst (wsItems (dName o) 0 items)) -> In x N.
Proof.
  intros Ho Er Hc Hx. unfold objRule in Er. destruct (dKind o) eqn:Ek; inversion Er; subst. unfold compact in Hc. apply orb_false_iff in Hc. destruct Hc.
  eapply N_helper; eauto.
Qed.

Theorem spec_to_gen :
  (forall n w, W n w -> G n w) /\
  (forall n w, B n w -> G (bodyName n) w) /\
  (forall its w, witems R0 K wsN root its w -> genItems R1 K its w) /\
  (forall n k w, wrep R0 K wsN root n k w -> genRep R1 K n k w) /\
  (forall first its w, wspaced R0 K wsN root first its w -> Forall normal its -> forall nm i, first = (i =? 0) ->
     (forall x, In x (fst (wsItems nm i its)) -> In x N) -> genItems R1 K (snd (wsItems nm i its)) w) /\
  (forall n k w, wmore R0 K wsN root n k w -> (k = 0 -> w = []) /\ forall rn, restShape rn n -> genRep R1 K rn k w) /\
  (forall w, S_ w -> exists k, genRep R1 K whitespaceName k w).
Proof.
  apply wgen_mutind.
  - intros u v w _ [k1 H1] _ H2 _ [k2 H3]. unfold bodyName in H2. rewrite String.eqb_refl in H2.
    eapply gen_seq; [apply N_root|discriminate|]. apply (genItems_app [whitespaceItem]); [eapply itemsW; eauto|].
    apply (genItems_app [mkItem wsroot 1 1]); [apply items1; auto|eapply itemsW; eauto].
  - intros n w Hne _ H. unfold bodyName in H. destruct (String.eqb_spec n root); [contradiction|auto].
  - intros n cn ch rs r Hr Hi. destruct (whole _ _ Hr) as (o & Ho & <- & Eo). destruct (body_rule o Ho) as (ct & Hb & _). rewrite Eo in Hb.
    eapply gen_char; eauto.
  - intros n ct items w Hr Hc Hk _ H. destruct (whole _ _ Hr) as (o & Ho & <- & Eo). destruct (body_rule o Ho) as (ct' & Hb & Hf). rewrite Eo, Hc in Hb.
    eapply gen_seq; eauto. rewrite Hf. intros X. apply Hk. rewrite <- X. unfold objRule in Eo. destruct (dKind o); inversion Eo; auto.
  - intros n ct items w Hr Hc Hk _ H. destruct (whole _ _ Hr) as (o & Ho & <- & Eo). destruct (body_rule o Ho) as (ct' & Hb & Hf). rewrite Eo, Hc in Hb.
    eapply gen_seq; eauto.
    + rewrite Hf. intros X. apply Hk. rewrite <- X. unfold objRule in Eo. destruct (dKind o); inversion Eo; auto.
    + apply H; auto; [|intros x Hx; eapply helpers; eauto]. unfold objRule in Eo. destruct (dKind o) eqn:Ek; inversion Eo; subst. eapply Hnorm; eauto.
  - intros n ct options o w Hr Hin _ H. destruct (whole _ _ Hr) as (o' & Ho & <- & Eo). destruct (body_rule o' Ho) as (ct' & Hb & _). rewrite Eo in Hb.
    eapply gen_choice; eauto.
  - constructor.
  - intros; econstructor; eauto.
  - constructor.
  - intros; econstructor; eauto.
  - intros. constructor.
  - (* the item does not occur *)
    intros first it items v Hq _ IH Hn nm i Hf Hh. inversion Hn as [|x y [N1 N2] N3]; subst. cbn [wsItems] in *.
    destruct (wsItems nm (S i) items) as [defs rest] eqn:E.
    assert (IH' : (forall x, In x defs -> In x N) -> genItems R1 K rest v). { specialize (IH N3 nm (S i) eq_refl). rewrite E in IH. auto. }
    destruct (Z.eqb_spec (siMax it) 1) as [E1|Hne1]; simpl in *.
    + change v with ([] ++ ([] ++ v)). apply genItems_app; [destruct (0 <? i); [apply (itemsW 0); constructor|constructor]|]. apply genItems_cons with (k := 0); auto. constructor.
    + destruct (Z.ltb_spec 0 (siMin it)); [exfalso; revert Hq; unfold quantity; lia|]. simpl in *.
      change v with ([] ++ v). apply genItems_cons with (k := 0); [simpl; unfold quantity; lia|constructor|apply IH'; intros; apply Hh; auto].
  - (* whitespace left behind *)
    intros it items u v Hq E1 _ [k Hs] _ IH Hn nm i Hf Hh. inversion Hn as [|x y [N1 N2] N3]; subst. cbn [wsItems] in *.
    destruct (wsItems nm (S i) items) as [defs rest] eqn:E. rewrite E1 in *. simpl in *.
    specialize (IH N3 nm (S i) eq_refl). rewrite E in IH. simpl in IH.
    destruct (Nat.eqb_spec i 0); [discriminate|]. destruct (Nat.ltb_spec 0 i); [|lia]. simpl.
    apply genItems_cons with (k := k); [apply quantity_ws|auto|]. change v with ([] ++ v). apply genItems_cons with (k := 0); [rewrite E1; auto|constructor|auto].
  - (* first item *)
    intros it items k u v w Hq _ Hu _ Hv _ IH Hn nm i Hf Hh. inversion Hn as [|x y [N1 N2] N3]; subst. cbn [wsItems] in *.
    destruct (wsItems nm (S i) items) as [defs rest] eqn:E. specialize (IH N3 nm (S i) eq_refl). rewrite E in IH. simpl in IH.
    symmetry in Hf. apply Nat.eqb_eq in Hf. subst i. simpl Nat.ltb in *. cbv iota in *.
    destruct (Z.eqb_spec (siMax it) 1) as [E1|Hne1]; simpl in *.
    + assert (k = 0) by (revert Hq; unfold quantity; lia). subst k. destruct Hv as [-> _]; auto. simpl. apply genItems_cons with (k := 1); auto. apply gen1; auto.
    + destruct Hv as [_ Hv]. destruct (Z.ltb_spec 0 (siMin it)) as [Hm|Hm]; simpl in *.
      * assert (Hr : restShape (patchName [siName it; nm; "wsrest"%string; itoaNat 0]) (siName it)) by (apply R1_new, Hh; left; auto).
        apply (genItems_app [mkItem (siName it) 1 1]); [apply items1; auto|]. apply genItems_cons with (k := k); [simpl|apply Hv, Hr|apply IH; auto].
        revert Hq. unfold quantity. destruct (Z.ltb_spec 1 (siMax it)); lia.
      * assert (Hr : restShape (patchName [siName it; nm; "wsrest"%string; itoaNat 0]) (siName it)) by (apply R1_new, Hh; left; auto).
        rewrite app_assoc. apply genItems_cons with (k := 1); [simpl; unfold quantity; lia| |apply IH; auto]. apply gen1.
        eapply gen_seq; [apply R1_new, Hh; right; left; reflexivity|discriminate|].
        apply (genItems_app [mkItem (siName it) 1 1]); [apply items1; auto|]. eapply itemsQ; [|apply Hv, Hr].
        revert Hq. unfold quantity. destruct (Z.ltb_spec 1 (siMax it)); lia.
  - (* next items *)
    intros it items k s u v w Hq _ [j Hs] _ Hu _ Hv _ IH Hn nm i Hf Hh. inversion Hn as [|x y [N1 N2] N3]; subst. cbn [wsItems] in *.
    destruct (wsItems nm (S i) items) as [defs rest] eqn:E. specialize (IH N3 nm (S i) eq_refl). rewrite E in IH. simpl in IH.
    destruct (Nat.eqb_spec i 0); [discriminate|]. destruct (Nat.ltb_spec 0 i); [|lia]. 
    destruct (Z.eqb_spec (siMax it) 1) as [E1|Hne1]; simpl in *.
    + assert (k = 0) by (revert Hq; unfold quantity; lia). subst k. destruct Hv as [-> _]; auto. simpl.
      apply (genItems_app [whitespaceItem]); [eapply itemsW; eauto|]. apply genItems_cons with (k := 1); auto. apply gen1; auto.
    + destruct Hv as [_ Hv]. destruct (Z.ltb_spec 0 (siMin it)) as [Hm|Hm]; simpl in *.
      * assert (Hr : restShape (patchName [siName it; nm; "wsrest"%string; itoaNat i]) (siName it)) by (apply R1_new, Hh; left; auto).
        apply (genItems_app [whitespaceItem]); [eapply itemsW; eauto|].
        apply (genItems_app [mkItem (siName it) 1 1]); [apply items1; auto|]. apply genItems_cons with (k := k); [simpl|apply Hv, Hr|apply IH; auto].
        revert Hq. unfold quantity. destruct (Z.ltb_spec 1 (siMax it)); lia.
      * assert (Hr : restShape (patchName [siName it; nm; "wsrest"%string; itoaNat i]) (siName it)) by (apply R1_new, Hh; left; auto).
        replace (s ++ u ++ v ++ w) with ((s ++ u ++ v) ++ w) by (rewrite !app_assoc; auto). apply genItems_cons with (k := 1); [simpl; unfold quantity; lia| |apply IH; auto]. apply gen1.
        eapply gen_seq; [apply R1_new, Hh; right; left; reflexivity|discriminate|].
        apply (genItems_app [whitespaceItem]); [eapply itemsW; eauto|].
        apply (genItems_app [mkItem (siName it) 1 1]); [apply items1; auto|]. eapply itemsQ; [|apply Hv, Hr].
        revert Hq. unfold quantity. destruct (Z.ltb_spec 1 (siMax it)); lia.
  - split; auto. intros; constructor.
  - intros n k s u v _ [j Hs] _ Hu _ [_ Hv]. split; [discriminate|]. intros rn Hr. rewrite app_assoc. constructor; auto. eapply rest_gen; eauto.
  - exists 0. constructor.
  - intros n u v Hin _ Hu _ [k Hv]. exists (S k). constructor; auto. eapply gen_choice; [apply N_ws|eauto|auto].
Qed.

(** ** from the rewritten rules to the specification *)
Definition interp (n : string) (w : list rune) : Prop :=
  (In n names -> W n w) /\
  (n = wsroot -> B root w) /\
  (n = whitespaceName -> exists m, In m wsN /\ W m w) /\
  (forall x, In x names -> restShape n x -> exists s u, w = s ++ u /\ S_ s /\ W x u) /\
  (forall x rn mn mx lead, In x names -> restShape rn x -> (lead = [] \/ lead = [whitespaceItem]) ->
     R1 n = Some (RSeq CAlias (lead ++ [mkItem x 1 1; mkItem rn mn mx])) ->
     exists s u k v, w = s ++ u ++ v /\ (lead = [] -> s = []) /\ S_ s /\ W x u /\ quantity mn mx k /\ wmore R0 K wsN root x k v).

Lemma repOf_1 P n k u : quantity 1 1 k -> repOf P n k u -> P n u.
Proof. rewrite quantity1. intros -> H. inversion H; subst. inversion H2; subst. rewrite app_nil_r. auto. Qed.
Lemma repOf_ws k u : repOf interp whitespaceName k u -> S_ u.
Proof.
  induction 1; [constructor|]. destruct H as (_ & _ & H & _). destruct (H eq_refl) as (m & Hm & Hw). econstructor; eauto.
Qed.
Lemma repOf_more rn x k u : restShape rn x -> In x names -> repOf interp rn k u -> wmore R0 K wsN root x k u.
Proof.
  intros Hr Hx. induction 1; [constructor|]. destruct H as (_ & _ & _ & H & _). destruct (H x Hx Hr) as (s & u' & -> & Hs & Hu). rewrite <- app_assoc. constructor; auto.
Qed.
Lemma repOf_rep x k u : In x names -> repOf interp x k u -> wrep R0 K wsN root x k u.
Proof. intros Hx. induction 1; constructor; auto. apply H; auto. Qed.
Lemma repOf_W x k u : In x names -> repOf interp x k u -> (k = 0 /\ u = []) \/ exists k' a b, k = S k' /\ u = a ++ b /\ W x a /\ repOf interp x k' b.
Proof. intros Hx H. inversion H; subst; auto. right. exists k0, u0, v. split; auto. split; auto. split; auto. apply H0; auto. Qed.

Lemma items_compact its w : (forall x, In x (map siName its) -> In x names) -> itemsOf interp its w -> witems R0 K wsN root its w.
Proof.
  intros Hx H. induction H; [constructor|]. econstructor; eauto; [apply repOf_rep; auto; apply Hx; left; auto|]. apply IHitemsOf. intros; apply Hx; right; auto.
Qed.
Lemma itemsOf_app P a b w : itemsOf P (a ++ b) w -> exists u v, w = u ++ v /\ itemsOf P a u /\ itemsOf P b v.
Proof.
  revert w. induction a as [|it a IH]; intros w H; simpl in H; [exists [], w; repeat split; auto; constructor|].
  inversion H; subst. destruct (IH _ H5) as (u1 & v1 & -> & H1 & Hb). exists (u ++ u1), v1. rewrite app_assoc. split; auto. split; auto. econstructor; eauto.
Qed.
Lemma itemsOf_one P it w : itemsOf P [it] w -> exists k, quantity (siMin it) (siMax it) k /\ repOf P (siName it) k w.
Proof. intros H. inversion H; subst. inversion H5; subst. rewrite app_nil_r. eauto. Qed.
Lemma items_ws w : itemsOf interp [whitespaceItem] w -> S_ w.
Proof. intros H. apply itemsOf_one in H. destruct H as (k & _ & H). eapply repOf_ws; eauto. Qed.

Lemma items_spaced its : forall nm i w, Forall normal its -> (forall x, In x (map siName its) -> In x names) ->
  (forall x, In x (fst (wsItems nm i its)) -> In x N) ->
  itemsOf interp (snd (wsItems nm i its)) w -> wspaced R0 K wsN root (i =? 0) its w.
Proof.
  induction its as [|it items IH]; intros nm i w Hn Hx Hh H; cbn [wsItems] in *; [inversion H; subst; constructor|].
  inversion Hn as [|? ? [N1 N2] N3]; subst. destruct (wsItems nm (S i) items) as [defs rest] eqn:E.
  assert (IH' : forall v, (forall x, In x defs -> In x N) -> itemsOf interp rest v -> wspaced R0 K wsN root false items v).
  { intros v Hd Hv. apply (IH nm (S i)); auto; [intros; apply Hx; right; auto|rewrite E; auto|rewrite E; auto]. }
  assert (Hxi : In (siName it) names) by (apply Hx; left; auto). clear IH Hx.
  assert (Hlead : forall u, itemsOf interp (if 0 <? i then [whitespaceItem] else []) u -> S_ u /\ ((i =? 0) = true -> u = [])).
  { intros u Hu. destruct (Nat.ltb_spec 0 i).
    - split; [apply items_ws; auto|]. destruct (Nat.eqb_spec i 0); [lia|discriminate].
    - inversion Hu; subst. split; [constructor|auto]. }
  assert (Hocc : forall k s u v w, quantity (siMin it) (siMax it) (S k) -> S_ s -> ((i =? 0) = true -> s = []) -> W (siName it) u ->
     wmore R0 K wsN root (siName it) k v -> wspaced R0 K wsN root false items w -> wspaced R0 K wsN root (i =? 0) (it :: items) (s ++ u ++ v ++ w)).
  { intros k s u v w0 Hq Hs Hs0 Hu Hv Hw. destruct (i =? 0); [rewrite Hs0 by auto; simpl; eapply wspaced_first; eauto|eapply wspaced_next; eauto]. }
  destruct (Z.eqb_spec (siMax it) 1) as [E1|Hne1]; simpl in H, Hh.
  - apply itemsOf_app in H. destruct H as (s & v & -> & Hs & Hv). inversion Hv as [|it0 items0 k0 u0 v0 Hq0 Hr0 Hi0]; subst. destruct (Hlead s Hs) as [Hs1 Hs2].
    destruct (repOf_W _ _ _ Hxi Hr0) as [[-> ->]|(k' & a & b & -> & -> & Ha & Hb)].
    + simpl. destruct (i =? 0) eqn:Ei.
      * rewrite Hs2 by auto. simpl. apply wspaced_none; auto.
      * apply wspaced_gap; auto.
    + assert (k' = 0) by (revert Hq0; unfold quantity; lia). subst k'. inversion Hb; subst. rewrite app_nil_r.
      apply (Hocc 0 s a [] v0); auto. constructor.
  - destruct (Z.ltb_spec 0 (siMin it)) as [Hm|Hm]; simpl in H, Hh.
    + set (rn := patchName [siName it; nm; "wsrest"%string; itoaNat i]) in *.
      assert (Hr : restShape rn (siName it)) by (apply R1_new, Hh; left; auto).
      apply itemsOf_app in H. destruct H as (s & v & -> & Hs & Hv). inversion Hv as [|it0 items0 k0 u0 v0 Hq0 Hr0 Hi0]; subst. simpl in *. inversion Hi0 as [|it1 items1 k1 u1 v1 Hq1 Hr1 Hi1]; subst. simpl in *.
      destruct (Hlead s Hs) as [Hs1 Hs2]. apply repOf_1 in Hr0; auto. apply (Hocc k1 s u0 u1 v1); auto.
      * revert Hq1. unfold quantity. destruct (Z.ltb_spec 1 (siMax it)); lia.
      * apply Hr0; auto.
      * eapply repOf_more; eauto.
    + set (rn := patchName [siName it; nm; "wsrest"%string; itoaNat i]) in *.
      assert (Hr : restShape rn (siName it)) by (apply R1_new, Hh; left; auto).
      inversion H as [|it0 items0 k0 u0 v Hq0 Hr0 Hi0]; subst. simpl in *. assert (Hk : k0 = 0 \/ k0 = 1) by (revert Hq0; unfold quantity; lia). destruct Hk as [->| ->].
      * inversion Hr0; subst. simpl. apply wspaced_none; [unfold quantity; lia|]. apply IH'; auto.
      * inversion Hr0 as [|kk uu vv H1 Hnil]; subst. inversion Hnil; subst. rewrite app_nil_r. destruct H1 as (_ & _ & _ & _ & H1).
        destruct (H1 (siName it) rn 0%Z (if 1 <? siMax it then siMax it - 1 else -1)%Z (if 0 <? i then [whitespaceItem] else []) Hxi Hr) as (s & x & k & y & -> & A1 & A2 & A3 & A4 & A5).
        { destruct (0 <? i); auto. }
        { apply R1_new, Hh. right; left. reflexivity. }
        replace ((s ++ x ++ y) ++ v) with (s ++ x ++ y ++ v) by (rewrite !app_assoc; auto). apply (Hocc k); auto.
        -- revert A4. unfold quantity. destruct (Z.ltb_spec 1 (siMax it)); lia.
        -- intros Hiz. apply A1. apply Nat.eqb_eq in Hiz. subst i. auto.
Qed.

(** one step of a rule *)
Definition step (r : rule) (w : list rune) : Prop :=
  match r with
  | RChar cn ch rs => exists c, w = [c] /\ inClass cn ch rs c
  | RSeq ct items => (hasFlag ct CNoKeyword = true -> ~ In w K) /\ itemsOf interp items w
  | RChoice _ options => exists o, In o options /\ interp o w
  end.
Lemma step_body o r w : In o l -> R1 (bodyName (dName o)) = Some r -> step r w -> B (dName o) w.
Proof.
  intros Ho Hr Hs. destruct (body_rule o Ho) as (ct & Hb & Hf). rewrite Hr in Hb. inversion Hb as [Hb']; clear Hb. pose proof (R0_in o Ho) as H0.
  assert (Hrf : forall x, In x (refsOf o) -> In x names) by (intros x Hx; eapply Hrefs; eauto).
  pose proof (fun oi items rs a1 a2 a3 a4 a5 => Hnorm o oi items rs a1 a2 a3 a4 a5 Ho) as Hno.
  pose proof (fun ct items x => helpers o ct items x Ho) as Hhe.
  unfold objRule, refsOf in *. destruct (dKind o) as [cn ch rs|oi its rs a1 a2 a3 a4 a5|opts od g v i]; subst r; simpl in Hs.
  - destruct Hs as (c & -> & Hc). eapply wbody_char; eauto.
  - destruct Hs as [Hk Hi]. rewrite Hf in Hk. destruct (compact (dCommit o)) eqn:Ec.
    + eapply wbody_compact; eauto. apply items_compact; auto.
    + eapply wbody_spaced; eauto. apply (items_spaced its (dName o) 0); eauto.
  - destruct Hs as (x & Hx & Hw). eapply wbody_choice; eauto. apply Hw. auto.
Qed.
Lemma step_interp n r w : R1 n = Some r -> step r w -> interp n w.
Proof.
  intros Hr Hs. destruct rt_main as (ro & Hro & Hrow & Ero). destruct (main_in ro Hro Hrow) as (_ & Q2 & _).
  assert (Enr : dName ro = root) by (unfold root; rewrite Ero, Q2; auto).
  assert (Hwr : n = wsroot -> B root w).
  { intros ->. pose proof (step_body ro r w Hro) as X. rewrite Enr in X. apply X; auto. unfold bodyName. rewrite String.eqb_refl. auto. }
  split; [|split; [auto|split; [|split]]].
  - intros Hin. apply in_map_iff in Hin. destruct Hin as (o & <- & Ho). destruct (String.eqb_spec (dName o) root) as [E|Hne].
    + rewrite E in *. rewrite N_root in Hr. inversion Hr; subst r. destruct Hs as [_ Hs]. 
      apply (itemsOf_app interp [whitespaceItem]) in Hs. destruct Hs as (u & x & -> & Hu & Hx). apply (itemsOf_app interp [mkItem wsroot 1 1]) in Hx. destruct Hx as (v & z & -> & Hv & Hz).
      apply wgen_root; [apply items_ws; auto| |apply items_ws; auto]. apply itemsOf_one in Hv. destruct Hv as (k & Hk & Hv). apply repOf_1 in Hv; auto. apply Hv. auto.
    + apply wgen_def; auto. apply (step_body o r); auto. unfold bodyName. destruct (String.eqb_spec (dName o) root); [contradiction|auto].
  - intros ->. rewrite N_ws in Hr. inversion Hr; subst r. destruct Hs as (m & Hm & Hw). exists m. split; auto. apply Hw. unfold wsN in Hm. apply in_map_iff in Hm.
    destruct Hm as (o & <- & Ho). apply filter_In in Ho. apply in_map. tauto.
  - intros x Hx Hrs. unfold restShape in Hrs. rewrite Hrs in Hr. inversion Hr; subst r. destruct Hs as [_ Hs].
    apply (itemsOf_app interp [whitespaceItem]) in Hs. destruct Hs as (u & v & -> & Hu & Hv). exists u, v. split; auto. split; [apply items_ws; auto|].
    apply itemsOf_one in Hv. destruct Hv as (k & Hk & Hv). apply repOf_1 in Hv; auto. apply Hv. auto.
  - intros x rn mn mx lead Hx Hrs Hl Hrn. rewrite Hrn in Hr. inversion Hr; subst r. destruct Hs as [_ Hs].
    apply itemsOf_app in Hs. destruct Hs as (s & v & -> & Hu & Hv). apply (itemsOf_app interp [mkItem x 1 1]) in Hv. destruct Hv as (u & y & -> & Hu1 & Hy).
    apply itemsOf_one in Hy. destruct Hy as (k & Hk & Hy). apply itemsOf_one in Hu1. destruct Hu1 as (k1 & Hk1 & Hu1). apply repOf_1 in Hu1; auto.
    exists s, u, k, y. split; auto. split; [intros ->; inversion Hu; auto|]. split; [|split; [apply Hu1; auto|split; [auto|eapply repOf_more; eauto]]].
    destruct Hl as [-> | ->]; [inversion Hu; subst; constructor|apply items_ws; auto].
Qed.
Theorem gen_interp n w : G n w -> interp n w.
Proof.
  apply gen_rect'.
  - intros. eapply step_interp; eauto. exists r. auto.
  - intros. eapply step_interp; eauto. split; auto.
  - intros. eapply step_interp; eauto. exists o. auto.
Qed.
Theorem wsgen n w : In n names -> (G n w <-> W n w).
Proof. intros Hn. split; [intros H; apply gen_interp in H; apply H; auto|apply spec_to_gen]. Qed.
End WSGEN.
