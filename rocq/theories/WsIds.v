(** Names and identities after Init (C17). *)
From Verif Require Import TextSpec Base Utf8 Escape IdSet Results Parser Build Syntax Define ListFacts Lang Sound Grammar WsLang ApiSpec DefSpec InitWalk InitRun InitOk SyntaxFacts InitCore InitSpec InitFuel Rep ParseFacts Restrict Live LangGen Api Utf8Facts WsObjs WsGen WsShape WsNames WsDistinct WsApi ApiFacts DefineFacts RefFacts Alias AliasFacts WsRefs.

Section CORE.
Variables (reg : registry) (kws : list addr) (root : addr) (h0 h' : dheap) (s' : syntax).
Let m := gDefinition reg.
Hypothesis F : forall b, finalAt m h0 h' b.
Hypothesis Hreg : regInv h0 reg.
Hypothesis Hs : sHeap s' = h'.
Hypothesis Hsr : sRegistry s' = Some reg.

Lemma final_entry a d0 : nth_error h0 a = Some d0 -> exists d', nth_error h' a = Some d' /\ dName d' = dName d0 /\ dId d' = dId d0.
Proof.
  intros Hd0. pose proof (F a) as Fa. unfold finalAt in Fa. rewrite Hd0 in Fa. destruct Fa as (d' & Hd' & Fa). exists d'. split; auto.
  assert (X : nodeName (toParser d') = dName d' /\ nodeID (toParser d') = dId d') by (unfold toParser; destruct (dKind d'); auto).
  destruct X as [X1 X2]. rewrite <- X1, <- X2. destruct (dKind d0).
  - rewrite Fa. auto.
  - destruct Fa as (gs & [(_ & ->)|(_ & _ & _ & ->)]); auto.
  - destruct Fa as (gs & [(_ & ->)|(_ & _ & _ & ->)]); auto.
Qed.
Lemma final_registered : registered s' = flat_map (entryAt h0) (gDefinitions reg).
Proof.
  rewrite registered_of. unfold regOf. rewrite Hsr, Hs.
  assert (H : forall l, (forall a, In a l -> exists d, nth_error h0 a = Some d) -> flat_map (entryAt h') l = flat_map (entryAt h0) l).
  { induction l as [|a l IH]; intros H; simpl; auto. rewrite IH by (intros; apply H; right; auto). f_equal. destruct (H a (or_introl eq_refl)) as (d & Hd).
    destruct (final_entry a d Hd) as (d' & Hd' & E1 & E2). unfold entryAt. rewrite Hd, Hd', E1, E2. auto. }
  apply H. intros a Ha. apply In_nth_error in Ha. destruct Ha as [i Hi]. destruct (ri_defs _ _ Hreg i a Hi) as (d & Hd & _). eauto.
Qed.
Lemma final_names : NoDup (map fst (registered s')) /\ map snd (registered s') = seq 1 (List.length (registered s')) /\ List.length (registered s') = List.length (gDefinitions reg) /\
  forall n, In n (map fst (registered s')) <-> lookup m n <> None.
Proof.
  rewrite final_registered. destruct (regInv_entries _ _ Hreg) as (A & B & C). split; auto.
  assert (L : List.length (flat_map (entryAt h0) (gDefinitions reg)) = List.length (gDefinitions reg)) by (apply (f_equal (@List.length nat)) in B; rewrite map_length, seq_length in B; auto).
  rewrite L. auto.
Qed.
Hypothesis Hkw : sKeywords s' = kws.
Hypothesis Hrt : sRoot s' = Some root.
Hypothesis Hargs : forall a, In a (kws ++ [root]) -> In a (gDefinitions reg).
Lemma takesPart_in a : takesPart s' a -> In a (gDefinitions reg).
Proof.
  induction 1 as [a H|a H|a o x _ IH Ho Hx].
  - rewrite Hrt in H. inversion H; subst. apply Hargs, in_or_app. right; left; auto.
  - rewrite Hkw in H. apply Hargs, in_or_app. auto.
  - assert (L : forall names, In x (lookups m names) -> In x (gDefinitions reg)).
    { intros names Hin. apply lookups_In in Hin. destruct Hin as (n & _ & Hn). destruct (ri_map _ _ Hreg n x Hn) as (Hd & _). exact Hd. }
    unfold parsers in Ho. rewrite nth_error_map' in Ho. rewrite Hs in Ho. destruct (nth_error h' a) as [d'|] eqn:Hd'; [|discriminate]. simpl in Ho. inversion Ho; subst o.
    pose proof (F a) as Fa. unfold finalAt in Fa. destruct (nth_error h0 a) as [d0|] eqn:Hd0; [|congruence]. destruct Fa as (d'' & E & Fa). rewrite Hd' in E. inversion E; subst d''.
    destruct (dKind d0).
    + rewrite Fa in Hx. destruct Hx.
    + destruct Fa as (gs & [(_ & E1)|(_ & _ & _ & E1)]); rewrite E1 in Hx; simpl in Hx; [destruct Hx|eauto].
    + destruct Fa as (gs & [(_ & E1)|(_ & _ & _ & E1)]); rewrite E1 in Hx; simpl in Hx; [destruct Hx|eauto].
Qed.
Lemma takesPart_same a b oa ob : takesPart s' a -> takesPart s' b -> nth_error (parsers s') a = Some oa -> nth_error (parsers s') b = Some ob ->
  nodeID oa = nodeID ob \/ nodeName oa = nodeName ob -> a = b.
Proof.
  intros Ha Hb Hoa Hob E. apply takesPart_in in Ha, Hb. apply In_nth_error in Ha, Hb. destruct Ha as [i Hi], Hb as [j Hj].
  destruct (ri_defs _ _ Hreg i a Hi) as (da & Hda & Ia & La). destruct (ri_defs _ _ Hreg j b Hj) as (db & Hdb & Ib & Lb).
  assert (G : forall a d o, nth_error h0 a = Some d -> nth_error (parsers s') a = Some o -> nodeID o = dId d /\ nodeName o = dName d).
  { intros x d o Hd Ho. unfold parsers in Ho. rewrite nth_error_map', Hs in Ho. destruct (final_entry x d Hd) as (d' & Hd' & E1 & E2). rewrite Hd' in Ho. simpl in Ho. inversion Ho; subst o.
    rewrite <- E1, <- E2. unfold toParser. destruct (dKind d'); auto. }
  destruct (G _ _ _ Hda Hoa) as [G1 G2]. destruct (G _ _ _ Hdb Hob) as [G3 G4]. destruct E as [E|E]; [|congruence].
  assert (i = j) by congruence. congruence.
Qed.
End CORE.

(** ** the number of definitions *)
Definition objHelpers (d : defobj) : nat :=
  match dKind d with
  | KSeq _ items _ _ _ _ _ _ => if (hasFlag (dCommit d) CNoWhitespace || hasFlag (dCommit d) CWhitespace)%bool then 0 else list_sum (map itemHelpers items)
  | _ => 0
  end.
Lemma wsItems_len nm : forall items i, List.length (fst (wsItems nm i (map normalizeItemRange items))) = list_sum (map itemHelpers items).
Proof.
  induction items as [|it items IH]; intros i; auto. cbn [map wsItems]. specialize (IH (S i)). destruct (wsItems nm (S i) _) as [defs rest]. simpl in IH. cbn [map list_sum fold_right]. unfold list_sum in IH.
  unfold itemHelpers at 1. cbv zeta. destruct (siMax (normalizeItemRange it) =? 1)%Z; simpl; auto. destruct (0 <? siMin (normalizeItemRange it))%Z; simpl; auto.
Qed.
Lemma seq_len nm ct items : List.length (applyWhitespaceToSeq nm ct (map normalizeItemRange items)) = S (list_sum (map itemHelpers items)).
Proof. unfold applyWhitespaceToSeq. pose proof (wsItems_len nm items 0) as H. destruct (wsItems nm 0 _) as [defs rest]. simpl in H. rewrite app_length. simpl. lia. Qed.
Lemma rw_len d0 : freshK (dKind d0) -> List.length (rw (preinit d0)) + 0 = if isWs (preinit d0) then List.length (rw (preinit d0)) else S (objHelpers d0).
Proof.
  intros Hf. unfold isWs, objHelpers. rewrite preinit_commit. destruct (hasFlag (dCommit d0) CWhitespace) eqn:Ew; [lia|]. rewrite orb_false_r.
  unfold preinit, initRanges. destruct d0 as [nm i ct k]; simpl in *. destruct k; simpl; auto. destruct (hasFlag ct CNoWhitespace); simpl; auto.
  rewrite seq_len. lia.
Qed.
Lemma sum_rw L : (forall d, In d L -> freshK (dKind d)) ->
  List.length (flat_map rw (filter (fun d => negb (isWs d)) (map preinit L))) + List.length (filter isWs (map preinit L)) = List.length L + list_sum (map objHelpers L).
Proof.
  induction L as [|d L IH]; intros H; auto. cbn [map filter]. specialize (IH (fun d Hd => H d (or_intror Hd))). pose proof (rw_len d (H d (or_introl eq_refl))) as E.
  destruct (isWs (preinit d)) eqn:Ew; cbn [negb flat_map].
  - simpl in *. assert (objHelpers d = 0). { unfold objHelpers. unfold isWs in Ew. rewrite preinit_commit in Ew. rewrite Ew, orb_true_r. destruct (dKind d); auto. } lia.
  - rewrite app_length. simpl in *. lia.
Qed.
Lemma rewritten_len l rt : filter rootFlag (flat_map rw (filter (fun d => negb (isWs d)) l)) = [rt] ->
  List.length (rewritten l rt) = List.length (flat_map rw (filter (fun d => negb (isWs d)) l)) + List.length (filter isWs l) + 2.
Proof.
  intros H. unfold rewritten. rewrite !app_length, map_length. simpl. set (L := flat_map rw _) in *.
  assert (E : List.length (filter (fun o => negb (rootFlag o)) L) + List.length (filter rootFlag L) = List.length L).
  { clear. induction L as [|x L IH]; simpl; auto. destruct (rootFlag x); simpl; lia. }
  rewrite H in E. simpl in E. lia.
Qed.
Lemma list_sum_app' l l' : list_sum (l ++ l') = list_sum l + list_sum l'.
Proof. unfold list_sum. induction l; simpl; auto. rewrite IHl. lia. Qed.
Lemma call_len d : List.length (callObjs d) = List.length (callNames d).
Proof. destruct d; simpl; auto. rewrite !app_length, !map_length, combine_length, seq_length. simpl. lia. Qed.
Lemma call_helpers d : list_sum (map objHelpers (callObjs d)) = callHelpers d.
Proof.
  destruct d as [n ct|n ct cn ch rs|n ct chars|n ct items|n ct opts]; simpl.
  - unfold objHelpers. simpl. destruct (_ || _)%bool; auto.
  - unfold objHelpers. simpl. destruct (_ || _)%bool; auto.
  - rewrite map_app, list_sum_app', map_map. simpl.
    assert (Z : forall l : list (nat * rune), list_sum (map (fun x => objHelpers (newChar (childName n (fst x)) false [snd x] [])) l) = 0) by (induction l; simpl; auto).
    rewrite Z. unfold objHelpers. simpl. assert (hasFlag (N.lor ct CNoWhitespace) CNoWhitespace = true) as ->; [|reflexivity].
    change CNoWhitespace with (2 ^ 3)%N. rewrite hasFlag_bit, N.lor_spec, N.pow2_bits_true. apply orb_true_r.
  - unfold objHelpers. simpl. destruct (_ || _)%bool; auto.
  - reflexivity.
Qed.
Lemma calls_sums calls : List.length (flat_map callObjs calls) + list_sum (map objHelpers (flat_map callObjs calls)) + 2 = definitionCount calls.
Proof.
  unfold definitionCount. f_equal. induction calls as [|d calls IH]; auto. cbn [flat_map map list_sum fold_right]. rewrite app_length, map_app, list_sum_app', call_len, call_helpers. unfold list_sum in *. lia.
Qed.

(** ** Init with whitespace *)
Theorem init_ids_ws_raw calls s s' : rawAll emptySyntax calls = (s, None) -> hasWhitespaceDef calls -> properNames calls -> properRefs calls -> Inits s s' None ->
  NoDup (map fst (registered s')) /\ map snd (registered s') = seq 1 (List.length (registered s')) /\
  List.length (registered s') = definitionCount calls /\
  (forall n, grammarOf calls n <> None -> In n (map fst (registered s'))) /\
  (keywordsPlain calls -> forall a b oa ob, takesPart s' a -> takesPart s' b -> nth_error (parsers s') a = Some oa -> nth_error (parsers s') b = Some ob ->
     nodeID oa = nodeID ob \/ nodeName oa = nodeName ob -> a = b).
Proof.
  intros Hdef Hws [Hnm Htl] Hpr [fuel HI]. pose proof (rep_rawAll calls [] _ _ rep_empty Hdef) as Hr. simpl in Hr. set (objs := flat_map callObjs calls) in *.
  pose proof (rawAll_dinv _ _ _ _ dinv_empty Hdef) as Hdinv.
  pose proof Hr as [R1 R2 R3 R4 R5 R6 R7 R8 R9 R10 R11].
  rewrite Init_split, R1, R2 in HI.
  destruct (sRoot s) as [root|] eqn:Er; [|discriminate].
  destruct (nth_error (sHeap s) root) as [rd|] eqn:Ed; [|discriminate].
  destruct (sRegistry s) as [reg|] eqn:Eg; [|discriminate].
  destruct (checkCommitType rd) as [e|] eqn:Ecc; [discriminate|].
  assert (Ereg : regOf s = reg) by (unfold regOf; rewrite Eg; auto). rewrite Ereg in *.
  binv HI. destruct x as [[h0 reg1] root1]. binv HI. destruct x as [h' [e|]]; [discriminate|]. inversion HI; subst s'. clear HI.
  assert (Hrl : root < List.length (sHeap s)) by (apply nth_error_Some; congruence).
  destruct (prepare_spec _ _ _ _ _ _ Hdinv Eg Hrl E) as (Pun & Pmap & Proot & Pkw).
  destruct (ws_first calls s root rd Hdef Hws Er Ed Ecc) as (Hrt & Hhw & Hndl & Hat & HobjN & Ews & En1 & Hrtn & Hsame). fold objs in Hat, HobjN, En1.
  set (l := map preinit (sHeap s)) in *. set (rt := main (preinit rd)) in *. set (R0 := ruleIn (map objPair l)) in *.
  assert (Hlen : List.length (sHeap s) = List.length l) by (unfold l; rewrite map_length; auto).
  unfold prepare in E. rewrite R6, <- R3, preinitAll_map in E. fold l in E. rewrite Hhw in E. binv E. destruct x as [[h1 D1] root2]. destruct (newRegistry h1 D1) as [h2 reg2] eqn:En. injection E as -> -> ->.
  rewrite Hlen in E1. destruct (applyWhitespace_spec _ _ _ _ _ E1 Hrt) as (A1 & A2 & A3 & A4 & A5).
  (* rules *)
  assert (HR0 : forall n, R0 n = None <-> grammarOf calls n = None) by (intros n; specialize (Hsame n); destruct (R0 n), (grammarOf calls n); simpl in Hsame; split; intros; auto; try discriminate; destruct Hsame).
  assert (HR0s : forall n r, R0 n = Some r -> exists r', grammarOf calls n = Some r' /\ ruleRefs r = ruleRefs r').
  { intros n r H. pose proof (Hsame n) as S. rewrite H in S. destruct (grammarOf calls n) as [r'|] eqn:Eg'; [|destruct S]. exists r'. split; auto. apply sameRule_refs. exact S. }
  assert (Hproper : forall n r x, R0 n = Some r -> In x (ruleRefs r) -> R0 x <> None \/ colonFree x).
  { intros n r x H Hx. destruct (HR0s n r H) as (r' & G1 & G2). rewrite G2 in Hx. destruct (Hpr n r' x G1 Hx) as [G|]; auto. left. intros X. apply G, HR0. exact X. }
  assert (Hcomps : forall o, In o l -> exists c, comps (dName o) c).
  { intros o Ho. destruct (HobjN o Ho) as (o' & d0 & Ho' & _ & -> & _ & _). apply in_flat_map in Ho'. destruct Ho' as (d & Hd & Ho'). destruct (Hnm d Hd) as (c & Hcc).
    destruct (callObjs_names d o' Ho') as [->|(_ & i & ->)]; [eauto|]. eexists. apply comps_child; eauto. }
  assert (Hrefc : forall o x, In o l -> In x (refsOf o) -> exists c, comps x c).
  { intros o x Ho Hx. pose proof (ruleIn_In l o Hndl Ho) as G. fold R0 in G. destruct (Hproper _ _ x G) as [P|P].
    - rewrite objRule_refs. rewrite refsOf_refs in Hx. exact Hx.
    - destruct (R0 x) as [r|] eqn:Ex; [|congruence]. apply ruleIn_inv in Ex. destruct Ex as (o' & Ho' & <- & _). auto.
    - exists [x], x, []. repeat split; auto. }
  assert (Htell : tellable (spacedSeq l)).
  { eapply tellable_sub; [|exact Htl]. intros n (o & Ho & Hk & <-). destruct (HobjN o Ho) as (o' & d0 & Ho' & -> & -> & Hkk & _). apply in_flat_map in Ho'. destruct Ho' as (d & Hd & Ho').
    exists d. split; auto. destruct (callObjs_names d o' Ho') as [->|(Hcc & _)]; auto. exfalso. unfold keeps in Hk. unfold preinit, initRanges in Hk. rewrite <- Hkk in Hcc.
    destruct (dKind d0) eqn:Ek0; simpl in *; try rewrite Ek0 in Hk; discriminate. }
  pose proof (rewritten_nodup l rt Hndl Hrt Hrefc Hcomps Htell) as Hnd.
  assert (Hnorm : forall o oi items rs a1 a2 a3 a4 a5, In o l -> dKind o = KSeq oi items rs a1 a2 a3 a4 a5 -> Forall normal items).
  { intros o oi items rs a1 a2 a3 a4 a5 Ho Hk. destruct (HobjN o Ho) as (o' & d0 & _ & -> & _). eapply preinit_normal; eauto. }
  pose proof (ws_shape l rt Hnd Hndl Hrt Hnorm) as Hsh. fold R0 in Hsh. set (Rw := ruleIn (map objPair (rewritten l rt))) in *.
  (* the registry *)
  unfold newRegistry in En. destruct (newRegistryLoop_all _ _ _ emptyRegistry _ _ A1 A2 Hnd (fun o _ => eq_refl) En) as (G1 & G2 & G3). simpl in G1.
  destruct (newRegistryLoop_inv D1 h1 emptyRegistry h0 reg1 (regInv_empty _) (fun a Ha => objsAt_lt _ _ _ A1 a Ha) En) as (G4 & _ & _).
  assert (Hheap : forall nm, heapRule (gDefinition reg1) h0 nm = Rw nm) by (eapply heapRule_reg; eauto).
  assert (Hun : forall a d, nth_error h0 a = Some d -> unwalkedK (dKind d)) by (intros a d Hd; unfold unwalked in Pun; rewrite Forall_forall in Pun; apply Pun; eapply nth_error_In; eauto).
  pose proof E0 as E0'. apply initCore_ok in E0; auto. destruct E0 as (F & A & _).
  set (s' := mkSyntax h' (Some reg1) true false (sExplicitRoot s) (sKeywords s) (Some root1)) in *.
  destruct (final_names reg1 h0 h' s' F G4 eq_refl eq_refl) as (B1 & B2 & B3 & B4).
  split; auto. split; auto. split; [|split].
  - rewrite B3, G1. assert (List.length D1 = List.length (rewritten l rt)) as -> by (clear - A1; induction A1; simpl; auto).
    rewrite (rewritten_len l rt Hrt). unfold l. rewrite sum_rw.
    + rewrite <- calls_sums. fold objs. f_equal. rewrite R3. f_equal.
      assert (Hg : forall L1 L2, List.length L1 = List.length L2 -> (forall a o, nth_error L2 a = Some o -> exists d, nth_error L1 a = Some d /\ objHelpers d = objHelpers o) ->
         list_sum (map objHelpers L1) = list_sum (map objHelpers L2)).
      { clear. induction L1 as [|x L1 IH]; intros [|y L2] Hl H; try discriminate; auto. destruct (H 0 y eq_refl) as (d & Hd & Ed). simpl in Hd. inversion Hd; subst d. simpl. rewrite Ed. f_equal.
        apply IH; [simpl in Hl; lia|]. intros a o Ho. apply (H (S a) o Ho). }
      apply Hg; auto. intros a o Ho. destruct (R4 a o Ho) as (d & Hd & N1 & N2 & N3 & N4 & N5). exists d. split; auto. unfold objHelpers. rewrite N2.
      destruct (dKind o) eqn:Ek; auto. destruct (N5 eq_refl) as [S1 _].
      assert (FE : forall k, k <> 7%N -> hasFlag (dCommit d) (2 ^ k)%N = hasFlag (dCommit o) (2 ^ k)%N) by (intros k Hk; apply (sameBut_flag [7%N]); auto; intros [X|[]]; congruence).
      change CNoWhitespace with (2 ^ 3)%N. change CWhitespace with (2 ^ 2)%N. rewrite !FE by discriminate. auto.
    + intros d Hd. apply In_nth_error in Hd. destruct Hd as [a Ha]. destruct (nth_error objs a) as [o|] eqn:Eo; [|apply nth_error_None in Eo; assert (a < List.length (sHeap s)) by (apply nth_error_Some; congruence); lia].
      destruct (R4 a o Eo) as (d1 & Hd1 & _ & N2 & _). rewrite Ha in Hd1. inversion Hd1; subst d1. rewrite N2. apply R5. eapply nth_error_In; eauto.
  - intros n Hn. apply B4. intros X. assert (Y : R0 n <> None) by (intros Y; apply Hn, HR0, Y).
    assert (Z : Rw n <> None).
    { destruct (String.eqb_spec n (dName rt)) as [->|Enr]; [rewrite (sh_root _ _ _ _ _ Hsh); discriminate|]. destruct (R0 n) as [r|] eqn:Er0; [|congruence].
      destruct (sh_body _ _ _ _ _ Hsh n r Er0) as (ct & H1 & _). destruct (String.eqb_spec n (dName rt)); [congruence|]. congruence. }
    apply Z. rewrite <- Hheap. unfold heapRule. rewrite X. auto.
  - intros Hkp. assert (Hargs : forall a, In a (sKeywords s ++ [root1]) -> In a (gDefinitions reg1)).
    { intros a Ha. rewrite G1. apply in_app_or in Ha. destruct Ha as [Ha|[<-|[]]]; auto.
      rewrite R10 in Ha. apply kwIdx_In in Ha. destruct Ha as (j & o & -> & Ho & Hf). simpl. destruct (Hat j o Ho) as (d & Hd & M1 & M2).
      destruct (R4 j o Ho) as (d1 & Hd1 & _ & _ & _ & N4 & N5). rewrite Hd in Hd1. inversion Hd1; subst d1.
      assert (Hs : sameBut [7%N] (dCommit o) (dCommit d)) by (destruct (isCharK (dKind o)); [rewrite N4 by auto; apply sameBut_refl|apply N5; auto]).
      assert (FE : forall k, k <> 7%N -> hasFlag (dCommit d) (2 ^ k)%N = hasFlag (dCommit o) (2 ^ k)%N) by (intros k Hk; apply (sameBut_flag [7%N]); auto; intros [X|[]]; congruence).
      pose proof (R5 o (nth_error_In _ _ Ho)) as (_ & Hcc & _).
      assert (Hw : isWs o = false). { unfold isWs. destruct (hasFlag (dCommit o) CWhitespace) eqn:Ew; auto. rewrite (ws_incompat o CKeyword Hcc) in Hf; [discriminate|simpl; tauto|auto]. }
      assert (Hko : keeps o = true).
      { pose proof (nth_error_In _ _ Ho) as Hin. apply in_flat_map in Hin. destruct Hin as (c & Hc & Hin). eapply callObjs_keeps; eauto.
        apply Hkp; auto. destruct (callObjs_split c) as (chs & o1 & Ec & Hch & _ & _ & _ & _ & Hk1). rewrite Ec in Hin. apply in_app_or in Hin. destruct Hin as [Hin|[<-|[]]]; [|congruence].
        destruct (Hch o Hin) as (_ & _ & X & _). congruence. }
      apply (A5 j (preinit d)).
      + unfold l. rewrite nth_error_map', Hd. auto.
      + unfold keeps in *. unfold preinit, initRanges. rewrite <- M2 in Hko. change CNoWhitespace with (2 ^ 3)%N in *. rewrite <- FE in Hko by discriminate.
        destruct d as [? ? ? []]; simpl in *; auto.
      + unfold isWs in *. rewrite preinit_commit. change CWhitespace with (2 ^ 2)%N in *. rewrite FE by discriminate. exact Hw. }
    intros a b oa ob. apply (takesPart_same reg1 (sKeywords s) root1 h0 h' s' F G4 eq_refl eq_refl eq_refl Hargs).
Qed.

Lemma userDefined_count calls : definitionCount (map withUserDefined calls) = definitionCount calls.
Proof.
  unfold definitionCount. f_equal. f_equal; f_equal; rewrite map_map; apply map_ext; intros d.
  - destruct d; reflexivity.
  - destruct d as [n ct|n ct cn ch rs|n ct chars|n ct items|n ct opts]; auto. unfold callHelpers, withUserDefined.
    pose proof (userDefined_flags (DSequence n ct items) 3 ltac:(discriminate)) as F3. pose proof (userDefined_flags (DSequence n ct items) 2 ltac:(discriminate)) as F2.
    simpl in F3, F2. change CNoWhitespace with (2 ^ 3)%N. change CWhitespace with (2 ^ 2)%N. simpl. rewrite F3, F2. auto.
Qed.
Lemma user_proper calls : (forall d, In d calls -> isValidSymbol (callName d) = true) -> properNames (map withUserDefined calls).
Proof.
  intros Hv. split.
  - intros d Hin. apply in_map_iff in Hin. destruct Hin as (d0 & <- & Hin). rewrite userDefined_name. exists [callName d0]. exists (callName d0), []. split; auto. split; auto. split; [|constructor]. apply valid_colonFree; auto.
  - left. intros n (d & Hin & <-). apply in_map_iff in Hin. destruct Hin as (d0 & <- & Hin). rewrite userDefined_name. apply valid_colonFree; auto.
Qed.
Theorem init_ids_ws calls s s' : Defined calls s -> hasWhitespaceDef calls -> symbolRefs calls -> Inits s s' None ->
  NoDup (map fst (registered s')) /\ map snd (registered s') = seq 1 (List.length (registered s')) /\
  List.length (registered s') = definitionCount calls /\
  (forall n, grammarOf calls n <> None -> In n (map fst (registered s'))) /\
  (keywordsPlain calls -> forall a b oa ob, takesPart s' a -> takesPart s' b -> nth_error (parsers s') a = Some oa -> nth_error (parsers s') b = Some ob ->
     nodeID oa = nodeID ob \/ nodeName oa = nodeName ob -> a = b).
Proof.
  intros Hd0 Hws Hs HI. pose proof Hd0 as Hd. apply defineAll_raw in Hd. destruct Hd as [Hd Hv].
  assert (H : hasWhitespaceDef (map withUserDefined calls)).
  { destruct Hws as (d & Hin & Hf). exists (withUserDefined d). split; [apply in_map; auto|]. change CWhitespace with (2 ^ 2)%N. rewrite userDefined_flags by discriminate. auto. }
  destruct (init_ids_ws_raw _ _ _ Hd H (user_proper _ Hv) (symbolRefs_proper _ Hs) HI) as (A & B & C & D & E). rewrite userDefined_count in C.
  split; auto. split; auto. split; auto. split.
  - intros n Hn. apply D. intros X. apply Hn. pose proof (userDefined_grammar calls n) as S. rewrite X in S. destruct (grammarOf calls n); auto. destruct S.
  - intros Hk. apply E. apply userDefined_kwPlain. auto.
Qed.
Lemma in_ruleIn l n : In n (map fst l) -> ruleIn l n <> None.
Proof. induction l as [|[k r] l IH]; simpl; [tauto|]. destruct (String.eqb_spec k n); [discriminate|]. intros [H|H]; [congruence|auto]. Qed.
Lemma charRules_names n chars : forall i, map fst (charRules n i chars) = map (childName n) (seq i (List.length chars)).
Proof. induction chars as [|c chars IH]; intros i; simpl; auto. rewrite IH. auto. Qed.
Lemma grammar_names calls n d : In d calls -> In n (callNames d) -> grammarOf calls n <> None.
Proof.
  intros Hd Hn. unfold grammarOf. apply in_ruleIn. apply in_map_iff.
  assert (H : In n (map fst (callRules d))).
  { destruct d; simpl in *; auto. rewrite map_app, charRules_names. simpl. auto. }
  apply in_map_iff in H. destruct H as (p & <- & Hp). exists p. split; auto. apply in_flat_map. eauto.
Qed.

(** ** Init without whitespace *)
Theorem init_ids_plain calls s s' : Defined calls s -> noWhitespaceDefs calls -> Inits s s' None ->
  registered s' = registered s /\
  forall a b oa ob, takesPart s' a -> takesPart s' b -> nth_error (parsers s') a = Some oa -> nth_error (parsers s') b = Some ob ->
     nodeID oa = nodeID ob \/ nodeName oa = nodeName ob -> a = b.
Proof.
  intros Hd0 Hno [fuel HI]. apply defineAll_raw in Hd0. destruct Hd0 as [Hdef Hv]. apply userDefined_ws in Hno. rename Hno into Hws. revert Hdef Hws. generalize (map withUserDefined calls). clear calls Hv. intros calls Hdef Hws.
  pose proof (rep_rawAll calls [] _ _ rep_empty Hdef) as Hr. simpl in Hr. set (objs := flat_map callObjs calls) in *.
  pose proof (rawAll_dinv _ _ _ _ dinv_empty Hdef) as Hdinv.
  pose proof Hr as [R1 R2 R3 R4 R5 R6 R7 R8 R9 R10 R11].
  rewrite Init_split, R1, R2 in HI.
  destruct (sRoot s) as [root|] eqn:Er; [|discriminate].
  destruct (nth_error (sHeap s) root) as [rd|] eqn:Ed; [|discriminate].
  destruct (sRegistry s) as [reg|] eqn:Eg; [|discriminate].
  destruct (checkCommitType rd) as [e|] eqn:Ecc; [discriminate|].
  assert (Ereg : regOf s = reg) by (unfold regOf; rewrite Eg; auto). rewrite Ereg in *.
  binv HI. destruct x as [[h0 reg1] root1]. binv HI. destruct x as [h' [e|]]; [discriminate|]. inversion HI; subst s'. clear HI.
  assert (Hrl : root < List.length (sHeap s)) by (apply nth_error_Some; congruence).
  destruct (prepare_spec _ _ _ _ _ _ Hdinv Eg Hrl E) as (Pun & Pmap & Proot & Pkw).
  assert (Hobj : forall a d, nth_error (sHeap s) a = Some d -> exists o, nth_error objs a = Some o /\ dName d = dName o /\ dKind d = dKind o /\
     sameBut [7%N] (dCommit o) (dCommit d)).
  { intros a d Hd. destruct (nth_error objs a) as [o|] eqn:Eo; [|apply nth_error_None in Eo; assert (a < List.length (sHeap s)) by (apply nth_error_Some; congruence); lia].
    destruct (R4 a o Eo) as (d1 & Hd1 & N1 & N2 & N3 & N4 & N5). exists o. rewrite Hd in Hd1. inversion Hd1; subst d1. split; auto. split; auto. split; auto.
    destruct (isCharK (dKind o)); [rewrite N4 by auto; apply sameBut_refl|apply N5; auto]. }
  unfold prepare in E. rewrite R6, <- R3, preinitAll_map in E.
  assert (Hnows : hasWhitespace (map preinit (sHeap s)) (seq 0 (List.length (sHeap s))) = false).
  { unfold hasWhitespace. apply existsb_false. intros a _. unfold commitAt. rewrite nth_error_map'. destruct (nth_error (sHeap s) a) as [d|] eqn:Hd; [|reflexivity].
    simpl. rewrite preinit_commit. destruct (Hobj a d Hd) as (o & Ho & _ & _ & Hs).
    replace (hasFlag (dCommit d) CWhitespace) with (hasFlag (dCommit o) CWhitespace) by (symmetry; apply (sameBut_flag [7%N] (dCommit o) (dCommit d) 2); auto; intros [H|[]]; discriminate).
    apply nth_error_In in Ho. apply call_objs_in in Ho. destruct Ho as (c & Hcc & Ho).
    destruct (callObjs_split c) as (chs & o1 & Ec & Hch & _ & _ & _ & Ew & _). rewrite Ec in Ho. apply in_app_or in Ho. destruct Ho as [Ho|[<-|[]]].
    - apply Hch; auto.
    - rewrite Ew. apply Hws; auto. }
  rewrite Hnows in E. inversion E; subst h0 reg1 root1. clear E. set (h0 := map preinit (sHeap s)) in *.
  assert (Hun : forall a d, nth_error h0 a = Some d -> unwalkedK (dKind d)) by (intros a d Hd; unfold unwalked in Pun; rewrite Forall_forall in Pun; apply Pun; eapply nth_error_In; eauto).
  apply initCore_ok in E0; auto. destruct E0 as (F & A & _).
  assert (Hpre : forall d, dName (preinit d) = dName d /\ dId (preinit d) = dId d).
  { intros d. unfold preinit, initRanges. destruct (dKind d); auto. }
  destruct Hdinv as [F0 RI Rt K]. rewrite Ereg in RI.
  assert (RI0 : regInv h0 reg).
  { destruct RI as [I1 I2 I3 I4]. constructor; auto.
    - intros i a Hi. destruct (I3 i a Hi) as (d & Hd & H3 & H4). exists (preinit d). unfold h0. rewrite nth_error_map', Hd. destruct (Hpre d) as [-> ->]. auto.
    - intros n a Hn. destruct (I4 n a Hn) as (Hin & d & Hd & H4). split; auto. exists (preinit d). unfold h0. rewrite nth_error_map', Hd. destruct (Hpre d) as [-> _]. auto. }
  set (s' := mkSyntax h' (Some reg) true false (sExplicitRoot s) (sKeywords s) (Some root)) in *.
  split.
  - rewrite (final_registered reg h0 h' s' F RI0 eq_refl eq_refl), registered_of, Ereg. apply flat_map_ext. intros a. unfold entryAt, h0. rewrite nth_error_map'.
    destruct (nth_error (sHeap s) a) as [d|]; simpl; auto. destruct (Hpre d) as [-> ->]. auto.
  - intros a b oa ob. apply (takesPart_same reg (sKeywords s) root h0 h' s' F RI0 eq_refl eq_refl eq_refl).
    intros x Hx. rewrite R6. apply in_seq. split; [lia|]. simpl. rewrite <- R3. apply in_app_or in Hx. destruct Hx as [Hx|[<-|[]]]; auto.
    destruct (K x Hx) as (d & Hd & _). apply nth_error_Some. congruence.
Qed.
Theorem init_definitions calls s s' : Defined calls s -> hasWhitespaceDef calls -> symbolRefs calls -> Inits s s' None ->
  NoDup (map fst (registered s')) /\ map snd (registered s') = seq 1 (List.length (registered s')) /\
  List.length (registered s') = definitionCount calls /\
  forall d n, In d calls -> In n (callNames d) -> In n (map fst (registered s')).
Proof.
  intros H1 H2 H3 H4. destruct (init_ids_ws _ _ _ H1 H2 H3 H4) as (A & B & C & D & _). repeat (split; auto). intros d n Hd Hn. apply D. eapply grammar_names; eauto.
Qed.
Theorem init_identities calls s s' : Defined calls s -> (hasWhitespaceDef calls -> symbolRefs calls /\ keywordsPlain calls) -> Inits s s' None ->
  forall a b oa ob, takesPart s' a -> takesPart s' b -> nth_error (parsers s') a = Some oa -> nth_error (parsers s') b = Some ob ->
  nodeID oa = nodeID ob \/ nodeName oa = nodeName ob -> a = b.
Proof.
  intros H1 H2 H3. destruct (hasWs_dec calls) as [Hws|Hno].
  - destruct (H2 Hws) as [Hs Hk]. destruct (init_ids_ws _ _ _ H1 Hws Hs H3) as (_ & _ & _ & _ & E). exact (E Hk).
  - apply (init_ids_plain _ _ _ H1 Hno H3).
Qed.
