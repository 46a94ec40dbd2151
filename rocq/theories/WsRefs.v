(** Init, with whitespace definitions: it does not panic (C45), and undefined references (C18). *)
From Verif Require Import TextSpec Base Utf8 Escape IdSet Results Parser Build Syntax Define ListFacts Lang Sound Grammar WsLang ApiSpec DefSpec InitWalk InitRun InitOk SyntaxFacts InitCore InitSpec InitFuel Rep ParseFacts Restrict Live LangGen Api Utf8Facts WsObjs WsGen WsShape WsNames WsDistinct WsApi ApiFacts DefineFacts RefFacts Alias AliasFacts.

Lemma wsItems_cover nm it : forall items i, In it items ->
  In (siName it) (map siName (snd (wsItems nm i items))) \/
  exists x, In x (fst (wsItems nm i items)) /\ In (dName x) (map siName (snd (wsItems nm i items))) /\ In (siName it) (refs (dKind x)).
Proof.
  induction items as [|j items IH]; intros i H; [destruct H|]. cbn [wsItems]. specialize (IH (S i)). destruct (wsItems nm (S i) items) as [defs rest]. simpl in IH.
  assert (L : forall pre dd, (In (siName it) (map siName rest) \/ exists x, In x defs /\ In (dName x) (map siName rest) /\ In (siName it) (refs (dKind x))) ->
     In (siName it) (map siName (pre ++ rest)) \/ exists x, In x (dd ++ defs) /\ In (dName x) (map siName (pre ++ rest)) /\ In (siName it) (refs (dKind x))).
  { intros pre dd [A|(x & A & B & C)]; [left; rewrite map_app; apply in_or_app; auto|right; exists x]. rewrite map_app. repeat split; auto; apply in_or_app; auto. }
  set (ws := if 0 <? i then [whitespaceItem] else []).
  destruct (siMax j =? 1)%Z; simpl.
  - destruct H as [->|H]; [left; rewrite map_app; apply in_or_app; right; left; auto|]. replace (ws ++ j :: rest) with ((ws ++ [j]) ++ rest) by (rewrite <- app_assoc; auto). apply (L (ws ++ [j]) [] (IH H)).
  - destruct (0 <? siMin j)%Z; simpl.
    + destruct H as [->|H]; [left; rewrite map_app; apply in_or_app; right; left; auto|].
      match goal with |- In _ (map siName (ws ++ ?a :: ?b :: rest)) \/ _ => replace (ws ++ a :: b :: rest) with ((ws ++ [a; b]) ++ rest) by (rewrite <- app_assoc; auto) end.
      match goal with |- _ \/ exists x, (?a = x \/ In x defs) /\ _ => apply (L _ [a] (IH H)) end.
    + destruct H as [->|H].
      * right. eexists. split; [right; left; reflexivity|]. simpl. split; [left; reflexivity|]. rewrite map_app. apply in_or_app. right. left. auto.
      * match goal with |- (?a = _ \/ _) \/ exists x, (?b = x \/ ?c = x \/ In x defs) /\ _ => apply (L [mkItem a 0 1] [b; c] (IH H)) end.
Qed.
(** the references of the rewritten items *)
Lemma wsItems_refs nm : forall items i,
  (forall x, In x (map siName (snd (wsItems nm i items))) -> x = whitespaceName \/ In x (map siName items) \/ exists o, In o (fst (wsItems nm i items)) /\ dName o = x) /\
  (forall o x, In o (fst (wsItems nm i items)) -> In x (refs (dKind o)) -> x = whitespaceName \/ In x (map siName items) \/ exists o', In o' (fst (wsItems nm i items)) /\ dName o' = x).
Proof.
  induction items as [|j items IH]; intros i; [split; simpl; tauto|]. cbn [wsItems]. specialize (IH (S i)). destruct (wsItems nm (S i) items) as [defs rest]. simpl in IH. destruct IH as [I1 I2].
  assert (Hws : forall x, In x (map siName (if 0 <? i then [whitespaceItem] else [])) -> x = whitespaceName) by (intros x; destruct (0 <? i); simpl; tauto || (intros [<-|[]]; auto)).
  assert (J1 : forall dd x, In x (map siName rest) -> x = whitespaceName \/ In x (siName j :: map siName items) \/ exists o, In o (dd ++ defs) /\ dName o = x).
  { intros dd x Hx. destruct (I1 x Hx) as [?|[?|(o & Ho & E)]]; simpl; auto. right; right. exists o. split; auto. apply in_or_app; auto. }
  assert (J2 : forall dd o x, In o defs -> In x (refs (dKind o)) -> x = whitespaceName \/ In x (siName j :: map siName items) \/ exists o', In o' (dd ++ defs) /\ dName o' = x).
  { intros dd o x Ho Hx. destruct (I2 o x Ho Hx) as [?|[?|(o' & Ho' & E)]]; simpl; auto. right; right. exists o'. split; auto. apply in_or_app; auto. }
  destruct (siMax j =? 1)%Z; simpl.
  - split; [|intros o x Ho Hx; apply (J2 [] o x Ho Hx)]. intros x Hx. rewrite map_app in Hx. apply in_app_or in Hx. destruct Hx as [Hx|[<-|Hx]]; auto. apply (J1 [] x Hx).
  - destruct (0 <? siMin j)%Z; simpl.
    + set (d1 := newSequence _ CAlias [whitespaceItem; mkItem (siName j) 1 1]). split.
      * intros x Hx. rewrite map_app in Hx. apply in_app_or in Hx. destruct Hx as [Hx|[<-|[<-|Hx]]]; auto; [|apply (J1 [d1] x Hx)]. right; right. exists d1. auto.
      * intros o x [<-|Ho] Hx; [|apply (J2 [d1] o x Ho Hx)]. simpl in Hx. destruct Hx as [<-|[<-|[]]]; auto.
    + set (d1 := newSequence _ CAlias [whitespaceItem; mkItem (siName j) 1 1]). set (d2 := newSequence _ CAlias (_ ++ _)). split.
      * intros x [<-|Hx]; [|apply (J1 [d1; d2] x Hx)]. right; right. exists d2. auto.
      * intros o x [<-|[<-|Ho]] Hx; [| |apply (J2 [d1; d2] o x Ho Hx)].
        -- simpl in Hx. destruct Hx as [<-|[<-|[]]]; auto.
        -- unfold d2 in Hx. simpl in Hx. rewrite map_app in Hx. apply in_app_or in Hx. destruct Hx as [Hx|[<-|[<-|[]]]]; auto. right; right. exists d1. auto.
Qed.

Section CORE.
Variables (m : list (string * addr)) (h0 : dheap) (R0 R1 : string -> option rule) (wsN : list string) (root wsroot : string) (kws : list addr) (root1 : addr) (kwN : list string).
Hypothesis Hsh : wsShape R0 wsN root wsroot R1.
Hypothesis Hrule : forall n, heapRule m h0 n = R1 n.
Hypothesis Hnames : forall n a, lookup m n = Some a -> exists d, nth_error h0 a = Some d /\ dName d = n.
Hypothesis Hroot1 : lookup m root = Some root1.
Hypothesis HrootR : R0 root <> None.
Hypothesis HwsR : forall n, In n wsN -> R0 n <> None.
Hypothesis Hkw1 : forall a, In a kws -> exists d n r, nth_error h0 a = Some d /\ In n kwN /\ R0 n = Some r /\ refs (dKind d) = ruleRefs r.
Hypothesis Hkw2 : forall n, In n kwN -> exists a d r, In a kws /\ nth_error h0 a = Some d /\ R0 n = Some r /\ refs (dKind d) = ruleRefs r.
(** references are symbols without a colon, or defined *)
Hypothesis Hproper : forall n r x, R0 n = Some r -> In x (ruleRefs r) -> R0 x <> None \/ colonFree x.
Hypothesis Hspecial : ~ colonFree wsroot /\ forall n ct items o, R0 n = Some (RSeq ct items) -> compact ct = false -> In o (fst (wsItems n 0 items)) -> ~ colonFree (dName o).

Inductive neededR : string -> Prop :=
| nr_root : neededR root
| nr_kw n : In n kwN -> neededR n
| nr_ws n : In n wsN -> neededR n
| nr_ref n r x : neededR n -> R0 n = Some r -> In x (ruleRefs r) -> neededR x.

Definition helperOf (n : string) (o : defobj) : Prop := exists ct items, R0 n = Some (RSeq ct items) /\ compact ct = false /\ In o (fst (wsItems n 0 items)).
(** what the walks reach *)
Inductive known : string -> Prop :=
| kn_user n : neededR n -> R0 n <> None -> known n
| kn_ws : known whitespaceName
| kn_root : known wsroot
| kn_helper n o : neededR n -> helperOf n o -> known (dName o).
Lemma R1_some n a d : lookup m n = Some a -> nth_error h0 a = Some d -> R1 n = Some (objRule d).
Proof. intros H1 H2. rewrite <- Hrule. unfold heapRule. rewrite H1, H2. auto. Qed.
Lemma R1_none n : lookup m n = None -> R1 n = None.
Proof. intros H. rewrite <- Hrule. unfold heapRule. rewrite H. auto. Qed.
Lemma user_registered n : R0 n <> None -> R1 n <> None.
Proof.
  intros H. destruct (String.eqb_spec n root) as [->|E]; [rewrite (sh_root _ _ _ _ _ Hsh); discriminate|]. destruct (R0 n) as [r|] eqn:Er; [|congruence].
  destruct (sh_body _ _ _ _ _ Hsh n r Er) as (ct & H1 & _). destruct (String.eqb_spec n root); [congruence|]. congruence.
Qed.
Lemma root_body : exists r1, R1 wsroot = Some r1 /\ forall x, In x (ruleRefs r1) -> known x \/ (neededR x /\ exists n r, R0 n = Some r /\ In x (ruleRefs r)).
Proof.
  destruct (R0 root) as [r|] eqn:Er; [|congruence]. destruct (sh_body _ _ _ _ _ Hsh root r Er) as (ct & H1 & _). rewrite String.eqb_refl in H1. eexists. split; [exact H1|].
  assert (D : forall x, In x (ruleRefs r) -> known x \/ (neededR x /\ exists n r, R0 n = Some r /\ In x (ruleRefs r))) by (intros x Hx; right; split; [eapply nr_ref; eauto; apply nr_root|eauto]).
  destruct r as [a b c|c items|c opts]; [exact D| |exact D]. simpl. destruct (compact c) eqn:Ec; [exact D|]. intros x Hx. apply wsItems_refs in Hx. destruct Hx as [->|[Hx|(o & Ho & <-)]]; [left; apply kn_ws|apply D, Hx|].
  left. apply (kn_helper root); [apply nr_root|]. exists c, items. auto.
Qed.
(** the references of a known name are known or needed *)
Lemma known_refs n r1 x : known n -> R1 n = Some r1 -> In x (ruleRefs r1) -> known x \/ (neededR x /\ exists n r, R0 n = Some r /\ In x (ruleRefs r)).
Proof.
  assert (RB : forall n r x, neededR n -> R0 n = Some r -> In x (ruleRefs r) -> known x \/ (neededR x /\ exists n r, R0 n = Some r /\ In x (ruleRefs r))) by (intros n0 r0 x0 Hn Hr Hx; right; split; [eapply nr_ref; eauto|eauto]).
  intros K H Hx. destruct (String.eqb_spec n root) as [->|Enr].
  { rewrite (sh_root _ _ _ _ _ Hsh) in H. inversion H; subst. simpl in Hx. left. destruct Hx as [<-|[<-|[<-|[]]]]; [apply kn_ws|apply kn_root|apply kn_ws]. }
  destruct K as [n Hn Hr|  | |n o Hn (ct & items & E1 & E2 & E3)].
  - destruct (R0 n) as [r|] eqn:Er; [|congruence]. destruct (sh_body _ _ _ _ _ Hsh n r Er) as (ct & H1 & _). destruct (String.eqb_spec n root); [congruence|]. rewrite H in H1. inversion H1; subst r1.
    destruct r as [a b c|c items|c opts]; eauto. simpl in Hx. destruct (compact c) eqn:Ec; eauto. apply wsItems_refs in Hx. destruct Hx as [->|[Hx|(o & Ho & <-)]]; [left; apply kn_ws|eauto|].
    left. apply (kn_helper n); auto. exists c, items. auto.
  - rewrite (sh_ws _ _ _ _ _ Hsh) in H. inversion H; subst. simpl in Hx. left. apply kn_user; auto. apply nr_ws; auto.
  - destruct root_body as (r2 & H2 & H3). rewrite H in H2. inversion H2; subst. auto.
  - rewrite (sh_helper _ _ _ _ _ Hsh n ct items o E1 E2 E3) in H. inversion H; subst. rewrite objRule_refs in Hx.
    destruct (proj2 (wsItems_refs n items 0) o x E3 Hx) as [->|[H0|(o' & Ho' & <-)]]; [left; apply kn_ws|eapply RB; eauto|]. left. apply (kn_helper n); auto. exists ct, items. auto.
Qed.
Lemma known_some n : known n -> R1 n <> None.
Proof.
  intros [n' _ H| | |n' o _ (ct & items & E1 & E2 & E3)]; [apply user_registered; auto|rewrite (sh_ws _ _ _ _ _ Hsh); discriminate|destruct root_body as (r & -> & _); discriminate|].
  rewrite (sh_helper _ _ _ _ _ Hsh n' ct items o E1 E2 E3). discriminate.
Qed.
Lemma needed_some n : R1 n <> None -> neededR n -> (exists m r, R0 m = Some r /\ In n (ruleRefs r)) -> known n.
Proof.
  intros H N (k & r & Hk & Hin). apply kn_user; auto. destruct (Hproper k r n Hk Hin) as [?|C]; auto. destruct Hspecial as [S1 S2].
  destruct (sh_only _ _ _ _ _ Hsh n H) as [->|[->|[(q & Hq & E)|(q & ct & items & o & E1 & E2 & E3 & ->)]]]; auto.
  - exfalso. apply C. left. reflexivity.
  - destruct (String.eqb_spec q root); rewrite E; auto. exfalso. rewrite E in C. exact (S1 C).
  - exfalso. eapply S2; eauto.
Qed.
Lemma reach_known a b : reach m h0 a b -> forall n, lookup m n = Some a -> known n -> exists n', lookup m n' = Some b /\ known n'.
Proof.
  induction 1 as [a|a d0 r x b Hd0 Hr Hx H IH]; intros n Hn K; [eauto|]. apply (IH r); auto. pose proof (R1_some _ _ _ Hn Hd0) as H1.
  destruct (known_refs n _ r K H1) as [?|[N E]]; auto; [rewrite objRule_refs; auto|]. apply needed_some; auto. destruct (Hnames _ _ Hx) as (dx & Hdx & _). rewrite (R1_some _ _ _ Hx Hdx). discriminate.
Qed.
Lemma undefined_at n b d r : lookup m n = Some b -> known n -> nth_error h0 b = Some d -> In r (refs (dKind d)) -> lookup m r = None -> neededR r /\ R0 r = None.
Proof.
  intros Hn K Hd Hin Hx. pose proof (R1_some _ _ _ Hn Hd) as H1. destruct (known_refs n _ r K H1) as [K'|[N E]]; [rewrite objRule_refs; auto|apply known_some in K'; exfalso; apply K', R1_none; auto|].
  split; auto. destruct (R0 r) eqn:E0; auto. exfalso. apply (user_registered r); [congruence|]. apply R1_none; auto.
Qed.
Lemma ws_undefined a err : In a (kws ++ [root1]) -> undefinedRef m h0 a err -> exists n, err = ErrParserNotFound n /\ neededR n /\ R0 n = None.
Proof.
  intros Ha (b & d & r & Hr & Hd & Hin & Hx & ->). exists r. split; auto. apply in_app_or in Ha. destruct Ha as [Ha|[<-|[]]].
  - destruct (Hkw1 a Ha) as (da & n & ra & Hda & Hn & Hra & Hrefs). inversion Hr as [|a' d0 x y b' Hd0 Hxin Hy Hrest]; subst.
    + rewrite Hd in Hda. inversion Hda; subst da. rewrite Hrefs in Hin. split; [eapply nr_ref; eauto; apply nr_kw; auto|]. destruct (R0 r) eqn:E0; auto. exfalso. apply (user_registered r); [congruence|]. apply R1_none; auto.
    + rewrite Hd0 in Hda. inversion Hda; subst da. rewrite Hrefs in Hxin. destruct (Hnames _ _ Hy) as (dx & Hdx & _).
      assert (K : known x). { apply needed_some; [rewrite (R1_some _ _ _ Hy Hdx); discriminate|eapply nr_ref; eauto; apply nr_kw; auto|eauto]. }
      destruct (reach_known _ _ Hrest x Hy K) as (n' & Hn' & K'). eapply undefined_at; eauto.
  - destruct (reach_known _ _ Hr root Hroot1) as (n' & Hn' & K'); [apply kn_user; auto; apply nr_root|]. eapply undefined_at; eauto.
Qed.

Section OK.
Variable h' : dheap.
Hypothesis F : forall b, finalAt m h0 h' b.
Hypothesis A : forall a, In a (kws ++ [root1]) -> inited h' a.
Lemma inited_refs a d x : inited h' a -> nth_error h0 a = Some d -> In x (refs (dKind d)) -> exists y, lookup m x = Some y /\ inited h' y.
Proof.
  intros Hi Hd Hx. pose proof (F a) as Fa. unfold finalAt in Fa. rewrite Hd in Fa. destruct Fa as (d' & Hd' & Fa). destruct Hi as (d'' & Hd'' & Hi). rewrite Hd' in Hd''. inversion Hd''; subst d''.
  destruct (dKind d) as [cn ch rs|oi items ranges i1 i2 i3 i4 i5|options o1 o2 o3 o4] eqn:Ek; simpl in Hx; [destruct Hx| |];
    (destruct Fa as (gs & [[Fa _]|(_ & F1 & F2 & _)]); [congruence|]; destruct (lookup m x) as [y|] eqn:Ey; [|exfalso; exact (F1 x Hx Ey)];
     exists y; split; auto; apply F2; apply lookups_In; eauto).
Qed.
Definition ready (n : string) : Prop := exists y, lookup m n = Some y /\ inited h' y.
Lemma ready_refs n r1 x : ready n -> R1 n = Some r1 -> In x (ruleRefs r1) -> ready x.
Proof.
  intros (y & Hy & Hi) H1 Hx. destruct (Hnames _ _ Hy) as (d & Hd & _). rewrite (R1_some _ _ _ Hy Hd) in H1. inversion H1; subst. rewrite objRule_refs in Hx. eapply inited_refs; eauto.
Qed.
Lemma ready_root : ready root /\ ready wsroot /\ ready whitespaceName.
Proof.
  assert (Hr : ready root) by (exists root1; split; auto; apply A, in_or_app; right; left; auto). pose proof (sh_root _ _ _ _ _ Hsh) as E.
  split; auto. split; eapply ready_refs; eauto; simpl; auto.
Qed.
Lemma ready_user n r : R0 n = Some r -> ready (if String.eqb n root then wsroot else n) -> forall x, In x (ruleRefs r) -> ready x.
Proof.
  intros Hr Hu x Hx. destruct (sh_body _ _ _ _ _ Hsh n r Hr) as (ct & H1 & _). destruct r as [a b c|c items|c opts]; [destruct Hx| |eapply ready_refs; [exact Hu|exact H1|exact Hx]].
  destruct (compact c) eqn:Ec; [eapply ready_refs; [exact Hu|exact H1|exact Hx]|]. simpl in Hx. apply in_map_iff in Hx. destruct Hx as (it & <- & Hit).
  destruct (wsItems_cover n it items 0 Hit) as [Hc|(o & Ho & Hc1 & Hc2)]; [eapply ready_refs; [exact Hu|exact H1|exact Hc]|].
  assert (Ro : ready (dName o)) by (eapply ready_refs; [exact Hu|exact H1|exact Hc1]). eapply ready_refs; [exact Ro|eapply sh_helper; eauto|]. rewrite objRule_refs. auto.
Qed.
Lemma ready_any n r : R0 n = Some r -> ready n -> forall x, In x (ruleRefs r) -> ready x.
Proof. intros Hr Hu. apply (ready_user n r Hr). destruct (String.eqb n root); auto. apply ready_root. Qed.
Lemma ws_defined n : neededR n -> R0 n <> None /\ forall r x, R0 n = Some r -> In x (ruleRefs r) -> ready x.
Proof.
  induction 1 as [|n Hn|n Hn|n r x N [I1 I2] Hr Hx].
  - split; auto. intros r x Hr. apply (ready_user root r Hr). rewrite String.eqb_refl. apply ready_root.
  - destruct (Hkw2 n Hn) as (a & d & r & Ha & Hd & Hr & Hrefs). split; [congruence|]. intros r' x Hr' Hx. rewrite Hr in Hr'. inversion Hr'; subst r'. rewrite <- Hrefs in Hx. eapply inited_refs; eauto. apply A, in_or_app; auto.
  - split; auto. intros r x Hr. apply (ready_any n r Hr). eapply ready_refs; [apply ready_root|apply (sh_ws _ _ _ _ _ Hsh)|auto].
  - pose proof (I2 r x Hr Hx) as Rx. assert (R0 x <> None).
    { destruct Rx as (y & Hy & _). destruct (Hnames _ _ Hy) as (d & Hd & _). assert (K : known x); [|destruct K as [? ? ?| | |]].
      - apply needed_some; [rewrite (R1_some _ _ _ Hy Hd); discriminate|eapply nr_ref; eauto|eauto].
      - auto.
      - destruct (Hproper n r whitespaceName Hr Hx) as [?|C]; auto. exfalso. apply C. left. reflexivity.
      - destruct (Hproper n r wsroot Hr Hx) as [?|C]; auto. exfalso. apply Hspecial, C.
      - destruct (Hproper n r (dName o) Hr Hx) as [?|C]; auto. exfalso. destruct H0 as (ct & items & E1 & E2 & E3). eapply Hspecial; eauto. }
    split; auto. intros r' x' Hr' Hx'. eapply ready_any; eauto.
Qed.
End OK.
End CORE.

(** ** what the definitions are before the whitespace is applied (the first part of setup_raw_ws) *)
Lemma ws_first calls s root rd : rawAll emptySyntax calls = (s, None) -> hasWhitespaceDef calls ->
  sRoot s = Some root -> nth_error (sHeap s) root = Some rd -> checkCommitType rd = None ->
  let l := map preinit (sHeap s) in let objs := flat_map callObjs calls in
  filter rootFlag (flat_map rw (filter (fun d => negb (isWs d)) l)) = [main (preinit rd)] /\
  hasWhitespace l (seq 0 (List.length (sHeap s))) = true /\
  NoDup (map dName l) /\
  (forall a o, nth_error objs a = Some o -> exists d0, nth_error (sHeap s) a = Some d0 /\ dName d0 = dName o /\ dKind d0 = dKind o) /\
  (forall o, In o l -> exists o' d0, In o' objs /\ o = preinit d0 /\ dName o = dName o' /\ dKind d0 = dKind o' /\ sameBut [7%N] (dCommit o') (dCommit o)) /\
  map dName (filter isWs l) = whitespaceNames calls /\
  map dName l = map dName objs /\
  rootName calls = Some (dName (main (preinit rd))) /\
  (forall nm, sameOpt (ruleIn (map objPair l) nm) (grammarOf calls nm)).
Proof.
  intros Hdef Hws Er Ed Ecc l objs. pose proof (rep_rawAll calls [] _ _ rep_empty Hdef) as Hr. simpl in Hr. fold objs in Hr.
  pose proof Hr as [R1 R2 R3 R4 R5 R6 R7 R8 R9 R10 R11]. rewrite Er in R9.
  assert (Hlen : List.length (sHeap s) = List.length l) by (unfold l; rewrite map_length; auto).
  assert (Hobj : forall a d, nth_error l a = Some d -> exists o d0, nth_error objs a = Some o /\ nth_error (sHeap s) a = Some d0 /\ d = preinit d0 /\ dName d = dName o /\
     dKind d0 = dKind o /\ sameBut [7%N] (dCommit o) (dCommit d) /\ (rootFlag d = true <-> root = a) /\ dId d = S a).
  { intros a d Hd. unfold l in Hd. rewrite nth_error_map' in Hd. destruct (nth_error (sHeap s) a) as [d0|] eqn:Hd0; [|discriminate]. simpl in Hd. inversion Hd; subst d.
    destruct (nth_error objs a) as [o|] eqn:Eo; [|apply nth_error_None in Eo; assert (a < List.length (sHeap s)) by (apply nth_error_Some; congruence); lia].
    destruct (R4 a o Eo) as (d1 & Hd1 & N1 & N2 & N3 & N4 & N5). exists o, d0. rewrite Hd0 in Hd1. inversion Hd1; subst d1.
    destruct (preinit_same d0) as (Q1 & Q2 & Q3 & Q4). unfold rootFlag. rewrite Q1, Q2, Q3. repeat (split; [auto; fail|]).
    destruct (isCharK (dKind o)) eqn:Ek.
    - rewrite N4 by auto. split; [apply sameBut_refl|]. split; [|auto]. pose proof (R5 o (nth_error_In _ _ Eo)) as (_ & _ & Hc). rewrite (Hc Ek). split; [discriminate|]. intros ->.
      destruct (root_name calls a) as (o1 & Ho1 & _ & Hc1); [fold objs; rewrite <- R9; auto|]. fold objs in Ho1. congruence.
    - destruct (N5 eq_refl) as [S1 S2]. split; auto. split; [|auto]. rewrite S2. rewrite Er. split; [intros H; inversion H; auto|intros ->; auto]. }
  assert (HobjN : forall o, In o l -> exists o' d0, In o' objs /\ o = preinit d0 /\ dName o = dName o' /\ dKind d0 = dKind o' /\ sameBut [7%N] (dCommit o') (dCommit o)).
  { intros o Ho. apply In_nth_error in Ho. destruct Ho as [a Ha]. destruct (Hobj a o Ha) as (o' & d0 & H1 & H2 & H3 & H4 & H5 & H6 & _).
    exists o', d0. split; [eapply nth_error_In; eauto|auto]. }
  assert (Hfl : forall o o' k, sameBut [7%N] (dCommit o') (dCommit o) -> k <> 7%N -> hasFlag (dCommit o) (2 ^ k)%N = hasFlag (dCommit o') (2 ^ k)%N).
  { intros o o' k Hs Hk. apply (sameBut_flag [7%N]); auto. intros [H|[]]. congruence. }
  assert (Enames : map dName l = map dName objs /\ map dName (filter isWs l) = map dName (filter isWs objs)).
  { assert (Hg : forall l1 l2, List.length l1 = List.length l2 -> (forall a d, nth_error l1 a = Some d -> exists o, nth_error l2 a = Some o /\ dName d = dName o /\ isWs d = isWs o) ->
      map dName l1 = map dName l2 /\ map dName (filter isWs l1) = map dName (filter isWs l2)).
    { clear. induction l1 as [|x l1 IH]; intros [|y l2] Hl H; try discriminate; auto. destruct (H 0 x eq_refl) as (o & Ho & H1 & H2). simpl in Ho. inversion Ho; subst o.
      destruct (IH l2) as [I1 I2]; [simpl in Hl; lia|intros a d Ha; apply (H (S a) d Ha)|]. simpl. rewrite H2. split; [congruence|]. destruct (isWs y); simpl; congruence. }
    apply Hg; [congruence|]. intros a d Ha. destruct (Hobj a d Ha) as (o & d0 & H1 & H2 & H3 & H4 & H5 & H6 & _). exists o. split; auto. split; auto.
    apply (Hfl d o 2%N); auto. discriminate. }
  destruct Enames as [En1 En2].
  assert (Hlr : nth_error l root = Some (preinit rd)) by (unfold l; rewrite nth_error_map', Ed; auto).
  destruct (Hobj root _ Hlr) as (ro & rd0 & Hro & Hrd0 & Erd & Hron & Hrok & Hros & Hrf & _). rewrite Ed in Hrd0. inversion Hrd0; subst rd0. clear Hrd0 Erd.
  assert (Hrft : rootFlag (preinit rd) = true) by (apply Hrf; auto).
  assert (Hrws : isWs (preinit rd) = false).
  { unfold isWs. rewrite preinit_commit. destruct (hasFlag (dCommit rd) CWhitespace) eqn:Ew; auto.
    unfold rootFlag in Hrft. rewrite preinit_commit in Hrft. rewrite (ws_incompat rd CRoot Ecc) in Hrft; [discriminate|simpl; tauto|auto]. }
  set (rt := main (preinit rd)).
  assert (Hrt : filter rootFlag (flat_map rw (filter (fun d => negb (isWs d)) l)) = [rt]).
  { rewrite filter_flat_rw, filter_comm.
    rewrite (filter_one rootFlag l root (preinit rd)); auto.
    - simpl. rewrite Hrws. reflexivity.
    - intros j y Hj Hy. destruct (Hobj j y Hj) as (? & ? & _ & _ & _ & _ & _ & _ & Hrfj & _). symmetry. apply Hrfj; auto. }
  assert (Hrtn : dName rt = dName rd).
  { unfold rt, main. pose proof (proj1 (preinit_same rd)) as Hp. destruct (dKind (preinit rd)); auto. destruct (hasFlag _ _); auto. }
  assert (Hhw : hasWhitespace l (seq 0 (List.length (sHeap s))) = true).
  { unfold hasWhitespace. destruct Hws as (d & Hd & Hf). destruct (callObjs_split d) as (chs & o & Ec & _ & _ & _ & _ & Ew & _).
    assert (Ho : In o objs) by (apply in_flat_map; exists d; rewrite Ec; split; auto; apply in_or_app; right; left; auto).
    apply In_nth_error in Ho. destruct Ho as [a Ha]. destruct (R4 a o Ha) as (d1 & Hd1 & _). apply existsb_exists. exists a. split.
    - apply in_seq. assert (a < List.length (sHeap s)) by (apply nth_error_Some; congruence). lia.
    - assert (Hla : nth_error l a = Some (preinit d1)) by (unfold l; rewrite nth_error_map', Hd1; auto).
      destruct (Hobj a _ Hla) as (o' & d0 & H1 & _ & _ & _ & _ & H6 & _). rewrite Ha in H1. inversion H1; subst o'. unfold commitAt. rewrite Hla.
      change CWhitespace with (2 ^ 2)%N. rewrite (Hfl _ _ 2%N H6) by discriminate. change (2 ^ 2)%N with CWhitespace. congruence. }
  assert (Hndl : NoDup (map dName l)).
  { rewrite En1. assert (Hg : forall i j o o', nth_error objs i = Some o -> nth_error objs j = Some o' -> dName o = dName o' -> i = j).
    { intros i j o o' Hi Hj Hij. pose proof (rep_lookup objs s Hr i o Hi). pose proof (rep_lookup objs s Hr j o' Hj). congruence. }
    apply NoDup_nth_error. intros i j Hi Hij. rewrite map_length in Hi.
    rewrite !nth_error_map' in Hij. destruct (nth_error objs i) as [o|] eqn:Ei; [|apply nth_error_None in Ei; lia].
    destruct (nth_error objs j) as [o'|] eqn:Ej; simpl in Hij; [|discriminate]. inversion Hij. eapply Hg; eauto. }
  split; auto. split; auto. split; auto. split.
  { intros a o Ho. destruct (R4 a o Ho) as (d1 & Hd1 & N1 & N2 & _). eauto. }
  split; auto. split; [rewrite En2; apply ws_names|]. split; auto. split.
  { destruct (root_name calls root) as (o & Ho & Hn & Hc); [fold objs; rewrite <- R9; auto|]. fold objs in Ho. rewrite Hro in Ho. inversion Ho; subst o.
    rewrite Hn, Hrtn. f_equal. rewrite <- Hron. apply preinit_same. }
  intros nm. pose proof (heapRule_objs objs s Hr nm) as Hho. fold l in Hho.
  assert (Hreg0 : regInv l (regOf s)).
  { destruct R7 as [I1 I2 I3 I4]. constructor; auto.
    - intros i a Hi. destruct (I3 i a Hi) as (d & Hd & Ei & El). exists (preinit d). unfold l. rewrite nth_error_map', Hd. simpl.
      destruct (preinit_same d) as (-> & -> & _). auto.
    - intros n0 a Hl. destruct (I4 n0 a Hl) as (H1 & d & Hd & En0). split; auto. exists (preinit d). unfold l. rewrite nth_error_map', Hd. simpl.
      destruct (preinit_same d) as (-> & _). auto. }
  rewrite (heapRule_reg l l (seq 0 (List.length l)) l (regOf s)) in Hho; auto; [|apply objsAt_all|congruence|].
  - eapply sameOpt_trans; [exact Hho|]. apply ruleIn_same, callsRules_same.
  - intros a d Hd. exists (dId d). rewrite Hd. destruct d; auto.
Qed.

Lemma applyWhitespace_total h rt : filter rootFlag (flat_map rw (filter (fun d => negb (isWs d)) h)) = [rt] ->
  exists x, applyWhitespace h (seq 0 (List.length h)) = Ok x.
Proof.
  intros Hrt. unfold applyWhitespace. destruct (splitWhitespaceDefs h (seq 0 (List.length h))) as [[h1 ws] rest] eqn:E1.
  destruct (splitWs_spec h _ h _ _ _ (objsAt_all h) (seq_NoDup _ _) E1) as (A1 & A2 & A3 & A4 & A5 & A6).
  set (ch := newChoice whitespaceName CAlias (map (nameAt h1) ws)) in *.
  destruct (applyWhitespaceToDefs (h1 ++ [ch]) rest) as [h2 D2] eqn:E2.
  assert (NDrest : NoDup rest) by (apply NoDup_app_both in A5; tauto).
  destruct (applyDefs_spec _ _ _ _ _ (objsAt_grow _ [ch] _ _ A2) NDrest E2) as (B1 & (x & B2) & B3 & B4 & B5).
  unfold splitRoot.
  assert (Hfl : forall a o, nth_error h2 a = Some o -> hasFlag (commitAt h2 a) CRoot = rootFlag o) by (intros a o Ho; unfold commitAt; rewrite Ho; auto).
  pose proof (objsAt_filter h2 _ rootFlag _ _ B1 Hfl) as C1. rewrite Hrt in C1. inversion C1 as [|r o Dr0 O0 Hr Hnil HDr HO]; subst o O0. inversion Hnil; subst Dr0.
  match goal with |- context [last (map ?g ?x) None] => replace x with [r] by exact HDr end. simpl. destruct (applyWhitespaceToRoot h2 r). eauto.
Qed.

Theorem prepare_total calls s root rd reg : rawAll emptySyntax calls = (s, None) -> sRoot s = Some root -> nth_error (sHeap s) root = Some rd ->
  sRegistry s = Some reg -> checkCommitType rd = None -> exists x, prepare s reg root = Ok x.
Proof.
  intros Hdef Er Ed Eg Ecc. unfold prepare. destruct (hasWhitespace _ _) eqn:Eh; [|eauto].
  pose proof (rep_rawAll calls [] _ _ rep_empty Hdef) as Hr. simpl in Hr. pose proof Hr as [R1 R2 R3 R4 R5 R6 R7 R8 R9 R10 R11].
  assert (Ereg : regOf s = reg) by (unfold regOf; rewrite Eg; auto). rewrite Ereg in *. rewrite R6, <- R3, preinitAll_map in *.
  destruct (hasWs_dec calls) as [Hw|Hw].
  - destruct (ws_first calls s root rd Hdef Hw Er Ed Ecc) as (Hrt & _). destruct (applyWhitespace_total _ _ Hrt) as ([[h1 D1] r1] & E). rewrite map_length in E. rewrite E. simpl.
    destruct (newRegistry h1 D1). eauto.
  - exfalso. unfold hasWhitespace in Eh. apply existsb_exists in Eh. destruct Eh as (a & _ & Eh). unfold commitAt in Eh. rewrite nth_error_map' in Eh.
    destruct (nth_error (sHeap s) a) as [d|] eqn:Hd; [|discriminate]. simpl in Eh. rewrite preinit_commit in Eh.
    destruct (nth_error (flat_map callObjs calls) a) as [o|] eqn:Eo; [|apply nth_error_None in Eo; assert (a < List.length (sHeap s)) by (apply nth_error_Some; congruence); lia].
    destruct (R4 a o Eo) as (d1 & Hd1 & N1 & N2 & N3 & N4 & N5). rewrite Hd in Hd1. inversion Hd1; subst d1.
    assert (Hs : sameBut [7%N] (dCommit o) (dCommit d)) by (destruct (isCharK (dKind o)); [rewrite N4 by auto; apply sameBut_refl|apply N5; auto]).
    assert (hasFlag (dCommit o) CWhitespace = true) by (rewrite <- Eh; symmetry; apply (sameBut_flag [7%N] (dCommit o) (dCommit d) 2); auto; intros [X|[]]; discriminate).
    apply nth_error_In in Eo. apply in_flat_map in Eo. destruct Eo as (c & Hc & Ho). destruct (callObjs_split c) as (chs & o1 & Ec & Hch & _ & _ & _ & Ew & _). rewrite Ec in Ho. apply in_app_or in Ho. destruct Ho as [Ho|[<-|[]]].
    + apply Hch in Ho. unfold isWs in Ho. intuition congruence.
    + rewrite Ew in H. rewrite (Hw c Hc) in H. discriminate.
Qed.

Theorem init_total calls s : rawAll emptySyntax calls = (s, None) -> exists n0, forall n, n0 <= n -> exists s' err, Init n s = Ok (s', err).
Proof.
  intros Hdef. pose proof (rawAll_dinv _ _ _ _ dinv_empty Hdef) as Hdinv. pose proof (rep_rawAll calls [] _ _ rep_empty Hdef) as Hr. simpl in Hr.
  pose proof Hr as [R1 R2 R3 R4 R5 R6 R7 R8 R9 R10 R11].
  destruct (sRoot s) as [root|] eqn:Er. 2:{ exists 0. intros n _. rewrite Init_split, R1, R2, Er. eauto. }
  destruct (root_name calls root) as (ro & Hro & _ & _); [rewrite <- R9; auto|].
  destruct (R4 root ro Hro) as (rd & Ed & _).
  destruct (sRegistry s) as [reg|] eqn:Eg. 2:{ exfalso. apply R11; auto. intros X. rewrite X in Hro. destruct root; discriminate. }
  destruct (checkCommitType rd) eqn:Ec. { exists 0. intros n _. rewrite Init_split, R1, R2, Er, Ed, Eg, Ec. eauto. }
  destruct (prepare_total calls s root rd reg Hdef Er Ed Eg Ec) as ([[h1 reg1] root1] & Ep).
  exists (S (List.length h1)). intros n Hn. rewrite Init_split, R1, R2, Er, Ed, Eg, Ec, Ep. cbn [bind].
  pose proof Hdinv as [F R Rt K]. apply prepare_spec in Ep; auto; [|apply nth_error_Some; congruence]. destruct Ep as (U & M & Rr & Kv).
  assert (G : good (initCore (gDefinition reg1) n (sKeywords s ++ [root1]) h1)).
  { apply initCore_good; auto.
    - intros a d Hd. unfold unwalked in U. rewrite Forall_forall in U. apply U. eapply nth_error_In; eauto.
    - intros a Ha. apply in_app_or in Ha. destruct Ha as [Ha|[<-|[]]]; auto. destruct (K a Ha) as (d & Hd & _).
      destruct (Kv a d Hd) as (d' & Hd' & _). apply nth_error_Some. congruence. }
  destruct (initCore (gDefinition reg1) n (sKeywords s ++ [root1]) h1) as [[h2 [e|]]| |] eqn:Ei; cbn [bind]; eauto; destruct G; congruence.
Qed.

(** ReadSyntax that succeeds makes definitions that all succeed *)
Definition rawOk (s s' : syntax) : Prop := exists calls, rawAll s calls = (s', None).
Lemma rawOk_refl s : rawOk s s.
Proof. exists []. reflexivity. Qed.
Lemma rawAll_app c1 c2 : forall s s1, rawAll s c1 = (s1, None) -> rawAll s (c1 ++ c2) = rawAll s1 c2.
Proof. induction c1 as [|d c1 IH]; intros s s1 H; simpl in *; [inversion H; auto|]. destruct (defineRaw s d) as [s2 [e|]]; [discriminate|auto]. Qed.
Lemma rawOk_trans s1 s2 s3 : rawOk s1 s2 -> rawOk s2 s3 -> rawOk s1 s3.
Proof. intros [c1 H1] [c2 H2]. exists (c1 ++ c2). rewrite (rawAll_app _ _ _ _ H1). auto. Qed.
Lemma rawOk_one s d s' : Ok (defineRaw s d) = Ok (s', None) -> rawOk s s'.
Proof. intros H. inversion H as [H1]. exists [d]. simpl. rewrite H1. auto. Qed.
Lemma defineExpression_rawOk tokens : forall k e, size e < k -> forall s name ct s', defineExpression tokens s name ct e = Ok (s', None) -> rawOk s s'.
Proof.
  induction k as [|k IH]; intros e Hk; [lia|]. destruct e as [ename from to nodes]. simpl in Hk. intros s name ct s' H. rewrite defineExpression_eq in H. cbv zeta in H.
  destruct (String.eqb ename "any-char"); [apply (rawOk_one _ (DAnyChar name ct)) in H; auto|].
  destruct (String.eqb ename "char-class").
  { unfold defineClass in H. match type of H with (let (_, _) := ?p in _) = _ => destruct p as [cn n] end. binv H. destruct x as [x1 x2]. apply (rawOk_one _ (DClass name ct cn x1 x2)) in H; auto. }
  destruct (String.eqb ename "char-sequence").
  { unfold defineCharSequence in H. binv H. apply (rawOk_one _ (DCharSequence name ct x)) in H; auto. }
  destruct (String.eqb ename "symbol"); [apply (rawOk_one _ (DSequence name ct [mkItem (nodeText tokens (Node ename from to nodes)) 0 0])) in H; auto|].
  assert (Hall : forall m, In m nodes -> size m < k) by (intros m Hm; apply size_in in Hm; lia).
  assert (Hsub : forall m ns x y z, In (Node x y z ns) nodes -> In m ns -> size m < k).
  { intros m ns x y z H1 H2. apply Hall in H1. simpl in H1. apply size_in in H2. lia. }
  clear Hk. destruct (String.eqb ename "sequence").
  - revert H. generalize (@nil seqItem) as items. generalize 0 as i. revert s. induction nodes as [|[x y z ns] nodes IHn]; intros s i items H; simpl in H.
    + apply (rawOk_one _ (DSequence name ct items)) in H; auto.
    + destruct ns as [|m ns]; [discriminate|]. binv H. destruct x0 as [rf [s1 err]]. destruct err as [err|]; [discriminate|].
      assert (S1 : rawOk s s1).
      { destruct (String.eqb (nName m) "symbol"); [inversion E; subst; apply rawOk_refl|]. binv E. destruct x0 as [s2 e2]. inversion E; subst.
        eapply IH; [|exact E0]. eapply Hsub; [left; reflexivity|left; auto]. }
      binv H. destruct x0 as [[mn mx]|]; [|discriminate].
      apply IHn in H; [eapply rawOk_trans; eauto| |]; intros; [apply Hall; right; auto|eapply Hsub; [right; eauto|eauto]].
  - destruct (String.eqb ename "choice"); [|inversion H; subst; apply rawOk_refl].
    revert H. generalize (@nil string) as refs. generalize 0 as i. revert s. induction nodes as [|m nodes IHn]; intros s i items H; simpl in H.
    + apply (rawOk_one _ (DChoice name ct items)) in H; auto.
    + binv H. destruct x as [rf [s1 err]]. destruct err as [err|]; [discriminate|].
      assert (S1 : rawOk s s1).
      { destruct (String.eqb (nName m) "symbol"); [inversion E; subst; apply rawOk_refl|]. binv E. destruct x as [s2 e2]. inversion E; subst.
        eapply IH; [|exact E0]. apply Hall. left; auto. }
      apply IHn in H; [eapply rawOk_trans; eauto| |]; intros; [apply Hall; right; auto|eapply Hsub; [right; eauto|eauto]].
Qed.
Lemma addDefinitions_rawOk tokens l : forall s s', addDefinitions tokens s l = Ok (s', None) -> rawOk s s'.
Proof.
  induction l as [|n l IH]; intros s s' H; simpl in H; [inversion H; subst; apply rawOk_refl|]. binv H. destruct x as [s1 e]. destruct e; [discriminate|].
  assert (S1 : rawOk s s1).
  { unfold addDefinition in E. destruct (nNodes n) as [|a [|b m]]; try discriminate. eapply defineExpression_rawOk; [|exact E]. eauto. }
  eapply rawOk_trans; eauto.
Qed.
Theorem made_raw s : made s -> rawOk emptySyntax s.
Proof.
  induction 1 as [|s d s' _ IH H|s fuel input e s' _ IH H]; [apply rawOk_refl| |].
  - eapply rawOk_trans; [exact IH|]. unfold defineCall in H. destruct (isValidSymbol _); [|discriminate]. eapply (rawOk_one _ (withUserDefined d)). rewrite H. auto.
  - eapply rawOk_trans; [exact IH|]. unfold ReadSyntax in H. destruct (sInitialized s); [discriminate|]. binv H. destruct x as [t tk|err]; [|discriminate].
    unfold define in H. eapply addDefinitions_rawOk. exact H.
Qed.
Theorem made_init s : made s -> exists n0, forall n, n0 <= n -> exists s' err, Init n s = Ok (s', err).
Proof. intros H. apply made_raw in H. destruct H as [calls H]. eapply init_total; eauto. Qed.
Theorem Init_terminates s : apiSteps emptySyntax s -> exists n0, forall n, n0 <= n -> Init n s <> NoFuel.
Proof. intros H. apply Init_fuel. exact (apiSteps_reachable _ _ H re_new). Qed.

(** ** undefined references *)
(** every reference is a defined name or a name without colon *)
Definition properRefs (calls : list defcall) : Prop := forall n r x, grammarOf calls n = Some r -> In x (ruleRefs r) -> grammarOf calls x <> None \/ colonFree x.
Lemma patch_not_free a b l : ~ colonFree (patchName (a :: b :: l)).
Proof. unfold patchName, colonFree. intros H. apply H. change (String.concat ":" (a :: b :: l)) with (a ++ ":" ++ String.concat ":" (b :: l))%string. rewrite list_ascii_app. apply in_or_app. right. left. reflexivity. Qed.
Lemma refsOf_refs o : refsOf o = refs (dKind o).
Proof. reflexivity. Qed.
Lemma nEv_refs h h' a d d' : nEv h h' -> nth_error h a = Some d -> nth_error h' a = Some d' -> refs (dKind d') = refs (dKind d).
Proof.
  intros H Hd Hd'. destruct (H a d Hd) as (d1 & Hd1 & C). rewrite Hd' in Hd1. inversion Hd1; subst d1. pose proof (C FItems) as CI. pose proof (C FOptions) as CO. clear - CI CO.
  unfold content in *. destruct (dKind d) as [| |], (dKind d') as [| |]; simpl in *; auto; try (destruct CI; discriminate); try (destruct CO; discriminate).
  - destruct CI as [CI|CI]; inversion CI; subst; auto. rewrite map_map. apply map_ext. intros it. unfold normalizeItemRange. destruct it; simpl. repeat match goal with |- context [if ?c then _ else _] => destruct c end; auto.
  - destruct CO as [CO|CO]; inversion CO; subst; auto.
Qed.

Theorem init_refs_ws_raw calls s s' err : rawAll emptySyntax calls = (s, None) -> hasWhitespaceDef calls -> properNames calls -> properRefs calls -> Inits s s' err ->
  match err with
  | None => forall n, needed calls n -> grammarOf calls n <> None
  | Some (ErrParserNotFound n) => needed calls n /\ grammarOf calls n = None
  | Some ErrNoParsersDefined => calls = []
  | Some (ErrIncompatible n a b) => b = CRoot /\ exists d, In d calls /\ callName d = n /\ rootName calls = Some n /\ isRoot d = false /\
      In (a, b) incompatiblePairs /\ hasFlag (callFlags d) a = true
  | Some _ => False
  end.
Proof.
  intros Hdef Hws [Hnm Htl] Hpr [fuel HI]. pose proof (rep_rawAll calls [] _ _ rep_empty Hdef) as Hr. simpl in Hr. set (objs := flat_map callObjs calls) in *.
  pose proof (rawAll_dinv _ _ _ _ dinv_empty Hdef) as Hdinv.
  pose proof Hr as [R1 R2 R3 R4 R5 R6 R7 R8 R9 R10 R11].
  rewrite Init_split, R1, R2 in HI.
  destruct (sRoot s) as [root|] eqn:Er.
  2:{ inversion HI; subst. symmetry in R9. apply rootIdx_none in R9. apply callObjs_nil. exact R9. }
  destruct (root_name calls root) as (ro & Hro & Hn & Hc); [fold objs; rewrite <- R9; auto|]. fold objs in Hro.
  destruct (R4 root ro Hro) as (rd & Ed & N1 & N2 & _ & _ & N5). rewrite Ed in HI.
  destruct (sRegistry s) as [reg|] eqn:Eg; [|discriminate].
  destruct (checkCommitType rd) as [e|] eqn:Ecc.
  { inversion HI; subst. pose proof (root_refused calls s' root rd e Hr Er Ed Ecc) as X. destruct e; try contradiction; exact X. }
  assert (Ereg : regOf s = reg) by (unfold regOf; rewrite Eg; auto). rewrite Ereg in *.
  binv HI. destruct x as [[h0 reg1] root1]. binv HI. destruct x as [h' e].
  assert (Hrl : root < List.length (sHeap s)) by (apply nth_error_Some; congruence).
  destruct (prepare_spec _ _ _ _ _ _ Hdinv Eg Hrl E) as (Pun & Pmap & Proot & Pkw).
  pose proof (prepare_nEv _ _ _ _ _ _ E) as Hev.
  destruct (ws_first calls s root rd Hdef Hws Er Ed Ecc) as (Hrt & Hhw & Hndl & Hat & HobjN & Ews & En1 & Hrtn & Hsame). fold objs in Hat, HobjN, En1.
  set (l := map preinit (sHeap s)) in *. set (rt := main (preinit rd)) in *. set (R0 := ruleIn (map objPair l)) in *.
  assert (Hlen : List.length (sHeap s) = List.length l) by (unfold l; rewrite map_length; auto).
  unfold prepare in E. rewrite R6, <- R3, preinitAll_map in E. fold l in E. rewrite Hhw in E. binv E. destruct x as [[h1 D1] root2]. destruct (newRegistry h1 D1) as [h2 reg2] eqn:En. injection E as -> -> ->.
  rewrite Hlen in E1. destruct (applyWhitespace_spec _ _ _ _ _ E1 Hrt) as (A1 & A2 & A3 & A4 & A5).
  (* rules *)
  assert (HR0 : forall n, R0 n = None <-> grammarOf calls n = None) by (intros n; specialize (Hsame n); destruct (R0 n), (grammarOf calls n); simpl in Hsame; split; intros; auto; try discriminate; destruct Hsame).
  assert (HR0s : forall n r, R0 n = Some r -> exists r', grammarOf calls n = Some r' /\ ruleRefs r = ruleRefs r').
  { intros n r H. pose proof (Hsame n) as S. rewrite H in S. destruct (grammarOf calls n) as [r'|] eqn:Eg'; [|destruct S]. exists r'. split; auto. apply sameRule_refs. exact S. }
  assert (HR0s' : forall n r, grammarOf calls n = Some r -> exists r', R0 n = Some r' /\ ruleRefs r' = ruleRefs r).
  { intros n r H. pose proof (Hsame n) as S. rewrite H in S. destruct (R0 n) as [r'|] eqn:Eg'; [|destruct S]. exists r'. split; auto. apply sameRule_refs. exact S. }
  assert (Hproper : forall n r x, R0 n = Some r -> In x (ruleRefs r) -> R0 x <> None \/ colonFree x).
  { intros n r x H Hx. destruct (HR0s n r H) as (r' & G1 & G2). rewrite G2 in Hx. destruct (Hpr n r' x G1 Hx) as [G|]; auto. left. intros X. apply G, HR0. exact X. }
  assert (Hcomps : forall o, In o l -> exists c, comps (dName o) c).
  { intros o Ho. destruct (HobjN o Ho) as (o' & d0 & Ho' & _ & -> & _ & _). apply in_flat_map in Ho'. destruct Ho' as (d & Hd & Ho'). destruct (Hnm d Hd) as (c & Hcc).
    destruct (callObjs_names d o' Ho') as [->|(_ & i & ->)]; [eauto|]. eexists. apply comps_child; eauto. }
  assert (Hrefc : forall o x, In o l -> In x (refsOf o) -> exists c, comps x c).
  { intros o x Ho Hx. pose proof (ruleIn_In l o Hndl Ho) as G. fold R0 in G. destruct (Hproper _ _ x G) as [P|P].
    - rewrite objRule_refs. rewrite refsOf_refs in Hx. exact Hx.
    - destruct (R0 x) as [r|] eqn:Ex; [|congruence]. apply ruleIn_inv in Ex. destruct Ex as (o' & Ho' & <- & _). auto.
    - exists [x], x, []. repeat split; auto. }
  assert (Htell : tellable (spacedSeq l)).
  { eapply tellable_sub; [|exact Htl]. intros n (o & Ho & Hk & <-). destruct (HobjN o Ho) as (o' & d0 & Ho' & -> & -> & Hkk & _). apply in_flat_map in Ho'. destruct Ho' as (d & Hd & Ho').
    exists d. split; auto. destruct (callObjs_names d o' Ho') as [->|(Hcc & _)]; auto. exfalso. unfold keeps in Hk. unfold preinit, initRanges in Hk. rewrite <- Hkk in Hcc.
    destruct (dKind d0) eqn:Ek0; simpl in *; try rewrite Ek0 in Hk; discriminate. }
  pose proof (rewritten_nodup l rt Hndl Hrt Hrefc Hcomps Htell) as Hnd.
  assert (Hnorm : forall o oi items rs a1 a2 a3 a4 a5, In o l -> dKind o = KSeq oi items rs a1 a2 a3 a4 a5 -> Forall normal items).
  { intros o oi items rs a1 a2 a3 a4 a5 Ho Hk. destruct (HobjN o Ho) as (o' & d0 & _ & -> & _). eapply preinit_normal; eauto. }
  pose proof (ws_shape l rt Hnd Hndl Hrt Hnorm) as Hsh. fold R0 in Hsh. rewrite Ews in Hsh. set (Rw := ruleIn (map objPair (rewritten l rt))) in *.
  (* the registry *)
  unfold newRegistry in En. destruct (newRegistryLoop_all _ _ _ emptyRegistry _ _ A1 A2 Hnd (fun o _ => eq_refl) En) as (G1 & G2 & G3). simpl in G1.
  destruct (newRegistryLoop_inv D1 h1 emptyRegistry h0 reg1 (regInv_empty _) (fun a Ha => objsAt_lt _ _ _ A1 a Ha) En) as (G4 & _ & _).
  assert (Hheap : forall nm, heapRule (gDefinition reg1) h0 nm = Rw nm) by (eapply heapRule_reg; eauto).
  assert (Hun : forall a d, nth_error h0 a = Some d -> unwalkedK (dKind d)) by (intros a d Hd; unfold unwalked in Pun; rewrite Forall_forall in Pun; apply Pun; eapply nth_error_In; eauto).
  assert (Hnames : forall n a, lookup (gDefinition reg1) n = Some a -> exists d, nth_error h0 a = Some d /\ dName d = n).
  { intros n a H. destruct (ri_map _ _ G4 n a H) as (_ & d & Hd & Ed'). eauto. }
  set (kwN := map callName (filter (fun d => hasFlag (callFlags d) CKeyword) calls)).
  assert (Hobjn : forall a o, nth_error objs a = Some o -> exists d r, nth_error h0 a = Some d /\ R0 (dName o) = Some r /\ refs (dKind d) = ruleRefs r).
  { intros a o Ho. destruct (Hat a o Ho) as (d0 & Hd0 & M1 & M2). destruct (Hev a d0 Hd0) as (d & Hd & _). exists d. pose proof (nEv_refs _ _ _ _ _ Hev Hd0 Hd) as M3.
    assert (Hl : In (preinit d0) l) by (unfold l; apply in_map; eapply nth_error_In; eauto). pose proof (ruleIn_In l _ Hndl Hl) as G. fold R0 in G. rewrite (proj1 (preinit_same d0)), M1 in G.
    eexists. split; [exact Hd|]. split; [exact G|]. rewrite objRule_refs, M3. rewrite <- !refsOf_refs. change (refs (dKind (preinit d0))) with (refsOf (preinit d0)). rewrite preinit_refs. reflexivity. }
  assert (Hkw1 : forall a, In a (sKeywords s) -> exists d n r, nth_error h0 a = Some d /\ In n kwN /\ R0 n = Some r /\ refs (dKind d) = ruleRefs r).
  { intros a Ha. rewrite R10 in Ha. apply kwIdx_In in Ha. destruct Ha as (j & o & -> & Ho & Hf). simpl. destruct (Hobjn j o Ho) as (d & r & Q1 & Q2 & Q3). exists d, (dName o), r. repeat (split; auto).
    apply nth_error_In in Ho. apply call_objs_in in Ho. destruct Ho as (c & Hcc & Ho). destruct (callObjs_split c) as (chs & o1 & Ec & Hch & Eno & _ & _ & _ & Ekw). rewrite Ec in Ho. apply in_app_or in Ho. destruct Ho as [Ho|[<-|[]]].
    - apply Hch in Ho. destruct Ho as (_ & _ & Ho & _). congruence.
    - rewrite Eno. unfold kwN. apply in_map. apply filter_In. split; auto. congruence. }
  assert (Hkw2 : forall n, In n kwN -> exists a d r, In a (sKeywords s) /\ nth_error h0 a = Some d /\ R0 n = Some r /\ refs (dKind d) = ruleRefs r).
  { intros n Hin. unfold kwN in Hin. apply in_map_iff in Hin. destruct Hin as (c & <- & Hin). apply filter_In in Hin. destruct Hin as [Hcc Hf].
    destruct (callObjs_split c) as (chs & o1 & Ec & Hch & Eno & _ & _ & _ & Ekw).
    assert (Ho : In o1 objs). { unfold objs. apply in_flat_map. exists c. split; auto. rewrite Ec. apply in_or_app; right; left; auto. }
    apply In_nth_error in Ho. destruct Ho as (j & Ho). destruct (Hobjn j o1 Ho) as (d & r & Q1 & Q2 & Q3). exists j, d, r. rewrite <- Eno. repeat (split; auto).
    rewrite R10. apply kwIdx_In. exists j, o1. split; auto. split; auto. congruence. }
  assert (Hlook : lookup (gDefinition reg1) (dName rt) = Some root1).
  { destruct (G2 root1 _ A4) as (ri & Hroot1). assert (In root1 (gDefinitions reg1)) as Hin by (rewrite G1; auto). apply In_nth_error in Hin. destruct Hin as [q Hq].
    destruct (ri_defs _ _ G4 q root1 Hq) as (dd & Hdd & _ & El). rewrite Hroot1 in Hdd. inversion Hdd; subst dd. exact El. }
  assert (HrootR : R0 (dName rt) <> None).
  { intros X. apply HR0 in X. rewrite Hn in Hrtn. inversion Hrtn as [Y]. rewrite <- Y in X. revert X. apply grammar_names. fold objs. apply in_map. eapply nth_error_In; eauto. }
  assert (HwsR : forall n, In n (whitespaceNames calls) -> R0 n <> None).
  { intros n Hin. rewrite <- Ews in Hin. apply in_map_iff in Hin. destruct Hin as (o & <- & Ho). apply filter_In in Ho. unfold R0. rewrite (ruleIn_In l o Hndl (proj1 Ho)). discriminate. }
  assert (Hspecial : ~ colonFree (patchName [dName rt; "wsroot"%string]) /\ forall n ct items o, R0 n = Some (RSeq ct items) -> compact ct = false -> In o (fst (wsItems n 0 items)) -> ~ colonFree (dName o)).
  { split; [apply patch_not_free|]. intros n ct items o _ _ Ho. apply wsItems_names in Ho. destruct Ho as (x & kind & j & _ & _ & _ & ->). apply patch_not_free. }
  assert (Hneed : forall n, needed calls n <-> neededR R0 (whitespaceNames calls) (dName rt) kwN n).
  { intros n. split; [induction 1 as [n Hx|n Hx|n Hx|n r x N IH Hru Hx]|induction 1 as [|n Hx|n Hx|n r x N IH Hru Hx]].
    - rewrite Hrtn in Hx. inversion Hx. apply nr_root.
    - apply nr_kw. unfold kwN. apply in_map, filter_In. auto.
    - apply nr_ws. unfold whitespaceNames. apply in_map, filter_In. auto.
    - destruct (HR0s' n r Hru) as (r' & Q1 & Q2). eapply nr_ref; eauto. rewrite Q2. auto.
    - apply need_root. auto.
    - unfold kwN in Hx. apply in_map_iff in Hx. destruct Hx as (c & <- & Hx). apply filter_In in Hx. destruct Hx. apply need_keyword; auto.
    - unfold whitespaceNames in Hx. apply in_map_iff in Hx. destruct Hx as (c & <- & Hx). apply filter_In in Hx. destruct Hx. apply need_whitespace; auto.
    - destruct (HR0s n r Hru) as (r' & Q1 & Q2). eapply need_ref; eauto. rewrite <- Q2. auto. }
  apply initCore_ok in E0; auto. destruct e as [e|]; inversion HI; subst.
  - destruct E0 as (a & Ha & Hu). destruct (ws_undefined _ _ _ _ _ _ _ _ _ kwN Hsh Hheap Hnames Hlook HrootR HwsR Hkw1 Hproper Hspecial a e Ha Hu) as (n & -> & Q1 & Q2).
    split; [apply Hneed; auto|apply HR0; auto].
  - destruct E0 as (F & A & _). intros n N X. apply Hneed in N. apply HR0 in X. revert X. eapply (ws_defined (gDefinition reg1) h0 R0 Rw); eauto.
Qed.

Lemma symbolRefs_proper calls : symbolRefs calls -> properRefs (map withUserDefined calls).
Proof.
  intros H n r x Hn Hx. pose proof (userDefined_grammar calls n) as S. rewrite Hn in S. destruct (grammarOf calls n) as [r'|] eqn:E; [|destruct S].
  rewrite (sameRule_refs _ _ S) in Hx. destruct (H n r' x E Hx) as [G|G]; [left; apply userDefined_grammar_none; auto|right; apply valid_colonFree; auto].
Qed.
Theorem init_refs_all calls s s' err : Defined calls s -> symbolRefs calls -> Inits s s' err ->
  match err with
  | None => forall n, needed calls n -> grammarOf calls n <> None
  | Some (ErrParserNotFound n) => needed calls n /\ grammarOf calls n = None
  | Some ErrNoParsersDefined => calls = []
  | Some (ErrIncompatible n a b) => b = CRoot /\ exists d, In d calls /\ callName d = n /\ rootName calls = Some n /\ isRoot d = false /\
      In (a, b) incompatiblePairs /\ hasFlag (callFlags d) a = true
  | Some _ => False
  end.
Proof.
  intros Hd0 Hs HI. destruct (hasWs_dec calls) as [Hws|Hno]; [|eapply init_refs; eauto]. pose proof Hd0 as Hd. apply defineAll_raw in Hd. destruct Hd as [Hd Hv].
  assert (H : hasWhitespaceDef (map withUserDefined calls)).
  { destruct Hws as (d & Hin & Hf). exists (withUserDefined d). split; [apply in_map; auto|]. change CWhitespace with (2 ^ 2)%N. rewrite userDefined_flags by discriminate. auto. }
  assert (Hp : properNames (map withUserDefined calls)).
  { split.
    - intros d Hin. apply in_map_iff in Hin. destruct Hin as (d0 & <- & Hin). rewrite userDefined_name. exists [callName d0]. exists (callName d0), []. split; auto. split; auto. split; [|constructor]. apply valid_colonFree; auto.
    - left. intros n (d & Hin & <-). apply in_map_iff in Hin. destruct Hin as (d0 & <- & Hin). rewrite userDefined_name. apply valid_colonFree; auto. }
  pose proof (init_refs_ws_raw _ _ _ _ Hd H Hp (symbolRefs_proper _ Hs) HI) as G. clear H Hp. rename G into H.
  assert (HG : forall n, grammarOf (map withUserDefined calls) n = None <-> grammarOf calls n = None).
  { intros n. pose proof (userDefined_grammar calls n) as S. destruct (grammarOf (map withUserDefined calls) n), (grammarOf calls n); simpl in S; split; intros; auto; try discriminate; destruct S. }
  destruct err as [e|].
  - destruct e; auto.
    + destruct calls; auto. discriminate.
    + destruct H as [N G]. split; [apply needed_user; exact N|apply HG; exact G].
    + destruct H as (-> & d & D1 & D2 & D3 & D4 & D5 & D6). split; auto. apply in_map_iff in D1. destruct D1 as (d0 & <- & D1). exists d0. rewrite userDefined_name in D2. rewrite userDefined_root in D3.
      split; auto. split; auto. split; auto. unfold isRoot in D4. change CRoot with (2 ^ 7)%N in D4. rewrite userDefined_flags in D4 by discriminate. split; auto. split; auto.
      rewrite <- D6. symmetry. unfold incompatiblePairs in D5. simpl in D5.
      repeat (destruct D5 as [D5|D5]; [inversion D5; subst; first [apply (userDefined_flags d0 1)|apply (userDefined_flags d0 2)|apply (userDefined_flags d0 4)|apply (userDefined_flags d0 6)]; discriminate|]). destruct D5.
  - intros n N G. apply needed_user in N. apply HG in G. exact (H n N G).
Qed.
