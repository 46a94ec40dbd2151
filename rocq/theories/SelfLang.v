(** The built-in parser (self/self.go) is a parser of the published grammar. *)
From Coq Require Import Ascii.
From Verif Require Import Base Utf8 IdSet Results Parser Build Syntax SelfData SelfText Define ListFacts ParseFacts FuelFacts InitSpec InitFuel Grammar WsLang ApiSpec Rep WsNames WsApi ApiFacts RefSpec RefCheck ReadSpec SelfTree SelfGrammar Validate ReadUse Generate GenWalk GenSim.
Local Open Scope string_scope.
Local Open Scope list_scope.
Local Open Scope nat_scope.

(** ** reading syntax.treerack *)
Theorem self_defs : defsOf selfRunes selfTree = Some publishedDefs.
Proof. vm_compute. reflexivity. Qed.
Definition selfSyntax : syntax := Eval vm_compute in fst (rawAll emptySyntax published).
Lemma self_raw : rawAll emptySyntax published = (selfSyntax, None).
Proof. vm_compute. reflexivity. Qed.
Theorem self_define : define selfRunes emptySyntax selfTree = Ok (selfSyntax, None).
Proof. vm_compute. reflexivity. Qed.
Definition selfInit : syntax := Eval vm_compute in match Init 3000 selfSyntax with Ok (s, _) => s | _ => emptySyntax end.
Lemma self_init : Init 3000 selfSyntax = Ok (selfInit, None).
Proof. vm_compute. reflexivity. Qed.

(** ** the published grammar *)
Definition refersb (calls : list defcall) : bool :=
  let names := map callName calls in
  forallb (fun d => match d with
    | DSequence _ _ items => forallb (fun it => existsb (String.eqb (siName it)) names) items
    | DChoice _ _ options => forallb (fun o => existsb (String.eqb o) names) options
    | _ => true end) calls.
Lemma refersb_ok calls : refersb calls = true -> refersToDefs calls.
Proof.
  unfold refersb, refersToDefs. rewrite forallb_forall. intros H d Hd. specialize (H d Hd).
  assert (X : forall x, existsb (String.eqb x) (map callName calls) = true -> In x (map callName calls)).
  { intros x Hx. apply existsb_exists in Hx. destruct Hx as (y & Hy & E). apply String.eqb_eq in E. subst. auto. }
  destruct d; auto; rewrite forallb_forall in H; auto.
Qed.
Definition sensibleb (calls : list defcall) : bool :=
  forallb (fun d => match d with
    | DSequence _ _ items => forallb (fun it => (Z.leb (siMax it) 0 || Z.leb (siMin it) (siMax it))%bool) items
    | _ => true end) calls.
Lemma sensibleb_ok calls : sensibleb calls = true -> sensibleRanges calls.
Proof.
  unfold sensibleb, sensibleRanges. rewrite forallb_forall. intros H n ct items it Hd Hit Hm. specialize (H _ Hd). simpl in H. rewrite forallb_forall in H. specialize (H _ Hit).
  apply orb_true_iff in H. destruct H as [H|H]; apply Z.leb_le in H; lia.
Qed.
Lemma self_refers : refersToDefs published.
Proof. apply refersb_ok. vm_compute. reflexivity. Qed.
Lemma self_sensible : sensibleRanges published.
Proof. apply sensibleb_ok. vm_compute. reflexivity. Qed.
Lemma self_noKeywords d : In d published -> hasFlag (callFlags d) CKeyword = false.
Proof.
  assert (H : forallb (fun d => negb (hasFlag (callFlags d) CKeyword)) published = true) by (vm_compute; reflexivity).
  rewrite forallb_forall in H. intros Hd. apply H in Hd. apply negb_true_iff in Hd. auto.
Qed.
Lemma self_keywords : literalKeywords published.
Proof. intros d Hd Hk. rewrite self_noKeywords in Hk by auto. discriminate. Qed.
Lemma digits_noItoa n : forallb digit (list_ascii_of_string n) = false -> ~ isItoa n.
Proof. intros H [k ->]. rewrite itoaNat_digits in H. discriminate. Qed.
Lemma self_proper : properNames published.
Proof.
  apply text_proper.
  assert (H : forallb (fun d => negb (existsb (Ascii.eqb ":") (list_ascii_of_string (tdName d))) && negb (forallb digit (list_ascii_of_string (tdName d)))) publishedDefs = true) by (vm_compute; reflexivity).
  rewrite forallb_forall in H. intros d Hd. apply H, andb_true_iff in Hd. destruct Hd as [H1 H2]. apply negb_true_iff in H1, H2. split; [|apply digits_noItoa; auto].
  intros Hc. assert (existsb (Ascii.eqb ":") (list_ascii_of_string (tdName d)) = true); [|congruence]. apply existsb_exists. exists ":"%char. split; auto.
Qed.
Theorem self_usable : usable published selfSyntax.
Proof.
  apply raw_usable; [exact self_raw|]. intros _. split; [apply refers_all, self_refers|]. split; [|exact self_proper].
  intros d Hd Hk. rewrite self_noKeywords in Hk by auto. discriminate.
Qed.

(** ** no left recursion: a table of the graph, the keys that may be empty and a rank of each key *)
Definition look {A} (l : list (key * A)) (k : key) : option A :=
  match find (fun p => key_eq k (fst p)) l with Some p => Some (snd p) | None => None end.
Definition emptyObj (l : list key) (g : option (gobj key)) : bool :=
  match g with
  | Some (GSeq _ _ items) => forallb (fun x => (fst (snd x) =? 0) || member l (fst x)) items
  | Some (GChoice _ options) => existsb (member l) options
  | _ => false
  end.
Definition startsObj (l : list key) (g : option (gobj key)) : list key :=
  match g with
  | Some (GSeq _ _ items) => firstItems (member l) items
  | Some (GChoice _ options) => options
  | _ => []
  end.
Definition rankIn (ranks : list (key * nat)) (k : key) : nat := match look ranks k with Some v => v | None => 0 end.
Definition certified (tab : list (key * option (gobj key))) (empty : list key) (ranks : list (key * nat)) : bool :=
  forallb (fun p => implb (emptyObj empty (snd p)) (member empty (fst p))) tab &&
  forallb (fun p => let r := rankIn ranks (fst p) in forallb (fun x => rankIn ranks x <? r) (startsObj empty (snd p))) tab.
Theorem certified_ok calls empty ranks : certified (map (fun k => (k, graphOf calls k)) (keysOf calls)) empty ranks = true -> noLeftRecursion calls.
Proof.
  intros H. apply andb_true_iff in H. destruct H as [H1 H2]. rewrite forallb_forall in H1, H2. exists (member empty), (rankIn ranks).
  assert (Hin : forall k, graphOf calls k <> None -> In (k, graphOf calls k) (map (fun k => (k, graphOf calls k)) (keysOf calls))).
  { intros k Hk. apply in_map_iff. exists k. split; auto. apply keys_cover. auto. }
  split.
  - intros k. specialize (Hin k). destruct (graphOf calls k) as [[cn ch rs|lb nk items|lb options]|] eqn:Eg; auto; specialize (H1 _ (Hin ltac:(discriminate))); cbn [fst snd emptyObj] in H1.
    + intros Hi. destruct (member empty k); auto. assert (X : forallb (fun x => (fst (snd x) =? 0) || member empty (fst x)) items = true).
      { apply forallb_forall. intros [x [mn mx]] Hx. simpl. destruct (Hi x mn mx Hx) as [->|Hx']; [reflexivity|]. rewrite Hx'. apply orb_true_r. }
      rewrite X in H1. discriminate.
    + intros x Hx HEx. destruct (member empty k); auto. assert (X : existsb (member empty) options = true) by (apply existsb_exists; exists x; auto). rewrite X in H1. discriminate.
  - intros a x Hs. assert (Ha : graphOf calls a <> None) by (destruct Hs; congruence). specialize (H2 _ (Hin a Ha)). cbn [fst snd] in H2. rewrite forallb_forall in H2.
    apply Nat.ltb_lt, H2. unfold startsObj. destruct Hs as [l k before b behind Eg Hb|l options Eg Ho]; rewrite Eg; auto. apply firstItems_In; auto.
Qed.

Definition selfGraph : list (key * option (gobj key)) := Eval vm_compute in map (fun k => (k, graphOf published k)) (keysOf published).
Lemma selfGraph_eq : map (fun k => (k, graphOf published k)) (keysOf published) = selfGraph.
Proof. vm_compute. reflexivity. Qed.
Definition selfEmpty : list key := [KDef "syntax"; KBody "syntax"].
Definition selfRanks : list (key * nat) :=
  Eval vm_compute in
  (fix ranks n := match n with
                  | O => []
                  | S n' => let l := ranks n' in map (fun p => (fst p, S (fold_right (fun x m => Nat.max (rankIn l x) m) 0 (startsObj selfEmpty (snd p))))) selfGraph
                  end) 12.
Theorem self_noLeft : noLeftRecursion published.
Proof. apply (certified_ok _ selfEmpty selfRanks). rewrite selfGraph_eq. vm_compute. reflexivity. Qed.

(** ** the same parsers at other addresses *)
Section RENAMED.
Variables (P H B : pheap) (rename : addr -> addr) (live : addr -> Prop) (top : addr).
Hypothesis Hmap : forall a, rename a = idAt P a.
Hypothesis Hentry : forall a, live a -> exists o, nth_error P a = Some o /\ nth_error H (rename a) = Some (writtenParser P o) /\
  nth_error B (rename a) = Some (writtenBuilder P o) /\ forall x, In x (kids o) -> live x.
Hypothesis Hids : forall a n i c os gs x o, live a -> nth_error P a = Some (PChoice n i c os gs) -> In x os -> nth_error P x = Some o -> isCh o = false.
Hypothesis Ht : live top.
Definition sameOut (x y : parseOut) : Prop :=
  match x, y with
  | Tree t k, Tree t' k' => t = t' /\ k = k'
  | Failed e1, Failed e2 => e1 = e2 \/ exists o l c n1 n2, e1 = ErrParse o l c n1 /\ e2 = ErrParse o l c n2
  | _, _ => False
  end.
Lemma renamed_sim fuel input e : rel sameOut (parseInput P [] top fuel input e) (parseInputPB H B [] (rename top) (rename top) fuel input e).
Proof.
  set (ok := fun a => live a /\ exists o, nth_error P a = Some o /\ isCh o = false /\ hasFlag (commitTypeOf o) CUserDefined = true).
  assert (Em : forall l, map (idAt P) l = map rename l) by (intros l; apply map_ext; intros; symmetry; apply Hmap).
  assert (AP : forall a, live a -> exists o o', nth_error P a = Some o /\ nth_error H (rename a) = Some o' /\ alikeP rename o o' /\ forall x, In x (kids o) -> live x).
  { intros a Ha. destruct (Hentry a Ha) as (o & E1 & E2 & _ & E4). exists o, (writtenParser P o). split; auto. split; auto. split; auto.
    destruct o as [nm i x cs rs|nm i cm it rs gs ac|nm i cm os gs]; cbn [writtenParser alikeP]; repeat split; auto; intros ->; auto. }
  assert (AB : forall a, live a -> exists o o', nth_error P a = Some o /\ nth_error B (rename a) = Some o' /\ alikeB rename o o' /\ forall x, In x (kids o) -> live x).
  { intros a Ha. destruct (Hentry a Ha) as (o & E1 & _ & E3 & E4). exists o, (writtenBuilder P o). split; auto. split; auto. split; auto.
    destruct o as [nm i x cs rs|nm i cm it rs gs ac|nm i cm os gs]; cbn [writtenBuilder alikeB]; repeat split; auto; intros ->; auto. }
  assert (Hok1 : forall a o, live a -> nth_error P a = Some o -> isCh o = false -> hasFlag (commitTypeOf o) CUserDefined = true -> ok a) by (intros; split; eauto).
  assert (Hok2 : forall a, ok a -> live a /\ exists o, nth_error P a = Some o /\ isCh o = false /\ hasFlag (commitTypeOf o) CUserDefined = true) by auto.
  assert (Hopt : forall a n i c os gs x ox ox', live a -> nth_error P a = Some (PChoice n i c os gs) -> In x os -> nth_error P x = Some ox -> nth_error B (rename x) = Some ox' -> nodeID ox' = nodeID ox).
  { intros a n i c os gs x ox ox' Ha Eo Hx Ex Ex'. pose proof (Hids _ _ _ _ _ _ _ _ Ha Eo Hx Ex) as Hc.
    destruct (Hentry a Ha) as (o1 & F1 & _ & _ & F4). rewrite Eo in F1. inversion F1; subst o1. destruct (Hentry x (F4 x Hx)) as (o2 & G1 & _ & G3 & _).
    rewrite Ex in G1. inversion G1; subst o2. rewrite Ex' in G3. inversion G3; subst ox'. destruct ox; simpl in *; auto; discriminate. }
  unfold parseInput, parseInputPB. eapply rel_bind.
  { apply (parse_sim rename ok P H live AP Hok1 [] fuel ltac:(intros k []) top (newContext input e) (newContext input e) Ht). split; auto. intros p; discriminate. }
  intros c d Hc. pose proof Hc as [Hd _]. replace (cReadErr d) with (cReadErr c) by (subst d; auto). destruct (cReadErr c); [constructor; left; auto|].
  eapply rel_bind.
  { apply (finalize_sim rename ok P H live AP Hok2 top Ht c d Hc). }
  intros [c1 [e1|]] [d1 [e2|]] [X1 X2]; simpl in X1, X2; try contradiction.
  - constructor. destruct X2 as [[->|(o & l & cc & o1 & o2 & W1 & W2 & -> & ->)] X3]; [left; auto|]. right. repeat eexists.
  - eapply rel_bind.
    { apply (build_sim rename rename P B live AB Hopt fuel top (setResults (setOffset c1 0) (resetPending (cResults (setOffset c1 0)))) (setResults (setOffset d1 0) (resetPending (cResults (setOffset d1 0))))); auto.
      destruct X1 as [-> _]. reflexivity. }
    intros [[n1 b1] c2] [[n2 b2] d2] [Y1 Y2]. simpl in Y1, Y2. inversion Y1; subst n2 b2. destruct n1; constructor. rewrite Y2. split; auto.
Qed.
End RENAMED.

(** ** the tables of self/self.go are the parsers of the published grammar, renamed *)
Definition selfP : pheap := Eval vm_compute in parsers selfInit.
Lemma selfP_eq : parsers selfInit = selfP.
Proof. vm_compute. reflexivity. Qed.
Definition selfLive : list addr := Eval vm_compute in match sRegistry selfInit with Some reg => gDefinitions reg | None => [] end.
Definition selfTop : addr := Eval vm_compute in match sRoot selfInit with Some a => a | None => 0 end.
Lemma selfTop_eq : sRoot selfInit = Some selfTop.
Proof. vm_compute. reflexivity. Qed.
Lemma self_kws : sKeywords selfInit = [].
Proof. vm_compute. reflexivity. Qed.
Definition rename (a : addr) : addr := idAt selfP a.

Definition entryOk (a : addr) : bool :=
  match nth_error selfP a, nth_error selfParsers (rename a), nth_error selfBuilders (rename a) with
  | Some o, Some o', Some o'' =>
    pobjEqb (writtenParser selfP o) o' && pobjEqb (writtenBuilder selfP o) o'' && forallb (fun x => existsb (Nat.eqb x) selfLive) (kids o)
  | _, _, _ => false
  end.
Lemma self_entries : forallb entryOk selfLive = true.
Proof. vm_compute. reflexivity. Qed.
Definition live (a : addr) : Prop := In a selfLive.
Lemma self_entry a : live a -> exists o, nth_error selfP a = Some o /\ nth_error selfParsers (rename a) = Some (writtenParser selfP o) /\
  nth_error selfBuilders (rename a) = Some (writtenBuilder selfP o) /\ forall x, In x (kids o) -> live x.
Proof.
  intros Ha. pose proof self_entries as H. rewrite forallb_forall in H. specialize (H a Ha). unfold entryOk in H.
  destruct (nth_error selfP a) as [o|]; [|discriminate]. destruct (nth_error selfParsers (rename a)) as [o1|]; [|discriminate]. destruct (nth_error selfBuilders (rename a)) as [o2|]; [|discriminate].
  apply andb_true_iff in H. destruct H as [H H3]. apply andb_true_iff in H. destruct H as [H1 H2]. apply pobjEqb_eq in H1, H2. subst. exists o. split; auto. split; auto. split; auto.
  intros x Hx. rewrite forallb_forall in H3. specialize (H3 x Hx). apply existsb_exists in H3. destruct H3 as (y & Hy & E). apply Nat.eqb_eq in E. subst. auto.
Qed.

Lemma self_optionIds : forallb (fun a => match nth_error selfP a with
    | Some (PChoice _ _ _ os _) => forallb (fun x => match nth_error selfP x with Some o => negb (isCh o) | None => true end) os
    | _ => true end) selfLive = true.
Proof. vm_compute. reflexivity. Qed.
Lemma self_optionId a n i c os gs x o : live a -> nth_error selfP a = Some (PChoice n i c os gs) -> In x os -> nth_error selfP x = Some o -> isCh o = false.
Proof.
  intros Ha Eo Hx Ex. pose proof self_optionIds as H. rewrite forallb_forall in H. specialize (H a Ha). cbv beta in H. rewrite Eo in H. rewrite forallb_forall in H. specialize (H x Hx). rewrite Ex in H.
  apply negb_true_iff in H. exact H.
Qed.
Lemma self_live : live selfTop.
Proof.
  assert (H : existsb (Nat.eqb selfTop) selfLive = true) by (vm_compute; reflexivity). apply existsb_exists in H. destruct H as (y & Hy & E). apply Nat.eqb_eq in E. rewrite E. exact Hy.
Qed.
Lemma self_tops : selfRoot = rename selfTop /\ selfBuilderRoot = rename selfTop.
Proof. split; vm_compute; reflexivity. Qed.
Lemma self_sim fuel input e : rel sameOut (parseInput selfP [] selfTop fuel input e) (selfParse fuel input e).
Proof.
  unfold selfParse. rewrite (proj1 self_tops), (proj2 self_tops).
  exact (renamed_sim selfP selfParsers selfBuilders rename live selfTop (fun a => eq_refl) self_entry self_optionId self_live fuel input e).
Qed.
Lemma self_init_from : exists n0, forall n, n0 <= n -> Init n selfSyntax = Ok (selfInit, None).
Proof. exists 3000. intros n Hn. pose proof (Init_mono 3000 n selfSyntax Hn) as X. rewrite self_init in X. apply X. discriminate. Qed.
Lemma parse_after s s' P root kws n input e : Init n s = Ok (s', None) -> sRoot s' = Some root -> parsers s' = P -> sKeywords s' = kws ->
  Parse n s input e = bind (parseInput P kws root n input e) (fun o => Ok (s', o)).
Proof. intros H1 H2 <- <-. unfold Parse. rewrite H1. cbn [bind]. rewrite H2. reflexivity. Qed.
(** two ways to parse, related *)
Section TWO.
Variables (s s' : syntax) (P : pheap) (root : addr) (n0 : nat) (Q : nat -> list rune -> rend -> res parseOut).
Hypothesis Hinit : forall n, n0 <= n -> Init n s = Ok (s', None).
Hypothesis Hroot : sRoot s' = Some root.
Hypothesis HP : parsers s' = P.
Hypothesis Hkws : sKeywords s' = [].
Hypothesis Hsim : forall fuel input e, rel sameOut (parseInput P [] root fuel input e) (Q fuel input e).
Lemma two_there fuel input e t toks : Q fuel input e = Ok (Tree t toks) -> Parses s input e s' (Tree t toks).
Proof.
  intros H. pose proof (Hsim fuel input e) as S. rewrite H in S. inversion S as [x y Hxy E1 E2| |]; subst. destruct x as [t' k'|]; [|contradiction]. destruct Hxy as [-> ->].
  exists (n0 + fuel). rewrite (parse_after s s' (parsers s') root [] (n0 + fuel) input e) by (auto; apply Hinit; lia).
  pose proof (parseInput_mono (parsers s') [] root fuel (n0 + fuel) input e ltac:(lia)) as X. rewrite <- E1 in X. rewrite X by discriminate. reflexivity.
Qed.
Lemma two_back input e t toks s2 : Parses s input e s2 (Tree t toks) -> s2 = s' /\ exists fuel, Q fuel input e = Ok (Tree t toks).
Proof.
  intros [fuel H]. pose proof (Parse_mono fuel (n0 + fuel) s input e ltac:(lia)) as X. rewrite H in X. specialize (X ltac:(discriminate)). clear H.
  rewrite (parse_after s s' P root [] (n0 + fuel) input e) in X by (auto; apply Hinit; lia).
  pose proof (Hsim (n0 + fuel) input e) as S. inversion S as [x y Hxy E1 E2|w E1 E2|E1 E2]; rewrite <- E1 in X; cbn [bind] in X; try discriminate. inversion X; subst. split; auto.
  exists (n0 + fuel). rewrite <- E2. destruct y as [t' k'|]; [|contradiction]. destruct Hxy as [-> ->]. auto.
Qed.
Lemma two_panics input e : ParsePanics s input e <-> exists fuel why, Q fuel input e = Panic why.
Proof.
  split.
  - intros (fuel & why & H). pose proof (Parse_mono fuel (n0 + fuel) s input e ltac:(lia)) as X. rewrite H in X. specialize (X ltac:(discriminate)). clear H.
    rewrite (parse_after s s' P root [] (n0 + fuel) input e) in X by (auto; apply Hinit; lia).
    pose proof (Hsim (n0 + fuel) input e) as S. inversion S as [x y Hxy E1 E2|w E1 E2|E1 E2]; rewrite <- E1 in X; cbn [bind] in X; try discriminate. exists (n0 + fuel), w. auto.
  - intros (fuel & why & H). pose proof (Hsim fuel input e) as S. rewrite H in S. inversion S as [|w E1 E2|]; subst.
    exists (n0 + fuel), why. rewrite (parse_after s s' (parsers s') root [] (n0 + fuel) input e) by (auto; apply Hinit; lia).
    pose proof (parseInput_mono (parsers s') [] root fuel (n0 + fuel) input e ltac:(lia)) as X. rewrite <- E1 in X. rewrite X by discriminate. reflexivity.
Qed.
End TWO.
Lemma self_parses fuel input e t toks : selfParse fuel input e = Ok (Tree t toks) -> Parses selfSyntax input e selfInit (Tree t toks).
Proof. destruct self_init_from as [n0 Hn]. exact (two_there _ _ _ _ n0 _ Hn selfTop_eq selfP_eq self_kws self_sim fuel input e t toks). Qed.
Lemma parses_self input e t toks s2 : Parses selfSyntax input e s2 (Tree t toks) -> s2 = selfInit /\ exists fuel, selfParse fuel input e = Ok (Tree t toks).
Proof. destruct self_init_from as [n0 Hn]. exact (two_back _ _ _ _ n0 _ Hn selfTop_eq selfP_eq self_kws self_sim input e t toks s2). Qed.
Lemma self_panics input e : ParsePanics selfSyntax input e <-> exists fuel why, selfParse fuel input e = Panic why.
Proof. destruct self_init_from as [n0 Hn]. exact (two_panics _ _ _ _ n0 _ Hn selfTop_eq selfP_eq self_kws self_sim input e). Qed.
