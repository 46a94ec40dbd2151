(** A check for predictive syntaxes with whitespace definitions. *)
From Verif Require Import Base Utf8 IdSet Results Parser Build Syntax ListFacts Lang Grammar WsLang ApiSpec InitSpec Api ApiFacts RefSpec RefFuel RefTotal RefCheck LeftCheck InlineSim PredictSpec PredictFacts PredictApi PredictCheck PredictSpaced PredictWs.

Section CHECK.
Variable calls : list defcall.
Notation G := (graphOf calls).
Notation item := (key * (nat * option nat))%type.

(** ** the whitespace characters *)
Definition wsChild (n : string) : option key :=
  match G (KDef n) with
  | Some (GSeq _ false [(c, (1, Some 1))]) => match G c with Some (GChar _ _ _) => Some c | _ => None end
  | _ => None
  end.
Definition wsKeys : list key := flat_map (fun n => match wsChild n with Some c => [c] | None => [] end) (whitespaceNames calls).
Definition wsSimple : bool := forallb (fun n => match wsChild n with Some _ => true | None => false end) (whitespaceNames calls).
Lemma wsChild_ok n c : wsChild n = Some c -> exists lb cn ch rs, G (KDef n) = Some (GSeq lb false [(c, (1, Some 1))]) /\ G c = Some (GChar cn ch rs).
Proof.
  unfold wsChild. destruct (G (KDef n)) as [[| lb [] [|[x [[|[|mn]] [[|[|mx]]|]]] [|]]|]|]; try discriminate. destruct (G x) as [[cn ch rs| |]|] eqn:HG; try discriminate. intros H. injection H as <-. repeat eexists. exact HG.
Qed.
Lemma ws_simple : wsSimple = true -> wsCharacters G KWs (someHas G wsKeys).
Proof.
  unfold wsSimple. rewrite forallb_forall. intros H. exists None, (map KDef (whitespaceNames calls)). split; [reflexivity|]. split.
  - intros x Hx. apply in_map_iff in Hx. destruct Hx as (n & <- & Hn). specialize (H n Hn). destruct (wsChild n) as [c|] eqn:Ec; [|discriminate]. destruct (wsChild_ok n c Ec) as (lb & cn & ch & rs & H1 & H2). exists lb, c, cn, ch, rs. split; auto. split; auto.
    intros r Hr. unfold someHas. apply existsb_exists. exists c. split; [|unfold charHas; rewrite H2; auto]. apply in_flat_map. exists n. rewrite Ec. simpl. auto.
  - intros r Hr. unfold someHas in Hr. apply existsb_exists in Hr. destruct Hr as (c & Hc & Hr). apply in_flat_map in Hc. destruct Hc as (n & Hn & Hc). destruct (wsChild n) as [c'|] eqn:Ec; [|destruct Hc]. destruct Hc as [->|[]].
    destruct (wsChild_ok n c Ec) as (lb & cn & ch & rs & H1 & H2). exists (KDef n), lb, c, cn, ch, rs. split; [apply in_map; auto|]. split; auto. split; auto. unfold charHas in Hr. rewrite H2 in Hr. auto.
Qed.

Section TABLES.
Variable words : list string.
Definition isWord (k : key) : bool := match k with KDef n => existsb (String.eqb n) words | _ => false end.
(** ** between the words *)
Definition between (k : key) : list key := if isWord k then [] else filter (fun x => negb (key_eq x KWs)) (refs calls k).
Fixpoint visitTab (fuel : nat) (l : list key) : list key := match fuel with O => l | S m => visitTab m (dedupe (l ++ flat_map between l)) end.
Definition emptyAt (E : key -> bool) (k : key) : bool :=
  if isWord k then false else
  match G k with
  | Some (GSeq _ _ items) => forallb (fun x => (fst (snd x) =? 0) || E (fst x)) items
  | Some (GChoice _ options) => existsb E options
  | _ => false
  end.
Fixpoint emptyTab (vis : list key) (fuel : nat) : list key := match fuel with O => [] | S m => let t := emptyTab vis m in filter (emptyAt (member t)) vis end.
Fixpoint firstTab' (E : key -> bool) (raw : key -> list key) (vis : list key) (fuel : nat) : list (key * list key) :=
  match fuel with O => [] | S m => let t := firstTab' E raw vis m in map (fun k => (k, dedupe (if isWord k then raw k else stepFirst calls E (look t) k))) vis end.
Fixpoint followTab' (E : key -> bool) (f : key -> list key) (init : key -> list key) (from to : list key) (fuel : nat) : list (key * list key) :=
  match fuel with O => [] | S m =>
    let t := followTab' E f init from to m in
    let p := flat_map (stepFollow calls E f (look t)) from in
    map (fun k => (k, dedupe (init k ++ look p k))) to
  end.
Section OK.
Variables (E : key -> bool) (f n : key -> list key).
Fixpoint seqSpaced (rest : list key) (items : list item) : bool :=
  match items with
  | [] => true
  | (x, (mn, mx)) :: items' =>
    (if key_eq x KWs then (mn =? 0) && match mx with None => true | _ => false end
     else
      (((mn =? 1) && match mx with Some 1 => true | _ => false end) || negb (E x)) &&
      negb (match mx with Some 0 => true | _ => false end) &&
      ((match mx with Some m => m =? mn | None => false end) || apart G (f x) (chain E f items' rest)) &&
      subset (chain E f items' rest ++ match mx with Some 1 => [] | _ => f x end) (n x)) && seqSpaced rest items'
  end.
Definition keySpaced (k : key) : bool :=
  match G k with
  | Some (GSeq _ nokw items) => negb nokw && implb (forallb (fun x => (fst (snd x) =? 0) || E (fst x)) items) (E k) && subset (chain E f items []) (f k) && seqSpaced (n k) items
  | Some (GChoice _ options) =>
    forallb (fun x => negb (key_eq x KWs) && implb (E x) (E k) && subset (f x) (f k) && subset (n k) (n x) &&
      forallb (fun y => (key_eq x y || apart G (f x) (f y)) && (negb (E x) || apart G (f y) (n k))) options) options
  | _ => false
  end.
End OK.
Definition wordOk (e : key -> bool) (ft nt0 : key -> list key) (f n : key -> list key) (k : key) : bool :=
  negb (e k) && apart G (ft k) wsKeys && subset (ft k) (f k) && subset wsKeys (nt0 k) && subset (n k) (nt0 k).
Definition spacedCheck (rounds : nat) (root : string) : bool :=
  let e := emptyKeys calls rounds in
  let ft := firstTab calls (member e) rounds in
  let vis := visitTab rounds [KDef root] in
  let inWords := filter isWord vis in
  let above := filter (fun k => negb (isWord k)) vis in
  let e' := emptyTab vis rounds in
  let ft' := firstTab' (member e') (look ft) vis rounds in
  let nt' := followTab' (member e') (look ft') (fun _ => []) above vis rounds in
  let reach := reachTab calls rounds inWords in
  let nt := followTab' (member e) (look ft) (fun k => if member inWords k then wsKeys ++ look nt' k else []) reach reach rounds in
  wsSimple && forallb (fun k => implb (emptyStep calls e k) (member e k)) (keysOf calls) &&
  member vis (KDef root) && forallb (fun k => subset (between k) vis) vis &&
  forallb (member reach) inWords && forallb (fun k => subset (refs calls k) reach) reach &&
  tablesOk calls (member e) ft nt reach &&
  forallb (wordOk (member e) (look ft) (look nt) (look ft') (look nt')) inWords &&
  forallb (keySpaced (member e') (look ft') (look nt')) above.
End TABLES.

Lemma empty_ok e : (forall k, In k (keysOf calls) -> implb (emptyStep calls e k) (member e k) = true) -> mayBeEmpty G (member e).
Proof.
  intros H k. pose proof (keys_cover calls k) as Hk. destruct (G k) as [[cn ch rs|lb nk items|lb options]|] eqn:Eg; auto; assert (Hin : In k (keysOf calls)) by (apply Hk; discriminate); specialize (H k Hin); unfold emptyStep in H; rewrite Eg in H.
  - intros Hi. destruct (member e k); auto. assert (X : forallb (fun x => (fst (snd x) =? 0) || member e (fst x)) items = true).
    { apply forallb_forall. intros [x [mn mx]] Hx. simpl. destruct (Hi x mn mx Hx) as [->|Hx']; [reflexivity|]. rewrite Hx'. apply orb_true_r. }
    rewrite X in H. discriminate.
  - intros x Hx HEx. destruct (member e k); auto. assert (X : existsb (member e) options = true) by (apply existsb_exists; exists x; auto). rewrite X in H. discriminate.
Qed.
Section SOUND.
Variables (words : list string) (E : key -> bool) (ft nt : list (key * list key)).
Lemma seq_spaced a lb items before x mn mx behind : G a = Some (GSeq lb false items) -> seqSpaced E (look ft) (look nt) (look nt a) items = true -> items = before ++ (x, (mn, mx)) :: behind ->
  (x = KWs /\ (mn, mx) = (0, None)) \/
  (x <> KWs /\ ((mn, mx) = (1, Some 1) \/ E x = false) /\ mx <> Some 0 /\
   (mx = Some mn \/ forall r, Fk calls ft x r -> ~ ahead E (Fk calls ft) (Nk calls nt) a behind r) /\
   forall r, ahead E (Fk calls ft) (Nk calls nt) a behind r \/ (mx <> Some 1 /\ Fk calls ft x r) -> Nk calls nt x r).
Proof.
  intros _ H ->. assert (Hs : seqSpaced E (look ft) (look nt) (look nt a) ((x, (mn, mx)) :: behind) = true).
  { clear - H. induction before as [|[y [m M]] before IH]; auto. cbn [app seqSpaced] in H. apply andb_true_iff in H. tauto. }
  cbn [seqSpaced] in Hs. apply andb_true_iff in Hs. destruct Hs as [Hs _]. destruct (key_eq x KWs) eqn:Ex.
  - left. apply key_eq_ok in Ex. apply andb_true_iff in Hs. destruct Hs as [H1 H2]. apply Nat.eqb_eq in H1. destruct mx; [discriminate|]. subst; auto.
  - right. apply andb_true_iff in Hs. destruct Hs as [Hs H4]. apply andb_true_iff in Hs. destruct Hs as [Hs H3]. apply andb_true_iff in Hs. destruct Hs as [H1 H2]. split; [|split; [|split; [|split]]].
    + intros ->. assert (X : key_eq KWs KWs = true) by (apply key_eq_ok; auto). congruence.
    + apply orb_true_iff in H1. destruct H1 as [H1|H1]; [left|right; apply negb_true_iff; auto]. apply andb_true_iff in H1. destruct H1 as [X Y]. apply Nat.eqb_eq in X. subst mn. destruct mx as [[|[|m]]|]; try discriminate. auto.
    + destruct mx as [[|m]|]; discriminate.
    + apply orb_true_iff in H3. destruct H3 as [H3|H3]; [left; destruct mx; [apply Nat.eqb_eq in H3; subst; auto|discriminate]|right]. intros r Hr Ha. apply ahead_chain in Ha. eapply apart_ok; eauto.
    + intros r Hr. eapply subset_has; eauto. apply has_app. destruct Hr as [Hr|[Hm Hr]]; [left; apply ahead_chain; auto|right]. destruct mx as [[|[|m]]|]; auto; congruence.
Qed.
Lemma key_spaced a : keySpaced E (look ft) (look nt) a = true ->
  match G a with
  | Some (GSeq _ nokw items) => nokw = false /\
      ((forall x mn mx, In (x, (mn, mx)) items -> mn = 0 \/ E x = true) -> E a = true) /\
      (forall r, itemsBegin E (Fk calls ft) items r -> Fk calls ft a r) /\
      forall before x mn mx behind, items = before ++ (x, (mn, mx)) :: behind ->
        (x = KWs /\ (mn, mx) = (0, None)) \/
        (x <> KWs /\ ((mn, mx) = (1, Some 1) \/ E x = false) /\ mx <> Some 0 /\
         (mx = Some mn \/ forall r, Fk calls ft x r -> ~ ahead E (Fk calls ft) (Nk calls nt) a behind r) /\
         forall r, ahead E (Fk calls ft) (Nk calls nt) a behind r \/ (mx <> Some 1 /\ Fk calls ft x r) -> Nk calls nt x r)
  | Some (GChoice _ options) =>
      (forall x, In x options -> x <> KWs) /\
      (forall x, In x options -> E x = true -> E a = true) /\ (forall x r, In x options -> Fk calls ft x r -> Fk calls ft a r) /\
      (forall x r, In x options -> Nk calls nt a r -> Nk calls nt x r) /\
      (forall x y r, In x options -> In y options -> Fk calls ft x r -> Fk calls ft y r -> x = y) /\
      (forall x y r, In x options -> In y options -> E x = true -> Fk calls ft y r -> ~ Nk calls nt a r)
  | _ => False
  end.
Proof.
  unfold keySpaced. destruct (G a) as [[cn ch rs|lb nk items|lb options]|] eqn:HG; try discriminate.
  - intros H. apply andb_true_iff in H. destruct H as [H H4]. apply andb_true_iff in H. destruct H as [H H3]. apply andb_true_iff in H. destruct H as [H1 H2]. destruct nk; [discriminate|].
    split; auto. split; [|split].
    + intros Hi. destruct (E a); auto. assert (X : forallb (fun x => (fst (snd x) =? 0) || E (fst x)) items = true).
      { apply forallb_forall. intros [x [mn mx]] Hx. simpl. destruct (Hi x mn mx Hx) as [->|Hx']; [reflexivity|]. rewrite Hx'. apply orb_true_r. }
      rewrite X in H2. discriminate.
    + intros r Hr. eapply subset_has; eauto. apply begin_chain. auto.
    + intros before x mn mx behind. eapply seq_spaced; eauto.
  - rewrite forallb_forall. intros H.
    assert (P : forall x, In x options -> x <> KWs /\ (E x = true -> E a = true) /\ (forall r, Fk calls ft x r -> Fk calls ft a r) /\ (forall r, Nk calls nt a r -> Nk calls nt x r) /\
      forall y, In y options -> (key_eq x y || apart G (look ft x) (look ft y) = true /\ negb (E x) || apart G (look ft y) (look nt a) = true)%bool).
    { intros x Hx. specialize (H x Hx). apply andb_true_iff in H. destruct H as [H H5]. apply andb_true_iff in H. destruct H as [H H4]. apply andb_true_iff in H. destruct H as [H H3]. apply andb_true_iff in H. destruct H as [H1 H2]. split; [|split; [|split; [|split]]].
      - intros ->. discriminate.
      - intros Ex. rewrite Ex in H2. exact H2.
      - intros r Hr. eapply subset_has; eauto.
      - intros r Hr. eapply subset_has; eauto.
      - intros y Hy. rewrite forallb_forall in H5. specialize (H5 y Hy). apply andb_true_iff in H5. exact H5. }
    split; [intros x Hx; apply P; auto|]. split; [intros x Hx; apply P; auto|]. split; [intros x r Hx; apply P; auto|]. split; [intros x r Hx; apply P; auto|]. split.
    + intros x y r Hx Hy Hr Hr'. destruct (P x Hx) as (_ & _ & _ & _ & Q). destruct (Q y Hy) as [Q1 _]. apply orb_true_iff in Q1. destruct Q1 as [Q1|Q1]; [apply key_eq_ok; auto|]. exfalso. eapply apart_ok; eauto.
    + intros x y r Hx Hy He Hr Hr'. destruct (P x Hx) as (_ & _ & _ & _ & Q). destruct (Q y Hy) as [_ Q1]. rewrite He in Q1. simpl in Q1. eapply apart_ok; eauto.
Qed.
End SOUND.
Theorem spacedCheck_ok words rounds root : spacedCheck words rounds root = true -> predictiveSpaced calls root.
Proof.
  unfold spacedCheck. set (e := emptyKeys calls rounds). set (ft := firstTab calls (member e) rounds). set (vis := visitTab words rounds _). set (inWords := filter (isWord words) vis). set (above := filter _ vis). set (e' := emptyTab words vis rounds). set (ft' := firstTab' words (member e') (look ft) vis rounds).
  set (nt' := followTab' (member e') (look ft') _ above vis rounds). set (reach := reachTab calls rounds inWords). set (nt := followTab' (member e) (look ft) _ reach reach rounds).
  intros H. apply andb_true_iff in H. destruct H as [H H9]. apply andb_true_iff in H. destruct H as [H H8]. apply andb_true_iff in H. destruct H as [H H7]. apply andb_true_iff in H. destruct H as [H H6]. apply andb_true_iff in H. destruct H as [H H5]. apply andb_true_iff in H. destruct H as [H H4]. apply andb_true_iff in H. destruct H as [H H3]. apply andb_true_iff in H. destruct H as [H1 H2].
  rewrite forallb_forall in H2, H4, H5, H6, H8, H9. apply member_In in H3.
  assert (Hvis : forall k, visited G (KDef root) KWs (isWord words) k -> In k vis).
  { induction 1 as [|a lb nk items x b _ IH Hw HG Hx Hne|a lb options x _ IH Hw HG Hx]; auto.
    - specialize (H4 a IH). unfold subset, between in H4. rewrite Hw in H4. rewrite forallb_forall in H4. apply member_In, H4. apply filter_In. split; [unfold refs; rewrite HG; apply in_map_iff; exists (x, b); auto|]. destruct (key_eq x KWs) eqn:Ek; auto. apply key_eq_ok in Ek. congruence.
    - pose proof (H4 a IH) as Ha. unfold subset, between in Ha. rewrite Hw in Ha. rewrite forallb_forall in Ha. apply member_In, Ha. apply filter_In. split; [unfold refs; rewrite HG; auto|].
      assert (Hab : In a above) by (apply filter_In; split; auto; rewrite Hw; auto). pose proof (key_spaced _ _ _ _ (H9 a Hab)) as K. rewrite HG in K. destruct K as [K _]. destruct (key_eq x KWs) eqn:Ek; auto. apply key_eq_ok in Ek. exfalso. apply (K x); auto. }
  exists (someHas G wsKeys), words. split; [apply ws_simple; auto|]. split; [discriminate|]. exists (member e'), (Fk calls ft'), (Nk calls nt'). split.
  - exists (member e), (Fk calls ft), (Nk calls nt). split; [apply empty_ok; auto|].
    assert (Hreach : forall c k, In c inWords -> reached G c k -> In k reach).
    { intros c k Hc. induction 1 as [|a lb nk items x b _ IH HG Hx|a lb options x _ IH HG Hx]; [apply member_In, H5; auto| |]; specialize (H6 a IH); unfold subset in H6; rewrite forallb_forall in H6; apply member_In, H6; unfold refs; rewrite HG; auto.
      apply in_map_iff. exists (x, b). auto. }
    split.
    + unfold tablesOk in H7. apply andb_true_iff in H7. destruct H7 as [H7 _]. apply andb_true_iff in H7. destruct H7 as [H7 _]. rewrite forallb_forall in H7.
      intros a r. destruct (G a) eqn:HG; auto. assert (Ha : In a (keysOf calls)) by (apply keys_cover; congruence). specialize (H7 a Ha). unfold stepFirst in H7. rewrite HG in H7. destruct g as [cn ch rs|lb nk items|lb options].
      * intros Hr. eapply subset_has; eauto. unfold someHas. simpl. unfold charHas. rewrite HG, Hr. auto.
      * intros Hr. eapply subset_has; eauto. apply begin_chain; auto.
      * intros x Hx Hr. eapply subset_has; eauto. eapply has_flat; eauto.
    + intros a Ha Hw. assert (Hin : In a inWords) by (apply filter_In; split; auto).
      destruct (tables_ok calls (member e) ft nt reach a (fun k => Hreach a k Hin) H7) as (_ & Hf & Hd). split; auto. split; auto.
      specialize (H8 a Hin). unfold wordOk in H8. apply andb_true_iff in H8. destruct H8 as [H8 W5]. apply andb_true_iff in H8. destruct H8 as [H8 W4]. apply andb_true_iff in H8. destruct H8 as [H8 W3]. apply andb_true_iff in H8. destruct H8 as [W1 W2].
      split; [apply negb_true_iff; auto|]. split.
      * intros r Hr. split; [|eapply subset_has; eauto]. destruct (someHas G wsKeys r) eqn:Hs; auto. exfalso. eapply apart_ok; eauto.
      * intros r [Hr|Hr]; [exact (subset_has calls _ _ r W4 Hr)|exact (subset_has calls _ _ r W5 Hr)].
  - intros a Ha Hw. apply key_spaced, H9. apply filter_In. split; auto. change (negb (isWord words a) = true). unfold isWord. rewrite Hw. auto.
Qed.
End CHECK.
