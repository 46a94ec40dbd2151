(** The textual form of definitions with groups and choices, read back. *)
From Verif Require Import Base Utf8 Utf8Facts Parser Build Syntax SyntaxFacts Grammar RefSpec RefApi ReadSpec ReadUse SelfLang ReadLang ReadMeans DefSpec DefineFacts Rep Api ApiSpec ApiFacts Format FormatSpec FormatItems FormatSeq FormatDef FormatRead FormatBack FormatNest FormatNestSpec.
Local Open Scope string_scope.
Local Open Scope list_scope.
Local Open Scope nat_scope.

Definition normB (b : Z * Z) : Z * Z := let it := normalizeItemRange (mkItem "" (fst b) (snd b)) in (siMin it, siMax it).
(** what is printed of an expression *)
Definition mergeItem (t : pt) (b : Z * Z) : pt * (Z * Z) := match t with TSeq [(x, b')] => if onceB b then (x, b') else if onceB b' then (x, b) else (t, b) | _ => (t, b) end.
Definition flatten (t : pt) : list pt := match t with TChoice l => l | _ => [t] end.
Fixpoint ptOf (x : expr) : pt :=
  match x with
  | ESequence items => TSeq (map (fun xb => mergeItem (ptOf (fst xb)) (normB (snd xb))) items)
  | EChoice options => TChoice (flat_map (fun o => flatten (ptOf o)) options)
  | _ => TAtom (printed x)
  end.
Lemma normB_bounds b : boundsB (normB b) = normalBounds b.
Proof. reflexivity. Qed.
Lemma normB_fine b : intRange (mkItem "" (fst b) (snd b)) -> fine (fst (normB b)) (snd (normB b)).
Proof. intros H. exact (normal_fine _ H). Qed.
Lemma normB_once b : normalBounds b <> (0, 0)%Z -> onceB (normB b) = false.
Proof. rewrite <- normB_bounds. unfold boundsB. destruct (onceB _); congruence. Qed.
Lemma fine_once b : fine (fst b) (snd b) -> boundsB b = (0, 0)%Z -> onceB b = true.
Proof. unfold boundsB. destruct (onceB b); auto. intros [_ H] ->. cbn [fst snd] in H. lia. Qed.
Lemma readable_pt x : readable x -> ptOf x = TAtom (printed x) /\ normalAll x = normal x.
Proof. destruct x; cbn [readable]; try tauto; auto. Qed.
Definition itemFine (i : pt * (Z * Z)) : Prop := ok (fst i) /\ fine (fst (snd i)) (snd (snd i)) /\ match fst i with TSeq [_] => False | _ => True end.
(** a quantifier is printed behind a single item only if that has none *)
Definition mergeable (t : pt) (b : Z * Z) : Prop := forall x b', t = TSeq [(x, b')] -> onceB b = true \/ onceB b' = true.
Lemma merge_fine t b : ok t -> fine (fst b) (snd b) -> mergeable t b -> itemFine (mergeItem t b).
Proof.
  intros Ht Hb Hs. destruct t as [a|[|[x b'] [|j l]]|l]; cbn [mergeItem]; try (split; [exact Ht|split; [exact Hb|exact I]]).
  destruct Ht as [_ [(H1 & H2 & H3) _]]. cbn [fst snd] in *. destruct (Hs x b' eq_refl) as [-> | E]; [split; auto|]. rewrite E. destruct (onceB b); split; auto.
Qed.
Lemma flatten_ok t : ok t -> Forall (fun o => ok o /\ isChoice o = false) (flatten t) /\ flatten t <> [].
Proof.
  destruct t as [a|l|l]; cbn [flatten]; intros H; try (split; [constructor; [split; [exact H|reflexivity]|constructor]|discriminate]).
  destruct H as [H1 H2]. apply fold_and in H2. split; auto. destruct l; [simpl in H1; lia|discriminate].
Qed.
Lemma flat_length {A B} (f : A -> list B) l : (forall x, In x l -> f x <> []) -> List.length l <= List.length (flat_map f l).
Proof.
  induction l as [|x l IH]; intros H; [auto|]. cbn [flat_map]. rewrite app_length. pose proof (H x (or_introl eq_refl)). destruct (f x); [congruence|]. simpl. pose proof (IH (fun y Hy => H y (or_intror Hy))). lia.
Qed.
Lemma expr_long x it : ok x -> match x with TSeq [_] => False | _ => True end -> ptExpr x <> ESequence [it].
Proof. destruct x as [a|[|i [|j l]]|l]; cbn [ptExpr map]; intros H1 H2; try discriminate; [destruct a; discriminate|destruct H2|destruct i; discriminate]. Qed.
Lemma join_other x b : (forall it, x = ESequence [it] -> b <> (0, 0)%Z) -> joinItem x b = (x, b).
Proof. intros H. unfold joinItem. destruct x as [| | | |[|it [|]]|]; auto. destruct b as [[|p|p] [|q|q]]; auto. destruct (H it eq_refl eq_refl). Qed.
Lemma bounds_once b : onceB b = true -> boundsB b = (0, 0)%Z.
Proof. unfold boundsB. intros ->. auto. Qed.
Lemma bounds_not b : fine (fst b) (snd b) -> onceB b = false -> boundsB b <> (0, 0)%Z.
Proof. intros Hf H E. apply fine_once in E; auto. congruence. Qed.
Lemma merge_expr t b : ok t -> fine (fst b) (snd b) -> (ptExpr (fst (mergeItem t b)), boundsB (snd (mergeItem t b))) = joinItem (ptExpr t) (boundsB b).
Proof.
  intros Ht Hb. assert (D : (exists x b', t = TSeq [(x, b')]) \/ match t with TSeq [_] => False | _ => True end) by (destruct t as [|[|[x b'] [|]]|]; eauto).
  destruct D as [(x & b' & ->)|D].
  - destruct Ht as [_ [(H1 & H2 & H3) _]]. cbn [fst snd] in *. cbn [mergeItem ptExpr]. destruct (onceB b) eqn:E; [|destruct (onceB b') eqn:E'; cbn [fst snd]].
    + rewrite (bounds_once b E). cbn [fst snd]. destruct (onceB b') eqn:E'; [|reflexivity]. rewrite join_other, (bounds_once b' E'); auto. intros it Ei. destruct (expr_long x it H1 H3 Ei).
    + rewrite join_other; auto. intros it _. apply bounds_not; auto.
    + cbn [ptExpr]. rewrite E'. rewrite join_other; auto. intros it _. apply bounds_not; auto.
  - assert (E : mergeItem t b = (t, b)) by (destruct t as [|[|[y c] [|]]|]; auto; destruct D). rewrite E. cbn [fst snd]. rewrite join_other; auto. intros it Ei. destruct (expr_long t it Ht D Ei).
Qed.
Lemma join_items l : Forall itemFine l -> ptExpr (TSeq l) = joinItems (map (fun i => (ptExpr (fst i), boundsB (snd i))) l).
Proof.
  destruct l as [|[x b] [|j l]]; intros H; cbn [ptExpr map joinItems fst snd]; auto; [|destruct (boundsB b) as [[|p|p] [|q|q]]; reflexivity].
  inversion H as [|? ? (_ & Hf & _) _]; subst. cbn [fst snd] in Hf. destruct (onceB b) eqn:E.
  - rewrite (bounds_once b E). auto.
  - pose proof (bounds_not b Hf E) as Hn. destruct (boundsB b) as [[|p|p] [|q|q]]; auto. congruence.
Qed.
Lemma flatten_expr x : ptExpr (ptOf x) = normalAll x -> map ptExpr (flatten (ptOf x)) = match x with EChoice _ => optionsOf (normalAll x) | _ => [normalAll x] end.
Proof. intros <-. destruct x; auto. Qed.
Lemma pt_good names x : printable names x -> ok (ptOf x) /\ ptExpr (ptOf x) = normalAll x.
Proof.
  induction 1 as [x Hr Hm|items Hne Hp IH Hr Hs|options Hlen Hp IH].
  - destruct (readable_pt x Hr) as [-> ->]. split; [apply readable_ok; auto|apply readable_expr; auto].
  - assert (Hi : forall x b, In (x, b) items -> itemFine (mergeItem (ptOf x) (normB b))).
    { intros x b Hi. destruct (IH x b Hi) as [I1 I2]. apply merge_fine; [auto|apply normB_fine; eauto|]. intros y b' Ey. rewrite Ey in I2. cbn [ptExpr] in I2. destruct (onceB b') eqn:E; [auto|].
      left. apply fine_once; [apply normB_fine; eauto|]. rewrite normB_bounds. eapply Hs; eauto. }
    assert (Hf : Forall itemFine (map (fun xb => mergeItem (ptOf (fst xb)) (normB (snd xb))) items)) by (apply Forall_map, Forall_forall; intros [x b]; apply Hi).
    cbn [ptOf]. split.
    + cbn [ok]. split; [destruct items; [congruence|exact I]|]. apply fold_and. exact Hf.
    + rewrite join_items by auto. cbn [normalAll]. f_equal. rewrite map_map. apply map_ext_in. intros [x b] Hx. cbn [fst snd]. destruct (IH x b Hx) as [I1 I2]. rewrite merge_expr by (auto; apply normB_fine; eauto). rewrite I2, normB_bounds. auto.
  - cbn [ptOf ok ptExpr normalAll]. split; [split|].
    + etransitivity; [exact Hlen|]. apply flat_length. intros x Hx. apply flatten_ok. apply IH. auto.
    + apply fold_and, Forall_forall. intros o Ho. apply in_flat_map in Ho. destruct Ho as (x & Hx & Ho). destruct (flatten_ok (ptOf x) (proj1 (IH x Hx))) as [Hf _]. rewrite Forall_forall in Hf. auto.
    + f_equal. clear Hlen Hp. induction options as [|o options IHo]; auto. cbn [flat_map]. rewrite map_app, flatten_expr by (apply IH; left; auto). f_equal. apply IHo. intros; apply IH; right; auto.
Qed.
Lemma pt_ok names x : printable names x -> ok (ptOf x). Proof. apply pt_good. Qed.
Lemma pt_expr names x : printable names x -> ptExpr (ptOf x) = normalAll x. Proof. apply pt_good. Qed.
Lemma printable_mergeable names x b : printable names x -> intRange (mkItem "" (fst b) (snd b)) -> (forall it, normalAll x = ESequence [it] -> normalBounds b = (0, 0)%Z) -> mergeable (ptOf x) (normB b).
Proof.
  intros Hp Hr Hs y b' Ey. pose proof (pt_expr _ _ Hp) as E. rewrite Ey in E. cbn [ptExpr] in E. destruct (onceB b'); auto.
  left. apply fine_once; [apply normB_fine; auto|]. rewrite normB_bounds. eapply Hs; eauto.
Qed.
Lemma fair_grouped t w : Forall fair w -> Forall fair (grouped t w).
Proof. intros H. unfold grouped. destruct (isAtom t); auto. repeat apply fair_app; try (apply fair_one; lia). auto. Qed.
(** the text of an item, and of an option *)
Lemma merge_text t b : mergeable t b ->
  itText (mergeItem t b) = (match t with TSeq [_] => ptText t | _ => coreText t end) ++ quantText (fst b) (snd b).
Proof.
  assert (Hq : forall c, onceB c = true -> quantText (fst c) (snd c) = []) by (unfold onceB, quantText; intros c ->; auto).
  intros Hs. destruct t as [a|[|[x b'] [|j l]]|l]; cbn [mergeItem]; auto. rewrite ptText_seq. cbn [itsText flat_map].
  specialize (Hs x b' eq_refl). unfold itText. destruct (onceB b) eqn:E; [cbn [fst snd]; rewrite (Hq b E), !app_nil_r; auto|]. destruct Hs as [Hs|Hs]; [discriminate|]. rewrite Hs. cbn [fst snd]. rewrite (Hq b' Hs), !app_nil_r. auto.
Qed.
Lemma flatten_text t : ok t -> optsText (flatten t) = [32%Z; 124%Z; 32%Z] ++ ptText t.
Proof.
  destruct t as [a|l|[|o l]]; cbn [flatten]; intros H; [cbn [optsText flat_map]; rewrite app_nil_r; auto|cbn [optsText flat_map]; rewrite app_nil_r; auto|destruct H as [H _]; simpl in H; lia|].
  rewrite ptText_choice. cbn [optsText flat_map]. rewrite <- app_assoc. reflexivity.
Qed.
Lemma optsText_app a b : optsText (a ++ b) = optsText a ++ optsText b.
Proof. apply flat_map_app. Qed.
Lemma flatten_first t l : ok t -> ptText (TChoice (flatten t ++ l)) = ptText t ++ optsText l.
Proof.
  intros H. destruct t as [a|k|[|o k]]; cbn [flatten app]; rewrite ?ptText_choice; auto; [destruct H as [H _]; simpl in H; lia|]. rewrite optsText_app, app_assoc. auto.
Qed.
Lemma pt_fair names x : printable names x -> Forall fair (ptText (ptOf x)).
Proof.
  induction 1 as [x Hr Hm|items Hne Hp IH Hr Hs|options Hlen Hp IH].
  - destruct (readable_pt x Hr) as [-> _]. apply fair_atom, readable_ok. auto.
  - cbn [ptOf]. 
    assert (Hi : forall y, In y items -> Forall fair (itText (mergeItem (ptOf (fst y)) (normB (snd y))))).
    { intros [x b] Hy. cbn [fst snd]. rewrite merge_text.
      - apply fair_app; [|apply fair_quant, normB_fine; eauto]. specialize (IH x b Hy). destruct (ptOf x) as [a|[|i [|j l]]|l]; auto; apply fair_grouped; auto.
      - eapply printable_mergeable; eauto. }
    destruct items as [|i items]; [congruence|]. cbn [map]. rewrite ptText_seq.
    apply fair_app; [apply Hi; left; auto|]. clear IH Hp Hr Hs Hne. assert (Hj : forall y, In y items -> Forall fair (itText (mergeItem (ptOf (fst y)) (normB (snd y))))) by (intros; apply Hi; right; auto). clear Hi.
    induction items as [|j items IH]; [constructor|]. cbn [map itsText flat_map]. apply Forall_cons; [apply fair_ascii; lia|]. apply fair_app; [apply Hj; left; auto|]. apply IH. intros; apply Hj; right; auto.
  - cbn [ptOf]. destruct options as [|o options]; [simpl in Hlen; lia|]. cbn [flat_map]. rewrite flatten_first by (eapply pt_ok; apply Hp; left; auto). apply fair_app; [apply IH; left; auto|].
    assert (Hj : forall y, In y options -> ok (ptOf y) /\ Forall fair (ptText (ptOf y))) by (intros y Hy; split; [eapply pt_ok; apply Hp; right; auto|apply IH; right; auto]). clear IH Hp Hlen.
    induction options as [|j options IH]; [constructor|]. cbn [flat_map]. destruct (Hj j (or_introl eq_refl)). rewrite optsText_app, flatten_text by auto. repeat apply fair_app; auto; [repeat (apply Forall_cons; [apply fair_ascii; lia|]); constructor|]. apply IH. intros; apply Hj; right; auto.
Qed.

(** ** printing *)
Section READ.
Variables (names : list string) (calls : list defcall) (s : syntax).
Hypothesis Hraw : rawAll emptySyntax calls = (s, None).
Hypothesis Hnames : forall m, In m names -> exists c, In c calls /\ callName c = m /\ hasFlag (callFlags c) CUserDefined = true.
Let H := sHeap s.
Let M := gDefinition (regOf s).

Definition grouping (d : defobj) : bool :=
  match dKind d with
  | KChoice options _ _ _ _ => Nat.ltb 1 (List.length options)
  | KSeq items _ _ _ _ _ _ _ => Nat.ltb 1 (List.length items) && negb (isCharSequence H M items)
  | KChar _ _ _ => false
  end.
(** what is put in parentheses *)
Definition inGroup (t : pt) : bool := match t with TAtom _ | TSeq [_] => false | _ => true end.
(** the definition [n] is printed as [x] *)
Definition prints (n : string) (x : expr) (user : bool) : Prop :=
  exists d N, definitionAt H M n = Some d /\ hasFlag (dCommit d) CUserDefined = user /\ isCharK (dKind d) = false /\
    (forall k, N <= k -> format k H M d = Ok (runesString (ptText (ptOf x)))) /\ grouping d = inGroup (ptOf x).
(** what the items and the options refer to *)
Definition refers (n : string) (x : expr) : Prop :=
  match x with ESymbol m => n = m /\ plainName m /\ In m names | _ => prints n x false end.
Lemma symbol_at m : In m names -> exists d, definitionAt H M m = Some d /\ dName d = m /\ hasFlag (dCommit d) CUserDefined = true /\ isCharK (dKind d) = false.
Proof.
  intros Hm. destruct (Hnames m Hm) as (c & Hc & En & Hu). destruct (call_obj calls c Hc) as (o & Ho & Eo & Ek & Eu).
  destruct (obj_at _ _ Hraw o Ho) as (d & E & En' & Ek' & Eu'). exists d. rewrite Eo, En in E. split; [exact E|]. split; [congruence|]. split; congruence.
Qed.
Lemma refers_seq n x : refers n x -> exists d, definitionAt H M n = Some d /\ isCharK (dKind d) = false.
Proof.
  destruct x as [| | |m| |]; cbn [refers]; try (intros (d & N & H1 & _ & H2 & _); eauto; fail).
  intros (-> & _ & Hm). destruct (symbol_at m Hm) as (d & H1 & _ & _ & H2). eauto.
Qed.
Lemma item_printed n x b it : refers n x -> mergeable (ptOf x) (normB b) -> intRange (mkItem "" (fst b) (snd b)) -> (siMin it, siMax it) = b ->
  exists N t, (forall k, N <= k -> formatItem H M (format k H M) n = Ok t) /\
    (t ++ formatQuantifier (siMin (normalizeItemRange it)) (siMax (normalizeItemRange it)))%string = runesString (itText (mergeItem (ptOf x) (normB b))).
Proof.
  intros Hr Hs Hi Eb.
  assert (Eq : formatQuantifier (siMin (normalizeItemRange it)) (siMax (normalizeItemRange it)) = runesString (quantText (fst (normB b)) (snd (normB b)))).
  { rewrite quant_string by (apply normB_fine; auto). subst b. unfold normB. cbn [fst snd]. unfold normalizeItemRange. cbn [siMin siMax siName]. destruct (Z.eqb (siMin it) 0 && Z.eqb (siMax it) 0)%bool; reflexivity. }
  rewrite merge_text, Eq by auto. rewrite runesString_app.
  assert (Hc : prints n x false -> exists N t, (forall k, N <= k -> formatItem H M (format k H M) n = Ok t) /\
    (t ++ runesString (quantText (fst (normB b)) (snd (normB b))) = runesString (match ptOf x with TSeq [_] => ptText (ptOf x) | _ => coreText (ptOf x) end) ++ runesString (quantText (fst (normB b)) (snd (normB b))))%string).
  { intros (d & N & Ed & Eu & _ & Hf & Hg). exists N. eexists. split; [|reflexivity]. intros k Hk. unfold formatItem. rewrite Ed, Eu. fold (grouping d). rewrite Hg, (Hf k Hk). cbn [bind]. unfold coreText, grouped.
    destruct (ptOf x) as [a|[|i [|j l]]|l]; cbn [inGroup isAtom]; auto; rewrite !runesString_app; reflexivity. }
  destruct x as [| | |m| |]; cbn [refers] in Hr; try (apply Hc; exact Hr).
  destruct Hr as (-> & Hn & Hm). destruct (symbol_at m Hm) as (d & Ed & En & Eu & _). exists 0. eexists. split; [|reflexivity]. intros k _. unfold formatItem. rewrite Ed, Eu, En. unfold coreText, grouped. cbn [ptOf isAtom ptText printed atomText].
  destruct (plainName_word m Hn) as (_ & _ & ->). auto.
Qed.
Lemma items_printed its xbs : Forall2 (fun it xb => refers (siName it) (fst xb) /\ (siMin it, siMax it) = snd xb) its xbs ->
  (forall x b, In (x, b) xbs -> intRange (mkItem "" (fst b) (snd b))) -> (forall x b, In (x, b) xbs -> mergeable (ptOf x) (normB b)) ->
  exists N, forall k w, N <= k -> w <> [] ->
    formatItems H M (format k H M) (runesString w) its = Ok (runesString (w ++ itsText (map (fun xb => mergeItem (ptOf (fst xb)) (normB (snd xb))) xbs))).
Proof.
  induction 1 as [|it [x b] its xbs [Hr Eb] Hl IH]; intros Hi Hs.
  - exists 0. intros k w _ _. cbn [formatItems map itsText flat_map]. rewrite app_nil_r. auto.
  - cbn [fst snd] in *. destruct IH as (N1 & IH); [intros; eapply Hi; right; eauto|intros; eapply Hs; right; eauto|].
    destruct (item_printed _ x b it Hr (Hs x b (or_introl eq_refl)) (Hi x b (or_introl eq_refl)) Eb) as (N2 & t' & Hx & Et). exists (N1 + N2). intros k w Hk Hw. cbn [formatItems]. rewrite Hx by lia. cbn [bind].
    pose proof (runesString_nonempty w Hw) as Hne. destruct (runesString w) as [|a t] eqn:Ew; [congruence|]. rewrite <- Ew. clear Hne.
    rewrite Et. change " " with (runesString [32%Z]). rewrite <- !runesString_app, IH; [|lia|destruct w; [congruence|discriminate]].
    cbn [map itsText flat_map fst snd]. repeat (cbn [app]; rewrite <- app_assoc). reflexivity.
Qed.
Lemma seq_prints n ct its xbs : In (DSequence n ct its) calls -> xbs <> [] -> ok (ptOf (ESequence xbs)) ->
  Forall2 (fun it xb => refers (siName it) (fst xb) /\ (siMin it, siMax it) = snd xb) its xbs ->
  (forall x b, In (x, b) xbs -> intRange (mkItem "" (fst b) (snd b))) -> (forall x b, In (x, b) xbs -> mergeable (ptOf x) (normB b)) ->
  prints n (ESequence xbs) (hasFlag ct CUserDefined).
Proof.
  intros Hd Hne Hok Hl Hi Hs. assert (Ho : In (newSequence n ct its) (flat_map callObjs calls)) by (apply (objs_in _ _ _ Hd); left; reflexivity).
  destruct (obj_at _ _ Hraw _ Ho) as (d & Ed & _ & Ek & Eu). cbn [newSequence dName dKind dCommit] in *.
  inversion Hl as [|it [x b] its' xbs' [Hr Eb] Hl']; subst; [congruence|]. cbn [fst snd] in *.
  destruct (item_printed _ x b it Hr (Hs x b (or_introl eq_refl)) (Hi x b (or_introl eq_refl)) Eb) as (N1 & t & Hx & Et). destruct (items_printed _ _ Hl') as (N2 & Hxs); [intros; eapply Hi; right; eauto|intros; eapply Hs; right; eauto|].
  assert (Ec : isCharSequence H M (it :: its') = false).
  { destruct (refers_seq _ _ Hr) as (d1 & E1 & E2). cbn [isCharSequence forallb]. rewrite E1. destruct (dKind d1); try discriminate; rewrite !andb_false_r; auto. }
  exists d, (S (N1 + N2)). split; [exact Ed|]. split; [exact Eu|]. split; [rewrite Ek; reflexivity|]. split.
  - intros k Hk. destruct k as [|k]; [lia|]. cbn [format]. rewrite Ek, Ec. cbn [formatItems]. rewrite Hx by lia. cbn [bind append].
    rewrite Et, Hxs; [|lia|].
    + cbn [ptOf map fst snd]. rewrite ptText_seq. reflexivity.
    + cbn [ptOf map ok fold_right fst snd] in Hok. destruct Hok as [_ [(Hox & _) _]]. pose proof (core_first _ Hox) as Hcf. unfold itText. destruct (coreText _); [destruct Hcf|discriminate].
  - unfold grouping. rewrite Ek, Ec. cbn [ptOf map inGroup]. apply Forall2_len in Hl'. destruct xbs' as [|y xbs'], its'; try discriminate; reflexivity.
Qed.
Lemma option_printed n x : refers n x -> exists N, forall k, N <= k ->
  match definitionAt H M n with None => Panic PanicNil | Some d => if hasFlag (dCommit d) CUserDefined then Ok (dName d) else format k H M d end = Ok (runesString (ptText (ptOf x))).
Proof.
  intros Hr. assert (Hc : prints n x false -> exists N, forall k, N <= k ->
    match definitionAt H M n with None => Panic PanicNil | Some d => if hasFlag (dCommit d) CUserDefined then Ok (dName d) else format k H M d end = Ok (runesString (ptText (ptOf x)))).
  { intros (d & N & Ed & Eu & _ & Hf & _). exists N. intros k Hk. rewrite Ed, Eu. auto. }
  destruct x as [| | |m| |]; cbn [refers] in Hr; try (apply Hc; exact Hr).
  destruct Hr as (-> & Hn & Hm). destruct (symbol_at m Hm) as (d & Ed & En & Eu & _). exists 0. intros k _. rewrite Ed, Eu, En. cbn [ptOf ptText printed atomText].
  destruct (plainName_word m Hn) as (_ & _ & ->). auto.
Qed.
Lemma options_printed ns xs : Forall2 refers ns xs -> (forall x, In x xs -> ok (ptOf x)) ->
  exists N, forall k, N <= k -> formatOptions H M (format k H M) false ns = Ok (runesString (optsText (flat_map (fun o => flatten (ptOf o)) xs))).
Proof.
  induction 1 as [|n x ns xs Hr Hl IH]; intros Hok; [exists 0; reflexivity|]. destruct IH as (N1 & IH); [intros; apply Hok; right; auto|]. destruct (option_printed n x Hr) as (N2 & Hx). exists (N1 + N2). intros k Hk.
  cbn [formatOptions]. rewrite Hx, IH by lia. cbn [bind flat_map]. rewrite optsText_app, flatten_text by (apply Hok; left; auto). rewrite !runesString_app, append_assoc. reflexivity.
Qed.
Lemma choice_prints n ct ns xs : In (DChoice n ct ns) calls -> 2 <= List.length xs -> (forall x, In x xs -> ok (ptOf x)) -> Forall2 refers ns xs -> prints n (EChoice xs) (hasFlag ct CUserDefined).
Proof.
  intros Hd Hlen Hok Hl. assert (Ho : In (newChoice n ct ns) (flat_map callObjs calls)) by (apply (objs_in _ _ _ Hd); left; reflexivity).
  destruct (obj_at _ _ Hraw _ Ho) as (d & Ed & _ & Ek & Eu). cbn [newChoice dName dKind dCommit] in *. pose proof (Forall2_len _ _ _ Hl) as Hll.
  inversion Hl as [|n1 x ns' xs' Hr Hl']; subst; [simpl in Hlen; lia|]. destruct (option_printed n1 x Hr) as (N1 & Hx). destruct (options_printed _ _ Hl') as (N2 & Hxs); [intros; apply Hok; right; auto|].
  exists d, (S (N1 + N2)). split; [exact Ed|]. split; [exact Eu|]. split; [rewrite Ek; reflexivity|]. split.
  - intros k Hk. destruct k as [|k]; [lia|]. cbn [format]. rewrite Ek. cbn [formatOptions]. rewrite Hx, Hxs by lia. cbn [bind append ptOf flat_map]. rewrite flatten_first by (apply Hok; left; auto). rewrite runesString_app. reflexivity.
  - unfold grouping. rewrite Ek. cbn [ptOf inGroup]. apply Nat.ltb_lt. rewrite Hll. auto.
Qed.
Theorem printable_prints x : printable names x -> forall n ct, (forall c, In c (callsOf n ct x) -> In c calls) -> prints n x (hasFlag ct CUserDefined).
Proof.
  induction 1 as [x Hr Hm|items Hne Hp IH Hr Hs|options Hlen Hp IH]; intros n ct Hin.
  - destruct x as [|cn ch rs|cs|m|its|os]; try (destruct Hr; fail); cbn [callsOf] in Hin; specialize (Hin _ (or_introl eq_refl)).
    + destruct (any_at _ _ Hraw _ _ Hin) as (d & Ed & Eu & Ek & Ec). exists d, 2. split; [exact Ed|]. split; [exact Eu|]. split; [rewrite Ek; reflexivity|]. split.
      * intros k Hk. destruct k as [|[|k]]; [lia|lia|]. apply (class_kind _ _ Hraw k d n ct true [] []); auto.
      * unfold grouping. rewrite Ek. reflexivity.
    + destruct (class_at _ _ Hraw _ _ _ _ _ Hin) as (d & Ed & Eu & Ek & Ec). exists d, 2. split; [exact Ed|]. split; [exact Eu|]. split; [rewrite Ek; reflexivity|]. split.
      * intros k Hk. destruct k as [|[|k]]; [lia|lia|]. cbn [ptOf ptText printed]. rewrite classAtom_text. apply (class_kind _ _ Hraw k d n ct); auto.
      * unfold grouping. rewrite Ek. reflexivity.
    + destruct (literal_at _ _ Hraw _ _ _ Hin) as (d & Ed & Eu & Ek). exists d, 1. split; [exact Ed|]. split; [exact Eu|]. split; [rewrite Ek; reflexivity|]. split.
      * intros k Hk. destruct k as [|k]; [lia|]. apply (literal_kind _ _ Hraw k d n ct cs); auto.
      * unfold grouping. rewrite Ek. cbn [newSequence dKind ptOf inGroup]. destruct (literal_children _ _ Hraw n cs) as [E _]; [|unfold H, M; rewrite E; apply andb_false_r].
        intros o Ho. apply (objs_in _ _ _ Hin). cbn [callObjs]. apply in_or_app. left. exact Ho.
    + assert (Ho : In (newSequence n ct [mkItem m 0 0]) (flat_map callObjs calls)) by (apply (objs_in _ _ _ Hin); left; reflexivity).
      destruct (obj_at _ _ Hraw _ Ho) as (d & Ed & _ & Ek & Eu). cbn [newSequence dName dKind dCommit] in *. specialize (Hm m eq_refl).
      destruct (symbol_at m Hm) as (dm & Em & Enm & Eum & Ekm).
      exists d, 1. split; [exact Ed|]. split; [exact Eu|]. split; [rewrite Ek; reflexivity|]. split; [|unfold grouping; rewrite Ek; reflexivity].
      intros k Hk. destruct k as [|k]; [lia|]. cbn [format]. rewrite Ek.
      assert (Ec : isCharSequence H M [mkItem m 0 0] = false) by (cbn [isCharSequence forallb siName]; rewrite Em; destruct (dKind dm); try discriminate; rewrite !andb_false_r; auto).
      unfold H, M in *. rewrite Ec. cbn [formatItems siName]. unfold formatItem. rewrite Em, Eum, Enm. cbn [bind append normalizeItemRange siMin siMax Z.eqb andb]. change (formatQuantifier 1 1) with "". rewrite append_nil.
      cbn [ptOf ptText printed atomText]. destruct (plainName_word m Hr) as (_ & _ & ->). auto.
  - rewrite callsOf_eq in Hin. apply (seq_prints n ct (itemRefs n 0 items)); auto; [..|intros x b Hx; eapply printable_mergeable; eauto].
    + apply Hin, in_or_app. right. left. reflexivity.
    + apply (pt_ok names). apply printable_sequence; auto.
    + assert (Hi : forall c, In c (innerItems n ct 0 items) -> In c calls) by (intros c Hc; apply Hin, in_or_app; left; auto). clear Hin Hne Hr Hs. revert Hi. generalize 0.
      induction items as [|[x [mn mx]] items IHl]; intros i Hi; cbn [itemRefs]; constructor.
      * cbn [siName siMin siMax fst snd]. split; [|reflexivity]. pose proof (Hp x _ (or_introl eq_refl)) as Hpx. specialize (IH x _ (or_introl eq_refl)). cbn [innerItems] in Hi.
        destruct x as [|cn ch rs|cs|m|its|os]; cbn [isSymbol refTo refers] in *; try (rewrite <- (inner_flag ct); apply IH; intros c Hc; apply Hi, in_or_app; left; exact Hc).
        inversion Hpx as [y Hr Hm Ey| |]; subst. split; auto.
      * apply IHl; [intros y b Hy; apply (Hp y b); right; auto|intros y b Hy; apply (IH y b); right; auto|]. intros c Hc. apply Hi. cbn [innerItems]. apply in_or_app. right. auto.
  - rewrite callsOf_eq in Hin. apply (choice_prints n ct (optionRefs n 0 options)); auto; [|intros x Hx; eapply pt_ok; eauto|].
    + apply Hin, in_or_app. right. left. reflexivity.
    + assert (Hi : forall c, In c (innerOptions n ct 0 options) -> In c calls) by (intros c Hx; apply Hin, in_or_app; left; auto). clear Hin Hlen. revert Hi. generalize 0.
      induction options as [|x options IHl]; intros i Hi; cbn [optionRefs]; constructor.
      * pose proof (Hp x (or_introl eq_refl)) as Hpx. specialize (IH x (or_introl eq_refl)). cbn [innerOptions] in Hi.
        destruct x as [|cn ch rs|cs|m|its|os]; cbn [isSymbol refTo refers] in *; try (rewrite <- (inner_flag ct); apply IH; intros c Hc; apply Hi, in_or_app; left; exact Hc).
        inversion Hpx as [y Hr Hm Ey| |]; subst. split; auto.
      * apply IHl; [intros y Hy; apply (Hp y); right; auto|intros y Hy; apply (IH y); right; auto|]. intros c Hc. apply Hi. cbn [innerOptions]. apply in_or_app. right. auto.
Qed.
End READ.

(** definitions read from a text *)
Theorem nested_back text defs s name flags x : spells text defs -> Reads emptySyntax text REof s None -> In (mkTextDef name flags x) defs -> plainName name ->
  printable (map tdName defs) x ->
  exists t N, (forall k, N <= k -> formatOf k s name = Ok t) /\ spells (stringRunes (name ++ "=" ++ t)) [mkTextDef name 0%N (normalAll x)].
Proof.
  intros Hsp Hread Hd Hn Hp. set (calls := flat_map textCalls defs).
  assert (Hraw : rawAll emptySyntax calls = (s, None)) by exact (proj1 (spells_means emptySyntax text defs eq_refl Hsp s None) Hread).
  assert (Hnames : forall m, In m (map tdName defs) -> exists c, In c calls /\ callName c = m /\ hasFlag (callFlags c) CUserDefined = true).
  { intros m Hm. apply in_map_iff in Hm. destruct Hm as (d & <- & Hdd). destruct (last_call d) as (c & H1 & H2 & H3). exists c. split; [apply in_flat_map; eauto|auto]. }
  destruct (printable_prints _ calls s Hraw Hnames x Hp name (N.lor flags CUserDefined)) as (d & N & Ed & _ & _ & Hf & _).
  { intros c Hc. apply in_flat_map. exists (mkTextDef name flags x). auto. }
  exists (runesString (ptText (ptOf x))), N. split.
  - intros k Hk. rewrite (formatOf_at s), Ed. auto.
  - destruct (text_runes name _ Hn (pt_fair _ _ Hp)) as [-> Hv]. destruct (plainName_word name Hn) as (Hw & _ & E). rewrite <- (pt_expr _ _ Hp). rewrite <- E at 2. apply spells_pt; auto. eapply pt_ok; eauto.
Qed.

(** choices made with the methods *)
Theorem choice_back calls s name ct options : Defined calls s -> In (DChoice name ct options) calls -> plainName name -> 2 <= List.length options ->
  (forall o, In o options -> plainName o /\ In o (map callName calls)) ->
  exists t N, (forall k, N <= k -> formatOf k s name = Ok t) /\ rereads name t (DChoice name 0%N options).
Proof.
  intros Hdef Hd Hn Hlen Ho. assert (Hraw : rawAll emptySyntax (map withUserDefined calls) = (s, None)) by exact (proj1 (defineAll_raw _ _ _ Hdef)).
  assert (Hnames : forall m, In m (map callName calls) -> exists c, In c (map withUserDefined calls) /\ callName c = m /\ hasFlag (callFlags c) CUserDefined = true).
  { intros m Hm. apply in_map_iff in Hm. destruct Hm as (c & <- & Hc). exists (withUserDefined c). split; [apply in_map; auto|]. split; [apply user_name|apply user_flag]. }
  set (x := EChoice (map ESymbol options)).
  assert (Hp : printable (map callName calls) x).
  { apply printable_choice; [rewrite map_length; auto|]. intros y Hy. apply in_map_iff in Hy. destruct Hy as (o & <- & Hoo). destruct (Ho o Hoo). apply printable_flat; auto. intros m E. injection E as <-. auto. }
  destruct (choice_prints (map callName calls) (map withUserDefined calls) s Hraw Hnames name (N.lor ct CUserDefined) options (map ESymbol options)) as (d & N & Ed & _ & _ & Hf & _).
  - apply (in_map withUserDefined) in Hd. exact Hd.
  - rewrite map_length. auto.
  - intros y Hy. apply in_map_iff in Hy. destruct Hy as (o & <- & Hoo). destruct (Ho o Hoo) as [H1 _]. cbn [ptOf ok]. apply (readable_ok (ESymbol o)). exact H1.
  - clear - Ho. induction options as [|o options IH]; cbn [map]; constructor; [|apply IH; intros; apply Ho; right; auto]. destruct (Ho o (or_introl eq_refl)). split; auto.
  - exists (runesString (ptText (ptOf x))), N. split; [intros k Hk; rewrite (formatOf_at s), Ed; auto|].
    assert (E : normalAll x = x) by (unfold x; cbn [normalAll]; f_equal; clear; induction options as [|o options IH]; auto; cbn [map flat_map]; rewrite IH; auto).
    assert (Em : methodCall (mkTextDef name 0%N x) = DChoice name 0%N options) by (unfold x; cbn [methodCall tdExpr tdName tdFlags]; rewrite map_map; cbn [symbolOf]; rewrite map_id; auto).
    rewrite <- Em. apply spelled_rereads; [|intros y Hy; apply in_map_iff in Hy; destruct Hy as (o & <- & _); eauto].
    destruct (text_runes name _ Hn (pt_fair _ _ Hp)) as [-> Hv]. destruct (plainName_word name Hn) as (Hw & _ & En). rewrite <- E at 2. rewrite <- (pt_expr _ _ Hp). rewrite <- En at 2. apply spells_pt; auto. eapply pt_ok; eauto.
Qed.
