(** From the tree of a syntax text to definition calls: define.go makes the calls of the text. *)
From Verif Require Import Base Utf8 Escape IdSet Results Parser Build Syntax SelfData Define ListFacts ParseFacts Grammar ApiSpec Rep PropComments ReadSpec ReadUse SelfGrammar Shape SelfShape SelfWords.
Local Open Scope string_scope.
Local Open Scope list_scope.
Local Open Scope nat_scope.

(** ** regular expressions over nodes *)
Notation names l := (map nName l).
Lemma n_sym s l : lang (Sym s) (names l) -> exists x, l = [x] /\ nName x = s.
Proof. intros H. inversion H as [|s' E1 E2| | | | |]; subst. destruct l as [|x [|y l]]; try discriminate. inversion E2; subst. eauto. Qed.
Lemma n_cat a b l : lang (Cat a b) (names l) -> exists l1 l2, l = l1 ++ l2 /\ lang a (names l1) /\ lang b (names l2).
Proof. intros H. inversion H as [| |? ? u v H1 H2 E1 E2| | | |]; subst. symmetry in E2. apply map_eq_app in E2. destruct E2 as (l1 & l2 & -> & <- & <-). eauto. Qed.
Lemma n_oneOf L l : L <> [] -> lang (oneOf L) (names l) -> exists x, l = [x] /\ In (nName x) L.
Proof.
  intros HL H. assert (X : exists s, In s L /\ names l = [s]).
  { destruct L as [|x L]; [congruence|]. simpl in H. revert H. generalize (names l). clear.
    assert (Y : forall M r w, lang (fold_left (fun r y => Alt r (Sym y)) M r) w -> lang r w \/ exists s, In s M /\ w = [s]).
    { induction M as [|y M IH]; intros r w H; simpl in H; auto. apply IH in H. destruct H as [H|(s & Hs & ->)]; [|right; exists s; simpl; auto].
      inversion H as [| | |? ? ? H1|? ? ? H1| |]; subst; auto. inversion H1; subst. right. exists y. simpl; auto. }
    intros w H. apply Y in H. destruct H as [H|(s & Hs & ->)]; [inversion H; subst; exists x; simpl; auto|exists s; simpl; auto]. }
  destruct X as (s & Hs & E). destruct l as [|x [|y l]]; try discriminate. inversion E; subst. eauto.
Qed.
Lemma n_star_aux a l : forall w, lang (Star a) w -> w = names l -> exists ls, l = List.concat ls /\ Forall (fun l => lang a (names l)) ls.
Proof.
  intros w H. remember (Star a) as r eqn:Er. revert l. induction H as [| | | | | |b u v H1 _ H2 IH]; inversion Er; subst; intros l E.
  - destruct l; [|discriminate]. exists []. simpl. auto.
  - symmetry in E. apply map_eq_app in E. destruct E as (l1 & l2 & -> & <- & <-). destruct (IH eq_refl l2 eq_refl) as (ls & -> & Hl). exists (l1 :: ls). simpl. auto.
Qed.
Lemma n_star L l : L <> [] -> lang (Star (oneOf L)) (names l) -> Forall (fun x => In (nName x) L) l.
Proof.
  intros HL H. destruct (n_star_aux _ l _ H eq_refl) as (ls & -> & Hl). clear H. induction Hl as [|l0 ls Hl _ IH]; simpl; auto.
  apply n_oneOf in Hl; auto. destruct Hl as (x & -> & Hx). simpl. auto.
Qed.
Lemma n_opt a l : lang (Alt Eps a) (names l) -> l = [] \/ lang a (names l).
Proof. intros H. inversion H as [| | |? ? ? H1|? ? ? H1| |]; subst; auto. inversion H1. left. destruct l; auto; discriminate. Qed.

(** ** nodes without comments *)
Lemma drop_nodes n : nNodes (dropComments n) = map dropComments (parts n).
Proof.
  destruct n as [name from to nodes]. unfold parts. simpl. induction nodes as [|x l IH]; auto. simpl. destruct (String.eqb (nName x) "comment"); simpl; auto. f_equal. auto.
Qed.
Lemma drop_name n : nName (dropComments n) = nName n.
Proof. destruct n; auto. Qed.
Lemma drop_runes text n : nodeRunes text (dropComments n) = nodeRunes text n.
Proof. destruct n; auto. Qed.
Lemma drop_text text n : nodeText text (dropComments n) = nodeText text n.
Proof. destruct n; auto. Qed.

Lemma sequenceOpt_cons {A} (x : option A) l : sequenceOpt (x :: l) = match x, sequenceOpt l with Some a, Some l => Some (a :: l) | _, _ => None end.
Proof. reflexivity. Qed.

Section TEXT.
Variable text : list rune.
Definition wordsOk (n : node) : Prop :=
  (nName n = "class-char" \/ nName n = "sequence-char" -> charText (textOf text n)) /\
  (In (nName n) ["count"; "range-from"; "range-to"] -> textOf text n <> [] /\ forallb isDigit (textOf text n) = true).
Inductive fine : node -> Prop :=
| fine_node n : lang (content (nName n)) (names (parts n)) -> wordsOk n -> (forall x, In x (parts n) -> fine x) -> fine n.
Lemma fine_content n : fine n -> lang (content (nName n)) (names (parts n)). Proof. inversion 1; auto. Qed.
Lemma fine_words n : fine n -> wordsOk n. Proof. inversion 1; auto. Qed.
Lemma fine_parts n x : fine n -> In x (parts n) -> fine x. Proof. inversion 1; auto. Qed.

(** ** characters *)
Lemma escaped_eq c : unescapeChar c = escaped c.
Proof.
  unfold unescapeChar.
  destruct (Z.eqb_spec c 98); [subst; reflexivity|]. destruct (Z.eqb_spec c 102); [subst; reflexivity|]. destruct (Z.eqb_spec c 110); [subst; reflexivity|].
  destruct (Z.eqb_spec c 114); [subst; reflexivity|]. destruct (Z.eqb_spec c 116); [subst; reflexivity|]. destruct (Z.eqb_spec c 118); [subst; reflexivity|].
  unfold escaped. destruct c as [|p|p]; auto. repeat (destruct p as [p|p|]; auto; try congruence).
Qed.
Lemma char_ok n : charText (textOf text n) -> exists c, charOf text n = Some c /\ nodeChar text n = Ok c.
Proof.
  unfold charOf, nodeChar. change (nodeRunes text n) with (textOf text n). intros [(c & -> & Hc)|(c & ->)].
  - apply Z.eqb_neq in Hc. rewrite Hc. eauto.
  - exists (escaped c). rewrite <- escaped_eq. auto.
Qed.
Lemma drop_char n : nodeChar text (dropComments n) = nodeChar text n.
Proof. unfold nodeChar. rewrite drop_runes. auto. Qed.
Lemma chars_ok l : Forall (fun x => charText (textOf text x)) l -> exists cs, sequenceOpt (map (charOf text) l) = Some cs /\ nodeChars text (map dropComments l) = Ok cs.
Proof.
  induction 1 as [|x l Hx _ (cs & I1 & I2)]; [simpl; eauto|]. destruct (char_ok _ Hx) as (c & E1 & E2). cbn [map nodeChars]. rewrite sequenceOpt_cons, drop_char, E1, E2, I1, I2. cbn [bind]. eauto.
Qed.
Lemma range_ok n : fine n -> nName n = "char-range" -> exists r, rangeOf text n = Some r /\
  forall rest n', classItems text (dropComments n :: n') = rest -> rest = (x <- classItems text n' ;; Ok (fst x, r :: snd x)).
Proof.
  intros Hf Hn. pose proof (fine_content _ Hf) as Hc. rewrite Hn in Hc. change (content "char-range") with (Cat (Sym "class-char") (Sym "class-char")) in Hc.
  apply n_cat in Hc. destruct Hc as (l1 & l2 & El & H1 & H2). apply n_sym in H1. destruct H1 as (a & -> & Ha). apply n_sym in H2. destruct H2 as (b & -> & Hb). simpl in El.
  assert (Fa : fine a) by (apply (fine_parts n); [auto|rewrite El; simpl; auto]). assert (Fb : fine b) by (apply (fine_parts n); [auto|rewrite El; simpl; auto]).
  destruct (char_ok a) as (ca & A1 & A2); [apply (fine_words _ Fa); auto|]. destruct (char_ok b) as (cb & B1 & B2); [apply (fine_words _ Fb); auto|].
  unfold rangeOf. rewrite El, A1, B1. exists (ca, cb). split; auto. intros rest n' <-. cbn [classItems]. rewrite drop_name, Hn, drop_nodes, El. cbn [map String.eqb Ascii.eqb Bool.eqb].
  rewrite !drop_char, A2, B2. reflexivity.
Qed.
Lemma class_ok l : Forall fine l -> Forall (fun x => In (nName x) ["class-char"; "char-range"]) l ->
  exists p, classParts text l = Some p /\ classItems text (map dropComments l) = Ok p.
Proof.
  induction l as [|x l IH]; intros Hf Hn; [exists ([], []); auto|]. inversion Hf as [|? ? Fx Fl]; subst. inversion Hn as [|? ? Nx Nl]; subst.
  destruct (IH Fl Nl) as ([cs rs] & I1 & I2). cbn [map]. destruct Nx as [Nx|[Nx|[]]].
  - destruct (char_ok x) as (c & C1 & C2); [apply (fine_words _ Fx); auto|]. cbn [classParts classItems]. rewrite I1, I2, drop_name, <- Nx, drop_char, C1, C2. cbn. eauto.
  - destruct (range_ok x Fx (eq_sym Nx)) as (r & R1 & R2). rewrite (R2 _ _ eq_refl), I2. cbn [classParts]. rewrite I1, <- Nx, R1. cbn. eauto.
Qed.

(** ** numbers *)
Lemma atoiDigits_ok w : forall acc, forallb isDigit w = true -> atoiDigits acc w = Some (fold_left (fun acc c => acc * 10 + (c - 48))%Z w acc).
Proof.
  induction w as [|c w IH]; intros acc H; auto. cbn [forallb atoiDigits fold_left] in *. apply andb_true_iff in H. destruct H as [H1 H2]. unfold isDigit in H1. rewrite H1. auto.
Qed.
Lemma number_ok n : textOf text n <> [] -> forallb isDigit (textOf text n) = true -> atoi (nodeRunes text n) = numberOf text n.
Proof.
  unfold numberOf. change (nodeRunes text n) with (textOf text n). generalize (textOf text n). intros w Hw Hd.
  rewrite Hd. destruct w as [|c w]; [congruence|]. cbn [List.length Nat.eqb negb andb]. unfold atoi.
  assert (Hc : isDigit c = true) by (cbn [forallb] in Hd; apply andb_true_iff in Hd; tauto). unfold isDigit in Hc. apply andb_true_iff in Hc. destruct Hc as [C1 C2]. apply Z.leb_le in C1, C2.
  rewrite (proj2 (Z.eqb_neq c 45)), (proj2 (Z.eqb_neq c 43)) by lia. rewrite atoiDigits_ok by auto.
  set (v := fold_left _ _ _). unfold maxInt. destruct (Z.leb_spec v 9223372036854775807); destruct (Z.ltb_spec v (2 ^ 63)); auto; change (2 ^ 63)%Z with 9223372036854775808%Z in *; lia.
Qed.
Lemma fine_number n : fine n -> In (nName n) ["count"; "range-from"; "range-to"] -> atoi (nodeRunes text n) = numberOf text n.
Proof. intros Hf Hn. destruct (fine_words _ Hf) as [_ H]. destruct (H Hn). apply number_ok; auto. Qed.

(** ** quantities *)
Lemma quantity_ok q : fine q -> In (nName q) quantityNames -> getQuantity text (dropComments q) = Ok (boundsOf text q).
Proof.
  intros Hf Hn. pose proof (fine_content _ Hf) as Hc. unfold getQuantity, boundsOf. rewrite drop_name, drop_nodes. unfold quantityNames in Hn.
  assert (Hfp : forall x, In x (parts q) -> fine x) by (intros; eapply fine_parts; eauto).
  destruct Hn as [E|[E|[E|[E|[E|[]]]]]]; rewrite <- E in *; cbn [String.eqb Ascii.eqb Bool.eqb]; auto.
  - change (content "count-quantifier") with (Sym "count") in Hc. apply n_sym in Hc. destruct Hc as (x & Ex & Hx). rewrite Ex in *. cbn [map]. rewrite drop_runes, fine_number; [|apply Hfp; left; auto|rewrite Hx; simpl; auto].
    destruct (numberOf text x); auto.
  - change (content "range-quantifier") with (Cat (Alt Eps (Sym "range-from")) (Alt Eps (Sym "range-to"))) in Hc. apply n_cat in Hc. destruct Hc as (l1 & l2 & El & H1 & H2). rewrite El in *.
    apply n_opt in H1, H2. destruct H1 as [->|H1], H2 as [->|H2]; try (apply n_sym in H1; destruct H1 as (a & -> & Ha)); try (apply n_sym in H2; destruct H2 as (b & -> & Hb)); cbn [app map rangeQuantity]; auto;
      repeat (rewrite ?drop_name, ?drop_runes, ?Ha, ?Hb; cbn [String.eqb Ascii.eqb Bool.eqb option_map]).
    + rewrite fine_number; [|apply Hfp; simpl; auto|rewrite Hb; simpl; auto]. destruct (numberOf text b); auto.
    + rewrite fine_number; [|apply Hfp; simpl; auto|rewrite Ha; simpl; auto]. destruct (numberOf text a); auto.
    + rewrite fine_number; [|apply Hfp; simpl; auto|rewrite Ha; simpl; auto]. destruct (numberOf text a); auto. rewrite fine_number; [|apply Hfp; simpl; auto|rewrite Hb; simpl; auto]. destruct (numberOf text b); auto.
Qed.

(** ** expressions *)
Fixpoint seqGo (name : string) (ct : commitType) (s : syntax) (i : nat) (items : list seqItem) (l : list node) : res (syntax * option gerr) :=
  match l with
  | [] => Ok (sequence s name ct items)
  | n :: l' =>
    match nNodes n with
    | [] => Panic PanicIndex
    | m :: _ =>
      x <- (if String.eqb (nName m) "symbol" then Ok (nodeText text m, (s, None))
            else se <- defineExpression text s (childName name i) (N.lor CAlias (N.land ct CNoWhitespace)) m ;; Ok (childName name i, se)) ;;
      match x with
      | (_, (s, Some err)) => Ok (s, Some err)
      | (ref, (s, None)) =>
        q <- itemQuantity text (nNodes n) ;;
        match q with
        | None => Ok (s, Some ErrAtoi)
        | Some (mn, mx) => seqGo name ct s (S i) (items ++ [mkItem ref mn mx]) l'
        end
      end
    end
  end.
Fixpoint choiceGo (name : string) (ct : commitType) (s : syntax) (i : nat) (refs : list string) (l : list node) : res (syntax * option gerr) :=
  match l with
  | [] => Ok (choice s name ct refs)
  | m :: l' =>
    x <- (if String.eqb (nName m) "symbol" then Ok (nodeText text m, (s, None))
          else se <- defineExpression text s (childName name i) (N.lor (N.land ct CNoWhitespace) CAlias) m ;; Ok (childName name i, se)) ;;
    match x with
    | (_, (s, Some err)) => Ok (s, Some err)
    | (ref, (s, None)) => choiceGo name ct s (S i) (refs ++ [ref]) l'
    end
  end.
Lemma sequence_eq s name ct n : nName n = "sequence" -> defineExpression text s name ct n = seqGo name ct s 0 [] (nNodes n).
Proof.
  destruct n as [en from to nodes]. simpl nName. intros ->. cbn [defineExpression String.eqb Ascii.eqb Bool.eqb nNodes]. match goal with |- ?f s 0 [] nodes = _ => assert (X : forall l s its i, f s i its l = seqGo name ct s i its l); [|apply X] end.
  induction l as [|[a b c d] l IH]; clear s; intros s its i; [reflexivity|]. cbn [seqGo nNodes]. destruct d as [|m d]; [reflexivity|]. cbn zeta.
  destruct (if String.eqb (nName m) "symbol" then _ else _) as [[ref [s1 [err|]]]|w|]; try reflexivity. cbn [bind].
  destruct (itemQuantity text (m :: d)) as [[[mn mx]|]|w|]; try reflexivity. cbn [bind]. apply IH.
Qed.
Lemma choice_eq s name ct n : nName n = "choice" -> defineExpression text s name ct n = choiceGo name ct s 0 [] (nNodes n).
Proof.
  destruct n as [en from to nodes]. simpl nName. intros ->. cbn [defineExpression String.eqb Ascii.eqb Bool.eqb nNodes]. match goal with |- ?f s 0 [] nodes = _ => assert (X : forall l s its i, f s i its l = choiceGo name ct s i its l); [|apply X] end.
  induction l as [|m l IH]; clear s; intros s its i; [reflexivity|]. cbn [choiceGo]. cbn zeta.
  destruct (if String.eqb (nName m) "symbol" then _ else _) as [[ref [s1 [err|]]]|w|]; try reflexivity. cbn [bind]. apply IH.
Qed.

(** one after another *)
Lemma rawAll_split a b : forall s, rawAll s (a ++ b) = match rawAll s a with (s1, Some e) => (s1, Some e) | (s1, None) => rawAll s1 b end.
Proof. induction a as [|d a IH]; intros s; simpl; auto. destruct (defineRaw s d) as [s1 [e|]]; auto. Qed.

(** what define.go does with a node, against the expression that the node stands for *)
Definition does (ex : option (list defcall)) (r : syntax -> res (syntax * option gerr)) : Prop :=
  forall s, match ex with Some calls => r s = Ok (rawAll s calls) | None => exists s' err, r s = Ok (s', Some err) end.
Definition follows (k : nat) (n : node) : Prop :=
  forall name ct, does (option_map (callsOf name ct) (exprOf text k n)) (fun s => defineExpression text s name ct (dropComments n)).

Lemma expr_symbol k n e : exprOf text k n = Some e -> isSymbol e = String.eqb (nName n) "symbol" /\ (isSymbol e = true -> e = ESymbol (nodeText text n)).
Proof.
  destruct k as [|k]; [discriminate|]. cbn [exprOf]. 
  destruct (String.eqb_spec (nName n) "any-char") as [E|]; [rewrite E; intros H; inversion H; split; [reflexivity|discriminate]|].
  destruct (String.eqb_spec (nName n) "char-class") as [E|].
  { rewrite E. intros H. assert (X : exists a b c, e = EClass a b c). { destruct (parts n) as [|c l]; [inversion H; eauto|]. destruct (String.eqb (nName c) "class-not"); destruct (classParts text _); inversion H; eauto. }
    destruct X as (a & b & c & ->). split; [reflexivity|discriminate]. }
  destruct (String.eqb_spec (nName n) "char-sequence") as [E|]; [rewrite E; destruct (sequenceOpt _); intros H; inversion H; split; [reflexivity|discriminate]|].
  destruct (String.eqb_spec (nName n) "symbol") as [E|]; [intros H; inversion H; split; auto|].
  destruct (String.eqb_spec (nName n) "sequence") as [E|]; [destruct (sequenceOpt _); intros H; inversion H; split; [reflexivity|discriminate]|].
  destruct (String.eqb_spec (nName n) "choice") as [E|]; [ destruct (sequenceOpt _); intros H; inversion H; split; [reflexivity|discriminate]|discriminate].
Qed.
(** a member of a sequence or choice: what it refers to *)
Definition memberOf (name : string) (i : nat) (ct : commitType) (e : expr) : list defcall := if isSymbol e then [] else callsOf (childName name i) (innerFlags ct) e.
Lemma member_ok k m name i ct : follows k m -> (exprOf text k m = None -> nName m <> "symbol") -> forall ct', ct' = innerFlags ct -> forall s,
  match exprOf text k m with
  | Some e => (if String.eqb (nName (dropComments m)) "symbol" then Ok (nodeText text (dropComments m), (s, None))
               else se <- defineExpression text s (childName name i) ct' (dropComments m) ;; Ok (childName name i, se)) =
              Ok (refTo name i e, rawAll s (memberOf name i ct e))
  | None => exists x s' err, (if String.eqb (nName (dropComments m)) "symbol" then Ok (nodeText text (dropComments m), (s, None))
               else se <- defineExpression text s (childName name i) ct' (dropComments m) ;; Ok (childName name i, se)) = Ok (x, (s', Some err))
  end.
Proof.
  intros Hf Hs ct' -> s. pose proof (Hf (childName name i) (innerFlags ct) s) as H. rewrite drop_name, drop_text.
  destruct (exprOf text k m) as [e|] eqn:Ee; cbn [option_map] in H.
  - destruct (expr_symbol _ _ _ Ee) as [E1 E2]. rewrite <- E1. unfold memberOf. destruct (isSymbol e) eqn:Es; [rewrite (E2 eq_refl); reflexivity|].
    rewrite H. cbn [bind]. destruct e; try discriminate; reflexivity.
  - specialize (Hs eq_refl). apply String.eqb_neq in Hs. rewrite Hs. destruct H as (s' & err & H). rewrite H. cbn [bind]. eauto.
Qed.
Definition itemOf (k : nat) (it : node) : option (expr * (Z * Z)) :=
  match parts it with
  | [x] => option_map (fun e => (e, (0, 0)%Z)) (exprOf text k x)
  | [x; q] => match exprOf text k x, boundsOf text q with Some e, Some b => Some (e, b) | _, _ => None end
  | _ => None
  end.
Lemma symbol_some k m : k <> 0 -> nName m = "symbol" -> exprOf text k m <> None.
Proof. intros Hk Hm. destruct k; [congruence|]. cbn [exprOf]. rewrite Hm. cbn. discriminate. Qed.

Lemma seq_ok k name ct (Hk : k <> 0) : forall l, Forall fine l -> Forall (fun x => nName x = "item") l -> (forall it m, In it l -> In m (parts it) -> In (nName m) expressionNames -> follows k m) ->
  forall i items, does (option_map (fun its => innerItems name ct i its ++ [DSequence name ct (items ++ itemRefs name i its)]) (sequenceOpt (map (itemOf k) l)))
    (fun s => seqGo name ct s i items (map dropComments l)).
Proof.
  induction l as [|it l IH]; intros Hf Hn Hm i items s; [simpl; rewrite app_nil_r; destruct (sequence s name ct items) as [s1 [e|]]; reflexivity|].
  inversion Hf as [|? ? Fi Fl]; subst. inversion Hn as [|? ? Ni Nl]; subst. cbn [map seqGo]. rewrite sequenceOpt_cons, drop_nodes.
  pose proof (fine_content _ Fi) as Hc. rewrite Ni in Hc. change (content "item") with (Cat (oneOf expressionNames) (Alt Eps (oneOf quantityNames))) in Hc.
  apply n_cat in Hc. destruct Hc as (l1 & l2 & El & H1 & H2). apply n_oneOf in H1; [|discriminate]. destruct H1 as (m & -> & Hmn).
  assert (Fm : follows k m) by (apply (Hm it); [left; auto|rewrite El; left; auto|auto]).
  assert (Hs : exprOf text k m = None -> nName m <> "symbol") by (intros H Hx; apply (symbol_some k m Hk Hx H)).
  pose proof (member_ok k m name i ct Fm Hs (N.lor CAlias (N.land ct CNoWhitespace)) eq_refl s) as Hmem.
  specialize (IH Fl Nl (fun it' m' Hi => Hm it' m' (or_intror Hi))).
  assert (Hnext : forall e b, does (option_map (fun its => innerItems name ct i its ++ [DSequence name ct (items ++ itemRefs name i its)])
      match sequenceOpt (map (itemOf k) l) with Some l => Some ((e, b) :: l) | None => None end)
      (fun s1 => match rawAll s1 (memberOf name i ct e) with (s2, Some err) => Ok (s2, Some err) | (s2, None) => seqGo name ct s2 (S i) (items ++ [mkItem (refTo name i e) (fst b) (snd b)]) (map dropComments l) end)).
  { intros e [mn mx] s1. specialize (IH (S i) (items ++ [mkItem (refTo name i e) mn mx])).
    destruct (sequenceOpt (map (itemOf k) l)) as [its|]; cbn [option_map] in *; destruct (rawAll s1 (memberOf name i ct e)) as [s2 [err|]] eqn:Er; specialize (IH s2); cbn [fst snd] in *; eauto.
    - rewrite rawAll_split. cbn [innerItems]. rewrite rawAll_split. fold (memberOf name i ct e). rewrite Er. reflexivity.
    - rewrite IH. rewrite !rawAll_split. cbn [innerItems itemRefs]. rewrite rawAll_split. fold (memberOf name i ct e). rewrite Er, <- app_assoc. reflexivity. }
  assert (Hitem : exists q, itemQuantity text (map dropComments (parts it)) = Ok q /\
     itemOf k it = match exprOf text k m, q with Some e, Some b => Some (e, b) | _, _ => None end).
  { unfold itemOf, itemQuantity. rewrite El. apply n_opt in H2. destruct H2 as [->|H2]; [cbn [app map]; eexists; split; [reflexivity|]; destruct (exprOf text k m); reflexivity|].
    apply n_oneOf in H2; [|discriminate]. destruct H2 as (q & -> & Hq). cbn [app map]. rewrite quantity_ok; auto; [eauto|]. apply (fine_parts it); auto. rewrite El. right. left. auto. }
  destruct Hitem as (q & Q1 & Q2). rewrite Q2. rewrite El in Q1 |- *. cbn [app map] in Q1 |- *.
  destruct (exprOf text k m) as [e|].
  - rewrite Hmem. cbn [bind]. destruct q as [[mn mx]|].
    + specialize (Hnext e (mn, mx) s). cbn [fst snd] in Hnext. destruct (rawAll s (memberOf name i ct e)) as [s1 [err|]]; [exact Hnext|]. rewrite Q1. cbn [bind]. exact Hnext.
    + destruct (rawAll s (memberOf name i ct e)) as [s1 [err|]]; [cbn; eauto|]. rewrite Q1. cbn. eauto.
  - destruct Hmem as (x & s' & err & ->). cbn. eauto.
Qed.
Lemma choiceGo_ok k name ct (Hk : k <> 0) : forall l, (forall m, In m l -> follows k m) ->
  forall i refs, does (option_map (fun os => innerOptions name ct i os ++ [DChoice name ct (refs ++ optionRefs name i os)]) (sequenceOpt (map (exprOf text k) l)))
    (fun s => choiceGo name ct s i refs (map dropComments l)).
Proof.
  induction l as [|m l IH]; intros Hm i refs s; [simpl; rewrite app_nil_r; destruct (choice s name ct refs) as [s1 [e|]]; reflexivity|].
  cbn [map choiceGo]. rewrite sequenceOpt_cons.
  assert (Hs : exprOf text k m = None -> nName m <> "symbol") by (intros H Hx; apply (symbol_some k m Hk Hx H)).
  pose proof (member_ok k m name i ct (Hm m (or_introl eq_refl)) Hs (N.lor (N.land ct CNoWhitespace) CAlias) (N.lor_comm _ _) s) as Hmem.
  specialize (IH (fun m' Hi => Hm m' (or_intror Hi))).
  destruct (exprOf text k m) as [e|].
  - rewrite Hmem. cbn [bind]. specialize (IH (S i) (refs ++ [refTo name i e])).
    destruct (sequenceOpt (map (exprOf text k) l)) as [os|]; cbn [option_map] in *; destruct (rawAll s (memberOf name i ct e)) as [s2 [err|]] eqn:Er; specialize (IH s2); eauto.
    + rewrite rawAll_split. cbn [innerOptions]. rewrite rawAll_split. fold (memberOf name i ct e). rewrite Er. reflexivity.
    + rewrite IH. rewrite !rawAll_split. cbn [innerOptions optionRefs]. rewrite rawAll_split. fold (memberOf name i ct e). rewrite Er, <- app_assoc. reflexivity.
  - destruct Hmem as (x & s' & err & ->). cbn. eauto.
Qed.
Lemma one_call s d : Ok (defineRaw s d) = Ok (rawAll s [d]).
Proof. cbn [rawAll]. destruct (defineRaw s d) as [s1 [e|]]; auto. Qed.
Lemma depth_parts n x : In x (parts n) -> depth x < depth n.
Proof.
  unfold parts. intros H. apply filter_In in H. destruct H as [H _]. destruct n as [a b c l]. simpl in *. induction l as [|y l IH]; [destruct H|]. simpl. destruct H as [->|H]; [lia|]. apply IH in H. lia.
Qed.
Theorem expr_ok k : forall n, fine n -> In (nName n) expressionNames -> depth n <= k -> follows k n.
Proof.
  induction k as [|k IH]; intros n Hf Hn Hd name ct s; [destruct n; simpl in Hd; lia|].
  pose proof (fine_content _ Hf) as Hc. assert (Hfp : forall x, In x (parts n) -> fine x) by (intros; eapply fine_parts; eauto).
  assert (Hdp : forall x, In x (parts n) -> depth x <= k) by (intros x Hx; apply depth_parts in Hx; lia).
  cbn [exprOf]. destruct Hn as [E|[E|[E|[E|[E|[E|[]]]]]]]; rewrite <- E in *; cbn [String.eqb Ascii.eqb Bool.eqb].
  - destruct n as [en from to nodes]; simpl in E; subst en. cbn. change (anyChar s name ct) with (defineRaw s (DAnyChar name ct)). apply one_call.
  - assert (Ed : defineExpression text s name ct (dropComments n) = defineClass text s name ct (map dropComments (parts n))).
    { rewrite <- drop_nodes. destruct n as [en from to nodes]; simpl in E; subst en. reflexivity. }
    rewrite Ed. clear Ed. change (content "char-class") with (Cat (Alt Eps (Sym "class-not")) (Star (oneOf ["class-char"; "char-range"]))) in Hc.
    apply n_cat in Hc. destruct Hc as (l1 & l2 & El & H1 & H2). apply n_star in H2; [|discriminate]. rewrite El in *. apply n_opt in H1.
    assert (F2 : Forall fine l2) by (apply Forall_forall; intros x Hx; apply Hfp, in_or_app; auto). destruct (class_ok _ F2 H2) as ([cs rs] & C1 & C2).
    unfold defineClass. destruct H1 as [->|H1].
    + cbn [app map]. destruct l2 as [|c l2]; [simpl in *; inversion C1; subst; cbn; change (class s name ct false [] []) with (defineRaw s (DClass name ct false [] [])); apply one_call|].
      cbn [map]. rewrite drop_name. assert (Hnot : String.eqb (nName c) "class-not" = false) by (inversion H2 as [|? ? [Hx|[Hx|[]]]]; subst; rewrite <- Hx; reflexivity). rewrite Hnot, C1.
      cbn [map] in C2. rewrite C2. cbn [bind fst snd option_map]. rewrite callsOf_eq. change (class s name ct false cs rs) with (defineRaw s (DClass name ct false cs rs)). apply one_call.
    + apply n_sym in H1. destruct H1 as (c & -> & Hcn). cbn [app map]. rewrite drop_name, Hcn. cbn [String.eqb Ascii.eqb Bool.eqb]. rewrite C1, C2. cbn [bind fst snd option_map]. rewrite callsOf_eq.
      change (class s name ct true cs rs) with (defineRaw s (DClass name ct true cs rs)). apply one_call.
  - assert (Ed : defineExpression text s name ct (dropComments n) = defineCharSequence text s name ct (map dropComments (parts n))).
    { rewrite <- drop_nodes. destruct n as [en from to nodes]; simpl in E; subst en. reflexivity. }
    rewrite Ed. clear Ed. change (content "char-sequence") with (Star (oneOf ["sequence-char"])) in Hc. apply n_star in Hc; [|discriminate].
    destruct (chars_ok (parts n)) as (cs & C1 & C2).
    { apply Forall_forall. intros x Hx. rewrite Forall_forall in Hc. destruct (Hc x Hx) as [Hxn|[]]. apply (fine_words _ (Hfp x Hx)). auto. }
    unfold defineCharSequence. rewrite C1, C2. cbn [bind option_map]. rewrite callsOf_eq. change (charSequence s name ct cs) with (defineRaw s (DCharSequence name ct cs)). apply one_call.
  - assert (Ed : defineExpression text s name ct (dropComments n) = Ok (sequence s name ct [mkItem (nodeText text n) 0 0])).
    { destruct n as [en from to nodes]; simpl in E; subst en. reflexivity. }
    rewrite Ed. cbn [option_map]. rewrite callsOf_eq. change (runesString (textOf text n)) with (nodeText text n). change (sequence s name ct [mkItem (nodeText text n) 0 0]) with (defineRaw s (DSequence name ct [mkItem (nodeText text n) 0 0])). apply one_call.
  - rewrite sequence_eq by (rewrite drop_name; auto). rewrite drop_nodes. change (content "sequence") with (Cat (Sym "item") (Star (oneOf ["item"]))) in Hc.
    apply n_cat in Hc. destruct Hc as (l1 & l2 & El & H1 & H2). apply n_sym in H1. destruct H1 as (it & -> & Hit). apply n_star in H2; [|discriminate].
    assert (Hk : k <> 0).
    { assert (Hx : In it (parts n)) by (rewrite El; left; auto). apply Hdp in Hx. destruct it; simpl in Hx; lia. }
    assert (Hni : Forall (fun x => nName x = "item") (parts n)).
    { rewrite El. constructor; auto. eapply Forall_impl; [|exact H2]. intros x [Hx|[]]; auto. }
    pose proof (seq_ok k name ct Hk (parts n) ltac:(apply Forall_forall; auto) Hni) as X.
    change (fun it => match parts it with [x] => option_map (fun e => (e, (0, 0)%Z)) (exprOf text k x) | [x; q] => match exprOf text k x, boundsOf text q with Some e, Some b => Some (e, b) | _, _ => None end | _ => None end) with (itemOf k).
    assert (Y : forall i m, In i (parts n) -> In m (parts i) -> In (nName m) expressionNames -> follows k m).
    { intros i m Hi Hm Hmn. apply IH; auto; [apply (fine_parts i); auto|]. apply depth_parts in Hm. specialize (Hdp i Hi). lia. }
    specialize (X Y 0 [] s). destruct (sequenceOpt (map (itemOf k) (parts n))) as [its|]; cbn [option_map] in *; auto. rewrite callsOf_eq. exact X.
  - rewrite choice_eq by (rewrite drop_name; auto). rewrite drop_nodes. change (content "choice") with (Cat (oneOf expressionNames) (Cat (oneOf expressionNames) (Star (oneOf expressionNames)))) in Hc.
    apply n_cat in Hc. destruct Hc as (l1 & l2 & El & H1 & H2). apply n_oneOf in H1; [|discriminate]. destruct H1 as (o1 & -> & Ho1). apply n_cat in H2. destruct H2 as (l3 & l4 & -> & H3 & H4). apply n_oneOf in H3; [|discriminate]. destruct H3 as (o2 & -> & Ho2). apply n_star in H4; [|discriminate].
    assert (Hk : k <> 0).
    { assert (Hx : In o1 (parts n)) by (rewrite El; left; auto). apply Hdp in Hx. destruct o1; simpl in Hx; lia. }
    assert (Y : forall m, In m (parts n) -> follows k m).
    { intros m Hm. apply IH; auto. rewrite El in Hm. destruct Hm as [<-|[<-|Hm]]; auto. rewrite Forall_forall in H4. auto. }
    pose proof (choiceGo_ok k name ct Hk (parts n) Y 0 [] s) as X. destruct (sequenceOpt (map (exprOf text k) (parts n))) as [os|]; cbn [option_map] in *; auto. rewrite callsOf_eq. exact X.
Qed.

(** ** definitions *)
Lemma flag_ok x : In (nName x) flagNames -> flagBit (nName x) = Some (flagOf (nName (dropComments x))).
Proof. intros H. rewrite drop_name. destruct H as [<-|[<-|[<-|[<-|[<-|[<-|[<-|[]]]]]]]]; reflexivity. Qed.
Lemma flags_ok l : Forall (fun x => In (nName x) flagNames) l ->
  exists fs, sequenceOpt (map (fun f => flagBit (nName f)) (rev l)) = Some fs /\ fold_right N.lor 0%N fs = flagsToCommitType (map dropComments l).
Proof.
  unfold flagsToCommitType. assert (X : forall l c, fold_left (fun ct ni => N.lor ct (flagOf (nName ni))) l c = N.lor c (fold_left (fun ct ni => N.lor ct (flagOf (nName ni))) l 0%N)).
  { induction l0 as [|x l0 IH]; intros c; simpl; [rewrite N.lor_0_r; auto|]. rewrite IH, (IH (flagOf (nName x))), N.lor_assoc. auto. }
  induction l as [|x l IH] using rev_ind; intros H; [exists []; auto|]. apply Forall_app in H. destruct H as [Hl Hx]. inversion Hx as [|? ? Hx1 _]; subst.
  destruct (IH Hl) as (fs & F1 & F2). rewrite rev_app_distr. cbn [rev app map]. rewrite sequenceOpt_cons, (flag_ok _ Hx1), F1. eexists. split; [reflexivity|].
  rewrite map_app, fold_left_app. cbn [fold_right fold_left map]. rewrite F2. apply N.lor_comm.
Qed.
Lemma def_ok n : fine n -> nName n = "definition" ->
  (exists x, In x (parts n) /\ nName x = "symbol" /\ (forall d, defOf text n = Some d -> tdName d = nodeText text x)) /\
  does (option_map textCalls (defOf text n)) (fun s => addDefinition text s (dropComments n)).
Proof.
  intros Hf Hn. pose proof (fine_content _ Hf) as Hc. rewrite Hn in Hc. change (content "definition") with (Cat (Cat (Sym "symbol") (Star (oneOf flagNames))) (oneOf expressionNames)) in Hc.
  apply n_cat in Hc. destruct Hc as (l1 & l2 & El & H1 & H2). apply n_cat in H1. destruct H1 as (l3 & l4 & -> & H3 & H4). apply n_sym in H3. destruct H3 as (x & -> & Hx). apply n_star in H4; [|discriminate].
  apply n_oneOf in H2; [|discriminate]. destruct H2 as (e & -> & He). destruct (flags_ok _ H4) as (fs & F1 & F2).
  assert (Ed : defOf text n = option_map (fun ex => mkTextDef (nodeText text x) (flagsToCommitType (map dropComments l4)) ex) (exprOf text (depth e) e)).
  { unfold defOf. rewrite El. cbn [app]. rewrite rev_app_distr. cbn [rev app]. rewrite F1, F2. destruct (exprOf text (depth e) e); reflexivity. }
  split.
  - exists x. split; [rewrite El; left; auto|]. split; auto. rewrite Ed. intros d Hd. destruct (exprOf text (depth e) e); inversion Hd. auto.
  - rewrite Ed. intros s.
    assert (Ea : addDefinition text s (dropComments n) = defineExpression text s (nodeText text x) (N.lor (flagsToCommitType (map dropComments l4)) CUserDefined) (dropComments e)).
    { unfold addDefinition. rewrite drop_nodes, El. cbn [app]. rewrite map_cons, map_app. cbn [map]. rewrite <- (drop_text text x). generalize (map dropComments l4) (dropComments e) (dropComments x). clear. intros l0 e0 x0.
      destruct (l0 ++ [e0]) as [|y r] eqn:E; [destruct l0; discriminate|]. rewrite <- E, removelast_last, last_last. reflexivity. }
    rewrite Ea. pose proof (expr_ok (depth e) e) as X. assert (Fe : fine e) by (apply (fine_parts n); auto; rewrite El; apply in_or_app; right; left; auto).
    specialize (X Fe He (le_n _) (nodeText text x) (N.lor (flagsToCommitType (map dropComments l4)) CUserDefined) s).
    destruct (exprOf text (depth e) e) as [ex|]; exact X.
Qed.
Lemma defs_ok l : Forall fine l -> Forall (fun n => nName n = "definition") l ->
  does (option_map (flat_map textCalls) (sequenceOpt (map (defOf text) l))) (fun s => addDefinitions text s (map dropComments l)).
Proof.
  induction l as [|n l IH]; intros Hf Hn s; [reflexivity|]. inversion Hf as [|? ? Fn Fl]; subst. inversion Hn as [|? ? Nn Nl]; subst.
  destruct (def_ok n Fn Nn) as [_ Hd]. specialize (IH Fl Nl). specialize (Hd s). cbn [map addDefinitions]. rewrite sequenceOpt_cons.
  destruct (defOf text n) as [d|]; cbn [option_map] in *.
  - rewrite Hd. cbn [bind]. destruct (sequenceOpt (map (defOf text) l)) as [ds|]; cbn [option_map flat_map] in *; destruct (rawAll s (textCalls d)) as [s1 [e|]] eqn:E; specialize (IH s1); eauto.
    + rewrite rawAll_split, E. auto.
    + rewrite rawAll_split, E. auto.
  - destruct Hd as (s' & err & ->). cbn [bind]. eauto.
Qed.
Lemma syntax_parts t : fine t -> nName t = "syntax" -> Forall (fun n => nName n = "definition") (parts t).
Proof.
  intros Hf Hn. pose proof (fine_content _ Hf) as Hc. rewrite Hn in Hc. change (content "syntax") with (Alt Eps (Cat (Sym "definition") (Alt Eps (Cat (Sym "definition") (Star (oneOf ["definition"])))))) in Hc.
  apply n_opt in Hc. destruct Hc as [->|Hc]; [constructor|]. apply n_cat in Hc. destruct Hc as (l1 & l2 & El & H1 & H2). apply n_sym in H1. destruct H1 as (d1 & -> & Hd1). rewrite El. constructor; auto.
  apply n_opt in H2. destruct H2 as [->|H2]; [constructor|]. apply n_cat in H2. destruct H2 as (l3 & l4 & -> & H3 & H4). apply n_sym in H3. destruct H3 as (d2 & -> & Hd2). constructor; auto. apply n_star in H4; [|discriminate].
  eapply Forall_impl; [|exact H4]. intros x [Hx|[]]; auto.
Qed.
Theorem define_ok t : fine t -> nName t = "syntax" -> does (option_map (flat_map textCalls) (defsOf text t)) (fun s => define text s t).
Proof.
  intros Hf Hn. unfold define, defsOf. rewrite drop_nodes. apply defs_ok; [apply Forall_forall; intros; eapply fine_parts; eauto|apply syntax_parts; auto].
Qed.
Lemma shaped_fine n : shaped content n -> (forall m, inTree m n -> wordsOk m) -> fine n.
Proof.
  revert n. assert (X : forall k n, depth n <= k -> shaped content n -> (forall m, inTree m n -> wordsOk m) -> fine n); [|eauto].
  induction k as [|k IH]; intros n Hd Hs Hw; [destruct n; simpl in Hd; lia|]. inversion Hs as [nm f t ns Hc Hk]; subst. constructor; [exact Hc|apply Hw; constructor|].
  intros x Hx. pose proof (depth_parts _ _ Hx) as Hdx. unfold parts in Hx. apply filter_In in Hx. destruct Hx as [Hx _]. simpl in Hx. rewrite Forall_forall in Hk. apply IH; auto; [lia|].
  intros m Hm. apply Hw. econstructor; eauto.
Qed.
End TEXT.
