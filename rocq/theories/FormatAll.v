(** What can be read from a text: fair characters, plain names, quantities that fit, sequences of one item
    and choices of two options at least. *)
From Verif Require Import Base Utf8 Utf8Facts Escape IdSet Results Parser Build Syntax SelfData Define ListFacts ParseFacts Grammar ApiSpec DefSpec Rep PropComments RefSpec ReadSpec ReadUse SelfGrammar Shape SelfShape SelfWords ReadDefs SelfLang ReadLang ReadMeans BlameApi Format FormatSpec FormatNestSpec FormatNestBack FormatAllSpec.
Local Open Scope string_scope.
Local Open Scope list_scope.
Local Open Scope nat_scope.

Lemma sequenceOpt_in {A B} (f : A -> option B) l : forall r, sequenceOpt (map f l) = Some r -> forall y, In y r -> exists x, In x l /\ f x = Some y.
Proof.
  induction l as [|x l IH]; intros r H y Hy; [simpl in H; inversion H; subst; destruct Hy|]. cbn [map] in H. rewrite sequenceOpt_cons in H.
  destruct (f x) as [a|] eqn:E; [|discriminate]. destruct (sequenceOpt (map f l)) as [r'|]; [|discriminate]. inversion H; subst. destruct Hy as [<-|Hy].
  - exists x. simpl; auto.
  - destruct (IH _ eq_refl y Hy) as (z & Hz & Ez). exists z. simpl; auto.
Qed.
Lemma sequenceOpt_length {A B} (f : A -> option B) l : forall r, sequenceOpt (map f l) = Some r -> List.length r = List.length l.
Proof.
  induction l as [|x l IH]; intros r H; [simpl in H; inversion H; auto|]. cbn [map] in H. rewrite sequenceOpt_cons in H.
  destruct (f x) as [a|]; [|discriminate]. destruct (sequenceOpt (map f l)) as [r'|]; [|discriminate]. inversion H; subst. simpl. f_equal. auto.
Qed.

Section TEXT.
Variable text : list rune.
Hypothesis Hscalar : Forall scalar text.
Hypothesis Hvalid : ~ In runeError text.

Lemma text_fair c : In c text -> fair c.
Proof. intros H. split; [rewrite Forall_forall in Hscalar; auto|intros ->; auto]. Qed.
Lemma textOf_fair n c : In c (textOf text n) -> fair c.
Proof. unfold textOf. intros H. apply text_fair. rewrite <- (firstn_skipn (nFrom n) text). apply in_or_app. right. rewrite <- (firstn_skipn (nTo n - nFrom n) (skipn _ _)). apply in_or_app. left. exact H. Qed.
Lemma escaped_fair c : fair c -> fair (escaped c).
Proof.
  rewrite <- escaped_eq. unfold unescapeChar. intros H.
  repeat match goal with |- context [if Z.eqb c ?k then _ else _] => destruct (Z.eqb c k); [split; [split; lia|unfold runeError; lia]|] end. auto.
Qed.
Lemma charOf_fair n c : charOf text n = Some c -> fair c.
Proof.
  unfold charOf. pose proof (textOf_fair n) as X. destruct (textOf text n) as [|a [|b [|? ?]]]; try discriminate.
  - destruct (Z.eqb a 92); [discriminate|]. intros H. inversion H; subst. apply X. left; auto.
  - destruct (Z.eqb a 92); [|discriminate]. intros H. inversion H; subst. apply escaped_fair, X. right; left; auto.
Qed.
Lemma rangeOf_fair n r : rangeOf text n = Some r -> fair (fst r) /\ fair (snd r).
Proof.
  unfold rangeOf. destruct (parts n) as [|a [|b [|? ?]]]; try discriminate. destruct (charOf text a) eqn:Ea; [|discriminate]. destruct (charOf text b) eqn:Eb; [|discriminate].
  intros H. inversion H; subst. split; eapply charOf_fair; eauto.
Qed.
Lemma classParts_fair l : forall p, classParts text l = Some p -> Forall fair (fst p) /\ Forall (fun r => fair (fst r) /\ fair (snd r)) (snd p).
Proof.
  induction l as [|x l IH]; intros p H; cbn [classParts] in H; [inversion H; subst; split; constructor|].
  destruct (classParts text l) as [[cs rs]|]; [|discriminate]. destruct (IH _ eq_refl) as [I1 I2]. cbn [fst snd] in *.
  destruct (String.eqb (nName x) "class-char").
  - destruct (charOf text x) eqn:E; [|discriminate]. simpl in H. inversion H; subst. split; auto. constructor; auto. eapply charOf_fair; eauto.
  - destruct (String.eqb (nName x) "char-range"); [|discriminate]. destruct (rangeOf text x) eqn:E; [|discriminate]. simpl in H. inversion H; subst. split; auto. constructor; auto. eapply rangeOf_fair; eauto.
Qed.
Lemma numberOf_int n v : numberOf text n = Some v -> (v < 2 ^ 63)%Z.
Proof.
  unfold numberOf. cbv zeta. destruct (_ && _)%bool eqn:E; [|discriminate]. intros H. inversion H; subst. apply andb_true_iff in E. destruct E as [_ E]. apply Z.ltb_lt in E. exact E.
Qed.
Lemma boundsOf_int q b : boundsOf text q = Some b -> intRange (mkItem "" (fst b) (snd b)).
Proof.
  assert (S1 : (-1 < 2 ^ 63)%Z) by reflexivity. assert (S2 : (0 < 2 ^ 63)%Z) by reflexivity. assert (S3 : (1 < 2 ^ 63)%Z) by reflexivity.
  unfold intRange. cbn [siMin siMax]. unfold boundsOf. destruct (String.eqb _ "count-quantifier").
  { destruct (parts q) as [|a [|? ?]]; try discriminate. destruct (numberOf text a) as [v|] eqn:E; [|discriminate]. apply numberOf_int in E. simpl. intros H. inversion H; subst. auto. }
  destruct (String.eqb _ "range-quantifier").
  { destruct (parts q) as [|a [|c [|? ?]]]; try discriminate.
    - intros H. inversion H; subst. auto.
    - destruct (String.eqb _ "range-from"); [|destruct (String.eqb _ "range-to"); [|discriminate]]; (destruct (numberOf text a) as [v|] eqn:E; [|discriminate]); apply numberOf_int in E; cbn [option_map]; intros H; inversion H; subst; auto.
    - destruct (numberOf text a) as [v|] eqn:E; [|discriminate]. destruct (numberOf text c) as [w|] eqn:E2; [|discriminate]. apply numberOf_int in E, E2. intros H; inversion H; subst; auto. }
  destruct (String.eqb _ "one-or-more"); [intros H; inversion H; subst; auto|]. destruct (String.eqb _ "zero-or-more"); [intros H; inversion H; subst; auto|].
  destruct (String.eqb _ "zero-or-one"); [intros H; inversion H; subst; auto|discriminate].
Qed.
Lemma runes_nonempty w : w <> [] -> runesString w <> "".
Proof.
  intros Hw X. apply Hw. destruct w as [|r l]; auto. exfalso. unfold runesString, encodeUtf8 in X. cbn [map List.concat] in X.
  assert (Y : encodeRune r <> []) by (unfold encodeRune; cbv zeta; repeat match goal with |- context [Z.ltb ?a ?b] => destruct (Z.ltb a b) end; discriminate).
  destruct (encodeRune r); [congruence|]. discriminate X.
Qed.
Variable t : node.
Hypothesis Ht : isSyntax text t.
Lemma symbol_plain n : inTree n t -> nName n = "symbol" -> plainName (runesString (textOf text n)).
Proof.
  intros Hin Hn. pose proof (self_words text t Hvalid Ht n Hin) as W. rewrite Hn in W. split; [|split].
  - apply runes_nonempty. apply symbol_text in W. tauto.
  - apply symbol_valid. exact W.
  - exists (textOf text n). split; auto. apply Forall_forall. apply textOf_fair.
Qed.

Variable names : list string.
(** what is left to ask of an expression that was read *)
Definition apart (x : expr) : Prop :=
  (forall m, In (ESymbol m) (inside x) -> In m names) /\
  (forall cs, In (EText cs) (inside x) -> List.length cs = 1 \/ ~ In 34%Z cs) /\
  (forall items y b it, In (ESequence items) (inside x) -> In (y, b) items -> normalAll y = ESequence [it] -> normalBounds b = (0, 0)%Z).
Lemma inside_self x : In x (inside x).
Proof. destruct x; left; auto. Qed.
Lemma apart_item items x b : apart (ESequence items) -> In (x, b) items -> apart x.
Proof.
  intros (A & B & D) Hin. assert (X : forall z, In z (inside x) -> In z (inside (ESequence items))) by (intros z Hz; right; apply in_flat_map; exists (x, b); auto).
  split; [|split]; intros; eauto.
Qed.
Lemma apart_option options x : apart (EChoice options) -> In x options -> apart x.
Proof.
  intros (A & B & D) Hin. assert (X : forall z, In z (inside x) -> In z (inside (EChoice options))) by (intros z Hz; right; apply in_flat_map; exists x; auto).
  split; [|split]; intros; eauto.
Qed.

Lemma expr_printable k : forall n x, fine text n -> inTree n t -> In (nName n) expressionNames -> exprOf text k n = Some x -> apart x -> printable names x.
Proof.
  induction k as [|k IH]; intros n x Hf Hin Hn E Ha; [discriminate|].
  pose proof (fine_content _ _ Hf) as Hc. assert (Hfp : forall x, In x (parts n) -> fine text x) by (intros; eapply fine_parts; eauto).
  assert (Htp : forall m x, In x (parts m) -> inTree m t -> inTree x t) by (intros m y Hy Hm; eapply inTree_trans; [apply parts_in; exact Hy|exact Hm]).
  pose proof Ha as (A1 & A2 & A4).
  cbn [exprOf] in E. destruct Hn as [N|[N|[N|[N|[N|[N|[]]]]]]]; rewrite <- N in *; cbn [String.eqb Ascii.eqb Bool.eqb] in E.
  - inversion E; subst. apply printable_flat; [exact I|discriminate].
  - assert (X : exists b p, classParts text (if b : bool then tl (parts n) else parts n) = Some p /\ x = EClass b (fst p) (snd p)).
    { destruct (parts n) as [|c l]; [inversion E; subst; exists false, ([], []); auto|]. destruct (String.eqb _ "class-not").
      - cbn [tl]. exists true. destruct (classParts text l) as [p|]; [|discriminate]. simpl in E. inversion E; subst. eauto.
      - exists false. destruct (classParts text (c :: l)) as [p|]; [|discriminate]. simpl in E. inversion E; subst. eauto. }
    destruct X as (b & p & E' & ->). apply classParts_fair in E'. apply printable_flat; [exact E'|discriminate].
  - destruct (sequenceOpt _) as [cs|] eqn:E'; [|discriminate]. simpl in E. inversion E; subst. apply printable_flat; [|discriminate]. split.
    + apply Forall_forall. intros c Hcs. destruct (sequenceOpt_in _ _ _ E' c Hcs) as (m & _ & Em). eapply charOf_fair; eauto.
    + apply A2. apply inside_self.
  - inversion E; subst. apply printable_flat; [apply symbol_plain; auto|]. intros m Hm. inversion Hm; subst. apply A1. apply inside_self.
  - destruct (sequenceOpt _) as [items|] eqn:E'; [|discriminate]. simpl in E. inversion E; subst.
    change (content "sequence") with (Cat (Sym "item") (Star (oneOf ["item"]))) in Hc.
    apply n_cat in Hc. destruct Hc as (l1 & l2 & El & H1 & H2). apply n_sym in H1. destruct H1 as (it & -> & Hit). apply n_star in H2; [|discriminate].
    assert (Hni : forall y, In y (parts n) -> nName y = "item").
    { rewrite El. intros y [<-|Hy]; auto. rewrite Forall_forall in H2. destruct (H2 y Hy) as [<-|[]]; auto. }
    assert (Hit' : forall y b, In (y, b) items -> printable names y /\ intRange (mkItem "" (fst b) (snd b))).
    { intros y b Hy. destruct (sequenceOpt_in _ _ _ E' _ Hy) as (m & Hm & Em). pose proof (fine_content _ _ (Hfp m Hm)) as Hcm. rewrite (Hni m Hm) in Hcm.
      change (content "item") with (Cat (oneOf expressionNames) (Alt Eps (oneOf quantityNames))) in Hcm. apply n_cat in Hcm. destruct Hcm as (k1 & k2 & Ek & K1 & K2). apply n_oneOf in K1; [|discriminate]. destruct K1 as (z & -> & Hz).
      assert (Hzp : In z (parts m)) by (rewrite Ek; left; auto).
      assert (Hpz : forall e, exprOf text k z = Some e -> apart e -> printable names e).
      { intros e He Hae. apply (IH z); auto; [eapply fine_parts; [apply (Hfp m Hm)|exact Hzp]|]. eauto. }
      pose proof (apart_item _ _ _ Ha Hy) as Hay. rewrite Ek in Em. cbn [app] in Em. destruct k2 as [|q [|? ?]]; [| |discriminate].
      - destruct (exprOf text k z) as [e|]; [|discriminate]. simpl in Em. inversion Em; subst. split; [auto|]. split; reflexivity.
      - destruct (exprOf text k z) as [e|]; [|discriminate]. destruct (boundsOf text q) as [b'|] eqn:Eb; [|discriminate]. inversion Em; subst. split; [auto|]. eapply boundsOf_int; eauto. }
    apply printable_sequence.
    + apply sequenceOpt_length in E'. rewrite El in E'. intros ->. discriminate.
    + intros y b Hy. apply (Hit' y b Hy).
    + intros y b Hy. apply (Hit' y b Hy).
    + intros y b it' Hy Ey. eapply A4; [apply inside_self|exact Hy|exact Ey].
  - destruct (sequenceOpt _) as [os|] eqn:E'; [|discriminate]. simpl in E. inversion E; subst.
    change (content "choice") with (Cat (oneOf expressionNames) (Cat (oneOf expressionNames) (Star (oneOf expressionNames)))) in Hc.
    apply n_cat in Hc. destruct Hc as (l1 & l2 & El & H1 & H2). apply n_oneOf in H1; [|discriminate]. destruct H1 as (o1 & -> & Ho1). apply n_cat in H2. destruct H2 as (l3 & l4 & -> & H3 & H4). apply n_oneOf in H3; [|discriminate]. destruct H3 as (o2 & -> & Ho2). apply n_star in H4; [|discriminate].
    apply printable_choice.
    + apply sequenceOpt_length in E'. rewrite E', El. simpl. lia.
    + intros y Hy. destruct (sequenceOpt_in _ _ _ E' y Hy) as (m & Hm & Em). apply (IH m); auto.
      * eauto.
      * rewrite El in Hm. destruct Hm as [<-|[<-|Hm]]; auto. rewrite Forall_forall in H4. auto.
      * eapply apart_option; eauto.
Qed.

Lemma def_printable d : forall defs, defsOf text t = Some defs -> In d defs -> plainName (tdName d) /\ (apart (tdExpr d) -> printable names (tdExpr d)).
Proof.
  intros defs Hd Hin. destruct (defsOf_in _ _ _ _ Hd Hin) as (n & Hn & E). destruct (self_fine _ _ Hvalid Ht) as [Htn Hf].
  assert (Nn : nName n = "definition").
  { pose proof (syntax_parts _ _ Hf Htn) as X. rewrite Forall_forall in X. auto. }
  assert (Fn : fine text n) by (eapply fine_parts; eauto). assert (In_n : inTree n t) by (apply parts_in; auto).
  pose proof (fine_content _ _ Fn) as Hc. rewrite Nn in Hc. change (content "definition") with (Cat (Cat (Sym "symbol") (Star (oneOf flagNames))) (oneOf expressionNames)) in Hc.
  apply n_cat in Hc. destruct Hc as (l1 & l2 & El & H1 & H2). apply n_oneOf in H2; [|discriminate]. destruct H2 as (x & -> & Hx). apply n_cat in H1. destruct H1 as (l3 & l4 & -> & H3 & _). apply n_sym in H3. destruct H3 as (y & -> & Hy).
  unfold defOf in E. rewrite El in E. cbn [app] in E. rewrite rev_app_distr in E. cbn [rev app] in E.
  destruct (exprOf text (depth x) x) as [e|] eqn:Ee; [|discriminate]. destruct (sequenceOpt _) as [fs|]; [|discriminate]. inversion E; subst. cbn [tdName tdExpr].
  assert (Hyp : In y (parts n)) by (rewrite El; left; auto). assert (Hxp : In x (parts n)) by (rewrite El; apply in_or_app; right; left; auto).
  split.
  - apply symbol_plain; auto. eapply inTree_trans; [apply parts_in; exact Hyp|auto].
  - intros Ha. apply (expr_printable (depth x) x); auto; [apply (fine_parts text n); auto|]. eapply inTree_trans; [apply parts_in; exact Hxp|auto].
Qed.
End TEXT.

Theorem all_back text defs s name flags x : Forall scalar text -> spells text defs -> Reads emptySyntax text REof s None -> In (mkTextDef name flags x) defs ->
  (forall m, In (ESymbol m) (inside x) -> In m (map tdName defs)) ->
  (forall cs, In (EText cs) (inside x) -> List.length cs = 1 \/ ~ In 34%Z cs) ->
  (forall items y b it, In (ESequence items) (inside x) -> In (y, b) items -> normalAll y = ESequence [it] -> normalBounds b = (0, 0)%Z) ->
  exists t N, (forall k, N <= k -> formatOf k s name = Ok t) /\ spells (stringRunes (name ++ "=" ++ t)) [mkTextDef name 0%N (normalAll x)].
Proof.
  intros Hsc Hsp Hr Hd A B D. pose proof Hsp as (Hv & t & Ht & Hdefs).
  destruct (def_printable text Hsc Hv t Ht (map tdName defs) _ defs Hdefs Hd) as [Hn Hp]. cbn [tdName tdExpr] in *. eapply nested_back; eauto. apply Hp. split; [|split]; auto.
Qed.
