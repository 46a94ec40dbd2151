(** ReadSyntax: the definitions of the text are made, and no valid text makes it panic. *)
From Verif Require Import Base Utf8 Escape IdSet Results Parser Build Syntax SelfData Define ListFacts ParseFacts FuelFacts InitSpec InitFuel Grammar WsLang ApiSpec WsApi Rep ApiFacts RefSpec RefApi RefCheck RefSafe ErrFacts RunFacts TextFacts WsNames Utf8Facts DefSpec DefineFacts ReadFacts ReadSpec ReadUse SelfGrammar SelfLang ReadLang Shape SelfShape SelfWords ReadDefs.
Local Open Scope string_scope.
Local Open Scope list_scope.
Local Open Scope nat_scope.

(** ** definitions that match at every offset *)
Section ALWAYS.
Context {A : Type}.
Variable G : A -> option (gobj A).
Variable K : list (list rune).
Variable input : list rune.
Variable E : A -> bool.
Hypothesis HE : forall a, E a = true -> match G a with
  | Some (GSeq _ nokw items) => nokw = false /\ forall x mn mx, In (x, (mn, mx)) items -> mn = 0 \/ E x = true
  | Some (GChoice _ options) => exists x, In x options /\ E x = true
  | _ => False
  end.
Lemma always_items (rec : A -> nat -> outcome) k : forall items cnt o, (forall x mn mx, In (x, (mn, mx)) items -> mn = 0 \/ forall o, rec x o <> NoMatch) -> evalItems rec k items cnt o <> NoMatch.
Proof.
  induction k as [|k IH]; intros items cnt o H; [discriminate|]. cbn [evalItems]. destruct items as [|[x [mn mx]] items]; [discriminate|].
  assert (Hr : forall c o, evalItems rec k items c o <> NoMatch) by (intros; apply IH; intros; eapply H; right; eauto).
  assert (Ha : forall l r, r <> NoMatch -> after l r <> NoMatch) by (intros l [| |]; simpl; congruence).
  specialize (H x mn mx (or_introl eq_refl)) as Hx. destruct (rec x o) as [| |t ns] eqn:Ex; [discriminate| |].
  - destruct Hx as [->|Hx]; [apply Hr|]. destruct (Hx o Ex).
  - destruct (o <? t); [|apply Ha, Hr]. destruct (match mx with Some m => S cnt =? m | None => false end); apply Ha; [apply Hr|apply IH; auto].
Qed.
Lemma always_options (rec : A -> nat -> outcome) : forall options o best, ((exists t ns, best = Match t ns) \/ exists x, In x options /\ forall o, rec x o <> NoMatch) -> evalOptions rec options o best <> NoMatch.
Proof.
  induction options as [|x options IH]; intros o best H; simpl; [destruct H as [(t & ns & ->)|(x & [] & _)]; discriminate|].
  destruct (rec x o) as [| |t ns] eqn:Ex; [discriminate| |]; apply IH.
  - destruct H as [(t & ns & ->)|(y & [<-|Hy] & H)]; [left; simpl; eauto|destruct (H o Ex)|right; eauto].
  - left. destruct best as [| |t' ns']; simpl; eauto. destruct (t' <? t); eauto.
Qed.
Theorem always_match n : forall a o, E a = true -> eval G K input n a o <> NoMatch.
Proof.
  induction n as [|n IH]; intros a o Ha; [discriminate|]. cbn [eval]. specialize (HE a Ha). destruct (G a) as [[cn cs rs|l nokw items|l options]|]; try contradiction.
  - destruct HE as [-> Hi]. pose proof (always_items (eval G K input n) n items 0 o) as X. destruct (evalItems _ _ _ _ _); simpl; try congruence.
    intros _. apply X; auto. intros x mn mx Hx. destruct (Hi x mn mx Hx); auto.
  - destruct HE as (x & Hx & Ex). pose proof (always_options (eval G K input n) options o NoMatch) as X. destruct (evalOptions _ _ _ _); simpl; try congruence.
    intros _. apply X; auto. right. exists x. split; auto.
Qed.
End ALWAYS.

Definition selfAlways (k : key) : bool := match k with KDef n | KBody n => String.eqb n "syntax" | _ => false end.
Lemma self_always k : selfAlways k = true -> match graphOf published k with
  | Some (GSeq _ nokw items) => nokw = false /\ forall x mn mx, In (x, (mn, mx)) items -> mn = 0 \/ selfAlways x = true
  | Some (GChoice _ options) => exists x, In x options /\ selfAlways x = true
  | _ => False
  end.
Proof.
  destruct k as [n|n| |n i|n i]; cbn [selfAlways]; try discriminate; intros H; apply String.eqb_eq in H; subst n.
  - let g := eval vm_compute in (graphOf published (KDef "syntax")) in change (graphOf published (KDef "syntax")) with g. cbv iota beta. split; auto.
    intros x mn mx Hx. repeat (destruct Hx as [Hx|Hx]; [inversion Hx; subst; auto|]). destruct Hx.
  - let g := eval vm_compute in (graphOf published (KBody "syntax")) in change (graphOf published (KBody "syntax")) with g. cbv iota beta. split; auto.
    intros x mn mx Hx. repeat (destruct Hx as [Hx|Hx]; [inversion Hx; subst; auto|]). destruct Hx.
Qed.
(** every text begins with a syntax text: the empty one at least *)
Theorem self_match input : exists t ns, Means published input "syntax" 0 (Match t ns).
Proof.
  destruct (u_means_one published selfSyntax input "syntax" 0 self_usable self_refers self_noLeft) as (r & Hm & _); [apply (rootName_defined published), self_rootName|].
  destruct Hm as [Hr (n & E)]. pose proof (always_match (graphOf published) (keywordTexts published) input selfAlways self_always n (KDef "syntax") 0 eq_refl) as X. rewrite E in X.
  destruct r as [| |t ns]; try congruence. exists t, ns. split; [discriminate|eauto].
Qed.

(** ** no panic *)
Theorem self_noPanic input : ~ In runeError input -> forall fuel why, selfParse fuel input REof <> Panic why.
Proof.
  intros Hv fuel why H. destruct (self_match input) as (t & ns & Hm).
  apply (u_prefix_safe published selfSyntax selfInit "syntax" input t ns self_usable self_refers self_keywords self_nokw self_rootName self_Inits Hv Hm).
  apply self_panics. eauto.
Qed.

(** ** the tree of a text *)
Lemma self_words input t : ~ In runeError input -> isSyntax input t -> forall m, inTree m t -> texts published "syntax" (nName m) (textOf input m).
Proof.
  intros Hv Hs m Hm. destruct (proj2 (self_tree input t) (conj Hv Hs)) as (fuel & H). apply self_parses in H.
  destruct (u_tree_nodes published selfSyntax selfInit input REof t input self_usable H m self_sensible Hm) as (_ & _ & _ & name & H1 & H2).
  rewrite self_rootName in H1. inversion H1; subst name. exact H2.
Qed.
Lemma self_fine input t : ~ In runeError input -> isSyntax input t -> nName t = "syntax" /\ fine input t.
Proof.
  intros Hv Hs. destruct (self_shaped input 0 _ t Hs) as [Hn Hsh]. split; auto. apply shaped_fine; auto. intros m Hm. pose proof (self_words input t Hv Hs m Hm) as W. split; intros H.
  - eapply char_text; eauto.
  - eapply number_text; eauto.
Qed.
Lemma self_one input t t' : ~ In runeError input -> isSyntax input t -> isSyntax input t' -> t = t'.
Proof.
  intros Hv H H'. destruct (u_means_one published selfSyntax input "syntax" 0 self_usable self_refers self_noLeft) as (r & Hm & Hu); [apply (rootName_defined published), self_rootName|].
  apply Hu in H. apply Hu in H'. congruence.
Qed.

(** the names of the definitions *)
Lemma ascii_colon b : (0 <= b < 256)%Z -> b <> 58%Z -> Ascii.ascii_of_N (Z.to_N b) <> ":"%char.
Proof.
  intros Hb Hn H. apply Hn. assert (E : Ascii.N_of_ascii (Ascii.ascii_of_N (Z.to_N b)) = Ascii.N_of_ascii ":"%char) by congruence.
  rewrite Ascii.N_ascii_embedding in E by lia. change (Ascii.N_of_ascii ":") with 58%N in E. lia.
Qed.
Lemma encode_colon r b : r <> 58%Z -> In b (encodeRune r) -> (0 <= b < 256)%Z /\ b <> 58%Z.
Proof.
  unfold encodeRune. intros Hr. cbv zeta. match goal with |- context [if ?b then runeError else r] => set (r' := if b then runeError else r) end.
  assert (H' : (0 <= r' <= 1114111)%Z /\ r' <> 58%Z).
  { unfold r', runeError. destruct (_ || _)%bool eqn:E; [lia|]. apply orb_false_iff in E. destruct E as [E _]. apply orb_false_iff in E. destruct E as [E1 E2]. apply Z.ltb_ge in E1, E2. lia. }
  clearbody r'. destruct H' as [H1 H2].
  destruct (Z.ltb_spec r' 128); [intros [<-|[]]; lia|]. destruct (Z.ltb_spec r' 2048).
  - assert (0 <= r' / 64 < 32)%Z by (split; [apply Z.div_pos; lia|apply Z.div_lt_upper_bound; lia]). pose proof (Z.mod_pos_bound r' 64 ltac:(lia)). intros [<-|[<-|[]]]; lia.
  - pose proof (Z.mod_pos_bound r' 64 ltac:(lia)). pose proof (Z.mod_pos_bound (r' / 64) 64 ltac:(lia)). pose proof (Z.mod_pos_bound (r' / 4096) 64 ltac:(lia)).
    destruct (Z.ltb_spec r' 65536).
    + assert (0 <= r' / 4096 < 16)%Z by (split; [apply Z.div_pos; lia|apply Z.div_lt_upper_bound; lia]). intros [<-|[<-|[<-|[]]]]; lia.
    + assert (0 <= r' / 262144 < 16)%Z by (split; [apply Z.div_pos; lia|apply Z.div_lt_upper_bound; lia]). intros [<-|[<-|[<-|[<-|[]]]]]; lia.
Qed.
Lemma runes_colonFree w : (forall c, In c w -> c <> 58%Z) -> colonFree (runesString w).
Proof.
  intros H. unfold runesString, colonFree, encodeUtf8. assert (X : forall b, In b (List.concat (map encodeRune w)) -> (0 <= b < 256)%Z /\ b <> 58%Z).
  { intros b Hb. apply in_concat in Hb. destruct Hb as (l & Hl & Hb). apply in_map_iff in Hl. destruct Hl as (r & <- & Hr). eapply encode_colon; eauto. }
  revert X. generalize (List.concat (map encodeRune w)) as bs. induction bs as [|b bs IH]; intros X; simpl; [tauto|]. intros [Hb|Hb].
  - destruct (X b (or_introl eq_refl)). eapply ascii_colon; eauto.
  - apply IH; auto. intros b' Hb'. apply X. right. auto.
Qed.
Lemma defsOf_in text t defs d : defsOf text t = Some defs -> In d defs -> exists n, In n (parts t) /\ defOf text n = Some d.
Proof.
  unfold defsOf. revert defs. induction (parts t) as [|n l IH]; intros defs H Hd; simpl in H; [inversion H; subst; destruct Hd|].
  fold (sequenceOpt (map (defOf text) l)) in H. destruct (defOf text n) as [d'|] eqn:E; [|discriminate]. destruct (sequenceOpt _) as [ds|]; [|discriminate]. inversion H; subst.
  destruct Hd as [->|Hd]; [exists n; simpl; auto|]. destruct (IH _ eq_refl Hd) as (m & Hm & E'). exists m. simpl; auto.
Qed.
Lemma parts_in x n : In x (parts n) -> inTree x n.
Proof. destruct n as [nm f u ns]. unfold parts. intros H. apply filter_In in H. econstructor; [apply H|constructor]. Qed.
Lemma inTree_trans a b c : inTree a b -> inTree b c -> inTree a c.
Proof. intros Hab Hbc. induction Hbc as [|nm f u ns m Hm Hmb IH]; auto. econstructor; eauto. Qed.
Theorem names_colonFree input t defs : ~ In runeError input -> isSyntax input t -> defsOf input t = Some defs -> forall d, In d defs -> colonFree (tdName d).
Proof.
  intros Hv Hs Hd d Hin. destruct (defsOf_in _ _ _ _ Hd Hin) as (n & Hn & E). destruct (self_fine _ _ Hv Hs) as [Ht Hf].
  assert (Nn : nName n = "definition").
  { pose proof (syntax_parts _ _ Hf Ht) as X. rewrite Forall_forall in X. auto. }
  destruct (def_ok input n (fine_parts _ _ _ Hf Hn) Nn) as [(x & Hx & Nx & Ex) _]. rewrite (Ex _ E). unfold nodeText. apply runes_colonFree. intros c Hc.
  pose proof (self_words input t Hv Hs x (inTree_trans _ _ _ (parts_in _ _ Hx) (parts_in _ _ Hn))) as W. rewrite Nx in W. apply symbol_text in W. destruct W as [_ W].
  intros ->. apply (W 58%Z Hc). vm_compute. tauto.
Qed.

(** ** ReadSyntax *)
Theorem read_define s input t : sInitialized s = false -> ~ In runeError input -> isSyntax input t -> forall s' err, Reads s input REof s' err <-> define input s t = Ok (s', err).
Proof.
  intros Hi Hv Hs s' err. split.
  - intros (fuel & H). unfold ReadSyntax in H. rewrite Hi in H. binv H. destruct (proj2 (self_tree input t) (conj Hv Hs)) as (f & Hf).
    assert (x = Tree t input).
    { pose proof (parseInputPB_mono selfParsers selfBuilders [] selfRoot selfBuilderRoot fuel (f + fuel) input REof ltac:(lia)) as X1. pose proof (parseInputPB_mono selfParsers selfBuilders [] selfRoot selfBuilderRoot f (f + fuel) input REof ltac:(lia)) as X2.
      unfold selfParse in *. rewrite E in X1. rewrite Hf in X2. specialize (X1 ltac:(discriminate)). specialize (X2 ltac:(discriminate)). congruence. }
    subst x. exact H.
  - intros H. destruct (proj2 (self_tree input t) (conj Hv Hs)) as (f & Hf). exists f. unfold ReadSyntax. rewrite Hi, Hf. exact H.
Qed.
Theorem read_means s input t defs : sInitialized s = false -> ~ In runeError input -> isSyntax input t -> defsOf input t = Some defs ->
  forall s' err, Reads s input REof s' err <-> rawAll s (flat_map textCalls defs) = (s', err).
Proof.
  intros Hi Hv Hs Hd s' err. rewrite (read_define s input t Hi Hv Hs). destruct (self_fine _ _ Hv Hs) as [Ht Hf]. pose proof (define_ok input t Hf Ht s) as H. rewrite Hd in H. simpl in H. rewrite H.
  split; intros X; [inversion X; auto|congruence].
Qed.
Theorem read_none s input t : ~ In runeError input -> isSyntax input t -> defsOf input t = None -> exists s' err, Reads s input REof s' (Some err).
Proof.
  intros Hv Hs Hd. destruct (sInitialized s) eqn:Hi; [exists s; eexists; exists 0; unfold ReadSyntax; rewrite Hi; reflexivity|].
  destruct (self_fine _ _ Hv Hs) as [Ht Hf]. pose proof (define_ok input t Hf Ht s) as H. rewrite Hd in H. simpl in H. destruct H as (s' & err & H). exists s', err. apply (read_define s input t Hi Hv Hs). auto.
Qed.
Theorem read_noPanic s input : ~ In runeError input -> ~ ReadPanics s input REof.
Proof.
  intros Hv (fuel & why & H). unfold ReadSyntax in H. destruct (sInitialized s); [discriminate|]. destruct (selfParse fuel input REof) as [[t toks|err]|w|] eqn:E; try discriminate.
  - destruct (self_eof _ _ _ _ _ E) as [_ ->]. destruct (proj1 (self_tree input t) (ex_intro _ _ E)) as [_ Hs]. destruct (self_fine _ _ Hv Hs) as [Ht Hf]. pose proof (define_ok input t Hf Ht s) as X.
    cbn [bind] in H. destruct (defsOf input t); simpl in X; [rewrite X in H; discriminate|]. destruct X as (s' & err & X). rewrite X in H. discriminate.
  - eapply self_noPanic; eauto.
Qed.
Theorem read_success s input e s' : Reads s input e s' None <->
  e = REof /\ ~ In runeError input /\ sInitialized s = false /\
  exists t defs, isSyntax input t /\ defsOf input t = Some defs /\ rawAll s (flat_map textCalls defs) = (s', None).
Proof.
  split.
  - intros H. pose proof H as H0. apply Reads_tree in H. destruct H as (-> & Hv & Hi & t & Hs & H). repeat (split; auto). exists t.
    destruct (defsOf input t) as [defs|] eqn:Hd.
    + exists defs. split; auto. split; auto. apply (read_means s input t defs Hi Hv Hs Hd). auto.
    + destruct (self_fine _ _ Hv Hs) as [Ht Hf]. pose proof (define_ok input t Hf Ht s) as X. rewrite Hd in X. simpl in X. destruct X as (s1 & err & X). congruence.
  - intros (-> & Hv & Hi & t & defs & Hs & Hd & H). apply (read_means s input t defs Hi Hv Hs Hd). auto.
Qed.
(** ** in terms of the definitions that a text spells *)
Theorem spells_one text defs defs' : spells text defs -> spells text defs' -> defs = defs'.
Proof. intros (Hv & t & H1 & H2) (_ & t' & H3 & H4). pose proof (self_one _ _ _ Hv H1 H3). congruence. Qed.
Theorem spells_means s text defs : sInitialized s = false -> spells text defs -> forall s' err, Reads s text REof s' err <-> rawAll s (flat_map textCalls defs) = (s', err).
Proof. intros Hi (Hv & t & Hs & Hd). apply (read_means s text t); auto. Qed.
Theorem spells_success s text e s' : Reads s text e s' None <->
  e = REof /\ sInitialized s = false /\ exists defs, spells text defs /\ rawAll s (flat_map textCalls defs) = (s', None).
Proof.
  rewrite read_success. split.
  - intros (He & Hv & Hi & t & defs & Hs & Hd & H). repeat (split; auto). exists defs. split; auto. split; eauto.
  - intros (He & Hi & defs & (Hv & t & Hs & Hd) & H). repeat (split; auto). eauto 6.
Qed.
Theorem spells_error s text : (forall defs, ~ spells text defs) -> ~ In runeError text -> exists s' err, Reads s text REof s' (Some err).
Proof.
  intros Hn Hv. destruct (ReadSyntax_terminates s text REof) as [f Hf]. specialize (Hf f (Nat.le_refl _)). pose proof (read_noPanic s text Hv) as Hp.
  destruct (ReadSyntax f s text REof) as [[s' [err|]]|w|] eqn:E; [exists s', err, f; auto| |exfalso; apply Hp; exists f, w; auto|congruence].
  exfalso. assert (H : Reads s text REof s' None) by (exists f; auto). apply spells_success in H. destruct H as (_ & _ & defs & H & _). eapply Hn; eauto.
Qed.

(** the names of a text are valid symbols *)
Definition sane (r : rune) : rune := (if (r <? 0) || (1114111 <? r) || ((55296 <=? r) && (r <=? 57343)) then runeError else r)%Z.
Lemma sane_scalar r : scalar (sane r).
Proof.
  unfold sane, scalar, runeError. destruct (_ || _)%bool eqn:E; [lia|]. apply orb_false_iff in E. destruct E as [E E3]. apply orb_false_iff in E. destruct E as [E1 E2].
  apply Z.ltb_ge in E1, E2. apply andb_false_iff in E3. rewrite !Z.leb_gt in E3. lia.
Qed.
Lemma sane_same r : scalar r -> sane r = r.
Proof.
  intros [H1 H2]. unfold sane. destruct (_ || _)%bool eqn:E; auto. exfalso. apply orb_true_iff in E. destruct E as [E|E]; [apply orb_true_iff in E; rewrite !Z.ltb_lt in E; lia|].
  apply andb_true_iff in E. rewrite !Z.leb_le in E. lia.
Qed.
Lemma sane_encode r : encodeRune (sane r) = encodeRune r.
Proof. unfold encodeRune. fold (sane r). fold (sane (sane r)). rewrite (sane_same (sane r)) by apply sane_scalar. reflexivity. Qed.
Lemma sane_string w : stringRunes (runesString w) = map sane w.
Proof.
  rewrite <- (runes_string (map sane w)); [|apply Forall_map, Forall_forall; intros; apply sane_scalar].
  f_equal. unfold runesString, encodeUtf8. do 2 f_equal. rewrite map_map. apply map_ext. intros r. symmetry. apply sane_encode.
Qed.
Lemma symbol_valid w : texts published "syntax" "symbol" w -> isValidSymbol (runesString w) = true.
Proof.
  intros H. apply symbol_text in H. destruct H as [_ H]. apply valid_symbol. intros r Hr Hres. rewrite sane_string in Hr. apply in_map_iff in Hr. destruct Hr as (c & E & Hc).
  assert (E' : c = r).
  { unfold sane in E. destruct (_ || _)%bool; auto. subst r. exfalso. revert Hres. unfold reserved, runeError. simpl. intuition discriminate. }
  rewrite <- E' in Hres. apply (H c Hc). exact Hres.
Qed.
Theorem spells_names text defs : spells text defs -> forall d, In d defs -> isValidSymbol (tdName d) = true.
Proof.
  intros (Hv & t & Hs & Hd) d Hin. destruct (defsOf_in _ _ _ _ Hd Hin) as (n & Hn & E). destruct (self_fine _ _ Hv Hs) as [Ht Hf].
  assert (Nn : nName n = "definition").
  { pose proof (syntax_parts _ _ Hf Ht) as X. rewrite Forall_forall in X. auto. }
  destruct (def_ok text n (fine_parts _ _ _ Hf Hn) Nn) as [(x & Hx & Nx & Ex) _]. rewrite (Ex _ E). unfold nodeText.
  pose proof (self_words text t Hv Hs x (inTree_trans _ _ _ (parts_in _ _ Hx) (parts_in _ _ Hn))) as W. rewrite Nx in W. apply symbol_valid. exact W.
Qed.
Lemma method_text d : plainExpr (tdExpr d) -> textCalls d = [withUserDefined (methodCall d)].
Proof.
  unfold textCalls, methodCall. rewrite callsOf_eq. destruct (tdExpr d) as [|cn cs rs|cs|n|items|options]; simpl; auto; intros H.
  - assert (X : forall i, innerItems (tdName d) (N.lor (tdFlags d) CUserDefined) i items = [] /\ itemRefs (tdName d) i items = map (fun it => mkItem (symbolOf (fst it)) (fst (snd it)) (snd (snd it))) items).
    { induction items as [|[x [mn mx]] items IH]; intros i; simpl; auto. destruct (H x (mn, mx) (or_introl eq_refl)) as (n & ->). simpl. destruct (IH (fun y b Hy => H y b (or_intror Hy)) (S i)) as [-> ->]. auto. }
    destruct (X 0) as [-> ->]. reflexivity.
  - assert (X : forall i, innerOptions (tdName d) (N.lor (tdFlags d) CUserDefined) i options = [] /\ optionRefs (tdName d) i options = map symbolOf options).
    { induction options as [|x options IH]; intros i; simpl; auto. destruct (H x (or_introl eq_refl)) as (n & ->). simpl. destruct (IH (fun y Hy => H y (or_intror Hy)) (S i)) as [-> ->]. auto. }
    destruct (X 0) as [-> ->]. reflexivity.
Qed.
Lemma method_name d : callName (methodCall d) = tdName d.
Proof. unfold methodCall. destruct (tdExpr d); reflexivity. Qed.
Theorem spells_methods s text defs : sInitialized s = false -> spells text defs -> (forall d, In d defs -> plainExpr (tdExpr d)) ->
  forall s' err, Reads s text REof s' err <-> defineAll s (map methodCall defs) = (s', err).
Proof.
  intros Hi Hs Hp s' err. rewrite (spells_means s text defs Hi Hs). pose proof (spells_names _ _ Hs) as Hn. clear Hs Hi.
  assert (X : rawAll s (flat_map textCalls defs) = defineAll s (map methodCall defs)); [|rewrite X; tauto].
  revert s. induction defs as [|d defs IH]; intros s; [reflexivity|]. cbn [flat_map map defineAll]. rewrite (method_text d) by (apply Hp; left; auto). simpl. unfold defineCall.
  rewrite method_name, (Hn d (or_introl eq_refl)). destruct (defineRaw s (withUserDefined (methodCall d))) as [s1 [e|]]; auto. apply IH; intros; [apply Hp|apply Hn]; right; auto.
Qed.

(** the syntax that is read into an empty one: its definitions are usable *)
Definition textReady (defs : list textDef) : Prop :=
  let calls := flat_map textCalls defs in
  hasWhitespaceDef calls -> allDefined calls /\ keywordsPlain calls /\ forall d, In d defs -> ~ isItoa (tdName d).
Theorem spells_usable text s defs : spells text defs -> Reads emptySyntax text REof s None -> textReady defs -> usable (flat_map textCalls defs) s.
Proof.
  intros Hs HR Hw. apply (spells_means emptySyntax text defs eq_refl Hs) in HR. destruct Hs as (Hv & t & Hs & Hd). apply raw_usable; auto. intros H. destruct (Hw H) as (H1 & H2 & H3). split; auto. split; auto.
  apply text_proper. intros d Hin. split; auto. eapply names_colonFree; eauto.
Qed.
Theorem spells_words text defs s s' input e t toks n :
  spells text defs -> Reads emptySyntax text REof s None -> textReady defs -> sensibleRanges (flat_map textCalls defs) ->
  Parses s input e s' (Tree t toks) -> inTree n t ->
  exists root, rootName (flat_map textCalls defs) = Some root /\ texts (flat_map textCalls defs) root (nName n) (nodeRunes toks n).
Proof.
  intros Hs HR Hw Hr HP Hn. pose proof (spells_usable text s defs Hs HR Hw) as Hu.
  destruct (u_tree_nodes _ s s' input e t toks Hu HP n Hr Hn) as (_ & _ & _ & name & H1 & H2). eauto.
Qed.
Theorem spells_tree text defs s s' name input :
  let calls := flat_map textCalls defs in
  spells text defs -> Reads emptySyntax text REof s None -> textReady defs ->
  refersToDefs calls -> literalKeywords calls -> nokwOnSequences calls -> noLeftRecursion calls ->
  rootName calls = Some name -> Inits s s' None -> ~ In runeError input ->
  forall t, Parses s input REof s' (Tree t input) <-> Means calls input name 0 (Match (List.length input) [t]).
Proof.
  intros calls Hs HR Hw Hr Hk Hn Hl Hroot Hi Hv t. pose proof (spells_usable text s defs Hs HR Hw) as Hu. split; intros H.
  - eapply (u_tree_means calls s s' name input t input); eauto.
  - apply (u_parse_outcome calls s s' name input _ Hu Hr Hk Hn Hroot Hi Hv H). auto.
Qed.
