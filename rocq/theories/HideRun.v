(** Parsers with more alias flags parse alike, and build the same nodes without those of the aliases. *)
From Verif Require Import Base Utf8 IdSet Results Parser Build ListFacts SyntaxFacts ParseFacts HideSpec.

Lemma flag_alias c f : N.land f CAlias = 0%N -> hasFlag (N.lor c CAlias) f = hasFlag c f.
Proof. intros H. unfold hasFlag. rewrite N.land_comm, N.land_lor_distr_r, H, N.lor_0_r, N.land_comm. auto. Qed.
Lemma alias_flag c : hasFlag (N.lor c CAlias) CAlias = true.
Proof. unfold hasFlag. rewrite N.land_comm, N.land_lor_distr_r. change (N.land CAlias CAlias) with CAlias. destruct (N.eqb_spec (N.lor (N.land CAlias c) CAlias) 0) as [E|]; auto. apply N.lor_eq_0_iff in E. destruct E as [_ E]. discriminate. Qed.

Section HIDE.
Variable hid : string -> bool.
Definition ctOf (n : string) (ct : commitType) : commitType := if hid n then N.lor ct CAlias else ct.
Definition mkp (o : pobj) : pobj :=
  match o with
  | PChar n i cn ch rs => PChar n i cn ch rs
  | PSeq n i ct items ranges gs ac => PSeq n i (ctOf n ct) items ranges gs ac
  | PChoice n i ct options gs => PChoice n i (ctOf n ct) options gs
  end.
Lemma ctOf_flag n ct f : N.land f CAlias = 0%N -> hasFlag (ctOf n ct) f = hasFlag ct f.
Proof. intros H. unfold ctOf. destruct (hid n); auto. apply flag_alias; auto. Qed.
Lemma ctOf_blame n ct p c : blame p (ctOf n ct) c = blame p ct c.
Proof. unfold blame. rewrite !ctOf_flag by reflexivity. auto. Qed.
Lemma ctOf_alias n ct : hasFlag (ctOf n ct) CAlias = (hid n || hasFlag ct CAlias)%bool.
Proof. unfold ctOf. destruct (hid n); auto. apply alias_flag. Qed.
Lemma mkp_name o : nodeName (mkp o) = nodeName o. Proof. destruct o; auto. Qed.
Lemma mkp_id o : nodeID (mkp o) = nodeID o. Proof. destruct o; auto. Qed.

Variable P : pheap.
Notation P' := (map mkp P).

Lemma bind_ext {A B} (m m' : res A) (f f' : A -> res B) : m = m' -> (forall x, f x = f' x) -> bind m f = bind m' f'.
Proof. intros -> H. destruct m'; simpl; auto. Qed.
Lemma seqLoop_ext rec rec' k p id ct ct' items ranges ac from : (forall a c, rec a c = rec' a c) -> (forall c, blame p ct c = blame p ct' c) ->
  forall to ii cnt c, seqLoop rec k p id ct items ranges ac from to ii cnt c = seqLoop rec' k p id ct' items ranges ac from to ii cnt c.
Proof.
  intros Hr Hb. induction k as [|k IH]; intros to ii cnt c; auto. cbn [seqLoop]. destruct (nth_error items ii) as [item|]; auto. apply bind_ext; auto. intros x.
  destruct (nth_error ranges ii) as [[mn mx]|]; auto. rewrite Hb. destruct (negb (cMatchLast x)).
  - destruct (Z.leb _ _); auto.
  - cbv zeta. destruct (_ || _)%bool; auto.
Qed.
Lemma keywordLoop_ext rec rec' kws : (forall a c, rec a c = rec' a c) -> forall from to c, keywordLoop rec kws from to c = keywordLoop rec' kws from to c.
Proof. intros Hr. induction kws as [|kw kws IH]; intros from to c; auto. cbn [keywordLoop]. apply bind_ext; auto. intros x. destruct (_ && _)%bool; auto. Qed.
Lemma isKeyword_ext rec rec' kws from to c : (forall a c, rec a c = rec' a c) -> isKeyword rec kws from to c = isKeyword rec' kws from to c.
Proof. intros Hr. unfold isKeyword. rewrite (keywordLoop_ext rec rec' kws Hr). auto. Qed.
Lemma seqParse_ext rec rec' k kws p id ct ct' items ranges gs ac c : (forall a c, rec a c = rec' a c) -> (forall c, blame p ct c = blame p ct' c) -> hasFlag ct CNoKeyword = hasFlag ct' CNoKeyword ->
  seqParse rec k kws p id ct items ranges gs ac c = seqParse rec' k kws p id ct' items ranges gs ac c.
Proof.
  intros Hr Hb Hk. unfold seqParse. destruct (_ && _)%bool; auto. cbv zeta. apply bind_ext; [apply seqLoop_ext; auto|]. intros [to x|x]; auto.
  apply bind_ext; [rewrite Hk; destruct (hasFlag ct' CNoKeyword); auto; apply isKeyword_ext; auto|]. intros [x1 b]. destruct b; auto. rewrite Hb. auto.
Qed.
Lemma choicePass_ext rec rec' id from options : (forall a c, rec a c = rec' a c) -> forall s c, choicePass rec id from options s c = choicePass rec' id from options s c.
Proof. intros Hr. induction options as [|o options IH]; intros s c; auto. cbn [choicePass]. apply bind_ext; auto. intros x. cbv zeta. destruct (_ || _)%bool; auto. Qed.
Lemma choiceLoop_ext rec rec' k id from options : (forall a c, rec a c = rec' a c) -> forall s c, choiceLoop rec k id from options s c = choiceLoop rec' k id from options s c.
Proof.
  intros Hr. induction k as [|k IH]; intros s c; auto. cbn [choiceLoop]. apply bind_ext; [apply choicePass_ext; auto|]. intros [s1 c1]. destruct (chFound s1); auto.
Qed.
Lemma choiceParse_ext rec rec' k kws p id ct ct' options c : (forall a c, rec a c = rec' a c) -> (forall c, blame p ct c = blame p ct' c) -> hasFlag ct CNoKeyword = hasFlag ct' CNoKeyword ->
  choiceParse rec k kws p id ct options c = choiceParse rec' k kws p id ct' options c.
Proof.
  intros Hr Hb Hk. unfold choiceParse. destruct (fromResults c id); auto. destruct (pending _ _ _); auto. cbv zeta. apply bind_ext; [apply choiceLoop_ext; auto|]. intros [s1 c1]. destruct (chMatch s1).
  - apply bind_ext; [rewrite Hk; destruct (hasFlag ct' CNoKeyword); auto; apply isKeyword_ext; auto|]. intros [x1 b]. destruct b; auto. rewrite Hb. auto.
  - rewrite Hb. auto.
Qed.
Theorem parse_hide kws n : forall p c, parse P' kws n p c = parse P kws n p c.
Proof.
  induction n as [|n IH]; intros p c; auto. cbn [parse]. rewrite nth_error_map. destruct (nth_error P p) as [[nm i cn ch rs|nm i ct items ranges gs ac|nm i ct options gs]|]; auto; cbn [option_map mkp].
  - apply seqParse_ext; auto; [intros; apply ctOf_blame|apply ctOf_flag; reflexivity].
  - apply choiceParse_ext; auto; [intros; apply ctOf_blame|apply ctOf_flag; reflexivity].
Qed.
Lemma parseError_hide c p : parseError P' c p = parseError P c p.
Proof. unfold parseError. rewrite nth_error_map. destruct (nth_error P p) as [o|]; auto. cbn [option_map]. rewrite mkp_name. auto. Qed.
Lemma finalize_hide c root : finalizeParse P' c root = finalizeParse P c root.
Proof.
  unfold finalizeParse. rewrite nth_error_map. cbv zeta. rewrite !parseError_hide. destruct (nth_error P root) as [o|]; auto. cbn [option_map]. rewrite mkp_id.
  destruct (longestResult _ _ _); auto. destruct (_ <? _); auto. destruct (read c) as [c1 b]. rewrite parseError_hide. auto.
Qed.
Lemma pick_hide r o t options : pickOption P' r o t options = pickOption P r o t options.
Proof. induction options as [|x l IH]; auto. cbn [pickOption]. rewrite nth_error_map. destruct (nth_error P x) as [ob|]; auto. cbn [option_map]. rewrite mkp_id, IH. auto. Qed.

(** ** building *)
Definition hides (ns : list node) : list node := flat_map (hide hid) ns.
Definition hideX (x : list node * bool * context) : list node * bool * context := (hides (fst (fst x)), snd (fst x), snd x).
Definition mapR {A B} (f : A -> B) (m : res A) : res B := match m with Ok x => Ok (f x) | Panic w => Panic w | NoFuel => NoFuel end.
Lemma hides_app a b : hides (a ++ b) = hides a ++ hides b. Proof. apply flat_map_app. Qed.
Lemma hides_rep l k : hides (List.concat (repeat l k)) = List.concat (repeat (hides l) k).
Proof. induction k as [|k IH]; cbn [repeat List.concat]; auto. rewrite hides_app, IH. auto. Qed.
Lemma buildLoop_hide rec rec' items ranges k : (forall a c, rec' a c = mapR hideX (rec a c)) ->
  forall ii cnt nodes c, buildLoop rec' k items ranges ii cnt (hides nodes) c = mapR (fun x => (hides (fst x), snd x)) (buildLoop rec k items ranges ii cnt nodes c).
Proof.
  intros Hr. induction k as [|k IH]; intros ii cnt nodes c; auto. cbn [buildLoop]. destruct (nth_error items ii) as [item|]; auto. cbv zeta. rewrite Hr. destruct (rec item c) as [[[n ok] c1]|w|]; auto. cbn [mapR hideX fst snd bind].
  destruct ok; auto. destruct (nth_error ranges ii) as [[mn mx]|]; auto. rewrite <- hides_rep, <- !hides_app, !IH. destruct (_ <? _); auto. destruct (_ && _)%bool; auto.
Qed.
Lemma hide_self n f t ns : hides [Node n f t ns] = if hid n then hides ns else [Node n f t (hides ns)].
Proof. unfold hides. cbn [flat_map hide]. rewrite app_nil_r. auto. Qed.
Theorem build_hide n : forall b c, build P' n b c = mapR hideX (build P n b c).
Proof.
  induction n as [|n IH]; intros b c; auto. cbn [build]. rewrite nth_error_map. destruct (nth_error P b) as [[nm i cn ch rs|nm i ct items ranges gs ac|nm i ct options gs]|]; auto; cbn [option_map mkp].
  - unfold seqBuild. destruct (longestMatch _ _ _) as [to|]; auto. cbv zeta. rewrite ctOf_alias. destruct ac.
    { destruct (hasFlag ct CAlias); [rewrite orb_true_r; auto|]. rewrite orb_false_r. cbn [mapR]. unfold hideX. cbn [fst snd]. rewrite hide_self. destruct (hid nm); auto. }
    destruct (enterBuild _ _ _ _) as [[c1|]|w|]; auto. cbn [bind]. rewrite (buildLoop_hide (build P n) _ _ _ _ IH 0 0 [] c1 : buildLoop _ _ _ _ _ _ [] _ = _).
    destruct (buildLoop (build P n) n items ranges 0 0 [] c1) as [[nodes c2]|w|]; auto. cbn [mapR bind fst snd]. destruct (leaveBuild _ _ _ _ _) as [c3|w|]; auto. cbn [bind].
    destruct (hasFlag ct CAlias); [rewrite orb_true_r; auto|]. rewrite orb_false_r. cbn [mapR]. unfold hideX. cbn [fst snd]. rewrite hide_self. destruct (hid nm); auto.
  - unfold choiceBuild. destruct (longestMatch _ _ _) as [to|]; auto. cbv zeta. destruct (enterBuild _ _ _ _) as [[c1|]|w|]; auto. cbn [bind]. rewrite pick_hide.
    destruct (pickOption _ _ _ _ _) as [[o|]|w|]; auto. cbn [bind]. rewrite IH. destruct (build P n o c1) as [[[nodes ok] c2]|w|]; auto. cbn [mapR hideX bind fst snd]. destruct (leaveBuild _ _ _ _ _) as [c3|w|]; auto. cbn [bind].
    rewrite ctOf_alias. destruct (hasFlag ct CAlias); [rewrite orb_true_r; auto|]. rewrite orb_false_r. cbn [mapR]. unfold hideX. cbn [fst snd]. rewrite hide_self. destruct (hid nm); auto.
Qed.

(** the root makes a node, or is a single character *)
Definition topObj (o : pobj) : Prop :=
  match o with PChar _ _ _ _ _ => True | PSeq n _ ct _ _ _ _ => hid n = false /\ hasFlag ct CAlias = false | PChoice n _ ct _ _ => hid n = false /\ hasFlag ct CAlias = false end.
Lemma build_top n b c o ns ok c' : nth_error P b = Some o -> topObj o -> build P n b c = Ok (ns, ok, c') ->
  ns = [] \/ exists nm f t l, ns = [Node nm f t l] /\ hid nm = false.
Proof.
  intros Hb Ht H. destruct n as [|n]; [discriminate|]. cbn [build] in H. rewrite Hb in H. destruct o as [nm i cn ch rs|nm i ct items ranges gs ac|nm i ct options gs]; simpl in Ht.
  - injection H as <- _ _. auto.
  - destruct Ht as [T1 T2]. unfold seqBuild in H. destruct (longestMatch _ _ _) as [to|]; [|injection H as <- _ _; auto]. cbv zeta in H. rewrite T2 in H. destruct ac; [injection H as <- _ _; eauto 9|].
    binv H. destruct x as [c1|]; [|injection H as <- _ _; auto]. binv H. destruct x as [nodes c2]. binv H. injection H as <- _ _. eauto 9.
  - destruct Ht as [T1 T2]. unfold choiceBuild in H. destruct (longestMatch _ _ _) as [to|]; [|injection H as <- _ _; auto]. cbv zeta in H. rewrite T2 in H.
    binv H. destruct x as [c1|]; [|injection H as <- _ _; auto]. binv H. destruct x as [x|]; [|discriminate]. binv H. destruct x0 as [[nodes ok1] c2]. binv H. injection H as <- _ _. eauto 9.
Qed.

(** the outcome: the same error, or the tree without the hidden nodes *)
Definition hideOut (o o' : parseOut) : Prop :=
  match o, o' with
  | Tree t toks, Tree t' toks' => toks' = toks /\ hide hid t = [t']
  | Failed e, Failed e' => e' = e
  | _, _ => False
  end.
Theorem parseInput_hide kws root o fuel input e : nth_error P root = Some o -> topObj o ->
  match parseInput P kws root fuel input e, parseInput P' kws root fuel input e with
  | Ok x, Ok x' => hideOut x x'
  | Panic w, Panic w' => w' = w
  | NoFuel, NoFuel => True
  | _, _ => False
  end.
Proof.
  intros Hro Ht. unfold parseInput, parseInputPB. rewrite parse_hide. destruct (parse P kws fuel root (newContext input e)) as [c|w|]; cbn [bind]; auto.
  destruct (cReadErr c); [reflexivity|]. rewrite finalize_hide. destruct (finalizeParse P c root) as [[c1 [err|]]|w|]; cbn [bind]; auto; [reflexivity|].
  cbv zeta. rewrite build_hide. destruct (build P fuel root _) as [[[ns ok] c2]|w|] eqn:Eb; cbn [mapR bind]; auto. unfold hideX. cbn [fst snd].
  destruct (build_top _ _ _ _ _ _ _ Hro Ht Eb) as [->|(nm & f & t & l & -> & Hn)]; [reflexivity|]. rewrite hide_self, Hn. simpl. rewrite Hn. auto.
Qed.
End HIDE.
