(** Two heaps that hold the same objects at different addresses parse and build alike. *)
From Verif Require Import Base Utf8 IdSet Results Parser Build Syntax ListFacts Generate GoSpec GenWalk.

Inductive rel {A B} (R : A -> B -> Prop) : res A -> res B -> Prop :=
| rel_ok x y : R x y -> rel R (Ok x) (Ok y)
| rel_panic w : rel R (Panic w) (Panic w)
| rel_nofuel : rel R NoFuel NoFuel.
Lemma rel_bind {A B A' B'} (R : A -> B -> Prop) (S : A' -> B' -> Prop) m m' f f' :
  rel R m m' -> (forall x y, R x y -> rel S (f x) (f' y)) -> rel S (bind m f) (bind m' f').
Proof. intros [x y H|w|] Hf; simpl; auto; constructor. Qed.

Section SIM.
(** addresses of the first heap and of the second one *)
Variable f : addr -> addr.
(** objects that can be blamed *)
Variable ok : addr -> Prop.

Definition mapC (c : context) : context := setFail c (cFailOffset c) (option_map f (cFailingParser c)).
Definition inv (c : context) : Prop := forall p, cFailingParser c = Some p -> ok p.
Definition C (c d : context) : Prop := d = mapC c /\ inv c.

Lemma C_offset c d v : C c d -> C (setOffset c v) (setOffset d v).
Proof. intros [-> H]. split; auto. Qed.
Lemma C_limit c d v : C c d -> C (setLimit c v) (setLimit d v).
Proof. intros [-> H]. split; auto. Qed.
Lemma C_results c d v : C c d -> C (setResults c v) (setResults d v).
Proof. intros [-> H]. split; auto. Qed.
Lemma C_success c d v : C c d -> C (success c v) (success d v).
Proof. intros [-> H]. split; auto. Qed.
Lemma C_fail c d v : C c d -> C (fail c v) (fail d v).
Proof. intros [-> H]. split; auto. Qed.
Lemma C_nofail c d o : C c d -> C (setFail c o None) (setFail d o None).
Proof. intros [-> H]. split; auto. intros p; discriminate. Qed.
Lemma C_setFail c d o p : C c d -> (forall x, p = Some x -> ok x) -> C (setFail c o p) (setFail d o (option_map f p)).
Proof. intros [-> H] Hp. split; auto. Qed.
Lemma C_clear c d to : C c d -> C (clearFail to c) (clearFail to d).
Proof. intros H. unfold clearFail. replace (cFailOffset d) with (cFailOffset c) by (destruct H as [-> _]; auto). destruct (_ <? _)%Z; auto. apply C_nofail; auto. Qed.
Lemma C_blame c d p commit : C c d -> (hasFlag commit CUserDefined = true -> ok p) -> C (blame p commit c) (blame (f p) commit d).
Proof.
  intros [-> H] Hp. unfold blame. cbn [mapC setFail cFailingParser]. destruct (cFailingParser c) eqn:E; simpl; [split; auto|].
  destruct (hasFlag commit CUserDefined) eqn:Eu; simpl; [|split; auto]. destruct (_ && _)%bool; [|split; auto].
  split; auto. intros q Hq. inversion Hq; subst. auto.
Qed.
Lemma C_read c d : C c d -> C (fst (read c)) (fst (read d)) /\ snd (read d) = snd (read c).
Proof.
  intros [-> H]. unfold read. cbn [mapC setFail cEof cReadErr cInput cEnd]. destruct (cEof c) eqn:E1; [split; auto; split; auto|].
  destruct (cReadErr c) eqn:E2; [split; auto; split; auto|]. destruct (cInput c) as [|t rest]; [destruct (cEnd c); split; auto; split; auto|].
  destruct (_ =? _)%Z; split; auto; split; auto.
Qed.
Lemma C_token c d : C c d -> rel (fun x y => C (fst x) (fst y) /\ snd x = snd y) (token c) (token d).
Proof.
  intros H. pose proof H as [Hd _]. unfold token. pose proof (C_read c d H) as [R1 R2]. destruct (read c) as [c1 b1] eqn:Ec, (read d) as [d1 b2] eqn:Ed. simpl in R1, R2. subst b2.
  replace (cOffsetLimit d) with (cOffsetLimit c) by (subst d; auto). replace (cOffset d) with (cOffset c) by (subst d; auto).
  replace (cReadOffset d) with (cReadOffset c) by (subst d; auto). replace (cTokens d) with (cTokens c) by (subst d; auto).
  destruct (match cOffsetLimit c with Some l => _ | None => _ end); [constructor; auto|].
  destruct (cOffset c =? cReadOffset c); cbn iota beta zeta.
  - destruct b1; [|constructor; auto]. destruct R1 as [Hd1 Hi]. replace (cTokens d1) with (cTokens c1) by (subst d1; auto). replace (cOffset d1) with (cOffset c1) by (subst d1; auto).
    destruct (nth_error (cTokens c1) _); constructor; simpl; split; auto; split; auto.
  - replace (cTokens d) with (cTokens c) by (subst d; auto). replace (cOffset d) with (cOffset c) by (subst d; auto).
    destruct (nth_error (cTokens c) _); constructor; auto.
Qed.
Lemma C_char cnot chars ranges c d : C c d -> rel C (charParse cnot chars ranges c) (charParse cnot chars ranges d).
Proof.
  intros H. unfold charParse. eapply rel_bind; [apply C_token; eauto|]. intros [c1 t1] [d1 t2] [H1 H2]. simpl in H1, H2. subst t2. pose proof H1 as [Hd _].
  replace (cOffset d1) with (cOffset c1) by (subst d1; auto). replace (cFailOffset d1) with (cFailOffset c1) by (subst d1; auto).
  destruct (match t1 with Some t => _ | None => _ end); [constructor; apply C_success; auto|]. constructor.
  destruct (_ <? _)%Z; [cbn [setFail cOffset]; replace (cOffset d1) with (cOffset c1) by (subst d1; auto); apply C_fail, C_nofail; auto|]. replace (cOffset d1) with (cOffset c1) by (subst d1; auto). apply C_fail; auto.
Qed.
Lemma C_from c d id : C c d -> match fromResults c id, fromResults d id with Some c1, Some d1 => C c1 d1 | None, None => True | _, _ => False end.
Proof.
  intros H. pose proof H as [Hd _]. unfold fromResults. replace (cResults d) with (cResults c) by (subst d; auto). replace (cOffset d) with (cOffset c) by (subst d; auto).
  destruct (longestResult _ _ _); first [apply C_success; assumption | apply C_fail; assumption | exact I].
Qed.
Lemma C_mapResults g c d : C c d -> rel C (mapResults g c) (mapResults g d).
Proof.
  intros H. pose proof H as [Hd _]. unfold mapResults. replace (cResults d) with (cResults c) by (subst d; auto).
  destruct (g (cResults c)); simpl; constructor. apply C_results; auto.
Qed.
Lemma C_unmark ac from id c d : C c d -> rel C (unmarkUnless ac from id c) (unmarkUnless ac from id d).
Proof. intros H. unfold unmarkUnless. destruct ac; [constructor; auto|apply C_mapResults; auto]. Qed.

Section REC.
Variable L : addr -> Prop.
Variables rec rec' : addr -> context -> res context.
Hypothesis Hrec : forall p c d, L p -> C c d -> rel C (rec p c) (rec' (f p) d).

Lemma C_keywordLoop kws : (forall k, In k kws -> L k) -> forall from to c d, C c d ->
  rel (fun x y => C (fst x) (fst y) /\ snd x = snd y) (keywordLoop rec kws from to c) (keywordLoop rec' (map f kws) from to d).
Proof.
  induction kws as [|k kws IH]; intros Hk from to c d H; cbn [keywordLoop map]; [constructor; auto|].
  eapply rel_bind; [apply Hrec; [apply Hk; left; auto|apply C_offset; eauto]|]. intros c1 d1 H1. pose proof H1 as [Hd _].
  replace (cMatchLast d1) with (cMatchLast c1) by (subst d1; auto). replace (cOffset d1) with (cOffset c1) by (subst d1; auto).
  destruct (_ && _)%bool; [constructor; auto|]. apply IH; auto. intros; apply Hk; right; auto.
Qed.
Lemma C_isKeyword kws from to c d : (forall k, In k kws -> L k) -> C c d ->
  rel (fun x y => C (fst x) (fst y) /\ snd x = snd y) (isKeyword rec kws from to c) (isKeyword rec' (map f kws) from to d).
Proof.
  intros Hk H. unfold isKeyword. eapply rel_bind; [apply C_keywordLoop; [auto|apply C_limit; eauto]|]. intros [c1 b1] [d1 b2] [H1 H2]. simpl in *. subst.
  constructor. simpl. split; auto. replace (cOffsetLimit d) with (cOffsetLimit c) by (destruct H as [-> _]; auto). apply C_limit; auto.
Qed.

Definition S2 (x y : seqOut) : Prop :=
  match x, y with SLoop t c, SLoop t' d => t = t' /\ C c d | SReturn c, SReturn d => C c d | _, _ => False end.

Lemma C_seqLoop p id commit items ranges ac from k : (forall x, In x items -> L x) -> (hasFlag commit CUserDefined = true -> ok p) ->
  forall to ii n c d, C c d ->
  rel S2 (seqLoop rec k p id commit items ranges ac from to ii n c) (seqLoop rec' k (f p) id commit (map f items) ranges ac from to ii n d).
Proof.
  intros Hi Hp. induction k as [|k IH]; intros to ii n c d H; [constructor|]. cbn [seqLoop]. rewrite nth_error_map.
  destruct (nth_error items ii) as [item|] eqn:E; cbn [option_map]; [|constructor; split; auto].
  eapply rel_bind; [apply Hrec; [eapply Hi, nth_error_In; eauto|eauto]|]. intros c1 d1 H1. pose proof H1 as [Hd _].
  destruct (nth_error ranges ii) as [[mn mx]|]; [|constructor].
  replace (cMatchLast d1) with (cMatchLast c1) by (subst d1; auto). replace (cOffset d1) with (cOffset c1) by (subst d1; auto).
  destruct (negb (cMatchLast c1)).
  - destruct (_ <=? _)%Z; [apply IH; auto|]. assert (H2 : C (setOffset c1 from) (setOffset d1 from)) by (apply C_offset; auto).
    pose proof (C_from _ _ id H2) as Hf. cbv zeta. destruct (fromResults (setOffset c1 from) id), (fromResults (setOffset d1 from) id); try contradiction.
    + eapply rel_bind; [apply C_unmark, C_clear; eauto|]. intros; constructor; auto.
    + eapply rel_bind; [apply C_unmark, C_fail, C_blame; eauto|]. intros; constructor; auto.
  - cbv zeta. destruct (_ || _)%bool; apply IH; auto.
Qed.
Lemma C_seqParse k kws p id commit items ranges gs ac c d : (forall k, In k kws -> L k) -> (forall x, In x items -> L x) ->
  (hasFlag commit CUserDefined = true -> ok p) -> C c d ->
  rel C (seqParse rec k kws p id commit items ranges gs ac c) (seqParse rec' k (map f kws) (f p) id commit (map f items) ranges gs ac d).
Proof.
  intros Hk Hi Hp H. pose proof H as [Hd _]. unfold seqParse.
  replace (cResults d) with (cResults c) by (subst d; auto). replace (cOffset d) with (cOffset c) by (subst d; auto).
  destruct (_ && _)%bool; [constructor; apply C_fail; auto|]. cbv zeta. set (from := cOffset c).
  eapply rel_bind.
  { apply C_seqLoop; auto. destruct ac; eauto. apply C_results; eauto. }
  intros [to c1|c1] [to' d1|d1] Hx; simpl in Hx; try contradiction; [|constructor; auto]. destruct Hx as [<- H1].
  eapply rel_bind with (R := fun x y => C (fst x) (fst y) /\ snd x = snd y).
  { destruct (hasFlag commit CNoKeyword); [apply C_isKeyword; auto|constructor; auto]. }
  intros [c2 b1] [d2 b2] [H2 E2]. simpl in H2, E2. subst b2. destruct b1; [apply C_unmark, C_fail, C_blame; auto|]. cbv zeta.
  apply C_unmark, C_success. pose proof H2 as [Hd2 _]. replace (cResults d2) with (cResults c2) by (subst d2; auto).
  assert (H3 : C (clearFail to (setResults c2 (setGeneralizations from to gs (cResults c2)))) (clearFail to (setResults d2 (setGeneralizations from to gs (cResults c2))))) by (apply C_clear, C_results; auto).
  destruct H3 as [E3 I3]. replace (cResults (clearFail to (setResults d2 _))) with (cResults (clearFail to (setResults c2 (setGeneralizations from to gs (cResults c2))))) by (rewrite E3; auto).
  apply C_results. split; auto.
Qed.

Definition CS (x y : chState) : Prop :=
  y = mkChState (chMatch x) (chFound x) (chTo x) (chFailOffset x) (option_map f (chFailing x)) /\ forall p, chFailing x = Some p -> ok p.
Lemma C_choicePass id from options : (forall x, In x options -> L x) -> forall s t c d, CS s t -> C c d ->
  rel (fun x y => CS (fst x) (fst y) /\ C (snd x) (snd y)) (choicePass rec id from options s c) (choicePass rec' id from (map f options) t d).
Proof.
  induction options as [|o options IH]; intros Ho s t c d Hs H; cbn [choicePass map]; [constructor; auto|].
  eapply rel_bind; [apply Hrec; [apply Ho; left; auto|eauto]|]. intros c1 d1 H1. pose proof H1 as [Hd Hi1]. pose proof Hs as [Ht Hi].
  assert (Ho' : forall x, In x options -> L x) by (intros; apply Ho; right; auto).
  replace (cMatchLast d1) with (cMatchLast c1) by (subst d1; auto). replace (cOffset d1) with (cOffset c1) by (subst d1; auto).
  replace (cFailOffset d1) with (cFailOffset c1) by (subst d1; auto). replace (chFailOffset t) with (chFailOffset s) by (subst t; auto).
  set (s1 := if (negb (cMatchLast c1) && (chFailOffset s <? cFailOffset c1)%Z)%bool then _ else s).
  set (t1 := if (negb (cMatchLast c1) && (chFailOffset s <? cFailOffset c1)%Z)%bool then _ else t).
  assert (Hs1 : CS s1 t1).
  { unfold s1, t1. destruct (_ && _)%bool; auto. subst t d1. split; simpl; auto. }
  pose proof Hs1 as [Ht1 Hi2]. cbv zeta. replace (chMatch t1) with (chMatch s1) by (rewrite Ht1; auto). replace (chTo t1) with (chTo s1) by (rewrite Ht1; auto).
  destruct (_ || _)%bool; [apply IH; auto; apply C_offset; auto|]. apply IH; auto.
  - rewrite Ht1. simpl. split; auto.
  - replace (cResults (setOffset d1 from)) with (cResults (setOffset c1 from)) by (subst d1; auto). apply C_results, C_offset. auto.
Qed.
Lemma C_choiceLoop id from options k : (forall x, In x options -> L x) -> forall s t c d, CS s t -> C c d ->
  rel (fun x y => CS (fst x) (fst y) /\ C (snd x) (snd y)) (choiceLoop rec k id from options s c) (choiceLoop rec' k id from (map f options) t d).
Proof.
  intros Ho. induction k as [|k IH]; intros s t c d Hs H; [constructor|]. cbn [choiceLoop].
  eapply rel_bind; [apply C_choicePass; eauto|].
  - destruct Hs as [-> Hi]. split; simpl; auto.
  - intros [s1 c1] [t1 d1] [H1 H2]. simpl in H1, H2. replace (chFound t1) with (chFound s1) by (destruct H1 as [-> _]; auto).
    destruct (chFound s1); [apply IH; auto|constructor; auto].
Qed.
Lemma C_choiceParse k kws p id commit options c d : (forall k, In k kws -> L k) -> (forall x, In x options -> L x) ->
  (hasFlag commit CUserDefined = true -> ok p) -> C c d ->
  rel C (choiceParse rec k kws p id commit options c) (choiceParse rec' k (map f kws) (f p) id commit (map f options) d).
Proof.
  intros Hk Ho Hp H. pose proof H as [Hd Hi]. unfold choiceParse. pose proof (C_from _ _ id H) as Hf.
  destruct (fromResults c id), (fromResults d id); try contradiction; [constructor; auto|].
  replace (cResults d) with (cResults c) by (subst d; auto). replace (cOffset d) with (cOffset c) by (subst d; auto).
  destruct (pending _ _ _); [constructor; apply C_fail; auto|]. cbv zeta.
  replace (cFailOffset (setResults d _)) with (cFailOffset (setResults c (markPending (cResults c) (cOffset c) id))) by (subst d; auto).
  replace (cOffset (setResults d _)) with (cOffset (setResults c (markPending (cResults c) (cOffset c) id))) by (subst d; auto).
  eapply rel_bind.
  { apply C_choiceLoop; auto; [|apply C_results; eauto]. split; [reflexivity|]. simpl. discriminate. }
  set (fr := cOffset _). set (fo := cFailOffset _). intros [s c1] [t d1] [Hs H1]. simpl in Hs, H1. pose proof Hs as [Ht Hi2].
  replace (chMatch t) with (chMatch s) by (rewrite Ht; auto). replace (chTo t) with (chTo s) by (rewrite Ht; auto).
  replace (chFailOffset t) with (chFailOffset s) by (rewrite Ht; auto). replace (chFailing t) with (option_map f (chFailing s)) by (rewrite Ht; auto).
  destruct (chMatch s).
  - eapply rel_bind with (R := fun x y => C (fst x) (fst y) /\ snd x = snd y).
    { destruct (hasFlag commit CNoKeyword); [apply C_isKeyword; auto|constructor; auto]. }
    intros [c2 b1] [d2 b2] [H2 E2]. simpl in H2, E2. subst b2. destruct b1; [apply C_mapResults, C_fail, C_blame; auto|].
    apply C_mapResults, C_success. destruct (_ <? _)%Z; [apply C_setFail; auto|]. destruct (_ <? _)%Z; [apply C_nofail; auto|].
    replace (cFailingParser (setResults d _)) with (option_map f (cFailingParser (setResults c (markPending (cResults c) (cOffset c) id)))) by (subst d; auto).
    apply C_setFail; auto.
  - apply C_mapResults, C_fail.
    assert (H3 : C (if (fo <? chFailOffset s)%Z then blame p commit (setFail c1 (chFailOffset s) (chFailing s)) else c1)
                   (if (fo <? chFailOffset s)%Z then blame (f p) commit (setFail d1 (chFailOffset s) (option_map f (chFailing s))) else d1)).
    { destruct (_ <? _)%Z; auto. apply C_blame; auto. apply C_setFail; auto. }
    pose proof H3 as [E3 _]. replace (cResults (if (fo <? chFailOffset s)%Z then blame (f p) commit (setFail d1 (chFailOffset s) (option_map f (chFailing s))) else d1))
      with (cResults (if (fo <? chFailOffset s)%Z then blame p commit (setFail c1 (chFailOffset s) (chFailing s)) else c1)) by (rewrite E3; auto).
    apply C_results; auto.
Qed.
End REC.

(** ** the heaps *)
Variables (P H : pheap) (L : addr -> Prop).
(** the same object, its items and options renamed; the name of a parser is kept when it is user defined *)
Definition alikeP (o o' : pobj) : Prop :=
  match o, o' with
  | PChar _ i x cs rs, PChar _ i' x' cs' rs' => i' = i /\ x' = x /\ cs' = cs /\ rs' = rs
  | PSeq n i c it rs gs ac, PSeq n' i' c' it' rs' gs' ac' => i' = i /\ c' = c /\ it' = map f it /\ rs' = rs /\ gs' = gs /\ ac' = ac /\ (hasFlag c CUserDefined = true -> n' = n)
  | PChoice n i c os gs, PChoice n' i' c' os' gs' => i' = i /\ c' = c /\ os' = map f os /\ gs' = gs /\ (hasFlag c CUserDefined = true -> n' = n)
  | _, _ => False
  end.
Hypothesis HP : forall a, L a -> exists o o', nth_error P a = Some o /\ nth_error H (f a) = Some o' /\ alikeP o o' /\ forall x, In x (kids o) -> L x.
Hypothesis Hok : forall a o, L a -> nth_error P a = Some o -> isCh o = false -> hasFlag (commitTypeOf o) CUserDefined = true -> ok a.
Hypothesis Hok' : forall a, ok a -> L a /\ exists o, nth_error P a = Some o /\ isCh o = false /\ hasFlag (commitTypeOf o) CUserDefined = true.

Lemma parse_sim kws n : (forall k, In k kws -> L k) -> forall a c d, L a -> C c d -> rel C (parse P kws n a c) (parse H (map f kws) n (f a) d).
Proof.
  intros Hk. induction n as [|n IH]; intros a c d Ha Hc; [constructor|]. cbn [parse]. destruct (HP a Ha) as (o & o' & E1 & E2 & A & K). rewrite E1, E2.
  destruct o as [nm i x cs rs|nm i cm it rs gs ac|nm i cm os gs], o'; simpl in A; try contradiction.
  - destruct A as (-> & -> & -> & ->). apply C_char; auto.
  - destruct A as (-> & -> & -> & -> & -> & -> & _). apply (C_seqParse L); auto. intros Hu. eapply Hok; eauto.
  - destruct A as (-> & -> & -> & -> & _). apply (C_choiceParse L); auto. intros Hu. eapply Hok; eauto.
Qed.

Lemma parseError_sim c d p : C c d -> L p -> (exists o o', nth_error P p = Some o /\ nth_error H (f p) = Some o' /\ nodeName o' = nodeName o) -> parseError H d (f p) = parseError P c p.
Proof.
  intros [-> Hi] Hp (o & o' & E1 & E2 & E3). unfold parseError. rewrite E1, E2, E3. cbn [mapC setFail cFailingParser cConsumed cFailOffset cTokens].
  destruct (cFailingParser c); auto.
Qed.
Lemma alike_id o o' : alikeP o o' -> nodeID o' = nodeID o.
Proof. destruct o, o'; simpl; intuition. Qed.
Lemma alike_name o o' : alikeP o o' -> isCh o = false -> hasFlag (commitTypeOf o) CUserDefined = true -> nodeName o' = nodeName o.
Proof. destruct o, o'; simpl; intuition; discriminate. Qed.

(** the same error, or one that differs in the name of the root *)
Variable root : addr.
Definition errAlike (x y : gerr) : Prop := x = y \/ exists o l c o1 o2, nth_error P root = Some o1 /\ nth_error H (f root) = Some o2 /\ x = ErrParse o l c (definitionName (nodeName o1)) /\ y = ErrParse o l c (definitionName (nodeName o2)).
Hypothesis Hroot : L root.
Definition rootNamed : Prop := exists o, nth_error P root = Some o /\ isCh o = false /\ hasFlag (commitTypeOf o) CUserDefined = true.

Lemma parseError_any c d p : C c d -> L p -> rel (fun x y => (exists o l c o1 o2, nth_error P p = Some o1 /\ nth_error H (f p) = Some o2 /\ x = ErrParse o l c (definitionName (nodeName o1)) /\ y = ErrParse o l c (definitionName (nodeName o2))) /\ ((exists o, nth_error P p = Some o /\ isCh o = false /\ hasFlag (commitTypeOf o) CUserDefined = true) -> x = y)) (parseError P c p) (parseError H d (f p)).
Proof.
  intros [-> Hi] Hp. destruct (HP p Hp) as (o & o' & E1 & E2 & A & _). unfold parseError. rewrite E1, E2. cbn [mapC setFail cFailingParser cConsumed cFailOffset cTokens].
  replace (match option_map f (cFailingParser c) with Some _ => cFailOffset c | None => Z.of_nat (cConsumed c) end) with (match cFailingParser c with Some _ => cFailOffset c | None => Z.of_nat (cConsumed c) end) by (destruct (cFailingParser c); auto).
  destruct (findLine _ _) as [lc|w|]; simpl; constructor. split.
  - eexists _, _, _, o, o'. repeat split.
  - intros (o2 & E3 & Hc & Hu). inversion E3; subst o2. rewrite (alike_name o o'); auto.
Qed.
Lemma finalize_sim c d : C c d -> rel (fun x y => C (fst x) (fst y) /\
    match snd x, snd y with None, None => True | Some e1, Some e2 => errAlike e1 e2 /\ (rootNamed -> e1 = e2) | _, _ => False end)
  (finalizeParse P c root) (finalizeParse H d (f root)).
Proof.
  intros Hc. pose proof Hc as [Hd Hi]. destruct (HP root Hroot) as (o & o' & E1 & E2 & A & _). unfold finalizeParse. rewrite E1, E2, (alike_id o o' A).
  replace (cResults d) with (cResults c) by (subst d; auto). replace (cReadOffset d) with (cReadOffset c) by (subst d; auto).
  set (fp := match cFailingParser c with Some p => p | None => root end).
  replace (match cFailingParser d with Some p => p | None => f root end) with (f fp) by (subst d; unfold fp; simpl; destruct (cFailingParser c); auto).
  assert (Hfp : L fp) by (unfold fp; destruct (cFailingParser c) eqn:E; auto; apply Hok', Hi; auto).
  assert (Hfn : rootNamed -> exists o, nth_error P fp = Some o /\ isCh o = false /\ hasFlag (commitTypeOf o) CUserDefined = true).
  { unfold fp. destruct (cFailingParser c) eqn:E; auto. intros _. apply Hok', Hi; auto. }
  assert (HE : rel (fun x y => C (fst x) (fst y) /\ match snd x, snd y with None, None => True | Some e1, Some e2 => errAlike e1 e2 /\ (rootNamed -> e1 = e2) | _, _ => False end)
     (e <- parseError P c fp ;; Ok (c, Some e)) (e <- parseError H d (f fp) ;; Ok (d, Some e))).
  { eapply rel_bind; [apply parseError_any; eauto|]. intros x y [X1 X2]. constructor. simpl. split; auto. split; auto.
    unfold fp in *. destruct (cFailingParser c) eqn:E; [left; apply X2; apply Hok', Hi; auto|right; exact X1]. }
  destruct (longestResult _ _ _); auto. destruct (_ <? _); auto.
  pose proof (C_read c d Hc) as [R1 _]. destruct (read c) as [c1 b1], (read d) as [d1 b2]. simpl in R1. pose proof R1 as [Hd1 _].
  replace (cEof d1) with (cEof c1) by (subst d1; auto). replace (cReadErr d1) with (cReadErr c1) by (subst d1; auto).
  destruct (cEof c1); [constructor; cbn [fst snd]; split; [assumption|exact I]|]. destruct (cReadErr c1); [constructor; cbn [fst snd]; split; [assumption|split; [left; reflexivity|reflexivity]]|].
  eapply rel_bind; [apply parseError_any; eauto|]. intros x y [X1 X2]. constructor. simpl. split; auto. split; auto. right. exact X1.
Qed.
End SIM.

(** ** building *)
Section BUILDSIM.
Variables (f g : addr -> addr) (P B : pheap) (L : addr -> Prop).
Definition alikeB (o o' : pobj) : Prop :=
  match o, o' with
  | PChar _ _ _ _ _, PChar _ _ _ _ _ => True
  | PSeq n i c it rs gs ac, PSeq n' i' c' it' rs' gs' ac' => i' = i /\ c' = c /\ it' = map g it /\ rs' = rs /\ gs' = gs /\ ac' = ac /\ (hasFlag c CAlias = false -> n' = n)
  | PChoice n i c os gs, PChoice n' i' c' os' gs' => i' = i /\ c' = c /\ os' = map g os /\ gs' = gs /\ (hasFlag c CAlias = false -> n' = n)
  | _, _ => False
  end.
Hypothesis HP : forall a, L a -> exists o o', nth_error P a = Some o /\ nth_error B (g a) = Some o' /\ alikeB o o' /\ forall x, In x (kids o) -> L x.
Hypothesis Hopt : forall a n i c os gs x ox ox', L a -> nth_error P a = Some (PChoice n i c os gs) -> In x os -> nth_error P x = Some ox -> nth_error B (g x) = Some ox' -> nodeID ox' = nodeID ox.

Definition D (c d : context) : Prop := d = mapC f c.
Lemma D_results c d r : D c d -> D (setResults c r) (setResults d r).
Proof. intros ->. reflexivity. Qed.
Lemma D_offset c d r : D c d -> D (setOffset c r) (setOffset d r).
Proof. intros ->. reflexivity. Qed.
Definition D3 (x y : list node * bool * context) : Prop := fst x = fst y /\ D (snd x) (snd y).
Lemma D_enter c d id gs to : D c d -> rel (fun x y => match x, y with Some c1, Some d1 => D c1 d1 | None, None => True | _, _ => False end) (enterBuild c id gs to) (enterBuild d id gs to).
Proof.
  intros H. unfold enterBuild. replace (cOffset d) with (cOffset c) by (rewrite H; auto). replace (cResults d) with (cResults c) by (rewrite H; auto).
  destruct (_ <? _).
  - destruct (forIds _ _ _); simpl; constructor. apply D_results; auto.
  - destruct (pending _ _ _); [constructor; auto|]. destruct (forIds _ _ _); simpl; constructor. apply D_results; auto.
Qed.
Lemma D_leave c d id gs from to : D c d -> rel D (leaveBuild c id gs from to) (leaveBuild d id gs from to).
Proof.
  intros H. unfold leaveBuild. replace (cResults d) with (cResults c) by (rewrite H; auto). destruct (_ <? _); [constructor; auto|].
  destruct (forIds _ _ _); simpl; constructor. apply D_results; auto.
Qed.
Lemma D_buildLoop rec rec' items ranges k : (forall x c d, In x items -> D c d -> rel D3 (rec x c) (rec' (g x) d)) -> forall ii n ns c d, D c d ->
  rel (fun x y => fst x = fst y /\ D (snd x) (snd y)) (buildLoop rec k items ranges ii n ns c) (buildLoop rec' k (map g items) ranges ii n ns d).
Proof.
  intros Hr. induction k as [|k IH]; intros ii n ns c d H; [constructor|]. cbn [buildLoop]. rewrite nth_error_map.
  destruct (nth_error items ii) as [item|] eqn:E; cbn [option_map]; [|constructor; auto].
  cbv zeta. replace (cOffset d) with (cOffset c) by (rewrite H; auto).
  eapply rel_bind; [apply Hr; [eapply nth_error_In; eauto|eauto]|]. intros [[n1 b1] c1] [[n2 b2] d1] [H1 H2]. simpl in H1, H2. inversion H1; subst n2 b2.
  destruct b1; [|apply IH; auto]. destruct (nth_error ranges ii) as [[mn mx]|]; [|constructor].
  replace (cOffset d1) with (cOffset c1) by (rewrite H2; auto). destruct (_ <? _); [destruct (_ && _)%bool|]; apply IH; auto.
Qed.
Lemma D_pick r o t options : (forall x, In x options -> L x /\ forall ox ox', nth_error P x = Some ox -> nth_error B (g x) = Some ox' -> nodeID ox' = nodeID ox) ->
  rel (fun x y => y = option_map g x) (pickOption P r o t options) (pickOption B r o t (map g options)).
Proof.
  induction options as [|x l IH]; intros Hx; cbn [pickOption map]; [constructor; auto|]. destruct (Hx x (or_introl eq_refl)) as [Hl Hc].
  destruct (HP x Hl) as (ob & ob' & E1 & E2 & A & _). rewrite E1, E2. rewrite (Hc _ _ E1 E2).
  destruct (hasMatchTo _ _ _ _); [constructor; auto|]. apply IH. intros; apply Hx; right; auto.
Qed.
Lemma pick_In Q r o t options x : pickOption Q r o t options = Ok (Some x) -> In x options.
Proof.
  induction options as [|y l IH]; cbn [pickOption]; [discriminate|]. destruct (nth_error Q y); [|discriminate].
  destruct (hasMatchTo _ _ _ _); [intros H; inversion H; left; auto|right; auto].
Qed.
Lemma build_sim n : forall a c d, L a -> D c d -> rel D3 (build P n a c) (build B n (g a) d).
Proof.
  induction n as [|n IH]; intros a c d Ha Hc; [constructor|]. cbn [build]. destruct (HP a Ha) as (o & o' & E1 & E2 & A & K). rewrite E1, E2.
  destruct o as [nm i x cs rs|nm i cm it rs gs ac|nm i cm os gs], o'; simpl in A; try contradiction.
  - constructor. split; auto.
  - destruct A as (-> & -> & -> & -> & -> & -> & Hn). unfold seqBuild. replace (cOffset d) with (cOffset c) by (rewrite Hc; auto). replace (cResults d) with (cResults c) by (rewrite Hc; auto).
    destruct (longestMatch _ _ _) as [to|]; [|constructor; split; auto]. destruct ac.
    + cbv zeta. destruct (hasFlag cm CAlias); constructor; split; simpl; try apply D_offset; auto. rewrite Hn; auto.
    + eapply rel_bind; [apply D_enter; eauto|]. intros [c1|] [d1|] Hx; try contradiction; [|constructor; split; auto].
      eapply rel_bind; [apply D_buildLoop; eauto; intros; apply IH; auto|]. intros [n1 c2] [n2 d2] [H1 H2]. simpl in H1, H2. subst n2.
      eapply rel_bind; [apply D_leave; eauto|]. intros c3 d3 H3. destruct (hasFlag cm CAlias); constructor; split; simpl; auto. rewrite Hn; auto.
  - destruct A as (-> & -> & -> & -> & Hn). unfold choiceBuild. replace (cOffset d) with (cOffset c) by (rewrite Hc; auto). replace (cResults d) with (cResults c) by (rewrite Hc; auto).
    destruct (longestMatch _ _ _) as [to|]; [|constructor; split; auto]. cbv zeta.
    eapply rel_bind; [apply D_enter; eauto|]. intros [c1|] [d1|] Hx; try contradiction; [|constructor; split; auto].
    replace (cOffset d1) with (cOffset c1) by (rewrite Hx; auto). replace (cResults d1) with (cResults c1) by (rewrite Hx; auto).
    assert (Hp : rel (fun x y => y = option_map g x) (pickOption P (cResults c1) (cOffset c1) to os) (pickOption B (cResults c1) (cOffset c1) to (map g os))).
    { apply D_pick. intros x Hx'. split; auto. intros ox ox'. eapply Hopt; eauto. }
    destruct (pickOption P (cResults c1) (cOffset c1) to os) as [op|w|] eqn:Ep; inversion Hp; subst; cbn [bind]; try constructor.
    destruct op as [x|]; cbn [option_map]; [|constructor]. apply pick_In in Ep.
    eapply rel_bind; [apply IH; eauto|]. intros [[n1 b1] c2] [[n2 b2] d2] [H1 H2]. simpl in H1, H2. inversion H1; subst n2 b2.
    eapply rel_bind; [apply D_leave; eauto|]. intros c3 d3 H3. destruct (hasFlag cm CAlias); constructor; split; simpl; auto. rewrite Hn; auto.
Qed.
End BUILDSIM.
