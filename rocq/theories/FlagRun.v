(** Parsers without a flag parse alike. *)
From Verif Require Import Base Utf8 IdSet Results Parser Build Syntax ListFacts SyntaxFacts ParseFacts HideRun FlagInit.

Section FLAG.
Variable F : commitType.
Hypothesis F_alias : N.land CAlias F = 0%N.
Hypothesis F_ws : N.land CWhitespace F = 0%N.
Hypothesis F_user : N.land CUserDefined F = 0%N.
Notation mkp := (mkp F).
Lemma mkp_name o : nodeName (mkp o) = nodeName o. Proof. destruct o; auto. Qed.
Lemma mkp_id o : nodeID (mkp o) = nodeID o. Proof. destruct o; auto. Qed.
Variable P : pheap.
Notation P' := (map mkp P).

Lemma parseError_mkp c p : parseError P' c p = parseError P c p.
Proof. unfold parseError. rewrite nth_error_map. destruct (nth_error P p) as [o|]; auto. cbn [option_map]. rewrite mkp_name. auto. Qed.
Lemma finalize_mkp c root : finalizeParse P' c root = finalizeParse P c root.
Proof.
  unfold finalizeParse. rewrite nth_error_map. cbv zeta. rewrite !parseError_mkp. destruct (nth_error P root) as [o|]; auto. cbn [option_map]. rewrite mkp_id.
  destruct (longestResult _ _ _); auto. destruct (_ <? _); auto. destruct (read c) as [c1 b]. rewrite parseError_mkp. auto.
Qed.
Lemma pick_mkp r o t options : pickOption P' r o t options = pickOption P r o t options.
Proof. induction options as [|x l IH]; auto. cbn [pickOption]. rewrite nth_error_map. destruct (nth_error P x) as [ob|]; auto. cbn [option_map]. rewrite mkp_id, IH. auto. Qed.
Lemma buildLoop_ext rec rec' items ranges k : (forall a c, rec a c = rec' a c) ->
  forall ii cnt nodes c, buildLoop rec k items ranges ii cnt nodes c = buildLoop rec' k items ranges ii cnt nodes c.
Proof.
  intros Hr. induction k as [|k IH]; intros ii cnt nodes c; auto. cbn [buildLoop]. destruct (nth_error items ii) as [item|]; auto. cbv zeta. rewrite Hr. destruct (rec' item c) as [[[n ok] c1]|w|]; auto. cbn [bind].
  destruct ok; auto. destruct (nth_error ranges ii) as [[mn mx]|]; auto. rewrite !IH. auto.
Qed.
Theorem build_mkp n : forall b c, build P' n b c = build P n b c.
Proof.
  induction n as [|n IH]; intros b c; auto. cbn [build]. rewrite nth_error_map. destruct (nth_error P b) as [[nm i cn ch rs|nm i ct items ranges gs ac|nm i ct options gs]|]; auto; cbn [option_map FlagInit.mkp].
  - unfold seqBuild. rewrite drop_flag by auto. destruct (longestMatch _ _ _) as [to|]; auto. cbv zeta. destruct ac; auto. destruct (enterBuild _ _ _ _) as [[c1|]|w|]; auto. cbn [bind].
    rewrite (buildLoop_ext (build P' n) (build P n)) by auto. auto.
  - unfold choiceBuild. rewrite drop_flag by auto. destruct (longestMatch _ _ _) as [to|]; auto. cbv zeta. destruct (enterBuild _ _ _ _) as [[c1|]|w|]; auto. cbn [bind]. rewrite pick_mkp.
    destruct (pickOption _ _ _ _ _) as [[o|]|w|]; auto. cbn [bind]. rewrite IH. auto.
Qed.

(** ** a flag that parsing does not look at, or looks at for the keywords that there are not *)
Section EXACT.
Variable kws : list addr.
Hypothesis F_pass : N.land CFailPass F = 0%N.
Hypothesis F_kws : N.land CNoKeyword F = 0%N \/ kws = [].
Lemma blame_mkp ct p c : blame p (N.ldiff ct F) c = blame p ct c.
Proof. unfold blame. rewrite !drop_flag by auto. auto. Qed.
Lemma noKeyword rec from to c (b : bool) : kws = [] -> (if b then isKeyword rec kws from to c else Ok (c, false)) = Ok (c, false).
Proof. intros ->. destruct b; auto. unfold isKeyword. cbn [keywordLoop bind fst snd]. destruct c; auto. Qed.
Theorem parse_mkp n : forall p c, parse P' kws n p c = parse P kws n p c.
Proof.
  induction n as [|n IH]; intros p c; auto. cbn [parse]. rewrite nth_error_map. destruct (nth_error P p) as [[nm i cn ch rs|nm i ct items ranges gs ac|nm i ct options gs]|]; auto; cbn [option_map FlagInit.mkp].
  - destruct F_kws as [Hk|Hk]; [apply seqParse_ext; auto; [intros; apply blame_mkp|apply drop_flag; auto]|].
    unfold seqParse. destruct (_ && _)%bool; auto. cbv zeta. apply bind_ext; [apply seqLoop_ext; auto; intros; apply blame_mkp|]. intros [to x|x]; auto. rewrite !noKeyword by auto. auto.
  - destruct F_kws as [Hk|Hk]; [apply choiceParse_ext; auto; [intros; apply blame_mkp|apply drop_flag; auto]|].
    unfold choiceParse. destruct (fromResults c i); auto. destruct (pending _ _ _); auto. cbv zeta. apply bind_ext; [apply choiceLoop_ext; auto|]. intros [s1 c1]. destruct (chMatch s1).
    + rewrite !noKeyword by auto. auto.
    + rewrite blame_mkp. auto.
Qed.
Theorem parseInput_mkp root fuel input e : parseInput P' kws root fuel input e = parseInput P kws root fuel input e.
Proof.
  unfold parseInput, parseInputPB. rewrite parse_mkp. apply bind_ext; auto. intros c. destruct (cReadErr c); auto. rewrite finalize_mkp. apply bind_ext; auto. intros [c1 [er|]]; auto. cbv zeta. rewrite build_mkp. auto.
Qed.
End EXACT.

(** ** failpass: contexts that differ in the failing parser only *)
Definition noBlame (c : context) : context := setFail c (cFailOffset c) None.
Definition ceq (c c' : context) : Prop := noBlame c = noBlame c'.
Definition req {A} (R : A -> A -> Prop) (m m' : res A) : Prop :=
  match m, m' with Ok x, Ok y => R x y | Panic w, Panic w' => w = w' | NoFuel, NoFuel => True | _, _ => False end.
Lemma ceq_refl c : ceq c c. Proof. reflexivity. Qed.
Lemma req_bind {A B} (R : A -> A -> Prop) (S : B -> B -> Prop) m m' f f' : req R m m' -> (forall x x', R x x' -> req S (f x) (f' x')) -> req S (bind m f) (bind m' f').
Proof. intros H Hf. destruct m, m'; simpl in *; auto; contradiction. Qed.
(** the fields that are the same *)
Lemma ceq_inv c c' : ceq c c' -> cInput c = cInput c' /\ cEnd c = cEnd c' /\ cOffset c = cOffset c' /\ cReadOffset c = cReadOffset c' /\ cConsumed c = cConsumed c' /\ cOffsetLimit c = cOffsetLimit c' /\
  cFailOffset c = cFailOffset c' /\ cReadErr c = cReadErr c' /\ cEof c = cEof c' /\ cResults c = cResults c' /\ cTokens c = cTokens c' /\ cMatchLast c = cMatchLast c'.
Proof. destruct c, c'. unfold ceq, noBlame, setFail. cbn. intros H. injection H; intros; subst; repeat split; auto. Qed.
Lemma ceq_eta c c' : ceq c c' -> exists p', c' = setFail c (cFailOffset c) p'.
Proof. destruct c, c'. unfold ceq, noBlame, setFail. cbn. intros H. injection H; intros; subst. eexists. reflexivity. Qed.
Ltac ce H := let p := fresh "p'" in apply ceq_eta in H; destruct H as [p ->].
Lemma ceq_setOffset c c' o : ceq c c' -> ceq (setOffset c o) (setOffset c' o). Proof. intros H. ce H. reflexivity. Qed.
Lemma ceq_setLimit c c' o : ceq c c' -> ceq (setLimit c o) (setLimit c' o). Proof. intros H. ce H. reflexivity. Qed.
Lemma ceq_setResults c c' r : ceq c c' -> ceq (setResults c r) (setResults c' r). Proof. intros H. ce H. reflexivity. Qed.
Lemma ceq_setFail c c' o p p' : ceq c c' -> ceq (setFail c o p) (setFail c' o p'). Proof. intros H. ce H. reflexivity. Qed.
Lemma ceq_success c c' o : ceq c c' -> ceq (success c o) (success c' o). Proof. intros H. ce H. reflexivity. Qed.
Lemma ceq_fail c c' o : ceq c c' -> ceq (fail c o) (fail c' o). Proof. intros H. ce H. reflexivity. Qed.
Lemma ceq_blame c c' p ct ct' : ceq c c' -> ceq (blame p ct c) (blame p ct' c').
Proof. intros H. unfold blame. ce H. destruct (cFailingParser c), (cFailingParser (setFail _ _ _)); repeat destruct (_ && _)%bool; reflexivity. Qed.
Lemma ceq_clear c c' to : ceq c c' -> ceq (clearFail to c) (clearFail to c').
Proof. intros H. unfold clearFail. ce H. cbn. destruct (Z.ltb _ _); reflexivity. Qed.
Lemma ceq_read c c' : ceq c c' -> ceq (fst (read c)) (fst (read c')) /\ snd (read c) = snd (read c').
Proof. intros H. ce H. destruct c. unfold read, setFail. cbn. repeat match goal with |- context [match ?x with _ => _ end] => destruct x; cbn end; split; reflexivity. Qed.
Lemma ceq_token c c' : ceq c c' -> req (fun x x' => ceq (fst x) (fst x') /\ snd x = snd x') (token c) (token c').
Proof.
  intros H. unfold token. destruct (ceq_inv _ _ H) as (_ & _ & E1 & E2 & _ & E3 & _). rewrite <- E1, <- E2, <- E3. destruct (match cOffsetLimit c with Some l => cOffset c =? l | None => false end); [split; auto|].
  assert (K : ceq (fst (if cOffset c =? cReadOffset c then read c else (c, true))) (fst (if cOffset c =? cReadOffset c then read c' else (c', true))) /\ snd (if cOffset c =? cReadOffset c then read c else (c, true)) = snd (if cOffset c =? cReadOffset c then read c' else (c', true))).
  { destruct (_ =? _); [apply ceq_read; auto|split; auto]. }
  destruct (if cOffset c =? cReadOffset c then read c else (c, true)) as [c1 b1], (if cOffset c =? cReadOffset c then read c' else (c', true)) as [c2 b2]. cbn [fst snd] in K. destruct K as [K1 K2]. subst b2. destruct b1; [|split; auto].
  destruct (ceq_inv _ _ K1) as (_ & _ & G1 & _ & _ & _ & _ & _ & _ & _ & G2 & _). rewrite <- G1, <- G2. destruct (nth_error _ _); [split; auto|reflexivity].
Qed.
Lemma ceq_char cn ch rs c c' : ceq c c' -> req ceq (charParse cn ch rs c) (charParse cn ch rs c').
Proof.
  intros H. unfold charParse. eapply req_bind; [apply ceq_token; exact H|]. intros [c1 t1] [c2 t2] [K1 K2]. cbn [fst snd] in *. subst t2. destruct (ceq_inv _ _ K1) as (_ & _ & G1 & _ & _ & _ & G2 & _). rewrite <- G1, <- G2.
  destruct (match t1 with Some t => _ | None => _ end); [apply ceq_success; auto|]. destruct (Z.ltb _ _); cbn [cOffset setFail]; rewrite <- ?G1; apply ceq_fail; auto. apply ceq_setFail; auto.
Qed.
Lemma ceq_fromResults c c' id : ceq c c' -> match fromResults c id, fromResults c' id with Some x, Some x' => ceq x x' | None, None => True | _, _ => False end.
Proof. intros H. unfold fromResults. ce H. cbn. destruct (longestResult _ _ _); auto; reflexivity. Qed.
Lemma ceq_mapResults f c c' : ceq c c' -> req ceq (mapResults f c) (mapResults f c').
Proof. intros H. unfold mapResults. ce H. cbn [cResults setFail]. destruct (f (cResults c)); simpl; auto. reflexivity. Qed.
Lemma ceq_unmark ac from id c c' : ceq c c' -> req ceq (unmarkUnless ac from id c) (unmarkUnless ac from id c').
Proof. intros H. unfold unmarkUnless. destruct ac; [exact H|]. apply ceq_mapResults; auto. Qed.

Section STEP.
Variables rec rec' : addr -> context -> res context.
Hypothesis Hrec : forall a c c', ceq c c' -> req ceq (rec a c) (rec' a c').
Definition seqReq (o o' : seqOut) : Prop :=
  match o, o' with SLoop to c, SLoop to' c' => to = to' /\ ceq c c' | SReturn c, SReturn c' => ceq c c' | _, _ => False end.
Lemma seqLoop_eq k p id ct ct' items ranges ac from : forall to ii cnt c c', ceq c c' ->
  req seqReq (seqLoop rec k p id ct items ranges ac from to ii cnt c) (seqLoop rec' k p id ct' items ranges ac from to ii cnt c').
Proof.
  induction k as [|k IH]; intros to ii cnt c c' H; [exact I|]. cbn [seqLoop]. destruct (nth_error items ii) as [item|]; [|split; auto]. eapply req_bind; [apply Hrec; exact H|]. intros x x' Hx.
  destruct (nth_error ranges ii) as [[mn mx]|]; [|reflexivity]. destruct (ceq_inv _ _ Hx) as (_ & _ & G1 & _ & _ & _ & _ & _ & _ & _ & _ & G2). rewrite <- G2. destruct (negb (cMatchLast x)).
  - destruct (Z.leb _ _); auto. cbv zeta. apply (ceq_setOffset _ _ from) in Hx. pose proof (ceq_fromResults _ _ id Hx) as Hf. destruct (fromResults (setOffset x from) id) as [y|], (fromResults (setOffset x' from) id) as [y'|]; try contradiction.
    + eapply req_bind; [apply ceq_unmark, ceq_clear; exact Hf|]. auto.
    + eapply req_bind; [apply ceq_unmark, ceq_fail, ceq_blame; exact Hx|]. auto.
  - cbv zeta. rewrite <- G1. destruct (_ || _)%bool; apply IH; auto.
Qed.
Lemma keywordLoop_eq kws from to : forall c c', ceq c c' -> req (fun x x' => ceq (fst x) (fst x') /\ snd x = snd x') (keywordLoop rec kws from to c) (keywordLoop rec' kws from to c').
Proof.
  induction kws as [|kw kws IH]; intros c c' H; cbn [keywordLoop]; [split; auto|]. eapply req_bind; [apply Hrec; apply ceq_setOffset; exact H|]. intros x x' Hx. destruct (ceq_inv _ _ Hx) as (_ & _ & G1 & _ & _ & _ & _ & _ & _ & _ & _ & G2). rewrite <- G1, <- G2.
  destruct (_ && _)%bool; [split; auto|]. apply IH; auto.
Qed.
Lemma isKeyword_eq kws from to c c' : ceq c c' -> req (fun x x' => ceq (fst x) (fst x') /\ snd x = snd x') (isKeyword rec kws from to c) (isKeyword rec' kws from to c').
Proof.
  intros H. unfold isKeyword. eapply req_bind; [apply keywordLoop_eq, ceq_setLimit; exact H|]. intros x x' [X1 X2]. destruct (ceq_inv _ _ H) as (_ & _ & _ & _ & _ & G & _). rewrite <- G. split; cbn [fst snd]; auto. apply ceq_setLimit; auto.
Qed.
Lemma seqParse_eq k kws p id ct ct' items ranges gs ac c c' : hasFlag ct CNoKeyword = hasFlag ct' CNoKeyword -> ceq c c' ->
  req ceq (seqParse rec k kws p id ct items ranges gs ac c) (seqParse rec' k kws p id ct' items ranges gs ac c').
Proof.
  intros Hk H. unfold seqParse. destruct (ceq_inv _ _ H) as (_ & _ & G1 & _ & _ & _ & _ & _ & _ & G2 & _). rewrite <- G1, <- G2, <- Hk. destruct (_ && _)%bool; [apply ceq_fail; auto|]. cbv zeta.
  eapply req_bind; [apply seqLoop_eq; destruct ac; [exact H|apply ceq_setResults; exact H]|]. intros [to x|x] [to' x'|x'] Hx; try contradiction; [|exact Hx]. destruct Hx as [<- Hx].
  eapply req_bind; [instantiate (1 := fun x x' => ceq (fst x) (fst x') /\ snd x = snd x'); destruct (hasFlag ct CNoKeyword); [apply isKeyword_eq; exact Hx|split; auto]|].
  intros [y b] [y' b'] [Y1 Y2]. cbn [fst snd] in *. subst b'. destruct b; [apply ceq_unmark, ceq_fail, ceq_blame; auto|]. destruct (ceq_inv _ _ Y1) as (_ & _ & _ & _ & _ & _ & _ & _ & _ & G3 & _). rewrite <- G3.
  assert (K : forall r, ceq (clearFail to (setResults y r)) (clearFail to (setResults y' r))) by (intros r; apply ceq_clear, ceq_setResults; auto). specialize (K (setGeneralizations from to gs (cResults y))) || specialize (K (setGeneralizations (cOffset c) to gs (cResults y))).
  destruct (ceq_inv _ _ K) as (_ & _ & _ & _ & _ & _ & _ & _ & _ & G4 & _). rewrite <- G4. apply ceq_unmark, ceq_success, ceq_setResults. exact K.
Qed.
Definition chReq (s s' : chState) : Prop := chMatch s = chMatch s' /\ chFound s = chFound s' /\ chTo s = chTo s' /\ chFailOffset s = chFailOffset s'.
Lemma choicePass_eq id from options : forall s s' c c', chReq s s' -> ceq c c' ->
  req (fun x x' => chReq (fst x) (fst x') /\ ceq (snd x) (snd x')) (choicePass rec id from options s c) (choicePass rec' id from options s' c').
Proof.
  induction options as [|o options IH]; intros s s' c c' Hs H; cbn [choicePass]; [split; auto|]. eapply req_bind; [apply Hrec; exact H|]. intros x x' Hx. destruct (ceq_inv _ _ Hx) as (_ & _ & G1 & _ & _ & _ & G2 & _ & _ & G3 & _ & G4).
  cbv zeta. rewrite <- G1, <- G2, <- G4. destruct Hs as (S1 & S2 & S3 & S4). rewrite <- S1, <- S2, <- S3, <- S4.
  assert (K : chReq (if negb (cMatchLast x) && Z.ltb (chFailOffset s) (cFailOffset x) then mkChState (chMatch s) (chFound s) (chTo s) (cFailOffset x) (cFailingParser x) else s)
                    (if negb (cMatchLast x) && Z.ltb (chFailOffset s) (cFailOffset x) then mkChState (chMatch s) (chFound s) (chTo s) (cFailOffset x) (cFailingParser x') else s')).
  { destruct (_ && _)%bool; repeat split; auto. }
  set (t := if negb (cMatchLast x) && _ then mkChState _ _ _ _ (cFailingParser x) else s) in *. set (t' := if negb (cMatchLast x) && _ then mkChState _ _ _ _ (cFailingParser x') else s') in *.
  destruct K as (K1 & K2 & K3 & K4). rewrite <- K1, <- K3, <- K4. destruct (_ || _)%bool.
  - apply IH; [repeat split; auto|apply ceq_setOffset; auto].
  - cbn [cResults setOffset]. rewrite <- G3. apply IH; [repeat split; auto|]. apply ceq_setResults, ceq_setOffset; auto.
Qed.
Lemma choiceLoop_eq k id from options : forall s s' c c', chReq s s' -> ceq c c' ->
  req (fun x x' => chReq (fst x) (fst x') /\ ceq (snd x) (snd x')) (choiceLoop rec k id from options s c) (choiceLoop rec' k id from options s' c').
Proof.
  induction k as [|k IH]; intros s s' c c' Hs H; [exact I|]. cbn [choiceLoop]. eapply req_bind; [apply choicePass_eq; [|exact H]; destruct Hs as (S1 & S2 & S3 & S4); repeat split; auto|].
  intros [t x] [t' x'] [X1 X2]. cbn [fst snd] in *. pose proof X1 as (_ & Y & _). rewrite <- Y. destruct (chFound t); [apply IH; auto|split; auto].
Qed.
Lemma choiceParse_eq k kws p id ct ct' options c c' : hasFlag ct CNoKeyword = hasFlag ct' CNoKeyword -> ceq c c' ->
  req ceq (choiceParse rec k kws p id ct options c) (choiceParse rec' k kws p id ct' options c').
Proof.
  intros Hk H. unfold choiceParse. pose proof (ceq_fromResults _ _ id H) as Hf. destruct (fromResults c id) as [y|], (fromResults c' id) as [y'|]; try contradiction; [exact Hf|].
  destruct (ceq_inv _ _ H) as (_ & _ & G1 & _ & _ & _ & G2 & _ & _ & G3 & _). rewrite <- G1, <- G3, <- Hk. destruct (pending _ _ _); [apply ceq_fail; auto|]. cbv zeta. cbn [cOffset cFailOffset setResults]. rewrite <- G1, <- G2.
  eapply req_bind; [apply choiceLoop_eq; [repeat split; reflexivity|apply ceq_setResults; exact H]|]. intros [t x] [t' x'] [X1 X2]. cbn [fst snd] in *. destruct X1 as (S1 & S2 & S3 & S4). rewrite <- S1, <- S3, <- S4. destruct (chMatch t).
  - eapply req_bind; [instantiate (1 := fun x x' => ceq (fst x) (fst x') /\ snd x = snd x'); destruct (hasFlag ct CNoKeyword); [apply isKeyword_eq; exact X2|split; auto]|].
    intros [y b] [y' b'] [Y1 Y2]. cbn [fst snd] in *. subst b'. destruct b; [apply ceq_mapResults, ceq_fail, ceq_blame; auto|]. apply ceq_mapResults, ceq_success. destruct (Z.ltb _ _); [apply ceq_setFail; auto|]. destruct (Z.ltb _ _); apply ceq_setFail; auto.
  - assert (K : ceq (if Z.ltb (cFailOffset c) (chFailOffset t) then blame p ct (setFail x (chFailOffset t) (chFailing t)) else x) (if Z.ltb (cFailOffset c) (chFailOffset t) then blame p ct' (setFail x' (chFailOffset t) (chFailing t')) else x')).
    { destruct (Z.ltb _ _); auto. apply ceq_blame, ceq_setFail; auto. }
    destruct (ceq_inv _ _ K) as (_ & _ & _ & _ & _ & _ & _ & _ & _ & G4 & _). rewrite <- G4. apply ceq_mapResults, ceq_fail, ceq_setResults. exact K.
Qed.
End STEP.
Hypothesis F_kws : N.land CNoKeyword F = 0%N.
Theorem parse_ceq kws n : forall p c c', ceq c c' -> req ceq (parse P kws n p c) (parse P' kws n p c').
Proof.
  induction n as [|n IH]; intros p c c' H; [exact I|]. cbn [parse]. rewrite nth_error_map. destruct (nth_error P p) as [[nm i cn ch rs|nm i ct items ranges gs ac|nm i ct options gs]|]; cbn [option_map FlagInit.mkp]; [| | |reflexivity].
  - apply ceq_char; auto.
  - apply seqParse_eq; auto. symmetry; apply drop_flag; auto.
  - apply choiceParse_eq; auto. symmetry; apply drop_flag; auto.
Qed.

(** *** building does not look at the failing parser *)
Definition beq (x x' : list node * bool * context) : Prop := fst x = fst x' /\ ceq (snd x) (snd x').
Lemma enter_eq c c' id gs to : ceq c c' -> req (fun x x' => match x, x' with Some y, Some y' => ceq y y' | None, None => True | _, _ => False end) (enterBuild c id gs to) (enterBuild c' id gs to).
Proof.
  intros H. unfold enterBuild. destruct (ceq_inv _ _ H) as (_ & _ & G1 & _ & _ & _ & _ & _ & _ & G2 & _). rewrite <- G1, <- G2. cbv zeta. destruct (_ <? _).
  - destruct (forIds _ _ _); simpl; auto. apply ceq_setResults; auto.
  - destruct (pending _ _ _); simpl; auto. destruct (forIds _ _ _); simpl; auto. apply ceq_setResults; auto.
Qed.
Lemma leave_eq c c' id gs from to : ceq c c' -> req ceq (leaveBuild c id gs from to) (leaveBuild c' id gs from to).
Proof.
  intros H. unfold leaveBuild. destruct (_ <? _); [exact H|]. destruct (ceq_inv _ _ H) as (_ & _ & _ & _ & _ & _ & _ & _ & _ & G2 & _). rewrite <- G2. destruct (forIds _ _ _); simpl; auto. apply ceq_setResults; auto.
Qed.
Lemma buildLoop_eq rec items ranges k : (forall a c c', ceq c c' -> req beq (rec a c) (rec a c')) ->
  forall ii cnt nodes c c', ceq c c' -> req (fun x x' => fst x = fst x' /\ ceq (snd x) (snd x')) (buildLoop rec k items ranges ii cnt nodes c) (buildLoop rec k items ranges ii cnt nodes c').
Proof.
  intros Hr. induction k as [|k IH]; intros ii cnt nodes c c' H; [exact I|]. cbn [buildLoop]. destruct (nth_error items ii) as [item|]; [|split; auto]. cbv zeta.
  eapply req_bind; [apply Hr; exact H|]. intros [[n ok] x] [[n' ok'] x'] [X1 X2]. cbn [fst snd] in *. injection X1 as <- <-.
  destruct (ceq_inv _ _ H) as (_ & _ & G1 & _). destruct (ceq_inv _ _ X2) as (_ & _ & G2 & _). rewrite <- G1, <- G2. destruct ok; [|apply IH; auto]. destruct (nth_error ranges ii) as [[mn mx]|]; [|reflexivity].
  destruct (_ <? _); [destruct (_ && _)%bool|]; apply IH; auto.
Qed.
Theorem build_ceq n : forall b c c', ceq c c' -> req beq (build P n b c) (build P n b c').
Proof.
  induction n as [|n IH]; intros b c c' H; [exact I|]. cbn [build]. destruct (nth_error P b) as [[nm i cn ch rs|nm i ct items ranges gs ac|nm i ct options gs]|]; [split; auto| | |reflexivity].
  - unfold seqBuild. destruct (ceq_inv _ _ H) as (_ & _ & G1 & _ & _ & _ & _ & _ & _ & G2 & _). rewrite <- G1, <- G2. destruct (longestMatch _ _ _) as [to|]; [|split; auto]. cbv zeta.
    destruct ac; [destruct (hasFlag _ _); split; auto; apply ceq_setOffset; auto|].
    eapply req_bind; [apply enter_eq; exact H|]. intros [y|] [y'|] Hy; try contradiction; [|split; auto].
    eapply req_bind; [apply buildLoop_eq; [exact IH|exact Hy]|]. intros [ns x] [ns' x'] [X1 X2]. cbn [fst snd] in *. subst ns'.
    eapply req_bind; [apply leave_eq; exact X2|]. intros z z' Hz. destruct (hasFlag _ _); split; auto.
  - unfold choiceBuild. destruct (ceq_inv _ _ H) as (_ & _ & G1 & _ & _ & _ & _ & _ & _ & G2 & _). rewrite <- G1, <- G2. destruct (longestMatch _ _ _) as [to|]; [|split; auto]. cbv zeta.
    eapply req_bind; [apply enter_eq; exact H|]. intros [y|] [y'|] Hy; try contradiction; [|split; auto].
    destruct (ceq_inv _ _ Hy) as (_ & _ & G3 & _ & _ & _ & _ & _ & _ & G4 & _). rewrite <- G3, <- G4. destruct (pickOption _ _ _ _ _) as [[o|]|w|]; cbn [bind]; [|reflexivity|reflexivity|exact I].
    eapply req_bind; [apply IH; exact Hy|]. intros [[ns ok] x] [[ns' ok'] x'] [X1 X2]. cbn [fst snd] in *. injection X1 as <- <-.
    eapply req_bind; [apply leave_eq; exact X2|]. intros z z' Hz. destruct (hasFlag _ _); split; auto.
Qed.

(** *** the same outcome, or a ParseError or a panic on both sides *)
Definition refused (m : res parseOut) : Prop := (exists o l c d, m = Ok (Failed (ErrParse o l c d))) \/ exists w, m = Panic w.
Definition outLike (m m' : res parseOut) : Prop := m = m' \/ (refused m /\ refused m').
Lemma parseError_refused (Q : pheap) c p : refused (e <- parseError Q c p ;; Ok (Failed e)).
Proof. unfold refused, parseError. destruct (nth_error Q p) as [o|]; [|right; eexists; reflexivity]. cbv zeta. unfold findLine. destruct (_ || _)%bool; [right; eexists; reflexivity|left; repeat eexists]. Qed.
Theorem parseInput_like kws root fuel input e : outLike (parseInput P kws root fuel input e) (parseInput P' kws root fuel input e).
Proof.
  unfold parseInput, parseInputPB. pose proof (parse_ceq kws fuel root (newContext input e) _ (ceq_refl _)) as H. destruct (parse P kws fuel root _) as [c|w|], (parse P' kws fuel root _) as [c'|w'|]; cbn [req] in H; try contradiction; cbn [bind]; [|left; congruence|left; auto].
  destruct (ceq_inv _ _ H) as (_ & _ & _ & G1 & _ & _ & _ & G2 & _ & G3 & _). rewrite <- G2. destruct (cReadErr c) as [er|] eqn:Ee; [left; auto|]. unfold finalizeParse. cbv zeta. rewrite nth_error_map. destruct (nth_error P root) as [o|]; [|left; auto]. cbn [option_map]. rewrite mkp_id, <- G1, <- G3.
  assert (K : forall Q c p (k : context -> res parseOut) , refused (bind (bind (parseError Q c p) (fun e => Ok (c, Some e))) (fun ce => match ce with (_, Some err) => Ok (Failed err) | (c, None) => k c end))).
  { intros Q d p k. pose proof (parseError_refused Q d p) as R. destruct (parseError Q d p); auto. }
  destruct (longestResult _ _ _) as [|to|]; try (right; split; apply K). destruct (to <? _); [right; split; apply K|].
  destruct (ceq_read _ _ H) as [R1 R2]. destruct (read c) as [c1 b1], (read c') as [c2 b2]. cbn [fst snd] in *. destruct (ceq_inv _ _ R1) as (_ & _ & _ & _ & _ & _ & _ & E1 & E2 & E3 & _). rewrite <- E1, <- E2. destruct (cEof c1).
  - cbn [bind]. cbv zeta. cbn [cResults setOffset]. rewrite <- E3, build_mkp. pose proof (build_ceq fuel root _ _ (ceq_setResults _ _ (resetPending (cResults c1)) (ceq_setOffset _ _ 0 R1))) as B.
    left. destruct (build P fuel root _) as [[[ns ok] x]|w|], (build P fuel root (setResults (setOffset c2 0) _)) as [[[ns' ok'] x']|w'|]; cbn [req] in B; try contradiction; cbn [bind]; [|congruence|auto].
    destruct B as [B1 B2]. cbn [fst snd] in *. injection B1 as <- <-. destruct (ceq_inv _ _ B2) as (_ & _ & _ & _ & _ & _ & _ & _ & _ & _ & T & _). rewrite <- T. auto.
  - destruct (cReadErr c1); [left; auto|right; split; apply K].
Qed.
End FLAG.
