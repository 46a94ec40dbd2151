(** Parsers with other names parse alike, and build the same nodes with the other names. *)
From Verif Require Import Base Utf8 IdSet Results Parser Build ListFacts SyntaxFacts ReaderFacts ParseFacts Sound RunFacts ErrFacts HideRun RenameSpec.

Section RENAME.
Variable f : string -> string.
Hypothesis f_def : forall n, definitionName (f n) = f (definitionName n).
Definition rnp (o : pobj) : pobj :=
  match o with
  | PChar n i cn ch rs => PChar (f n) i cn ch rs
  | PSeq n i ct items ranges gs ac => PSeq (f n) i ct items ranges gs ac
  | PChoice n i ct options gs => PChoice (f n) i ct options gs
  end.
Lemma rnp_name o : nodeName (rnp o) = f (nodeName o). Proof. destruct o; auto. Qed.
Lemma rnp_id o : nodeID (rnp o) = nodeID o. Proof. destruct o; auto. Qed.

Variable P : pheap.
Notation P' := (map rnp P).
Theorem parse_rename kws n : forall p c, parse P' kws n p c = parse P kws n p c.
Proof.
  induction n as [|n IH]; intros p c; auto. cbn [parse]. rewrite nth_error_map. destruct (nth_error P p) as [[nm i cn ch rs|nm i ct items ranges gs ac|nm i ct options gs]|]; auto; cbn [option_map rnp].
  - apply seqParse_ext; auto.
  - apply choiceParse_ext; auto.
Qed.
Lemma parseError_rename c p : parseError P' c p = mapR (renameErr f) (parseError P c p).
Proof.
  unfold parseError. rewrite nth_error_map. destruct (nth_error P p) as [o|]; auto. cbn [option_map]. rewrite rnp_name, f_def. cbv zeta. destruct (findLine _ _) as [lc|w|]; auto.
Qed.
Lemma finalize_rename c root : (forall e, cReadErr (fst (read c)) = Some e -> renameErr f e = e) ->
  finalizeParse P' c root = mapR (fun x => (fst x, option_map (renameErr f) (snd x))) (finalizeParse P c root).
Proof.
  intros He. unfold finalizeParse. rewrite nth_error_map. cbv zeta. rewrite !parseError_rename. destruct (nth_error P root) as [o|]; auto. cbn [option_map]. rewrite rnp_id.
  assert (K : forall x (y : context), bind (mapR (renameErr f) x) (fun e => Ok (y, Some e)) = mapR (fun x => (fst x, option_map (renameErr f) (snd x))) (bind x (fun e => Ok (y, Some e)))) by (intros [x|w|] y; auto).
  destruct (longestResult _ _ _); auto. destruct (_ <? _); auto. destruct (read c) as [c1 b]. cbn [fst] in He. rewrite parseError_rename. destruct (cEof c1); auto. destruct (cReadErr c1) as [e|]; auto. simpl. rewrite He; auto.
Qed.
Lemma pick_rename r o t options : pickOption P' r o t options = pickOption P r o t options.
Proof. induction options as [|x l IH]; auto. cbn [pickOption]. rewrite nth_error_map. destruct (nth_error P x) as [ob|]; auto. cbn [option_map]. rewrite rnp_id, IH. auto. Qed.

Notation ren := (map (renameNode f)).
Definition renX (x : list node * bool * context) : list node * bool * context := (ren (fst (fst x)), snd (fst x), snd x).
Lemma ren_rep l k : ren (List.concat (repeat l k)) = List.concat (repeat (ren l) k).
Proof. induction k as [|k IH]; cbn [repeat List.concat]; auto. rewrite map_app, IH. auto. Qed.
Lemma buildLoop_rename rec rec' items ranges k : (forall a c, rec' a c = mapR renX (rec a c)) ->
  forall ii cnt nodes c, buildLoop rec' k items ranges ii cnt (ren nodes) c = mapR (fun x => (ren (fst x), snd x)) (buildLoop rec k items ranges ii cnt nodes c).
Proof.
  intros Hr. induction k as [|k IH]; intros ii cnt nodes c; auto. cbn [buildLoop]. destruct (nth_error items ii) as [item|]; auto. cbv zeta. rewrite Hr. destruct (rec item c) as [[[n ok] c1]|w|]; auto. cbn [mapR renX fst snd bind].
  destruct ok; auto. destruct (nth_error ranges ii) as [[mn mx]|]; auto. rewrite <- ren_rep, <- !map_app, !IH. destruct (_ <? _); auto. destruct (_ && _)%bool; auto.
Qed.
Theorem build_rename n : forall b c, build P' n b c = mapR renX (build P n b c).
Proof.
  induction n as [|n IH]; intros b c; auto. cbn [build]. rewrite nth_error_map. destruct (nth_error P b) as [[nm i cn ch rs|nm i ct items ranges gs ac|nm i ct options gs]|]; auto; cbn [option_map rnp].
  - unfold seqBuild. destruct (longestMatch _ _ _) as [to|]; auto. cbv zeta. destruct ac; [destruct (hasFlag ct CAlias); auto|].
    destruct (enterBuild _ _ _ _) as [[c1|]|w|]; auto. cbn [bind]. rewrite (buildLoop_rename (build P n) _ _ _ _ IH 0 0 [] c1 : buildLoop _ _ _ _ _ _ [] _ = _).
    destruct (buildLoop (build P n) n items ranges 0 0 [] c1) as [[nodes c2]|w|]; auto. cbn [mapR bind fst snd]. destruct (leaveBuild _ _ _ _ _) as [c3|w|]; auto. cbn [bind]. destruct (hasFlag ct CAlias); auto.
  - unfold choiceBuild. destruct (longestMatch _ _ _) as [to|]; auto. cbv zeta. destruct (enterBuild _ _ _ _) as [[c1|]|w|]; auto. cbn [bind]. rewrite pick_rename.
    destruct (pickOption _ _ _ _ _) as [[o|]|w|]; auto. cbn [bind]. rewrite IH. destruct (build P n o c1) as [[[nodes ok] c2]|w|]; auto. cbn [mapR renX bind fst snd]. destruct (leaveBuild _ _ _ _ _) as [c3|w|]; auto. cbn [bind]. destruct (hasFlag ct CAlias); auto.
Qed.
Definition renOut (o : parseOut) : parseOut := match o with Tree t toks => Tree (renameNode f t) toks | Failed e => Failed (renameErr f e) end.

(** the errors of the reader have no names *)
Lemma plain_err input e n : forall kws p c, parse P kws n p (newContext input e) = Ok c ->
  (forall er, cReadErr c = Some er -> renameErr f er = er) /\ (forall er, cReadErr (fst (read c)) = Some er -> renameErr f er = er).
Proof.
  intros kws p c H. pose proof (parse_cinv _ _ _ _ _ _ _ H) as I. split; intros er He.
  - pose proof (ri_case _ _ _ (ci_r _ _ _ _ I)) as Hr. rewrite He in Hr. destruct er; try contradiction; reflexivity.
  - destruct (read c) as [c2 b] eqn:Er. pose proof (ri_case _ _ _ (ci_r _ _ _ _ (cinv_read _ _ _ _ _ I Er))) as Hr. cbn [fst] in He. rewrite He in Hr. destruct er; try contradiction; reflexivity.
Qed.
Theorem parseInput_rename kws root fuel input e : parseInput P' kws root fuel input e = mapR renOut (parseInput P kws root fuel input e).
Proof.
  unfold parseInput, parseInputPB. rewrite parse_rename. destruct (parse P kws fuel root (newContext input e)) as [c|w|] eqn:Ep; cbn [bind]; auto. destruct (plain_err _ _ _ _ _ _ Ep) as [E1 E2].
  destruct (cReadErr c) as [er|]; [simpl; rewrite E1; auto|]. rewrite finalize_rename by auto. destruct (finalizeParse P c root) as [[c1 [err|]]|w|]; cbn [bind mapR fst snd option_map]; auto.
  cbv zeta. rewrite build_rename. destruct (build P fuel root _) as [[[ns ok] c2]|w|]; cbn [mapR bind]; auto. unfold renX. cbn [fst snd]. destruct ns as [|t ns]; auto.
Qed.
End RENAME.
