(** The syntax of examples/json.treerack. *)
From Verif Require Import Base Utf8 Parser Build Syntax Lang Grammar WsLang ApiSpec RefSpec RefCheck ReadUse ReadSpec SelfLang ReadLang ReadMeans PropRefuted PropRead PropFormat PropPredict PredictSpec PredictWsCheck JsonDocLang JsonDocRfc JsonSyntax JsonDoc.

Definition jsonWords : list string :=
  "string"%string :: "number"%string :: flat_map (fun d => match d with DClass n _ _ _ _ | DCharSequence n _ _ => [n] | _ => [] end) jsonCalls.
Lemma json_spells : spells jsonSyntax jsonDefs.
Proof. apply (spells_run _ _ 3000). vm_compute. reflexivity. Qed.
Definition jsonRead : syntax := readText jsonSyntax.
Lemma json_reads : Reads emptySyntax jsonSyntax REof jsonRead None.
Proof. apply read_run. vm_compute. reflexivity. Qed.
Lemma json_predictive : predictiveSpaced jsonCalls "json".
Proof. apply (C62_spaced_check jsonCalls jsonWords 16). vm_compute. reflexivity. Qed.
Lemma json_left : noLeftRecursion jsonCalls.
Proof.
  assert (H : (let e := emptyKeys jsonCalls 10 in let E := RefCheck.member e in
    forallb (fun k => implb (emptyStep jsonCalls e k) (E k)) (keysOf jsonCalls) && forallb (fun k => forallb (fun x => RefCheck.depth jsonCalls E 10 x <? RefCheck.depth jsonCalls E 10 k) (starts jsonCalls E k)) (keysOf jsonCalls))%bool = true) by (vm_compute; reflexivity).
  apply (leftFree_ok jsonCalls 10). exact H.
Qed.
Lemma json_refers : refersToDefs jsonCalls.
Proof. apply refersb_ok. vm_compute. reflexivity. Qed.
Lemma json_keywords : literalKeywords jsonCalls.
Proof. intros d Hd Hf. vm_compute in Hd. repeat (destruct Hd as [<-|Hd]; [vm_compute in Hf; discriminate|]). destruct Hd. Qed.
Lemma json_nokw : nokwOnSequences jsonCalls.
Proof. intros n ct os Hd. vm_compute in Hd. repeat (destruct Hd as [Hd|Hd]; [try discriminate; inversion Hd; reflexivity|]). destruct Hd. Qed.
Lemma json_ready : textReady jsonDefs.
Proof.
  intros _. split; [apply refers_all, json_refers|]. split; [intros d Hd Hf; destruct (json_keywords d Hd Hf) as (n & ct & chars & ->); exact I|].
  intros d Hd. apply digits_noItoa. repeat (destruct Hd as [<-|Hd]; [vm_compute; reflexivity|]). destruct Hd.
Qed.
Lemma json_init : exists s', Inits jsonRead s' None.
Proof. apply run_init. vm_compute. reflexivity. Qed.

Theorem json_documents s s' input : Reads emptySyntax jsonSyntax REof s None -> Inits s s' None -> ~ In runeError input ->
  ((exists t, Parses s input REof s' (Tree t input)) <-> document exampleBlank examplePlain exampleHex input).
Proof.
  intros HR Hi Hv. rewrite <- json_texts. apply (C62_text_partial jsonSyntax jsonDefs s s' "json"%string input json_spells HR json_ready); auto using json_refers, json_keywords, json_nokw, json_left.
  - apply sensibleb_ok. vm_compute. reflexivity.
  - right. split; [vm_compute; reflexivity|exact json_predictive].
Qed.
(** characters that RFC 8259 allows somewhere *)
Definition allowed (r : rune) : Prop := (32 <= r <= 1114111 \/ r = 9 \/ r = 10 \/ r = 13)%Z.
Theorem json_rfc s s' input : Reads emptySyntax jsonSyntax REof s None -> Inits s s' None -> ~ In runeError input ->
  (document rfcBlank rfcPlain exampleHex input -> exists t, Parses s input REof s' (Tree t input)) /\
  ((forall r, In r input -> allowed r) -> (exists t, Parses s input REof s' (Tree t input)) -> document rfcBlank rfcPlain rfcHex input).
Proof.
  intros HR Hi Hv. rewrite (json_documents s s' input HR Hi Hv). split.
  - apply (document_mono _ _ _ _ _ _ (fun _ => True)); [| | |apply Forall_forall; auto].
    + intros r _. unfold rfcBlank, exampleBlank. simpl. tauto.
    + intros r _. unfold rfcPlain, examplePlain. simpl. lia.
    + auto.
  - intros Ha. apply (document_mono _ _ _ _ _ _ allowed); [| | |apply Forall_forall; auto]; intros r; unfold allowed.
    + unfold rfcBlank, exampleBlank. simpl. lia.
    + unfold rfcPlain, examplePlain. simpl. lia.
    + unfold exampleHex, rfcHex. lia.
Qed.
Lemma rfc_allowed w r : document rfcBlank rfcPlain rfcHex w -> In r w -> allowed r.
Proof.
  intros H. revert r. apply Forall_forall. revert H. apply document_ok; intros r; unfold allowed, rfcBlank, rfcPlain, rfcHex; simpl; lia.
Qed.

Definition treeOf (o : option parseOut) (input : list rune) : bool :=
  match o with Some (Tree _ l) => if list_eq_dec Z.eq_dec l input then true else false | _ => false end.
Definition failureOf (o : option parseOut) : bool := match o with Some (Failed _) => true | _ => false end.
Lemma run_tree s input e : treeOf (outcome s input e) input = true -> exists s' t, Parses s input e s' (Tree t input).
Proof.
  unfold treeOf. destruct (outcome s input e) as [[t l|err]|] eqn:E; try discriminate. destruct (list_eq_dec Z.eq_dec l input) as [->|]; [|discriminate]. intros _. destruct (run_parse _ _ _ _ E) as [s' H]. eauto.
Qed.
Lemma run_failure s input e : failureOf (outcome s input e) = true -> exists s' err, Parses s input e s' (Failed err).
Proof. unfold failureOf. destruct (outcome s input e) as [[t l|err]|] eqn:E; try discriminate. intros _. destruct (run_parse _ _ _ _ E) as [s' H]. eauto. Qed.
Lemma allowed_run input : forallb (fun r => (((32 <=? r) && (r <=? 1114111)) || (r =? 9) || (r =? 10) || (r =? 13)) && negb (r =? runeError))%Z input = true -> ~ In runeError input /\ forall r, In r input -> allowed r.
Proof.
  rewrite forallb_forall. intros H. split.
  - intros X. specialize (H _ X). rewrite Z.eqb_refl in H. rewrite andb_false_r in H. discriminate.
  - intros r X. specialize (H r X). unfold allowed. rewrite andb_true_iff, !orb_true_iff, andb_true_iff, !Z.leb_le, !Z.eqb_eq in H. tauto.
Qed.
