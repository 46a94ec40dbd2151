(** The texts of examples/json.treerack are the JSON documents. *)
From Verif Require Import Base Utf8 Parser Build Syntax ListFacts Lang Grammar WsLang ApiSpec ReadSpec JsonDoc JsonDocFacts JsonSyntax.
Local Open Scope string_scope.

Definition jR : string -> option rule := grammarOf jsonCalls.
Definition jK : list (list rune) := keywordTexts jsonCalls.
Definition jW : list string := whitespaceNames jsonCalls.
Notation T := (wgen jR jK jW "json").
Notation items := (witems jR jK jW "json").
Notation spaced := (wspaced jR jK jW "json").
Notation rep := (wrep jR jK jW "json").
Notation more := (wmore jR jK jW "json").
Notation space := (wspace jR jK jW "json").
Notation eblank := exampleBlank.
Notation eplain := examplePlain.
Notation ehex := exampleHex.
Local Open Scope list_scope.

Ltac rule := vm_compute; reflexivity.
Lemma class_T n ct c cn ch rs (P : rune -> Prop) : jR n = Some (RSeq ct [Grammar.once c]) -> jR c = Some (RChar cn ch rs) -> hasFlag ct CNoKeyword = false -> n <> "json" -> c <> "json" ->
  (forall r, inClass cn ch rs r <-> P r) -> forall w, T n w <-> exists r, P r /\ w = [r].
Proof. intros H1 H2 H3 H4 H5 HP w. rewrite (class_iff jR jK jW "json" n ct c cn ch rs w H1 H2 H3 H4 H5). split; intros (r & Hr & ->); exists r; (split; [apply HP; auto|auto]). Qed.
Lemma lit_T n ct c x : jR n = Some (RSeq ct [Grammar.once c]) -> jR c = Some (RChar false [x] []) -> hasFlag ct CNoKeyword = false -> n <> "json" -> c <> "json" -> forall w, T n w <-> w = [x].
Proof.
  intros H1 H2 H3 H4 H5 w. rewrite (class_T n ct c false [x] [] (fun r => r = x) H1 H2 H3 H4 H5).
  - split; [intros (r & -> & ->); auto|intros ->; eauto].
  - intros r. simpl. split; [intros [[->|[]]|(lo & hi & [] & _)]; auto|intros ->; left; auto].
Qed.
Ltac lit := eapply lit_T; [rule|rule|reflexivity|discriminate|discriminate].
Ltac class P := eapply (class_T _ _ _ _ _ _ P); [rule|rule|reflexivity|discriminate|discriminate|intros r; simpl].
Lemma seq_T n ct l w : jR n = Some (RSeq ct l) -> compact ct = true -> hasFlag ct CNoKeyword = false -> n <> "json" -> (T n w <-> items l w).
Proof. intros H1 H2 H3 H4. rewrite gen_iff by auto. eapply compact_iff; eauto. Qed.
Lemma spaced_T n ct l w : jR n = Some (RSeq ct l) -> compact ct = false -> hasFlag ct CNoKeyword = false -> n <> "json" -> (T n w <-> spaced true l w).
Proof. intros H1 H2 H3 H4. rewrite gen_iff by auto. eapply spaced_iff; eauto. Qed.
Lemma choice_T n ct l w : jR n = Some (RChoice ct l) -> n <> "json" -> (T n w <-> exists o, In o l /\ T o w).
Proof. intros H1 H4. rewrite gen_iff by auto. eapply choice_iff; eauto. Qed.
Ltac unseq := lazymatch goal with |- context [T ?n ?w] => let r := eval vm_compute in (jR n) in lazymatch r with Some (RSeq ?ct ?l) => rewrite (seq_T n ct l w) by first [rule|reflexivity|discriminate] end end.
Ltac unspaced := lazymatch goal with |- context [T ?n ?w] => let r := eval vm_compute in (jR n) in lazymatch r with Some (RSeq ?ct ?l) => rewrite (spaced_T n ct l w) by first [rule|reflexivity|discriminate] end end.
Ltac unchoice := lazymatch goal with |- context [T ?n ?w] => let r := eval vm_compute in (jR n) in lazymatch r with Some (RChoice ?ct ?l) => rewrite (choice_T n ct l w) by first [rule|discriminate] end end.

(** ** whitespace *)
Lemma ws_T w : T "whitespace" w <-> exists r, eblank r /\ w = [r].
Proof. class eblank. unfold exampleBlank. simpl. split; [intros [H|(lo & hi & [] & _)]; auto|auto]. Qed.
Lemma space_gap w : space w <-> gap eblank w.
Proof.
  assert (E : jW = ["whitespace"]) by rule. split.
  - intros H.
    assert (A : forall l, (forall w, List.length w <= l -> space w -> gap eblank w)).
    { induction l as [|l IH]; intros x L Hx; inversion Hx; subst; try constructor.
      - assert (L' : List.length (u ++ v) = 0) by lia. rewrite app_length in L'. destruct u; [|discriminate]. rewrite E in H0. destruct H0 as [<-|[]]. apply ws_T in H1. destruct H1 as (r & _ & ?). discriminate.
      - rewrite E in H0. destruct H0 as [<-|[]]. apply ws_T in H1. destruct H1 as (r & Hr & ->). constructor; auto. apply IH; auto. simpl in L. lia. }
    eapply A; eauto.
  - induction 1 as [|r w Hr _ IH]; [constructor|]. change (r :: w) with ([r] ++ w). eapply wspace_cons; [rewrite E; left; reflexivity|apply ws_T; eauto|auto].
Qed.
Lemma space_app g g' : space g -> space g' -> space (g ++ g').
Proof. rewrite !space_gap. unfold gap. intros H1 H2. apply Forall_app. auto. Qed.

(** ** strings *)
Lemma hex_T w : T "string:1:1:1:1:1" w <-> exists r, ehex r /\ w = [r].
Proof. class ehex. unfold exampleHex. split; [intros [[]|(lo & hi & [H|[H|[]]] & L)]; injection H as <- <-; lia|intros [H|H]; right; [exists 48%Z, 57%Z|exists 97%Z, 102%Z]; auto]. Qed.
Lemma plain_T w : T "string:1:0" w <-> exists r, eplain r /\ w = [r].
Proof. class eplain. unfold examplePlain. simpl. split; [intros H X; apply H; auto|intros H [X|(lo & hi & [] & _)]; auto]. Qed.
Lemma escape_T w : T "string:1:1:1:0" w <-> exists r, In r (runesOf """\/bfnrt") /\ w = [r].
Proof. class (fun r => In r (runesOf """\/bfnrt")). split; [intros [H|(lo & hi & [] & _)]; auto|auto]. Qed.
Lemma u_T w : T "string:1:1:1:1:0" w <-> w = [117%Z]. Proof. lit. Qed.
Lemma backslash_T w : T "string:1:1:0" w <-> w = [92%Z]. Proof. lit. Qed.
Lemma open_T w : T "string:0" w <-> w = [34%Z]. Proof. lit. Qed.
Lemma close_T w : T "string:2" w <-> w = [34%Z]. Proof. lit. Qed.
Lemma unicode_T w : T "string:1:1:1:1" w <-> exists a b c d, ehex a /\ ehex b /\ ehex c /\ ehex d /\ w = [117%Z; a; b; c; d].
Proof.
  unseq. rewrite (items_sole _ _ _ _ _ _ _ (sole_00 _)). simpl. split.
  - intros (u & v & H1 & H2 & ->). apply u_T in H1. subst u. apply items_cons in H2. destruct H2 as (k & x & y & H1 & H2 & H3 & ->). apply (proj1 (quantity_4 _ _)) in H1. subst k. apply (rep_chars _ _ _ _ _ _ hex_T) in H2. destruct H2 as [H2 L]. apply (proj1 (items_nil _ _ _ _ _)) in H3. subst y.
    destruct x as [|a [|b [|c [|d [|]]]]]; try discriminate. inversion H2 as [|? ? Ha H2']; subst. inversion H2' as [|? ? Hb H2'']; subst. inversion H2'' as [|? ? Hc H2''']; subst. inversion H2''' as [|? ? Hd _]; subst. exists a, b, c, d. auto 6.
  - intros (a & b & c & d & Ha & Hb & Hc & Hd & ->). exists [117%Z], [a; b; c; d]. split; [apply u_T; auto|]. split; auto. apply items_cons. exists 4, [a; b; c; d], []. split; [apply quantity_4; auto|]. split; [apply (rep_chars _ _ _ _ _ _ hex_T); split; auto|]. split; [constructor|auto].
Qed.
Lemma escaped_T w : T "string:1:1:1" w <-> (exists r, In r (runesOf """\/bfnrt") /\ w = [r]) \/ exists a b c d, ehex a /\ ehex b /\ ehex c /\ ehex d /\ w = [117%Z; a; b; c; d].
Proof. unchoice. rewrite <- unicode_T, <- escape_T. split; [intros (o & [<-|[<-|[]]] & H); auto|intros [H|H]; eexists; (split; [|exact H]); simpl; auto]. Qed.
Lemma piece_T w : T "string:1" w <-> piece eplain ehex w.
Proof.
  unchoice. split.
  - intros (o & [<-|[<-|[]]] & H); [apply plain_T in H; destruct H as (r & Hr & ->); constructor; auto|]. revert H. unseq. rewrite (items_sole _ _ _ _ _ _ _ (sole_00 _)). simpl. intros (u & v & H1 & H2 & ->). apply backslash_T in H1. subst u.
    rewrite (items_sole _ _ _ _ _ _ _ (sole_00 _)) in H2. destruct H2 as (x & y & H2 & H3 & ->). apply (proj1 (items_nil _ _ _ _ _)) in H3. subst y. rewrite app_nil_r. apply escaped_T in H2. destruct H2 as [(r & Hr & ->)|(a & b & c & d & Ha & Hb & Hc & Hd & ->)]; constructor; auto.
  - assert (Back : forall x, T "string:1:1:1" x -> T "string:1:1" (92%Z :: x)).
    { intros x Hx. unseq. rewrite (items_sole _ _ _ _ _ _ _ (sole_00 _)). exists [92%Z], x. split; [apply backslash_T; auto|]. split; auto. rewrite (items_sole _ _ _ _ _ _ _ (sole_00 _)). exists x, []. rewrite app_nil_r. split; auto. split; auto. constructor. }
    intros H. inversion H; subst; [exists "string:1:0"; split; [simpl; auto|apply plain_T; eauto]|exists "string:1:1"; split; [simpl; auto|apply Back, escaped_T; eauto]|exists "string:1:1"; split; [simpl; auto|apply Back, escaped_T]]. right. repeat eexists; auto.
Qed.
Lemma pieces_T w : (exists k, rep "string:1" k w) <-> pieces eplain ehex w.
Proof.
  split.
  - intros (k & H). revert w H. induction k as [|k IH]; intros w H; inversion H; subst; [constructor|]. apply pieces_cons; auto. apply piece_T. auto.
  - induction 1 as [|u v Hu _ (k & IH)]; [exists 0; constructor|]. exists (S k). apply wrep_S; auto. apply piece_T. auto.
Qed.
Lemma string_T w : T "string" w <-> jstring eplain ehex w.
Proof.
  unseq. rewrite (items_sole _ _ _ _ _ _ _ (sole_00 _)). simpl. split.
  - intros (u & v & H1 & H2 & ->). apply open_T in H1. subst u. apply items_cons in H2. destruct H2 as (k & x & y & _ & H2 & H3 & ->). rewrite (items_sole _ _ _ _ _ _ _ (sole_00 _)) in H3. destruct H3 as (y1 & y2 & H3 & H4 & ->). apply close_T in H3. apply (proj1 (items_nil _ _ _ _ _)) in H4. subst. constructor. apply pieces_T. eauto.
  - intros H. inversion H as [u Hu]; subst. exists [34%Z], (u ++ [34%Z]). split; [apply open_T; auto|]. split; auto. apply pieces_T in Hu. destruct Hu as (k & Hu). apply items_cons. exists k, u, [34%Z]. split; [apply quantity_star|]. split; auto. split; auto. rewrite (items_sole _ _ _ _ _ _ _ (sole_00 _)). exists [34%Z], []. split; [apply close_T; auto|]. split; auto. constructor.
Qed.

(** ** numbers *)
Lemma digit_class r : inClass false [] [(48%Z, 57%Z)] r <-> digit r.
Proof. unfold digit. simpl. split; [intros [[]|(lo & hi & [H|[]] & L)]; injection H as <- <-; auto|intros H; right; exists 48%Z, 57%Z; auto]. Qed.
Lemma digit_T w : T "number:1:1:1" w <-> exists r, digit r /\ w = [r]. Proof. class digit. apply digit_class. Qed.
Lemma digit2_T w : T "number:2:1" w <-> exists r, digit r /\ w = [r]. Proof. class digit. apply digit_class. Qed.
Lemma digit3_T w : T "number:3:2" w <-> exists r, digit r /\ w = [r]. Proof. class digit. apply digit_class. Qed.
Lemma nonzero_T w : T "number:1:1:0" w <-> exists r, (49 <= r <= 57)%Z /\ w = [r].
Proof. class (fun r => (49 <= r <= 57)%Z). split; [intros [[]|(lo & hi & [H|[]] & L)]; injection H as <- <-; auto|intros H; right; exists 49%Z, 57%Z; auto]. Qed.
Lemma e_T w : T "number:3:0" w <-> exists r, (r = 101 \/ r = 69)%Z /\ w = [r].
Proof. class (fun r => r = 101 \/ r = 69)%Z. split; [intros [[H|[H|[]]]|(lo & hi & [] & _)]; auto|intros [H|H]; auto]. Qed.
Lemma esign_T w : T "number:3:1" w <-> exists r, (r = 43 \/ r = 45)%Z /\ w = [r].
Proof. class (fun r => r = 43 \/ r = 45)%Z. split; [intros [[H|[H|[]]]|(lo & hi & [] & _)]; auto|intros [H|H]; auto]. Qed.
Lemma minus_T w : T "number:0" w <-> w = [45%Z]. Proof. lit. Qed.
Lemma zero_T w : T "number:1:0" w <-> w = [48%Z]. Proof. lit. Qed.
Lemma dot_T w : T "number:2:0" w <-> w = [46%Z]. Proof. lit. Qed.
Lemma star_digits n w : (forall w, T n w <-> exists r, digit r /\ w = [r]) -> (items [mkItem n 0 (-1)] w <-> Forall digit w).
Proof.
  intros H. rewrite items_cons. split.
  - intros (k & u & v & _ & H1 & H2 & ->). apply (proj1 (items_nil _ _ _ _ _)) in H2. subst v. rewrite app_nil_r. apply (rep_chars _ _ _ _ _ _ H) in H1. tauto.
  - intros Hw. exists (List.length w), w, []. split; [apply quantity_star|]. split; [apply (rep_chars _ _ _ _ _ _ H); auto|]. split; [constructor|rewrite app_nil_r; auto].
Qed.
Lemma plus_digits n w : (forall w, T n w <-> exists r, digit r /\ w = [r]) -> (items [mkItem n 1 (-1)] w <-> exists d u, digit d /\ Forall digit u /\ w = d :: u).
Proof.
  intros H. rewrite items_cons. split.
  - intros (k & u & v & Hk & H1 & H2 & ->). apply (proj1 (items_nil _ _ _ _ _)) in H2. subst v. rewrite app_nil_r. apply (rep_chars _ _ _ _ _ _ H) in H1. destruct H1 as [H1 <-]. apply (proj1 (quantity_plus _ _)) in Hk. destruct u as [|d u]; [simpl in Hk; lia|]. inversion H1; subst. eauto.
  - intros (d & u & Hd & Hu & ->). exists (S (List.length u)), (d :: u), []. split; [apply quantity_plus; lia|]. split; [apply (rep_chars _ _ _ _ _ _ H); split; auto|]. split; [constructor|rewrite app_nil_r; auto].
Qed.
Lemma integer_T w : T "number:1" w <-> integer w.
Proof.
  unchoice. split.
  - intros (o & [<-|[<-|[]]] & H); [apply zero_T in H; subst; constructor|]. revert H. unseq. rewrite (items_sole _ _ _ _ _ _ _ (sole_00 _)). simpl. intros (u & v & H1 & H2 & ->). apply nonzero_T in H1. destruct H1 as (r & Hr & ->). apply (star_digits _ _ digit_T) in H2. constructor; auto.
  - intros H. inversion H as [|d u Hd Hu]; subst; [exists "number:1:0"; split; [simpl; auto|apply zero_T; auto]|exists "number:1:1"; split; [simpl; auto|]]. unseq. rewrite (items_sole _ _ _ _ _ _ _ (sole_00 _)). exists [d], u. split; [apply nonzero_T; eauto|]. split; auto. apply (star_digits _ _ digit_T). auto.
Qed.
Lemma fraction_T w : w = [] \/ T "number:2" w <-> fraction w.
Proof.
  unseq. rewrite (items_sole _ _ _ _ _ _ _ (sole_00 _)). simpl. split.
  - intros [->|(u & v & H1 & H2 & ->)]; [constructor|]. apply dot_T in H1. subst u. apply (plus_digits _ _ digit2_T) in H2. destruct H2 as (d & x & Hd & Hx & ->). constructor; auto.
  - intros H. inversion H as [|d u Hd Hu]; subst; auto. right. exists [46%Z], (d :: u). split; [apply dot_T; auto|]. split; auto. apply (plus_digits _ _ digit2_T). eauto.
Qed.
Lemma exponent_T w : w = [] \/ T "number:3" w <-> exponent w.
Proof.
  unseq. rewrite (items_sole _ _ _ _ _ _ _ (sole_00 _)). simpl. split.
  - intros [->|(u & v & H1 & H2 & ->)]; [constructor|]. apply e_T in H1. destruct H1 as (e & He & ->). apply (proj1 (items_opt _ _ _ _ _ _ _)) in H2. destruct H2 as (s & x & Hs & H2 & ->). apply (plus_digits _ _ digit3_T) in H2. destruct H2 as (d & y & Hd & Hy & ->). simpl. constructor; auto.
    destruct Hs as [->|Hs]; auto. apply esign_T in Hs. destruct Hs as (r & [-> | ->] & ->); auto.
  - intros H. inversion H as [|e sign d u He Hs Hd Hu]; subst; auto. right. exists [e], (sign ++ d :: u). split; [apply e_T; eauto|]. split; auto. apply items_opt. exists sign, (d :: u). split; [|split; [apply (plus_digits _ _ digit3_T); eauto|auto]].
    destruct Hs as [->|Hs]; auto. right. apply esign_T. destruct Hs as [-> | ->]; eauto.
Qed.
Lemma number_T w : T "number" w <-> jnumber w.
Proof.
  unseq. rewrite items_opt. split.
  - intros (s & v & Hs & H1 & ->). rewrite (items_sole _ _ _ _ _ _ _ (sole_00 _)) in H1. simpl in H1. destruct H1 as (i & v1 & Hi & H1 & ->). apply (proj1 (items_opt _ _ _ _ _ _ _)) in H1. destruct H1 as (f & v2 & Hf & H1 & ->). apply (proj1 (items_opt _ _ _ _ _ _ _)) in H1. destruct H1 as (e & v3 & He & H1 & ->). apply (proj1 (items_nil _ _ _ _ _)) in H1. subst v3. rewrite app_nil_r.
    constructor; [destruct Hs as [->|Hs]; auto; right; apply minus_T; auto|apply integer_T; auto|apply fraction_T; auto|apply exponent_T; auto].
  - intros H. inversion H as [s i f e Hs Hi Hf He]; subst. exists s, (i ++ f ++ e). split; [destruct Hs as [->|Hs]; auto; right; apply minus_T; auto|]. split; auto. rewrite (items_sole _ _ _ _ _ _ _ (sole_00 _)). exists i, (f ++ e). split; [apply integer_T; auto|]. split; auto. apply items_opt. exists f, e. split; [apply fraction_T; auto|]. split; auto. apply items_opt. exists e, []. split; [apply exponent_T; auto|]. rewrite app_nil_r. split; [constructor|auto].
Qed.

(** ** values *)
Ltac word := intros; apply (literal_iff jR jK jW "json") with (ct := 264%N); [rule|reflexivity|reflexivity| |discriminate];
  intros i c H; repeat (destruct i as [|i]; [injection H as <-; split; [rule|discriminate]|]); destruct i; discriminate.
Lemma true_T w : T "true" w <-> w = runesOf "true". Proof. word. Qed.
Lemma false_T w : T "false" w <-> w = runesOf "false". Proof. word. Qed.
Lemma null_T w : T "null" w <-> w = runesOf "null". Proof. word. Qed.
Lemma colon_T w : T "entry:1" w <-> w = [58%Z]. Proof. lit. Qed.
Lemma objectOpen_T w : T "object:0" w <-> w = [123%Z]. Proof. lit. Qed.
Lemma objectComma_T w : T "object:1:1:0" w <-> w = [44%Z]. Proof. lit. Qed.
Lemma objectClose_T w : T "object:2" w <-> w = [125%Z]. Proof. lit. Qed.
Lemma arrayOpen_T w : T "array:0" w <-> w = [91%Z]. Proof. lit. Qed.
Lemma arrayComma_T w : T "array:1:1:0" w <-> w = [44%Z]. Proof. lit. Qed.
Lemma arrayClose_T w : T "array:2" w <-> w = [93%Z]. Proof. lit. Qed.

Lemma pair_T n ct a b w : jR n = Some (RSeq ct [mkItem a 0 0; mkItem b 0 0]) -> compact ct = false -> hasFlag ct CNoKeyword = false -> n <> "json" ->
  (T n w <-> exists u g v, T a u /\ space g /\ T b v /\ w = u ++ g ++ v).
Proof.
  intros H1 H2 H3 H4. rewrite (spaced_T n ct _ w H1 H2 H3 H4), (spaced_first _ _ _ _ _ _ _ (sole_00 _)). split.
  - intros (u & v & Hu & Hv & ->). rewrite (spaced_sole _ _ _ _ _ _ _ (sole_00 _)) in Hv. destruct Hv as (g & x & y & Hg & Hx & Hy & ->). apply (proj1 (spaced_nil _ _ _ _ _ _)) in Hy. subst y. rewrite app_nil_r. exists u, g, x. auto.
  - intros (u & g & v & Hu & Hg & Hv & ->). exists u, (g ++ v). split; auto. split; auto. rewrite (spaced_sole _ _ _ _ _ _ _ (sole_00 _)). exists g, v, []. rewrite app_nil_r. split; auto. split; auto. split; [constructor|auto].
Qed.
Lemma list_T n ct a b w : jR n = Some (RSeq ct [mkItem a 0 0; mkItem b 0 (-1)]) -> compact ct = false -> hasFlag ct CNoKeyword = false -> n <> "json" ->
  (T n w <-> exists u k v, T a u /\ more b k v /\ w = u ++ v).
Proof.
  intros H1 H2 H3 H4. rewrite (spaced_T n ct _ w H1 H2 H3 H4), (spaced_first _ _ _ _ _ _ _ (sole_00 _)). split.
  - intros (u & v & Hu & Hv & ->). apply (proj1 (spaced_star _ _ _ _ _ _)) in Hv. destruct Hv as (k & Hv). exists u, k, v. auto.
  - intros (u & k & v & Hu & Hv & ->). exists u, v. split; auto. split; auto. apply spaced_star. eauto.
Qed.
Lemma around_T n ct a b c w : jR n = Some (RSeq ct [mkItem a 0 0; mkItem b 0 1; mkItem c 0 0]) -> compact ct = false -> hasFlag ct CNoKeyword = false -> n <> "json" ->
  (T n w <-> exists x g z, T a x /\ space g /\ T c z /\ (w = x ++ g ++ z \/ exists u g', T b u /\ space g' /\ w = x ++ g ++ u ++ g' ++ z)).
Proof.
  intros H1 H2 H3 H4. rewrite (spaced_T n ct _ w H1 H2 H3 H4), (spaced_first _ _ _ _ _ _ _ (sole_00 _)). split.
  - intros (x & v & Hx & Hv & ->). apply (proj1 (spaced_opt _ _ _ _ _ _ _ (sole_00 _) space_app)) in Hv. destruct Hv as (g & z & Hg & Hz & H). exists x, g, z. split; auto. split; auto. split; auto. destruct H as [->|(u & g' & Hu & Hg' & ->)]; [left; auto|right; exists u, g'; auto].
  - intros (x & g & z & Hx & Hg & Hz & H). destruct H as [->|(u & g' & Hu & Hg' & ->)].
    + exists x, (g ++ z). split; auto. split; auto. apply (spaced_opt _ _ _ _ _ _ _ (sole_00 _) space_app). exists g, z. auto.
    + exists x, (g ++ u ++ g' ++ z). split; auto. split; auto. apply (spaced_opt _ _ _ _ _ _ _ (sole_00 _) space_app). exists g, z. split; auto. split; auto. right. exists u, g'. auto.
Qed.
Ltac side := first [rule|reflexivity|discriminate].
Lemma entry_T w : T "entry" w <-> exists u g g' v, jstring eplain ehex u /\ gap eblank g /\ gap eblank g' /\ T "expression" v /\ w = u ++ g ++ 58%Z :: g' ++ v.
Proof.
  unspaced. rewrite (spaced_first _ _ _ _ _ _ _ (sole_00 _)). split.
  - intros (u & v & Hu & Hv & ->). apply string_T in Hu. rewrite (spaced_sole _ _ _ _ _ _ _ (sole_00 _)) in Hv. destruct Hv as (g & x & y & Hg & Hx & Hy & ->). apply colon_T in Hx. subst x. rewrite (spaced_sole _ _ _ _ _ _ _ (sole_00 _)) in Hy. destruct Hy as (g' & x & y' & Hg' & Hx & Hy & ->). apply (proj1 (spaced_nil _ _ _ _ _ _)) in Hy. subst y'.
    rewrite app_nil_r. apply space_gap in Hg. apply space_gap in Hg'. exists u, g, g', x. auto.
  - intros (u & g & g' & v & Hu & Hg & Hg' & Hv & ->). apply string_T in Hu. apply space_gap in Hg. apply space_gap in Hg'. exists u, (g ++ [58%Z] ++ g' ++ v). split; auto. split; auto. rewrite (spaced_sole _ _ _ _ _ _ _ (sole_00 _)). exists g, [58%Z], (g' ++ v). split; auto. split; [apply colon_T; auto|]. split; auto.
    rewrite (spaced_sole _ _ _ _ _ _ _ (sole_00 _)). exists g', v, []. rewrite app_nil_r. split; auto. split; auto. split; [constructor|auto].
Qed.
Lemma element_T w : T "array:1:1" w <-> exists g v, gap eblank g /\ T "expression" v /\ w = 44%Z :: g ++ v.
Proof.
  rewrite (pair_T "array:1:1" 2%N "array:1:1:0" "expression") by side. split.
  - intros (u & g & v & Hu & Hg & Hv & ->). apply arrayComma_T in Hu. subst u. apply space_gap in Hg. exists g, v. auto.
  - intros (g & v & Hg & Hv & ->). exists [44%Z], g, v. split; [apply arrayComma_T; auto|]. split; [apply space_gap; auto|auto].
Qed.
Lemma memberMore_T w : T "object:1:1" w <-> exists g v, gap eblank g /\ T "entry" v /\ w = 44%Z :: g ++ v.
Proof.
  rewrite (pair_T "object:1:1" 2%N "object:1:1:0" "entry") by side. split.
  - intros (u & g & v & Hu & Hg & Hv & ->). apply objectComma_T in Hu. subst u. apply space_gap in Hg. exists g, v. auto.
  - intros (g & v & Hg & Hv & ->). exists [44%Z], g, v. split; [apply objectComma_T; auto|]. split; [apply space_gap; auto|auto].
Qed.
Lemma elements_T w : T "array:1" w <-> exists u k v, T "expression" u /\ more "array:1:1" k v /\ w = u ++ v. Proof. apply (list_T "array:1" 2%N); side. Qed.
Lemma members_T w : T "object:1" w <-> exists u k v, T "entry" u /\ more "object:1:1" k v /\ w = u ++ v. Proof. apply (list_T "object:1" 2%N); side. Qed.
Lemma array_T w : T "array" w <-> exists g, gap eblank g /\ (w = 91%Z :: g ++ [93%Z] \/ exists u g', T "array:1" u /\ gap eblank g' /\ w = 91%Z :: g ++ u ++ g' ++ [93%Z]).
Proof.
  rewrite (around_T "array" 256%N "array:0" "array:1" "array:2") by side. split.
  - intros (x & g & z & Hx & Hg & Hz & H). apply arrayOpen_T in Hx. apply arrayClose_T in Hz. subst x z. apply space_gap in Hg. exists g. split; auto. destruct H as [->|(u & g' & Hu & Hg' & ->)]; auto. right. apply space_gap in Hg'. exists u, g'. auto.
  - intros (g & Hg & H). exists [91%Z], g, [93%Z]. split; [apply arrayOpen_T; auto|]. split; [apply space_gap; auto|]. split; [apply arrayClose_T; auto|]. destruct H as [->|(u & g' & Hu & Hg' & ->)]; auto. right. exists u, g'. split; auto. split; auto. apply space_gap. auto.
Qed.
Lemma object_T w : T "object" w <-> exists g, gap eblank g /\ (w = 123%Z :: g ++ [125%Z] \/ exists u g', T "object:1" u /\ gap eblank g' /\ w = 123%Z :: g ++ u ++ g' ++ [125%Z]).
Proof.
  rewrite (around_T "object" 256%N "object:0" "object:1" "object:2") by side. split.
  - intros (x & g & z & Hx & Hg & Hz & H). apply objectOpen_T in Hx. apply objectClose_T in Hz. subst x z. apply space_gap in Hg. exists g. split; auto. destruct H as [->|(u & g' & Hu & Hg' & ->)]; auto. right. apply space_gap in Hg'. exists u, g'. auto.
  - intros (g & Hg & H). exists [123%Z], g, [125%Z]. split; [apply objectOpen_T; auto|]. split; [apply space_gap; auto|]. split; [apply objectClose_T; auto|]. destruct H as [->|(u & g' & Hu & Hg' & ->)]; auto. right. exists u, g'. split; auto. split; auto. apply space_gap. auto.
Qed.
Lemma expression_T w : T "expression" w <-> w = runesOf "true" \/ w = runesOf "false" \/ w = runesOf "null" \/ jstring eplain ehex w \/ jnumber w \/ T "object" w \/ T "array" w.
Proof.
  unchoice. rewrite <- true_T, <- false_T, <- null_T, <- string_T, <- number_T. split.
  - intros (o & H & Hw). repeat (destruct H as [<-|H]; [tauto|]). destruct H.
  - intros [H|[H|[H|[H|[H|[H|H]]]]]]; eexists; (split; [|exact H]); simpl; tauto.
Qed.
Notation jvalue := (value eblank eplain ehex).
Notation jelements := (elements eblank eplain ehex).
Notation jmembers := (members eblank eplain ehex).
Notation jmember := (member eblank eplain ehex).
Lemma value_of n : forall w, List.length w <= n -> T "expression" w -> jvalue w.
Proof.
  induction n as [|n IH]; intros w L H; apply expression_T in H; (destruct H as [->|[->|[->|[H|[H|[H|H]]]]]]; [constructor|constructor|constructor|apply value_string; auto|apply value_number; auto| |]).
  - apply object_T in H. destruct H as (g & _ & [->|(u & g' & _ & _ & ->)]); simpl in L; lia.
  - apply array_T in H. destruct H as (g & _ & [->|(u & g' & _ & _ & ->)]); simpl in L; lia.
  - assert (Entry : forall u, List.length u <= n -> T "entry" u -> jmember u).
    { intros u Lu Hu. apply entry_T in Hu. destruct Hu as (x & g & g' & v & Hx & Hg & Hg' & Hv & ->). constructor; auto. apply IH; auto. rewrite !app_length in Lu. simpl in Lu. rewrite app_length in Lu. lia. }
    assert (More : forall k u v, List.length (u ++ v) <= n -> T "entry" u -> more "object:1:1" k v -> jmembers (u ++ v)).
    { induction k as [|k IHk]; intros u v Lu Hu Hv; inversion Hv; subst; [rewrite app_nil_r in *; constructor; auto|]. rewrite !app_length in Lu.
      match goal with X : T "object:1:1" _ |- _ => apply memberMore_T in X; destruct X as (g & x & Hg & Hx & ->) end. match goal with X : space s |- _ => apply space_gap in X end. simpl in Lu. rewrite app_length in Lu.
      simpl. rewrite <- app_assoc. apply (members_more eblank eplain ehex u s g (x ++ v0)); [apply Entry; auto; lia|assumption|assumption|]. apply IHk; auto. rewrite app_length. lia. }
    apply object_T in H. destruct H as (g & Hg & [->|(u & g' & Hu & Hg' & ->)]); [apply value_object_empty; auto|]. simpl in L. rewrite !app_length in L. apply value_object; auto. apply members_T in Hu. destruct Hu as (x & k & y & Hx & Hy & ->). apply (More k); auto. lia.
  - assert (More : forall k u v, List.length (u ++ v) <= n -> T "expression" u -> more "array:1:1" k v -> jelements (u ++ v)).
    { induction k as [|k IHk]; intros u v Lu Hu Hv; inversion Hv; subst; [rewrite app_nil_r in *; constructor; auto|]. rewrite !app_length in Lu.
      match goal with X : T "array:1:1" _ |- _ => apply element_T in X; destruct X as (g & x & Hg & Hx & ->) end. match goal with X : space s |- _ => apply space_gap in X end. simpl in Lu. rewrite app_length in Lu.
      simpl. rewrite <- app_assoc. apply (elements_more eblank eplain ehex u s g (x ++ v0)); [apply IH; auto; lia|assumption|assumption|]. apply IHk; auto. rewrite app_length. lia. }
    apply array_T in H. destruct H as (g & Hg & [->|(u & g' & Hu & Hg' & ->)]); [apply value_array_empty; auto|]. simpl in L. rewrite !app_length in L. apply value_array; auto. apply elements_T in Hu. destruct Hu as (x & k & y & Hx & Hy & ->). apply (More k); auto. lia.
Qed.
Lemma of_value : (forall w, jvalue w -> T "expression" w) /\ (forall w, jelements w -> T "array:1" w) /\ (forall w, jmembers w -> T "object:1" w) /\ (forall w, jmember w -> T "entry" w).
Proof.
  apply value_mutind; intros; try (apply expression_T; tauto).
  - apply expression_T. do 5 right. left. apply object_T. eauto.
  - apply expression_T. do 5 right. left. apply object_T. exists g. split; auto. right. eauto.
  - apply expression_T. do 6 right. apply array_T. eauto.
  - apply expression_T. do 6 right. apply array_T. exists g. split; auto. right. eauto.
  - apply elements_T. exists u, 0, []. rewrite app_nil_r. split; auto. split; [constructor|auto].
  - apply elements_T in H4. destruct H4 as (x & k & y & Hx & Hy & ->). apply elements_T. exists u, (S k), (g ++ (44%Z :: g' ++ x) ++ y). split; auto. split; [|simpl; rewrite <- app_assoc; auto]. constructor; auto; [apply space_gap; auto|apply element_T; eauto].
  - apply members_T. exists u, 0, []. rewrite app_nil_r. split; auto. split; [constructor|auto].
  - apply members_T in H4. destruct H4 as (x & k & y & Hx & Hy & ->). apply members_T. exists u, (S k), (g ++ (44%Z :: g' ++ x) ++ y). split; auto. split; [|simpl; rewrite <- app_assoc; auto]. constructor; auto; [apply space_gap; auto|apply memberMore_T; eauto].
  - apply entry_T. exists u, g, g', v. auto.
Qed.
Lemma json_rule : jR "json" = Some (RSeq 384%N [mkItem "expression" 0 0]).
Proof. rule. Qed.
Lemma json_T w : T "json" w <-> document eblank eplain ehex w.
Proof.
  split.
  - intros H. inversion H as [u v x Hu Hv Hx|]; subst; [|congruence]. apply (spaced_iff jR jK jW "json" "json" 384%N [mkItem "expression" 0 0] v json_rule eq_refl eq_refl) in Hv. rewrite (spaced_first _ _ _ _ _ _ _ (sole_00 _)) in Hv. destruct Hv as (y & z & Hy & Hz & ->). apply (proj1 (spaced_nil _ _ _ _ _ _)) in Hz. subst z. rewrite app_nil_r.
    constructor; [apply space_gap; auto|eapply value_of; eauto|apply space_gap; auto].
  - intros H. inversion H as [g u g' Hg Hu Hg']; subst. apply wgen_root; [apply space_gap; auto| |apply space_gap; auto]. apply (spaced_iff jR jK jW "json" "json" 384%N [mkItem "expression" 0 0] u json_rule eq_refl eq_refl). rewrite (spaced_first _ _ _ _ _ _ _ (sole_00 _)). exists u, []. rewrite app_nil_r. split; [apply of_value; auto|]. split; [constructor|auto].
Qed.
Lemma texts_T : texts jsonCalls "json" "json" = T "json".
Proof. unfold texts, jR, jK, jW. reflexivity. Qed.
Theorem json_texts w : texts jsonCalls "json" "json" w <-> document eblank eplain ehex w.
Proof. rewrite texts_T. apply json_T. Qed.
