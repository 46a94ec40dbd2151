(** The texts of nodes and errors tell the fields apart. *)
From Coq Require Import DecimalString DecimalZ.
From Verif Require Import TextSpec Base Utf8 Parser Build Syntax Lang Sound Grammar WsLang ApiSpec InitSpec SyntaxFacts Rep WsNames WsApi ApiFacts Render.
Local Open Scope string_scope.
Local Open Scope list_scope.

(** ** positions *)
Lemma columnOf_one b c c' : columnOf b c -> columnOf b c' -> c <= c'.
Proof.
  intros (e & l & -> & <- & Hl & He) (e' & l' & E & <- & Hl' & He'). destruct (Nat.le_gt_cases (List.length l) (List.length l')) as [|H]; auto. exfalso.
  assert (X : exists m, m <> [] /\ l = m ++ l' /\ e' = e ++ m).
  { apply app_eq_app in E. destruct E as (m & [[E1 E2]|[E1 E2]]).
    - exists []. subst. rewrite app_length in H. lia.
    - exists m. split; [intros ->; simpl in E2; subst; lia|auto]. }
  destruct X as (m & Hm & -> & ->). destruct (exists_last Hm) as (k & x & ->). destruct He' as [He'|(q & He')].
  - destruct e; [destruct k|]; discriminate.
  - rewrite app_assoc in He'. apply app_inj_tail in He'. destruct He' as [_ ->]. apply Hl. rewrite !in_app_iff. left. right. left. auto.
Qed.
Lemma newlines_app a b : newlines (a ++ b) = newlines a + newlines b.
Proof. unfold newlines. rewrite filter_app, app_length. auto. Qed.
Lemma newlines_none a : newlines a = 0 -> ~ In 10%Z a.
Proof. unfold newlines. intros H Hin. assert (X : In 10%Z (filter (fun r => Z.eqb r 10) a)) by (apply filter_In; auto). apply length_zero_iff_nil in H. rewrite H in X. destruct X. Qed.
Lemma columnOf_more b m c : columnOf b c -> ~ In 10%Z m -> columnOf (b ++ m) (c + List.length m).
Proof.
  intros (e & l & -> & <- & Hl & He) Hm. exists e, (l ++ m). rewrite app_assoc, app_length. repeat split; auto. rewrite in_app_iff. tauto.
Qed.
Lemma position_le input o o' line col : o <= List.length input -> o' <= List.length input ->
  line = newlines (firstn o input) -> columnOf (firstn o input) col -> line = newlines (firstn o' input) -> columnOf (firstn o' input) col -> o' <= o.
Proof.
  intros H H' E C E' C'. destruct (Nat.le_gt_cases o' o) as [|L]; auto. exfalso.
  assert (F : firstn o' input = firstn o input ++ firstn (o' - o) (skipn o input)).
  { rewrite <- (firstn_skipn o (firstn o' input)). rewrite firstn_firstn, Nat.min_l by lia. f_equal. rewrite skipn_firstn_comm. auto. }
  rewrite F in *. rewrite newlines_app in E'. assert (N : newlines (firstn (o' - o) (skipn o input)) = 0) by lia.
  pose proof (columnOf_more _ _ _ C (newlines_none _ N)) as M. apply (columnOf_one _ _ _ M) in C'. rewrite firstn_length, skipn_length in C'. lia.
Qed.
Theorem position_offset input o o' line col : o <= List.length input -> o' <= List.length input ->
  line = newlines (firstn o input) -> columnOf (firstn o input) col -> line = newlines (firstn o' input) -> columnOf (firstn o' input) col -> o = o'.
Proof. intros. apply Nat.le_antisymm; eapply position_le; eauto. Qed.

(** ** strings *)
Lemma str_app_inj a b c : String.append a b = String.append a c -> b = c.
Proof. induction a; simpl; auto. intros H. inversion H. auto. Qed.
Lemma node_string_inj t t' n n' : colonFree (nName n) -> colonFree (nName n') -> nodeString t n = nodeString t' n' ->
  nName n = nName n' /\ nFrom n = nFrom n' /\ nTo n = nTo n' /\ nodeText t n = nodeText t' n'.
Proof.
  intros F F' H. unfold nodeString in H. apply colon_split in H; auto. destruct H as [H1 H].
  apply colon_split in H; auto using itoaNat_colonFree. destruct H as [H2 H]. apply colon_split in H; auto using itoaNat_colonFree. destruct H as [H3 H4].
  apply itoaNat_inj in H2, H3. auto.
Qed.
Lemma parseError_inj l c d l' c' d' : parseErrorString l c d = parseErrorString l' c' d' -> l = l' /\ c = c' /\ d = d'.
Proof.
  unfold parseErrorString. intros H. apply colon_split in H; [|intros X; vm_compute in X; intuition discriminate..]. destruct H as [_ H].
  apply colon_split in H; auto using itoaNat_colonFree. destruct H as [H1 H]. apply colon_split in H; auto using itoaNat_colonFree. destruct H as [H2 H].
  apply str_app_inj in H. apply itoaNat_inj in H1, H2. split; [lia|split; [lia|auto]].
Qed.
(** a string ends in digits behind a space *)
Lemma last_split (x : ascii) p q d d' : ~ In x d -> ~ In x d' -> p ++ x :: d = q ++ x :: d' -> p = q /\ d = d'.
Proof.
  intros Hd Hd' E. apply app_eq_app in E. destruct E as (m & [[E1 E2]|[E1 E2]]).
  - destruct m as [|y m]; [simpl in E2; injection E2 as E2; rewrite app_nil_r in E1; auto|]. simpl in E2. injection E2 as <- E2. exfalso. apply Hd'. rewrite E2. apply in_or_app. right. left. auto.
  - destruct m as [|y m]; [simpl in E2; injection E2 as E2; rewrite app_nil_r in E1; auto|]. simpl in E2. injection E2 as <- E2. exfalso. apply Hd. rewrite E2. apply in_or_app. right. left. auto.
Qed.
Lemma itoa_no_space n : ~ In " "%char (list_ascii_of_string (itoa (Z.of_N n))).
Proof.
  intros H. rewrite <- N_nat_Z in H. pose proof (itoaNat_digits (N.to_nat n)) as D. unfold itoaNat in D. rewrite forallb_forall in D. apply D in H. discriminate.
Qed.
Lemma str_app_inj_r a b c : String.append a c = String.append b c -> a = b.
Proof.
  intros H. apply str_inj. apply (f_equal list_ascii_of_string) in H. rewrite !list_ascii_app in H. apply app_inv_tail in H. auto.
Qed.
Lemma incompatible_inj n a b n' a' b' : (n ++ ": " ++ itoa (Z.of_N a) ++ " and " ++ itoa (Z.of_N b) = n' ++ ": " ++ itoa (Z.of_N a') ++ " and " ++ itoa (Z.of_N b'))%string -> n = n' /\ a = a' /\ b = b'.
Proof.
  intros H. apply (f_equal list_ascii_of_string) in H. rewrite !list_ascii_app in H.
  set (A := list_ascii_of_string (itoa (Z.of_N a))) in *. set (A' := list_ascii_of_string (itoa (Z.of_N a'))) in *. set (B := list_ascii_of_string (itoa (Z.of_N b))) in *. set (B' := list_ascii_of_string (itoa (Z.of_N b'))) in *.
  set (N := list_ascii_of_string n) in *. set (N' := list_ascii_of_string n') in *. cbn [list_ascii_of_string] in H. rewrite <- !(app_assoc N), <- !(app_assoc N') in H || idtac.
  assert (R : forall (N A B : list ascii), N ++ [":"%char; " "%char] ++ A ++ [" "; "a"; "n"; "d"; " "]%char ++ B = (N ++ [":"%char; " "%char] ++ A ++ [" "; "a"; "n"; "d"]%char) ++ " "%char :: B).
  { intros. rewrite <- !app_assoc. simpl. rewrite <- ?app_assoc. auto. }
  rewrite !R in H. apply last_split in H; [|apply itoa_no_space..]. destruct H as [H HB].
  assert (R2 : forall (N A : list ascii), N ++ [":"%char; " "%char] ++ A ++ [" "; "a"; "n"; "d"]%char = ((N ++ [":"%char]) ++ " "%char :: A) ++ [" "; "a"; "n"; "d"]%char).
  { intros. rewrite <- !app_assoc. simpl. rewrite <- ?app_assoc. auto. }
  rewrite !R2 in H. apply app_inv_tail in H. apply last_split in H; [|apply itoa_no_space..]. destruct H as [H HA]. apply app_inv_tail in H.
  apply str_inj in H, HA, HB. apply itoa_inj in HA, HB. split; auto. split; lia.
Qed.
(** ** errors *)
(** the same error, but for the offset, which is not in the text *)
Definition sameError (e e' : gerr) : Prop :=
  match e, e' with ErrParse _ l c d, ErrParse _ l' c' d' => l = l' /\ c = c' /\ d = d' | _, _ => e = e' end.
Definition own (e : gerr) : Prop := match e with ErrAtoi => False | ErrReader _ => False | _ => True end.
Lemma error_inj foreign e e' : own e -> own e' -> errorString foreign e = errorString foreign e' -> sameError e e'.
Proof.
  destruct e, e'; simpl; intros O O' H; try contradiction; auto; try discriminate;
  try (apply (f_equal (String.get 0)) in H; vm_compute in H; discriminate); try (apply (f_equal (String.get 3)) in H; vm_compute in H; discriminate).
  - injection H as ->. auto.
  - injection H as ->. auto.
  - assert (X := str_app_inj "incompatible commit types in " _ _ H). apply incompatible_inj in X. destruct X as (-> & -> & ->). auto.
  - apply parseError_inj in H. auto.
Qed.
Theorem error_text s input r foreign s1 s2 r2 s' e e' : Parses s input r s1 (Failed e) -> Parses s' input r2 s2 (Failed e') -> own e -> own e' ->
  errorString foreign e = errorString foreign e' -> e = e'.
Proof.
  intros H H' O O' E. apply error_inj in E; auto. destruct e, e'; simpl in E; auto; try discriminate. destruct E as (-> & -> & ->).
  apply error_position in H, H'. destruct H as (A1 & A2 & A3), H' as (B1 & B2 & B3). f_equal. eapply position_offset; eauto.
Qed.
Theorem node_text calls s s1 input r t toks n calls' s' s1' input' r' t' toks' n' :
  Defined calls s -> wsReady calls -> sensibleRanges calls -> Parses s input r s1 (Tree t toks) -> inTree n t ->
  Defined calls' s' -> wsReady calls' -> sensibleRanges calls' -> Parses s' input' r' s1' (Tree t' toks') -> inTree n' t' ->
  nodeString toks n = nodeString toks' n' -> nName n = nName n' /\ nFrom n = nFrom n' /\ nTo n = nTo n' /\ nodeText toks n = nodeText toks' n'.
Proof.
  intros D W S P I D' W' S' P' I' E.
  assert (F : forall calls s n, Defined calls s -> visible calls (nName n) -> colonFree (nName n)).
  { intros c x m Hd (d & Hin & <- & _). apply defineAll_raw in Hd. apply valid_colonFree. apply (proj2 Hd). auto. }
  apply node_string_inj in E; auto.
  - apply (F calls s); auto. pose proof (tree_nodes calls s s1 input r t toks D W) as Q. eapply Q; eauto.
  - apply (F calls' s'); auto. pose proof (tree_nodes calls' s' s1' input' r' t' toks' D' W') as Q. eapply Q; eauto.
Qed.
Lemma untilColon_app a b : colonFree a -> untilColon (String.append a (String.append ":" b)) = (a, b).
Proof.
  induction a as [|c a IH]; intros H; [reflexivity|]. simpl. destruct (Ascii.eqb_spec c ":") as [->|]; [exfalso; apply H; left; auto|].
  change (String ":" b) with (String.append ":" b). rewrite IH; auto. intros X. apply H. right. auto.
Qed.
Lemma number_itoa k : number (itoaNat k) = Some (Z.of_nat k).
Proof.
  unfold number, itoaNat, itoa. destruct (to_int_nonnil (Z.of_nat k)) as [A1 A2]. rewrite NilZero.isi by auto. simpl. rewrite DecimalZ.of_to. auto.
Qed.
Theorem node_fields calls s s1 input r t toks n :
  Defined calls s -> wsReady calls -> sensibleRanges calls -> Parses s input r s1 (Tree t toks) -> inTree n t ->
  nodeFields (nodeString toks n) = (nName n, Some (Z.of_nat (nFrom n)), Some (Z.of_nat (nTo n)), nodeText toks n).
Proof.
  intros D W S P I.
  assert (F : colonFree (nName n)).
  { assert (V : visible calls (nName n)) by (pose proof (tree_nodes calls s s1 input r t toks D W) as Q; eapply Q; eauto).
    destruct V as (d & Hin & <- & _). apply defineAll_raw in D. apply valid_colonFree. apply (proj2 D). auto. }
  unfold nodeFields, nodeString. rewrite untilColon_app by auto. rewrite untilColon_app by apply itoaNat_colonFree. rewrite untilColon_app by apply itoaNat_colonFree.
  rewrite !number_itoa. auto.
Qed.
Theorem position_text foreign s input r s1 off line col def : Parses s input r s1 (Failed (ErrParse off line col def)) ->
  columnOf (firstn off input) col /\
  errorString foreign (ErrParse off line col def) =
    ("<input>:" ++ itoaNat (1 + newlines (firstn off input)) ++ ":" ++ itoaNat (1 + col) ++ ":parse failed, parsing: " ++ def)%string.
Proof.
  intros H. apply error_position in H. destruct H as (_ & -> & C). split; auto. simpl errorString. unfold parseErrorString. rewrite (Nat.add_comm _ 1), (Nat.add_comm col 1). reflexivity.
Qed.
