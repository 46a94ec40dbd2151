(** Facts about the command line tool. *)
From Verif Require Import Base Utf8 Parser Build Syntax SelfData Define ListFacts ParseFacts FuelFacts TermFacts InitSpec InitFuel ApiSpec DefineFacts ReadFacts Cli CliSpec.
Local Open Scope string_scope.
Local Open Scope list_scope.

Lemma leRes_bind {A B} (a b : res A) (f g : A -> res B) : leRes a b -> (forall x, leRes (f x) (g x)) -> leRes (bind a f) (bind b g).
Proof.
  intros H Hf. unfold leRes in *. destruct a; simpl; intros Hn.
  - rewrite (H ltac:(discriminate)). simpl. now apply Hf.
  - rewrite (H ltac:(discriminate)). auto.
  - congruence.
Qed.
Lemma leRes_same {A} (a : res A) : leRes a a.
Proof. intros _. auto. Qed.
Lemma ReadSyntax_mono n m s input e : n <= m -> leRes (ReadSyntax n s input e) (ReadSyntax m s input e).
Proof.
  intros H. unfold ReadSyntax. destruct (sInitialized s); [apply leRes_same|]. apply leRes_bind; [now apply parseInputPB_mono|].
  intros. apply leRes_same.
Qed.
Lemma Reads_mono fuel bs e s : ReadSyntax fuel emptySyntax (decodeUtf8 bs) e = Ok (s, None) ->
  forall m, fuel <= m -> ReadSyntax m emptySyntax (decodeUtf8 bs) e = Ok (s, None).
Proof. intros H m Hm. rewrite (ReadSyntax_mono fuel m _ _ _ Hm); [auto|congruence]. Qed.

(** ** sources *)
Definition clash (o : fileOptions) : Prop :=
  foPositional o <> [] /\ foFileName o = "" /\ foInline o <> "".
Lemma getSource_spec stdin o : List.length (foPositional o) <= 1 ->
  getSource stdin o =
  match given o with
  | [] => if stdin then Some SrcInput else None
  | [src] => Some src
  | src :: _ => if (negb (Nat.eqb (List.length (foPositional o)) 0) && String.eqb (foFileName o) "" && negb (String.eqb (foInline o) ""))%bool then Some src else None
  end.
Proof.
  intros H. unfold getSource, given. destruct (foPositional o) as [|p [|q l]]; cbn in H |- *; [| |lia];
  destruct (String.eqb (foFileName o) ""), (String.eqb (foInline o) ""); reflexivity.
Qed.
Lemma getSource_many stdin o : 1 < List.length (foPositional o) -> getSource stdin o = None.
Proof. intros H. unfold getSource. apply Nat.ltb_lt in H. now rewrite H. Qed.
Lemma given_many o : 1 < List.length (foPositional o) -> 1 < List.length (given o).
Proof. intros H. unfold given. rewrite app_length, map_length. lia. Qed.

Theorem one_source stdin o src : given o = [src] -> getSource stdin o = Some src.
Proof.
  intros H. destruct (Nat.lt_ge_cases 1 (List.length (foPositional o))) as [Hl|Hl].
  - apply given_many in Hl. rewrite H in Hl. simpl in Hl. lia.
  - rewrite getSource_spec by auto. now rewrite H.
Qed.
Theorem no_source stdin o : given o = [] -> getSource stdin o = if stdin then Some SrcInput else None.
Proof.
  intros H. destruct (Nat.lt_ge_cases 1 (List.length (foPositional o))) as [Hl|Hl].
  - apply given_many in Hl. rewrite H in Hl. simpl in Hl. lia.
  - rewrite getSource_spec by auto. now rewrite H.
Qed.
Theorem more_sources stdin o : 1 < List.length (given o) -> ~ (List.length (foPositional o) = 1 /\ foFileName o = "" /\ foInline o <> "") ->
  getSource stdin o = None.
Proof.
  intros H Hc. destruct (Nat.lt_ge_cases 1 (List.length (foPositional o))) as [Hl|Hl]; [now apply getSource_many|].
  rewrite getSource_spec by auto. destruct (given o) as [|a [|b l]]; simpl in H; try lia.
  destruct (_ && _)%bool eqn:E; auto. exfalso. apply Hc. rewrite !andb_true_iff, !negb_true_iff in E. destruct E as [[E1 E2] E3].
  apply Nat.eqb_neq in E1. apply String.eqb_eq in E2. apply String.eqb_neq in E3. split; [lia|auto].
Qed.

Theorem getSource_takes w o src : getSource (hasStdin w) o = Some src <-> takes w o src.
Proof.
  split.
  - intros H. destruct (Nat.lt_ge_cases 1 (List.length (foPositional o))) as [Hl|Hl]; [rewrite getSource_many in H by auto; discriminate|].
    pose proof (getSource_spec (hasStdin w) o Hl) as G. rewrite H in G. destruct (given o) as [|a [|b l]] eqn:E.
    + unfold hasStdin in G. destruct (wStdin w) as [c|] eqn:Es; inversion G; subst. apply takes_stdin; congruence.
    + inversion G; subst. now apply takes_given.
    + destruct (_ && _)%bool eqn:C; [|discriminate]. inversion G; subst.
      rewrite !andb_true_iff, !negb_true_iff in C. destruct C as [[E1 E2] E3]. unfold given in E. rewrite E2, E3 in E.
      destruct (foPositional o) as [|p [|q r]] eqn:Ep; simpl in Hl, E1, E; try discriminate; try lia. inversion E; subst.
      apply takes_positional with (text := foInline o); auto. unfold given. rewrite Ep, E2, E3. reflexivity.
  - intros [src0 H|H Hs|name text Hp H].
    + now apply one_source.
    + rewrite no_source by auto. unfold hasStdin. destruct (wStdin w); [auto|congruence].
    + rewrite getSource_spec by (rewrite Hp; simpl; lia). rewrite H. rewrite Hp. unfold given in H. rewrite Hp in H. simpl in H |- *.
      destruct (String.eqb (foFileName o) ""), (String.eqb (foInline o) ""); simpl in *; try discriminate; auto.
Qed.

(** ** open *)
Lemma openSource_first w o src bs e : openSource w false o = Some (src, (bs, e)) ->
  exists src0, getSource (hasStdin w) o = Some src0 /\ delivers w src0 bs e /\ (src = SrcInput <-> src0 = SrcInput).
Proof.
  unfold openSource, hasStdin. destruct (getSource _ o) as [[|name|t]|] eqn:E; try discriminate.
  - destruct (wStdin w) as [c|] eqn:Es; [|discriminate]. intros H; inversion H; subst. eexists. split; [reflexivity|]. split; [now constructor|tauto].
  - destruct (String.eqb_spec name "").
    + intros H; inversion H; subst. eexists. split; [reflexivity|]. split; [apply dl_noname|]. split; discriminate.
    + destruct (wFile w name) as [c|] eqn:Ef; [|discriminate]. intros H; inversion H; subst. eexists. split; [reflexivity|]. split; [now constructor|]. split; discriminate.
  - intros H; inversion H; subst. eexists. split; [reflexivity|]. split; [constructor|]. split; discriminate.
Qed.
Lemma openSource_give w o src0 bs e : getSource (hasStdin w) o = Some src0 -> delivers w src0 bs e ->
  exists src, openSource w false o = Some (src, (bs, e)) /\ (src = SrcInput <-> src0 = SrcInput).
Proof.
  intros H Hd. unfold openSource. fold (hasStdin w). rewrite H. destruct Hd as [name bs e Hn Hf| |t|bs e Hs].
  - apply String.eqb_neq in Hn. rewrite Hn, Hf. eexists. split; [reflexivity|]. split; discriminate.
  - simpl. eexists. split; [reflexivity|]. split; discriminate.
  - eexists. split; [reflexivity|]. split; discriminate.
  - rewrite Hs. eexists. split; [reflexivity|]. tauto.
Qed.
Lemma openSource_after w o used src bs e : openSource w used o = Some (src, (bs, e)) ->
  forall src1, (src1 = SrcInput <-> used = true) ->
  exists src0, getSource (hasStdin w) o = Some src0 /\ deliversAfter w src1 src0 bs e.
Proof.
  intros H src1 Hu. destruct used.
  - assert (src1 = SrcInput) by tauto. subst src1. unfold openSource in H. fold (hasStdin w) in H. destruct (getSource (hasStdin w) o) as [[|name|t]|] eqn:E; try discriminate.
    + destruct (wStdin w) as [c|] eqn:Es; [|discriminate]. inversion H; subst. eexists. split; [reflexivity|]. apply da_again. congruence.
    + eexists. split; [reflexivity|]. apply da_other; [intros [_ X]; discriminate|].
      destruct (String.eqb_spec name ""); [inversion H; subst; apply dl_noname|]. destruct (wFile w name) as [c|] eqn:Ef; [|discriminate]. inversion H; subst. now constructor.
    + eexists. split; [reflexivity|]. apply da_other; [intros [_ X]; discriminate|]. inversion H; subst. constructor.
  - apply openSource_first in H. destruct H as (src0 & H1 & H2 & _). exists src0. split; auto. apply da_other; auto.
    intros [X _]. apply Hu in X. discriminate.
Qed.
Lemma openSource_give_after w o src1 src0 bs e used : getSource (hasStdin w) o = Some src0 -> deliversAfter w src1 src0 bs e ->
  (src1 = SrcInput <-> used = true) -> exists src, openSource w used o = Some (src, (bs, e)).
Proof.
  intros H Hd Hu. destruct Hd as [Hs|src1 src2 bs e Hn Hd].
  - assert (used = true) by tauto. subst. unfold openSource. fold (hasStdin w). rewrite H. destruct (wStdin w) as [c|]; [eauto|congruence].
  - destruct used.
    + assert (src1 = SrcInput) by tauto. subst. unfold openSource. fold (hasStdin w). rewrite H.
      destruct Hd as [name bs e Hne Hf| |t|bs e Hs]; simpl; eauto.
      * apply String.eqb_neq in Hne. rewrite Hne, Hf. eauto.
      * exfalso. apply Hn. auto.
    + destruct (openSource_give _ _ _ _ _ H Hd) as (src & E & _). eauto.
Qed.

(** ** the commands *)
Lemma openSyntax_ok fuel w o s used : openSyntax fuel w o = Ok (Some (s, used)) ->
  exists src bs e, getSource (hasStdin w) o = Some src /\ delivers w src bs e /\ Reads bs e s /\ (src = SrcInput <-> used = true).
Proof.
  unfold openSyntax. destruct (openSource w false o) as [[src [bs e]]|] eqn:E; [|discriminate].
  intros H. binv H. destruct x as [s1 [err|]]; [discriminate|]. inversion H; subst. apply openSource_first in E. destruct E as (src0 & H1 & H2 & H3).
  exists src0, bs, e. split; auto. split; auto. split; [exists fuel; auto|]. rewrite <- H3. destruct src; split; auto; discriminate.
Qed.
Lemma openSyntax_give w o src bs e s : getSource (hasStdin w) o = Some src -> delivers w src bs e -> Reads bs e s ->
  exists fuel used, (src = SrcInput <-> used = true) /\ forall m, fuel <= m -> openSyntax m w o = Ok (Some (s, used)).
Proof.
  intros H Hd [fuel Hr]. destruct (openSource_give _ _ _ _ _ H Hd) as (src0 & E & Hs).
  exists fuel, (match src0 with SrcInput => true | _ => false end). split.
  - rewrite <- Hs. destruct src0; split; auto; discriminate.
  - intros m Hm. unfold openSyntax. rewrite E, (Reads_mono _ _ _ _ Hr m Hm). reflexivity.
Qed.

Lemma parseCommand_spec w v rest t toks :
  (exists fuel, parseCommand fuel w v rest = Ok (Some (t, toks))) <-> parsesWith w v rest t toks.
Proof.
  split.
  - intros [fuel H]. unfold parseCommand in H. binv H. destruct x as [[s used]|]; [|discriminate].
    destruct (openSource w used (inputOptions v rest)) as [[src2 [bs2 e2]]|] eqn:E2; [|discriminate].
    binv H. destruct x as [s' [t' toks'|err]]; [|discriminate]. inversion H; subst.
    apply openSyntax_ok in E. destruct E as (src1 & bs1 & e1 & G1 & D1 & R1 & U1).
    apply openSource_after with (src1 := src1) in E2; [|auto]. destruct E2 as (src0 & G2 & D2).
    apply getSource_takes in G1. apply getSource_takes in G2.
    exists src1, bs1, e1, s, src0, bs2, e2, s'. split; auto. split; auto. split; auto. split; auto. split; auto. exists fuel; auto.
  - intros (src1 & bs1 & e1 & s & src2 & bs2 & e2 & s' & G1 & D1 & R1 & G2 & D2 & [f2 P]).
    apply getSource_takes in G1. apply getSource_takes in G2.
    destruct (openSyntax_give _ _ _ _ _ _ G1 D1 R1) as (f1 & used & U1 & O1).
    destruct (openSource_give_after _ _ _ _ _ _ _ G2 D2 U1) as (src & E2).
    exists (f1 + f2). unfold parseCommand. rewrite O1 by lia. cbn [bind]. rewrite E2.
    rewrite (Parse_mono f2 (f1 + f2) _ _ _ ltac:(lia)) by congruence. rewrite P. reflexivity.
Qed.
Lemma parseCommand_mono n m w v rest : n <= m -> leRes (parseCommand n w v rest) (parseCommand m w v rest).
Proof.
  intros H. unfold parseCommand. apply leRes_bind.
  - unfold openSyntax. destruct (openSource _ _ _) as [[src [bs e]]|]; [|apply leRes_same]. apply leRes_bind; [now apply ReadSyntax_mono|]. intros; apply leRes_same.
  - intros [[s used]|]; [|apply leRes_same]. destruct (openSource _ _ _) as [[src [bs e]]|]; [|apply leRes_same].
    apply leRes_bind; [now apply Parse_mono|]. intros; apply leRes_same.
Qed.

Theorem check_zero w args : isHelp args = false ->
  (Exits (fun n => check n w args) 0 <->
   exists v rest t toks, parseFlags (syntaxFlags ++ inputFlags) args [] = Some (v, rest) /\ parsesWith w v rest t toks).
Proof.
  intros Hh. unfold Exits, check. rewrite Hh. destruct (parseFlags _ args []) as [[v rest]|].
  - split.
    + intros [fuel H]. binv H. destruct x as [[t toks]|]; [|discriminate]. exists v, rest, t, toks. split; auto. apply parseCommand_spec. eauto.
    + intros (v' & rest' & t & toks & E & H). inversion E; subst. apply parseCommand_spec in H. destruct H as [fuel H]. exists fuel. rewrite H. reflexivity.
  - split; [intros [fuel H]; discriminate|]. intros (v & rest & t & toks & H & _). discriminate.
Qed.
Theorem check_codes w args code : Exits (fun n => check n w args) code -> code = 0%Z \/ code = (-1)%Z.
Proof.
  intros [fuel H]. unfold check in H. destruct (isHelp args); [inversion H; auto|]. destruct (parseFlags _ args []) as [[v rest]|]; [|inversion H; auto].
  binv H. destruct x; inversion H; auto.
Qed.
Lemma exits_unique (cmd : nat -> res Z) a b : (forall n m, n <= m -> leRes (cmd n) (cmd m)) -> Exits cmd a -> Exits cmd b -> a = b.
Proof.
  intros Hm [n Ha] [m Hb]. destruct (Nat.le_ge_cases n m) as [H|H]; pose proof (Hm _ _ H) as X; unfold leRes in X; rewrite ?Ha, ?Hb in X; specialize (X ltac:(discriminate)); congruence.
Qed.
Lemma check_mono w args n m : n <= m -> leRes (check n w args) (check m w args).
Proof.
  intros H. unfold check. destruct (isHelp args); [apply leRes_same|]. destruct (parseFlags _ args []) as [[v rest]|]; [|apply leRes_same].
  apply leRes_bind; [now apply parseCommand_mono|]. intros; apply leRes_same.
Qed.

Theorem checkSyntax_zero w args : isHelp args = false ->
  (Exits (fun n => checkSyntax n w args) 0 <->
   exists v rest src bs e s s', parseFlags syntaxFlags args [] = Some (v, rest) /\
     takes w (syntaxOptions v rest) src /\ delivers w src bs e /\ Reads bs e s /\ Inits s s' None).
Proof.
  intros Hh. unfold Exits, checkSyntax. rewrite Hh. destruct (parseFlags _ args []) as [[v rest]|].
  - split.
    + intros [fuel H]. binv H. destruct x as [[s used]|]; [|discriminate]. binv H. destruct x as [s' [err|]]; [discriminate|].
      apply openSyntax_ok in E. destruct E as (src & bs & e & G & D & R & _).
      apply getSource_takes in G. exists v, rest, src, bs, e, s, s'. split; auto. split; auto. split; auto. split; auto. exists fuel; auto.
    + intros (v' & rest' & src & bs & e & s & s' & E & G & D & R & [f2 I]). inversion E; subst.
      apply getSource_takes in G. destruct (openSyntax_give _ _ _ _ _ _ G D R) as (f1 & used & _ & O). exists (f1 + f2). rewrite O by lia. cbn [bind].
      rewrite (Init_mono f2 (f1 + f2) _ ltac:(lia)) by congruence. rewrite I. reflexivity.
  - split; [intros [fuel H]; discriminate|]. intros (v & rest & src & bs & e & s & s' & H & _). discriminate.
Qed.
Theorem checkSyntax_codes w args code : Exits (fun n => checkSyntax n w args) code -> code = 0%Z \/ code = (-1)%Z.
Proof.
  intros [fuel H]. unfold checkSyntax in H. destruct (isHelp args); [inversion H; auto|]. destruct (parseFlags _ args []) as [[v rest]|]; [|inversion H; auto].
  binv H. destruct x as [[s used]|]; [|inversion H; auto]. binv H. destruct x as [s' [err|]]; inversion H; auto.
Qed.
Lemma checkSyntax_mono w args n m : n <= m -> leRes (checkSyntax n w args) (checkSyntax m w args).
Proof.
  intros H. unfold checkSyntax. destruct (isHelp args); [apply leRes_same|]. destruct (parseFlags _ args []) as [[v rest]|]; [|apply leRes_same].
  apply leRes_bind.
  - unfold openSyntax. destruct (openSource _ _ _) as [[src [bs e]]|]; [|apply leRes_same]. apply leRes_bind; [now apply ReadSyntax_mono|]. intros; apply leRes_same.
  - intros [[s used]|]; [|apply leRes_same]. apply leRes_bind; [now apply Init_mono|]. intros; apply leRes_same.
Qed.

(** ** show *)
Theorem mapNode_at toks : forall path n,
  match nodeAt path n, shownAt path (mapNode toks n) with
  | Some m, Some sh =>
    shName sh = nName m /\ shFrom sh = nFrom m /\ shTo sh = nTo m /\
    (shNodes sh = None <-> nNodes m = []) /\
    (forall l, shNodes sh = Some l -> List.length l = List.length (nNodes m)) /\
    (forall t, shText sh = Some t <-> nNodes m = [] /\ t = nodeText toks m /\ t <> "")
  | None, None => True
  | _, _ => False
  end.
Proof.
  induction path as [|i path IH]; intros n.
  - destruct n as [name from to [|x l]]; simpl.
    + destruct (String.eqb_spec (nodeText toks (Node name from to [])) "") as [E|E]; simpl; repeat (split; auto); try discriminate; intros; try tauto.
      * exfalso. destruct H as (_ & -> & H). contradiction.
      * inversion H; subst. auto.
      * inversion H; subst. auto.
      * destruct H as (_ & -> & _). auto.
    + repeat (split; auto); try discriminate.
      * intros l0 H. inversion H; subst. simpl. rewrite map_length. auto.
      * intros (H & _). discriminate.
  - destruct n as [name from to nodes]. cbn [nodeAt nNodes].
    assert (E : shownAt (i :: path) (mapNode toks (Node name from to nodes)) =
                match nth_error nodes i with Some m => shownAt path (mapNode toks m) | None => None end).
    { destruct nodes as [|x l]; [simpl; now destruct i|]. cbn [shownAt mapNode shNodes]. rewrite nth_error_map'. destruct (nth_error (x :: l) i); auto. }
    rewrite E. destruct (nth_error nodes i) as [m|]; [apply IH|auto].
Qed.

(** ** wrapLines *)
Lemma joinWith_snoc sep l x : l <> [] -> joinWith sep (l ++ [x]) = joinWith sep l ++ sep :: x.
Proof.
  induction l as [|a l IH]; intros H; [congruence|]. destruct l as [|b l]; [reflexivity|].
  change (a ++ sep :: joinWith sep ((b :: l) ++ [x]) = (a ++ sep :: joinWith sep (b :: l)) ++ sep :: x).
  rewrite IH by discriminate. now rewrite <- app_assoc.
Qed.
Lemma firstn_S_nth {A} (l : list A) i x : nth_error l i = Some x -> firstn (S i) l = firstn i l ++ [x].
Proof. revert i; induction l; intros [|i] H; simpl in *; try discriminate; [inversion H; auto|]. f_equal. auto. Qed.

Definition linesOk (groups : list (list (list rune))) : Prop :=
  Forall (fun g => g <> [] /\ List.length (joinWith 32%Z g) <= 72) groups.
Lemma wrapLoop_ok words : Forall (fun x => List.length x <= 72) words ->
  forall fuel i groups ll l,
  List.concat groups ++ ll = firstn i words -> l = map (joinWith 32%Z) groups -> linesOk groups ->
  (ll = [] \/ List.length (joinWith 32%Z ll) < 72) ->
  i <= List.length words ->
  2 * (List.length words - i) + (match ll with [] => 0 | _ => 1 end) < fuel ->
  exists groups' ll', wrapLoop fuel words i l ll = Ok (map (joinWith 32%Z) groups', ll') /\
    List.concat groups' ++ ll' = words /\ linesOk groups' /\ (ll' = [] \/ List.length (joinWith 32%Z ll') < 72).
Proof.
  intros HW. induction fuel as [|fuel IH]; intros i groups ll l Hc Hl Hg Hll Hi Hf; [lia|].
  cbn [wrapLoop]. destruct (nth_error words i) as [x|] eqn:E.
  - assert (Hx : List.length x <= 72) by (rewrite Forall_forall in HW; apply HW; eapply nth_error_In; eauto).
    assert (Hlt : i < List.length words) by (apply nth_error_Some; congruence).
    pose proof (firstn_S_nth _ _ _ E) as Hs.
    assert (Hne : ll ++ [x] <> []) by (destruct ll; discriminate).
    change wrap with 72.
    destruct (Nat.ltb_spec (List.length (joinWith 32%Z (ll ++ [x]))) 72).
    + apply (IH (S i) groups (ll ++ [x]) l); auto.
      * rewrite app_assoc, Hc. auto.
      * destruct (ll ++ [x]), ll; lia.
    + destruct (Nat.ltb_spec 72 (List.length (joinWith 32%Z (ll ++ [x])))) as [Hgt|Hle].
      * destruct ll as [|y ll]; [simpl in Hgt; lia|]. destruct Hll as [Hll|Hll]; [discriminate|].
        apply (IH i (groups ++ [y :: ll]) [] (l ++ [joinWith 32%Z (y :: ll)])); auto.
        -- rewrite concat_app. simpl. now rewrite !app_nil_r.
        -- rewrite map_app, Hl. reflexivity.
        -- apply Forall_app. split; auto. constructor; auto. split; [discriminate|lia].
        -- lia.
      * apply (IH (S i) (groups ++ [ll ++ [x]]) [] (l ++ [joinWith 32%Z (ll ++ [x])])); auto.
        -- rewrite concat_app. simpl. now rewrite !app_nil_r, app_assoc, Hc.
        -- rewrite map_app, Hl. reflexivity.
        -- apply Forall_app. split; auto.
        -- lia.
  - apply nth_error_None in E. exists groups, ll. rewrite Hl. split; auto. split; auto. rewrite Hc. apply firstn_all2. lia.
Qed.
Theorem wrapLines_ok s : Forall (fun x => List.length x <= 72) (splitWords s []) ->
  exists lines, wrapLines s = Ok (joinWith 10%Z lines) /\ wrapped (splitWords s []) lines.
Proof.
  intros H. unfold wrapLines.
  destruct (wrapLoop_ok _ H (S (2 * List.length (splitWords s []))) 0 [] [] []) as (groups & ll & E & Hc & Hg & Hl); auto; try lia; [constructor|].
  rewrite E. cbn [bind]. destruct ll as [|x ll].
  - exists (map (joinWith 32%Z) groups). split; auto. exists groups. split; [now rewrite app_nil_r in Hc|]. auto.
  - exists (map (joinWith 32%Z) groups ++ [joinWith 32%Z (x :: ll)]). split; auto. exists (groups ++ [x :: ll]).
    split; [rewrite concat_app; simpl; now rewrite app_nil_r|]. split; [now rewrite map_app|].
    apply Forall_app. split; auto. constructor; auto. split; [discriminate|]. destruct Hl as [Hl|Hl]; [discriminate|lia].
Qed.

(** ** the commands end *)
Lemma read_reachable fuel bs e s : ReadSyntax fuel emptySyntax (decodeUtf8 bs) e = Ok (s, None) -> reachable s.
Proof. intros H. apply read_raw in H. exact (rawSteps_reachable _ _ H re_new). Qed.
Definition ends {A} (cmd : nat -> res A) : Prop := exists n0, forall n, n0 <= n -> cmd n <> NoFuel.
Lemma ends_bind {A B} (cmd : nat -> res A) (f : nat -> A -> res B) :
  (forall n m, n <= m -> leRes (cmd n) (cmd m)) -> ends cmd -> (forall n x, cmd n = Ok x -> ends (fun m => f m x)) ->
  ends (fun n => bind (cmd n) (f n)).
Proof.
  intros Hm [n0 H0] Hf. destruct (cmd n0) as [x|w|] eqn:E; [| |exfalso; exact (H0 n0 (Nat.le_refl _) E)].
  - destruct (Hf n0 x E) as [n1 H1]. exists (n0 + n1). intros n Hn. rewrite (Hm n0 n ltac:(lia)) by congruence. rewrite E. simpl. apply H1. lia.
  - exists n0. intros n Hn. rewrite (Hm n0 n ltac:(lia)) by congruence. rewrite E. discriminate.
Qed.
Lemma ends_now {A} (r : res A) : r <> NoFuel -> ends (fun _ => r).
Proof. intros H. exists 0. auto. Qed.
Lemma openSyntax_mono w o n m : n <= m -> leRes (openSyntax n w o) (openSyntax m w o).
Proof.
  intros H. unfold openSyntax. destruct (openSource _ _ _) as [[src [bs e]]|]; [|apply leRes_same]. apply leRes_bind; [now apply ReadSyntax_mono|]. intros; apply leRes_same.
Qed.
Lemma openSyntax_ends w o : ends (fun n => openSyntax n w o).
Proof.
  unfold openSyntax. destruct (openSource _ _ _) as [[src [bs e]]|]; [|apply ends_now; discriminate].
  apply (ends_bind (fun n => ReadSyntax n emptySyntax (decodeUtf8 bs) e) (fun _ x => match x with (s, None) => _ | (_, Some _) => _ end)).
  - intros n m H. now apply ReadSyntax_mono.
  - apply ReadSyntax_terminates.
  - intros n [s [err|]] _; apply ends_now; discriminate.
Qed.
Lemma openSyntax_reachable n w o s used : openSyntax n w o = Ok (Some (s, used)) -> reachable s.
Proof. intros H. apply openSyntax_ok in H. destruct H as (src & bs & e & _ & _ & [fuel R] & _). eapply read_reachable; eauto. Qed.
Lemma parseCommand_ends w v rest : ends (fun n => parseCommand n w v rest).
Proof.
  unfold parseCommand. apply ends_bind.
  - intros n m H. now apply openSyntax_mono.
  - apply openSyntax_ends.
  - intros n [[s used]|] E; [|apply ends_now; discriminate]. destruct (openSource _ _ _) as [[src [bs e]]|]; [|apply ends_now; discriminate].
    apply ends_bind.
    + intros k m H. now apply Parse_mono.
    + apply Parse_terminates. eapply openSyntax_reachable; eauto.
    + intros k [s' [t toks|err]] _; apply ends_now; discriminate.
Qed.
Lemma ends_cases (cmd : nat -> res Z) : ends cmd -> (exists code, Exits cmd code) \/ Crashes cmd.
Proof.
  intros [n H]. specialize (H n (Nat.le_refl _)). destruct (cmd n) as [x|w|] eqn:E; [left; exists x, n; auto|right; exists n, w; auto|contradiction].
Qed.
Theorem check_ends w args : (exists code, Exits (fun n => check n w args) code) \/ Crashes (fun n => check n w args).
Proof.
  apply ends_cases. unfold check. destruct (isHelp args); [apply ends_now; discriminate|]. destruct (parseFlags _ args []) as [[v rest]|]; [|apply ends_now; discriminate].
  apply (ends_bind (fun n => parseCommand n w v rest) (fun _ x => match x with Some _ => Ok 0%Z | None => Ok (-1)%Z end)).
  - intros n m H. now apply parseCommand_mono.
  - apply parseCommand_ends.
  - intros n [x|] _; apply ends_now; discriminate.
Qed.
Theorem checkSyntax_ends w args : (exists code, Exits (fun n => checkSyntax n w args) code) \/ Crashes (fun n => checkSyntax n w args).
Proof.
  apply ends_cases. unfold checkSyntax. destruct (isHelp args); [apply ends_now; discriminate|]. destruct (parseFlags _ args []) as [[v rest]|]; [|apply ends_now; discriminate].
  apply ends_bind.
  - intros n m H. now apply openSyntax_mono.
  - apply openSyntax_ends.
  - intros n [[s used]|] E; [|apply ends_now; discriminate]. apply ends_bind.
    + intros k m H. now apply Init_mono.
    + apply Init_terminates. eapply openSyntax_reachable; eauto.
    + intros k [s' [err|]] _; apply ends_now; discriminate.
Qed.
Lemma Exits_crashes cmd code : (forall n m, n <= m -> leRes (cmd n) (cmd m)) -> Exits cmd code -> ~ Crashes cmd.
Proof.
  intros Hm [n Hn] (m & w & Hp). destruct (Nat.le_ge_cases n m) as [H|H]; pose proof (Hm _ _ H) as X; unfold leRes in X; rewrite ?Hn, ?Hp in X; specialize (X ltac:(discriminate)); discriminate.
Qed.

Theorem show_prints w args sh : isHelp args = false ->
  ((exists fuel, show fuel w args = Ok (0%Z, Some sh)) <->
   exists v rest t toks, parseFlags showFlags args [] = Some (v, rest) /\ parsesWith w v rest t toks /\ sh = mapNode toks t).
Proof.
  intros Hh. unfold show. rewrite Hh. destruct (parseFlags _ args []) as [[v rest]|].
  - split.
    + intros [fuel H]. binv H. destruct x as [[t toks]|]; inversion H; subst. exists v, rest, t, toks. split; auto. split; auto. apply parseCommand_spec. eauto.
    + intros (v' & rest' & t & toks & E & H & ->). inversion E; subst. apply parseCommand_spec in H. destruct H as [fuel H]. exists fuel. rewrite H. reflexivity.
  - split; [intros [fuel H]; discriminate|]. intros (v & rest & t & toks & H & _). discriminate.
Qed.

Lemma splitWords_join s : forall word : list rune, Forall (fun c => c <> 32%Z /\ c <> 10%Z) word ->
  joinWith 32%Z (splitWords s word) = word ++ map (fun c => if Z.eqb c 10 then 32%Z else c) s /\
  Forall (Forall (fun c => c <> 32%Z /\ c <> 10%Z)) (splitWords s word) /\ splitWords s word <> [].
Proof.
  induction s as [|c s IH]; intros word Hw; simpl.
  - rewrite app_nil_r. split; auto. split; [auto|discriminate].
  - destruct (Z.eqb_spec c 32) as [->|H1]; simpl.
    + destruct (IH (@nil rune) ltac:(constructor)) as (I1 & I2 & I3). split; [|split; [auto|discriminate]].
      destruct (splitWords s []) as [|a l]; [exfalso; apply I3; reflexivity|]. change (word ++ 32%Z :: joinWith 32%Z (a :: l) = word ++ 32%Z :: map (fun c => if Z.eqb c 10 then 32%Z else c) s). now rewrite I1.
    + destruct (Z.eqb_spec c 10) as [->|H2]; simpl.
      * destruct (IH (@nil rune) ltac:(constructor)) as (I1 & I2 & I3). split; [|split; [auto|discriminate]].
        destruct (splitWords s []) as [|a l]; [exfalso; apply I3; reflexivity|]. change (word ++ 32%Z :: joinWith 32%Z (a :: l) = word ++ 32%Z :: map (fun c => if Z.eqb c 10 then 32%Z else c) s). now rewrite I1.
      * destruct (IH (word ++ [c])) as (I1 & I2 & I3); [apply Forall_app; auto|]. split; auto. rewrite I1. now rewrite <- app_assoc.
Qed.
