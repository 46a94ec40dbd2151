(** What Generate writes, with any writer. *)
From Verif Require Import Base Utf8 IdSet Results Parser Build Syntax ListFacts WsNames ParseFacts Generate GoSpec GoRead GenWalk GenText.

Definition extend (o : output) (l : list string) : output := mkOutput (oCalls o + List.length l) (oTexts o ++ l).
(** the next [k] calls of the writer succeed *)
Definition accepts (W : writer) (from k : nat) : Prop := forall i, from <= i < from + k -> W i = None.
Lemma extend_nil o : extend o [] = o.
Proof. destruct o. unfold extend. simpl. rewrite Nat.add_0_r, app_nil_r. auto. Qed.
Lemma extend_app o l m : extend (extend o l) m = extend o (l ++ m).
Proof. unfold extend. simpl. rewrite app_length, app_assoc. f_equal. lia. Qed.
Lemma accepts_app W n a b : accepts W n (a + b) <-> accepts W n a /\ accepts W (n + a) b.
Proof.
  unfold accepts. split.
  - intros H. split; intros i Hi; apply H; lia.
  - intros [H1 H2] i Hi. destruct (Nat.lt_ge_cases i (n + a)); [apply H1|apply H2]; lia.
Qed.
Lemma fprintfs_err W l o e : fprintfs W l (o, Some e) = (o, Some e).
Proof. induction l; simpl; auto. Qed.
Lemma fprintfs_all W l : forall o, accepts W (oCalls o) (List.length l) -> fprintfs W l (o, None) = (extend o l, None).
Proof.
  induction l as [|t l IH]; intros o H; simpl; [rewrite extend_nil; auto|].
  rewrite (H (oCalls o)) by (simpl; lia). rewrite IH.
  - change (t :: l) with ([t] ++ l). rewrite <- extend_app. f_equal. f_equal. unfold extend. simpl. f_equal. lia.
  - intros i Hi. apply H. simpl in *. lia.
Qed.
Lemma fprintfs_none W l : forall o o', fprintfs W l (o, None) = (o', None) -> accepts W (oCalls o) (List.length l).
Proof.
  induction l as [|t l IH]; intros o o' H; simpl in *; [intros i Hi; lia|]. destruct (W (oCalls o)) eqn:E; [rewrite fprintfs_err in H; discriminate|].
  apply IH in H. intros i Hi. destruct (Nat.eq_dec i (oCalls o)); [subst; auto|]. apply H. simpl. lia.
Qed.
(** the texts written when one of the calls may fail *)
Lemma fprintfs_prefix W l : forall o o' e, fprintfs W l (o, None) = (o', e) -> exists m r, l = m ++ r /\ oTexts o' = oTexts o ++ m /\ (e = None -> r = []).
Proof.
  induction l as [|t l IH]; intros o o' e H; simpl in *.
  - inversion H; subst. exists [], []. split; auto. split; auto. rewrite app_nil_r. auto.
  - destruct (W (oCalls o)) eqn:E.
    + rewrite fprintfs_err in H. inversion H; subst. exists [], (t :: l). simpl. rewrite app_nil_r. split; auto. split; auto. discriminate.
    + destruct (IH _ _ _ H) as (m & r & -> & H1 & H2). exists (t :: m), r. split; auto. split; auto. rewrite H1. simpl. rewrite <- app_assoc. auto.
Qed.

Section WRITES.
Variables (P : pheap) (b : bool) (live : addr -> Prop).
Hypothesis Hkids : forall a o x, live a -> nth_error P a = Some o -> In x (kids o) -> live x.
Hypothesis Hnames : forall a o, live a -> nth_error P a = Some o -> nameOf b o.

(** [l] are the texts of all the calls *)
Definition writesAll (run : writer -> output -> res (list string * output * option nat)) (st : list stmt) (d' : list string) : Prop :=
  exists l, Writes l (flat_map stmtToks st) /\ forall W o, exists d'' o' err, run W o = Ok (d'', o', err) /\
    (accepts W (oCalls o) (List.length l) -> d'' = d' /\ o' = extend o l /\ err = None) /\
    (err = None -> accepts W (oCalls o) (List.length l)).

Lemma kids_writes n : (forall a done st d', live a -> walk P b n a done = Ok (st, d') -> writesAll (fun W => generate W P b n a done) st d') ->
  forall l done st d', (forall a, In a l -> live a) -> walkAll (walk P b n) l done = Ok (st, d') ->
  writesAll (fun W => generateKids (generate W P b n) l done) st d'.
Proof.
  intros IHn. induction l as [|x l IH]; intros done st d' Hl E; cbn [walkAll] in E.
  - inversion E; subst. exists []. split; [apply Writes_nil|]. intros W o. eexists _, _, _. split; [reflexivity|]. rewrite extend_nil. split; auto. intros _ i Hi. simpl in Hi. lia.
  - binv E. destruct x0 as [st1 d1]. cbn [snd fst] in *. binv E. destruct x0 as [st2 d2]. simpl in E. inversion E; subst; clear E.
    destruct (IHn x done st1 d1) as (l1 & W1 & H1); auto; [apply Hl; left; auto|]. destruct (IH d1 st2 d') as (l2 & W2 & H2); auto; [intros; apply Hl; right; auto|].
    exists (l1 ++ l2). split; [rewrite flat_map_app; apply Writes_app; auto|]. intros W o. destruct (H1 W o) as (d'' & o' & err & Eg1 & A1 & B1).
    cbn [generateKids]. rewrite Eg1. cbn [bind]. rewrite app_length. destruct err as [e|].
    + eexists _, _, _. split; [reflexivity|]. split; [|discriminate]. intros Ha. apply accepts_app in Ha. destruct (A1 (proj1 Ha)) as (_ & _ & X). discriminate.
    + destruct (A1 (B1 eq_refl)) as (-> & -> & _). destruct (H2 W (extend o l1)) as (d2 & o2 & err & E2 & A2 & B2). eexists _, _, _. split; [exact E2|].
      simpl in A2, B2. rewrite accepts_app. split.
      * intros [Ha Hb]. destruct (A2 Hb) as (-> & -> & ->). rewrite extend_app. auto.
      * intros He. split; auto.
Qed.
Lemma walk_writes n : forall a done st d', live a -> walk P b n a done = Ok (st, d') -> writesAll (fun W => generate W P b n a done) st d'.
Proof.
  induction n as [|n IH]; intros a done st d' Ha E; [discriminate|]. cbn [walk] in E. destruct (nth_error P a) as [o|] eqn:Eo; [|discriminate].
  pose proof (write_decl b o (Hnames _ _ Ha Eo)) as Hd.
  assert (Hchar : isCh o = true -> writesAll (fun W => generate W P b (S n) a done) [declare b o] done).
  { intros Hc. exists (declPieces b o). split; [cbn [flat_map]; rewrite app_nil_r; auto|]. intros W out. cbn [generate]. rewrite Eo. destruct o; try discriminate.
    destruct (fprintfs W _ (out, None)) as [o' err] eqn:Ef. eexists _, _, _. split; [reflexivity|]. split.
    - intros H. rewrite fprintfs_all in Ef by auto. inversion Ef; subst. auto.
    - intros ->. eapply fprintfs_none; eauto. }
  destruct (isCh o) eqn:Ec; [inversion E; subst; auto|].
  assert (Hgen : forall W out, generate W P b (S n) a done out =
    if existsb (String.eqb (nodeName o)) done then Ok (done, out, None)
    else let (o1, err) := fprintfs W (declPieces b o) (out, None) in
      match kids o with
      | [] => Ok (nodeName o :: done, o1, err)
      | ks =>
        r <- generateKids (generate W P b n) ks (nodeName o :: done) o1 ;;
        match r with
        | (done, o2, Some e) => Ok (done, o2, Some e)
        | (done, o2, None) => ids <- kidIDs P ks ;; let (o3, err) := fprintfs W (linkPieces b (nodeID o) (isSeq o) ids) (o2, err) in Ok (done, o3, err)
        end
      end).
  { intros W out. cbn [generate]. rewrite Eo. destruct o; try discriminate; auto. }
  destruct (existsb (String.eqb (nodeName o)) done) eqn:Ed.
  - inversion E; subst. exists []. split; [apply Writes_nil|]. intros W out. rewrite Hgen. eexists _, _, _. split; [reflexivity|]. rewrite extend_nil. split; auto. intros _ i Hi. simpl in Hi. lia.
  - binv E. destruct x as [st1 d1]. cbn [fst snd] in E.
    destruct (kids_writes n IH (kids o) (nodeName o :: done) st1 d1) as (l1 & W1 & H1); auto; [intros; eapply Hkids; eauto|].
    destruct (kids o) as [|k ks].
    + inversion E; subst. assert (Ew1 : walkAll (walk P b n) [] (nodeName o :: done) = Ok ([], nodeName o :: done)) by reflexivity.
      match goal with X : walkAll _ [] _ = Ok (st1, d') |- _ => rewrite Ew1 in X; inversion X; subst; clear X end.
      exists (declPieces b o). split; [cbn [flat_map]; rewrite app_nil_r; auto|]. intros W out. rewrite Hgen. 
      destruct (fprintfs W _ (out, None)) as [o' err] eqn:Ef. eexists _, _, _. split; [reflexivity|]. split.
      * intros H. rewrite fprintfs_all in Ef by auto. inversion Ef; subst. auto.
      * intros ->. eapply fprintfs_none; eauto.
    + binv E. rename x into ids. inversion E; subst; clear E.
      exists (declPieces b o ++ l1 ++ linkPieces b (nodeID o) (isSeq o) ids). split.
      { cbn [flat_map]. rewrite flat_map_app. cbn [flat_map]. rewrite app_nil_r. apply Writes_app; auto. apply Writes_app; auto. apply write_link. }
      intros W out. rewrite Hgen. rewrite !app_length.
      destruct (fprintfs W (declPieces b o) (out, None)) as [o1 err1] eqn:Ef.
      destruct (H1 W o1) as (d'' & o2 & err2 & E2 & A2 & B2). cbv zeta. rewrite E2. cbn [bind].
      destruct err2 as [e|].
      * eexists _, _, _. split; [reflexivity|]. split; [|discriminate]. rewrite accepts_app, accepts_app. intros (Ha1 & Ha2 & Ha3).
        rewrite fprintfs_all in Ef by auto. inversion Ef; subst. destruct (A2 Ha2) as (_ & _ & X). discriminate.
      * match goal with X : kidIDs P _ = Ok ids |- _ => rewrite X end. cbn [bind]. destruct (A2 (B2 eq_refl)) as (-> & -> & _).
        destruct (fprintfs W (linkPieces b (nodeID o) (isSeq o) ids) (extend o1 l1, err1)) as [o3 err3] eqn:Eg. eexists _, _, _. split; [reflexivity|]. rewrite !accepts_app. split.
        -- intros (Ha1 & Ha2 & Ha3). rewrite fprintfs_all in Ef by auto. inversion Ef; subst. rewrite fprintfs_all in Eg by auto. inversion Eg; subst. rewrite !extend_app, <- ?app_assoc. auto.
        -- intros ->. destruct err1 as [e|]; [rewrite fprintfs_err in Eg; discriminate|]. pose proof (fprintfs_none _ _ _ _ Ef) as Ha1. rewrite fprintfs_all in Ef by auto. inversion Ef; subst.
           split; auto. split; [apply B2; auto|]. apply fprintfs_none in Eg. auto.
Qed.
End WRITES.
Local Open Scope string_scope.
Local Open Scope list_scope.
Local Infix "+++" := String.append (at level 60, right associativity).

Lemma write_newline : Writes [newline] [].
Proof. apply Writes_one. lconst. Qed.
Lemma write_tail body kws r rb : lex LIdle false (join (tailPieces kws r rb)) = Some (tailToks (mkGoFunc body (map (pair false) kws) (false, r) (true, rb))).
Proof.
  unfold tailPieces, tailToks. cbn [fKeywords fRoot fRootBuilder].
  assert (H1 : Writes [newline; newline; "var keywords = []parser{"] [TWord "var"; TWord "keywords"; TSym "="; TSym "["; TSym "]"; TWord "parser"; TSym "{"]).
  { unfold Writes. lconst. }
  assert (H2 : Writes (map (fun k => "&p" +++ itoaNat k +++ ", ") kws) (flat_map (fun v => [TSym "&"; TWord (vword v); TSym ","]) (map (pair false) kws))).
  { induction kws as [|k kws IH]; [apply Writes_nil|]. cbn [map flat_map]. apply Writes_cons; auto.
    change ("&p" +++ itoaNat k +++ ", ") with ("&" +++ vname false k +++ ", ").
    change [TSym "&"; TWord (vword (false, k)); TSym ","] with ([TSym "&"] ++ TWord (vword (false, k)) :: [TSym ","]).
    eapply (Lexes_const false false); [lconst|]. apply (Lexes_var _ _ (false, k)); [reflexivity|lconst]. }
  set (last := ["}"; newline; newline; "return parseInput(r, &p" +++ itoaNat r +++ ", &b" +++ itoaNat rb +++ ", keywords)"; newline; "}"; newline]).
  assert (H3 : Writes last ([TSym "}"] ++ [TSym ";"; TWord "return"; TWord "parseInput"; TSym "("; TWord "r"; TSym ","; TSym "&"; TWord (vword (false, r)); TSym ","; TSym "&";
     TWord (vword (true, rb)); TSym ","; TWord "keywords"; TSym ")"; TSym ";"; TSym "}"; TSym ";"])).
  { unfold Writes, last. cbn [app join fold_right].
    change ("}" +++ newline +++ newline +++ ("return parseInput(r, &p" +++ itoaNat r +++ ", &b" +++ itoaNat rb +++ ", keywords)") +++ newline +++ "}" +++ newline +++ "")
      with (("}" +++ newline +++ newline +++ "return parseInput(r, &") +++ ((vname false r +++ ", &b" +++ itoaNat rb +++ ", keywords)") +++ newline +++ "}" +++ newline +++ "")).
    rewrite !str_app_assoc.
    change (", &b" +++ (itoaNat rb +++ ", keywords)" +++ newline +++ "}" +++ newline +++ "")) with (", &" +++ (vname true rb +++ ", keywords)" +++ newline +++ "}" +++ newline +++ "")).
    change [TSym "}"; TSym ";"; TWord "return"; TWord "parseInput"; TSym "("; TWord "r"; TSym ","; TSym "&"; TWord (vword (false, r)); TSym ","; TSym "&";
     TWord (vword (true, rb)); TSym ","; TWord "keywords"; TSym ")"; TSym ";"; TSym "}"; TSym ";"] with
     ([TSym "}"; TSym ";"; TWord "return"; TWord "parseInput"; TSym "("; TWord "r"; TSym ","; TSym "&"] ++ TWord (vword (false, r)) :: [TSym ","; TSym "&"] ++
      TWord (vword (true, rb)) :: [TSym ","; TWord "keywords"; TSym ")"; TSym ";"; TSym "}"; TSym ";"]).
    match goal with |- Lexes ?b ("}" +++ newline +++ newline +++ "return parseInput(r, &" +++ ?x) ?t ?c =>
      change (Lexes b (("}" +++ newline +++ newline +++ "return parseInput(r, &") +++ x) t c) end.
    eapply (Lexes_const false false); [lconst|].
    apply (Lexes_var _ _ (false, r)); [reflexivity|]. eapply (Lexes_const true false); [lconst|]. apply (Lexes_var _ _ (true, rb)); [reflexivity|]. lconst. }
  pose proof (Writes_app _ _ _ _ H1 (Writes_app _ _ _ _ H2 H3)) as H. specialize (H ""). unfold refsToks. rewrite <- app_assoc.
  cbn [lex option_map] in H. rewrite app_nil_r in H. assert (Er : forall s, s +++ "" = s) by (clear; induction s; simpl; congruence). rewrite Er in H. exact H.
Qed.

Section GENERATE.
Variables (gendoc headCode : string) (opts : genOptions) (s s' : syntax) (fuel : nat) (root : addr) (fn : goFunc) (live : addr -> Prop).
Let P := parsers s'.
Hypothesis Hinit : Init fuel s = Ok (s', None).
Hypothesis Hroot : sRoot s' = Some root.
Hypothesis Hprog : program P (sKeywords s') root fuel = Ok fn.
Hypothesis Hkids : forall a o x, live a -> nth_error P a = Some o -> In x (kids o) -> live x.
Hypothesis Hnames : forall b a o, live a -> nth_error P a = Some o -> nameOf b o.
Hypothesis Hlive : live root /\ forall k, In k (sKeywords s') -> live k.

Theorem generate_writes : exists B1 B2 T,
  readFunc (join (B1 ++ [newline] ++ B2 ++ T)) = Some fn /\
  forall W, exists o err, Generate gendoc headCode opts W fuel s = Ok (s', o, err) /\
    (accepts W 0 (List.length (headPieces gendoc headCode opts ++ B1 ++ [newline] ++ B2 ++ T)) ->
       oTexts o = headPieces gendoc headCode opts ++ B1 ++ [newline] ++ B2 ++ T /\ err = None) /\
    (err = None -> exists H H' N N' T1 T2, headPieces gendoc headCode opts = H ++ H' /\ [newline] = N ++ N' /\ T = T1 ++ T2 /\
       oTexts o = H ++ B1 ++ N ++ B2 ++ T1).
Proof.
  set (hd := headPieces gendoc headCode opts). pose proof Hprog as HP. unfold program in HP. binv HP. destruct x as [st1 d1]. cbn [fst snd] in *. binv HP. destruct x as [st2 d2]. cbn [fst snd] in *. binv HP. destruct x as [st3 d3]. cbn [fst snd] in *.
  binv HP. rename x into ids. binv HP. rename x into rid. inversion HP as [Efn]. clear HP.
  destruct (kids_writes P false live fuel (walk_writes P false live Hkids (Hnames false) fuel) (sKeywords s') [] st1 d1 (proj2 Hlive) E) as (l1 & W1 & H1).
  destruct (walk_writes P false live Hkids (Hnames false) fuel root d1 st2 d2 (proj1 Hlive) E0) as (l2 & W2 & H2).
  destruct (walk_writes P true live Hkids (Hnames true) fuel root [] st3 d3 (proj1 Hlive) E1) as (l3 & W3 & H3).
  set (id := match rid with i :: _ => i | [] => 0 end) in *. set (T := tailPieces ids id id).
  exists l1, (l2 ++ l3), T. split.
  { apply readFunc_toks. unfold funcToks. cbn [fBody]. rewrite !flat_map_app, <- !app_assoc. rewrite !join_app.
    rewrite (W1 _). rewrite (write_newline _). rewrite (W2 _). rewrite (W3 _). unfold T. rewrite (write_tail (st1 ++ st2 ++ st3)). cbn [option_map]. auto. }
  intros W. unfold Generate. rewrite Hinit. cbn [bind]. rewrite Hroot. fold hd. destruct (fprintfs W hd (noOutput, None)) as [o0 err0] eqn:F0.
  destruct (fprintfs_prefix _ _ _ _ _ F0) as (H & H' & EH & TH & _). cbn [noOutput oTexts app] in TH.
  destruct (H1 W o0) as (d1' & o1 & e1 & G1 & A1 & B1). fold P. rewrite G1. cbn [bind].
  destruct e1 as [e1|].
  { eexists _, _. split; [reflexivity|]. split; [|discriminate]. rewrite app_length. intros Ha. apply accepts_app in Ha. destruct Ha as [Ha0 Ha]. rewrite app_length, accepts_app in Ha.
    rewrite fprintfs_all in F0 by auto. inversion F0; subst. destruct (A1 (proj1 Ha)) as (_ & _ & X). discriminate. }
  destruct (A1 (B1 eq_refl)) as (-> & -> & _).
  destruct (fprintf W newline (extend o0 l1, err0)) as [on errn] eqn:Fn.
  assert (Hn : exists N N', [newline] = N ++ N' /\ oTexts on = H ++ l1 ++ N).
  { destruct err0 as [e|].
    - cbn [fprintf] in Fn. injection Fn as <- <-. exists [], [newline]. split; auto. cbn [extend oTexts]. rewrite TH, app_nil_r. auto.
    - destruct (fprintfs_prefix W [newline] (extend o0 l1) on errn Fn) as (N & N' & Ea & Eb & _). exists N, N'. split; auto. rewrite Eb. cbn [extend oTexts]. rewrite TH, <- app_assoc. auto. }
  destruct Hn as (N & N' & EN & TN).
  destruct (H2 W on) as (d2' & o2 & e2 & G2 & A2 & B2). rewrite G2. cbn [bind].
  assert (Hfull : accepts W 0 (List.length (hd ++ l1 ++ [newline] ++ (l2 ++ l3) ++ T)) ->
     err0 = None /\ errn = None /\ on = extend noOutput (hd ++ l1 ++ [newline]) /\ accepts W (oCalls on) (List.length l2) /\
     accepts W (oCalls on + List.length l2) (List.length l3) /\ accepts W (oCalls on + List.length l2 + List.length l3) (List.length T)).
  { rewrite !app_length. rewrite !accepts_app. intros (X1 & X2 & X3 & (X4 & X5) & X6). rewrite fprintfs_all in F0 by auto. inversion F0; subst.
    change (fprintf W newline (extend (extend noOutput hd) l1, None)) with (fprintfs W [newline] (extend (extend noOutput hd) l1, None)) in Fn. rewrite fprintfs_all in Fn by auto. inversion Fn; subst.
    rewrite !extend_app, <- ?app_assoc. split; auto. split; auto. split; auto. cbn [extend oCalls noOutput]. rewrite !app_length. cbn [List.length] in *. rewrite !Nat.add_assoc in *. repeat split; assumption. }
  destruct e2 as [e2|].
  { eexists _, _. split; [reflexivity|]. split; [|discriminate]. intros Ha. destruct (Hfull Ha) as (_ & _ & _ & X & _). destruct (A2 X) as (_ & _ & Y). discriminate. }
  destruct (A2 (B2 eq_refl)) as (-> & -> & _).
  destruct (H3 W (extend on l2)) as (d3' & o3 & e3 & G3 & A3 & B3). rewrite G3. cbn [bind].
  destruct e3 as [e3|].
  { eexists _, _. split; [reflexivity|]. split; [|discriminate]. intros Ha. destruct (Hfull Ha) as (_ & _ & _ & _ & X & _). destruct (A3 X) as (_ & _ & Y). discriminate. }
  destruct (A3 (B3 eq_refl)) as (-> & -> & _). rewrite E2. cbn [bind]. rewrite E3. cbn [bind]. fold id. fold T.
  destruct (fprintfs W T (extend (extend on l2) l3, errn)) as [o4 e4] eqn:F4. eexists _, _. split; [reflexivity|]. split.
  - intros Ha. destruct (Hfull Ha) as (-> & -> & -> & _ & _ & X). split; auto. rewrite fprintfs_all in F4 by auto. inversion F4; subst. rewrite !extend_app. cbn [extend oTexts noOutput app]. rewrite <- !app_assoc. auto.
  - intros _. assert (HT : exists T1 T2, T = T1 ++ T2 /\ oTexts o4 = oTexts (extend (extend on l2) l3) ++ T1).
    { destruct errn as [e|].
      - rewrite fprintfs_err in F4. inversion F4; subst. exists [], T. rewrite app_nil_r. auto.
      - destruct (fprintfs_prefix _ _ _ _ _ F4) as (T1 & T2 & X & Y & _). eauto. }
    destruct HT as (T1 & T2 & ET & E4). exists H, H', N, N', T1, T2. split; auto. split; auto. split; auto. rewrite E4. rewrite extend_app. cbn [extend oTexts]. rewrite TN. rewrite <- !app_assoc. auto.
Qed.
End GENERATE.
