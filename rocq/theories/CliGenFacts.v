(** Facts about the generate command and main. *)
From Verif Require Import Base Utf8 Parser Build Syntax SelfData Define ListFacts ParseFacts FuelFacts TermFacts InitSpec InitFuel ApiSpec DefineFacts ReadFacts Cli CliSpec CliFacts Generate GenSpec GenFacts ArgSpec ArgFacts CliGen NoPanic DefSpec WsRefs ReadLang ReadMeans ReaderSafe CliSpec InitFuel.
Local Open Scope string_scope.
Local Open Scope list_scope.

Lemma flagSwitch_on name vs : flagSwitch name (rev vs) = switchedOn name vs.
Proof.
  unfold flagSwitch, switchedOn, parseBool. rewrite flagValue_last. unfold trueWords. destruct (existsb _ _); auto. destruct (existsb _ _); auto.
Qed.
Lemma generateFlags_plain : plainFlags generateFlags. Proof. plain. Qed.
Lemma generateArgs_plain : plainFlags generateArgs. Proof. plain. Qed.
Lemma commandLine_ext flags flags' args vs rest : (forall f, In f flags -> In f flags') -> commandLine flags args vs rest -> commandLine flags' args vs rest.
Proof.
  intros Hs H. induction H; [apply cl_end|apply cl_word; auto|apply cl_dashes|apply cl_value; auto|apply cl_equals; auto|apply cl_switch; auto|apply cl_switched; auto].
Qed.
Lemma generateFlags_args args v rest : parseFlags generateFlags args [] = Some (v, rest) <-> exists vs, commandLine generateArgs args vs rest /\ v = rev vs.
Proof.
  rewrite (flags_line _ _ _ _ generateFlags_plain). split; intros (vs & H & E); exists vs; (split; [|exact E]); revert H; apply commandLine_ext;
    intros f H; simpl in *; tauto.
Qed.

Theorem generate_zero gd hc W w args o : ~ asksHelp args ->
  ((exists fuel, generateCommand gd hc W fuel w args = Ok (0%Z, o)) <->
   exists vs rest src bs e s s', commandLine generateArgs args vs rest /\
     takes w (syntaxGiven vs rest) src /\ delivers w src bs e /\ Reads bs e s /\
     Generates gd hc (mkGenOptions (lastOf "package-name" vs) (switchedOn "export" vs)) W s s' o None).
Proof.
  intros Hh. apply not_help in Hh. unfold generateCommand. rewrite Hh. split.
  - intros [fuel H]. destruct (parseFlags generateFlags args []) as [[v rest]|] eqn:Ep; [|discriminate]. apply generateFlags_args in Ep. destruct Ep as (vs & Hv & ->).
    rewrite flagValue_last, flagSwitch_on, syntaxOptions_given in H. binv H. destruct x as [[s used]|]; [|discriminate]. binv H. destruct x as [[s' o'] [err|]]; [discriminate|]. inversion H; subst.
    apply openSyntax_ok in E. destruct E as (src & bs & e & G & D & R & _). apply getSource_takes in G. exists vs, rest, src, bs, e, s, s'. repeat (split; auto). exists fuel; auto.
  - intros (vs & rest & src & bs & e & s & s' & Hv & G & D & R & [f2 HG]).
    assert (Ep : parseFlags generateFlags args [] = Some (rev vs, rest)) by (apply generateFlags_args; eauto). rewrite Ep.
    apply getSource_takes in G. destruct (openSyntax_give _ _ _ _ _ _ G D R) as (f1 & used & _ & O). exists (f1 + f2). rewrite syntaxOptions_given, O by lia. cbn [bind].
    rewrite flagValue_last, flagSwitch_on. rewrite (Generate_mono _ _ _ _ f2 (f1 + f2) s ltac:(lia)) by congruence. rewrite HG. reflexivity.
Qed.
Theorem generate_codes gd hc W fuel w args code o : generateCommand gd hc W fuel w args = Ok (code, o) -> code = 0%Z \/ code = (-1)%Z.
Proof.
  unfold generateCommand. intros H. destruct (isHelp args); [inversion H; auto|]. destruct (parseFlags _ args []) as [[v rest]|]; [|inversion H; auto].
  binv H. destruct x as [[s used]|]; [|inversion H; auto]. binv H. destruct x as [[s' o'] [err|]]; inversion H; auto.
Qed.
Lemma generateCommand_mono gd hc W n m w args : n <= m -> leRes (generateCommand gd hc W n w args) (generateCommand gd hc W m w args).
Proof.
  intros H. unfold generateCommand. destruct (isHelp args); [apply leRes_same|]. destruct (parseFlags _ args []) as [[v rest]|]; [|apply leRes_same].
  apply leRes_bind.
  - unfold openSyntax. destruct (openSource _ _ _) as [[src [bs e]]|]; [|apply leRes_same]. apply leRes_bind; [now apply ReadSyntax_mono|]. intros; apply leRes_same.
  - intros [[s used]|]; [|apply leRes_same]. apply leRes_bind; [now apply Generate_mono|]. intros; apply leRes_same.
Qed.
Theorem generate_one gd hc W w args n m r r' : generateCommand gd hc W n w args = Ok r -> generateCommand gd hc W m w args = Ok r' -> r = r'.
Proof.
  intros Ha Hb. destruct (Nat.le_ge_cases n m) as [H|H]; pose proof (generateCommand_mono gd hc W _ _ w args H) as X; unfold leRes in X; rewrite ?Ha, ?Hb in X; specialize (X ltac:(discriminate)); congruence.
Qed.
Theorem generate_help gd hc W fuel w args : asksHelp args -> generateCommand gd hc W fuel w args = Ok (0%Z, noOutput).
Proof. intros H. apply isHelp_asks in H. unfold generateCommand. rewrite H. auto. Qed.

Definition commandNames : list string := ["check-syntax"; "generate"; "check"; "show"; "help"; "-help"].
Theorem main_dispatch gd hc W w prog cmd args code :
  Exits (fun n => mainExit gd hc W n w (prog :: cmd :: args)) code <->
  (cmd = "check-syntax" /\ Exits (fun n => checkSyntax n w args) code) \/
  (cmd = "generate" /\ exists fuel o, generateCommand gd hc W fuel w args = Ok (code, o)) \/
  (cmd = "check" /\ Exits (fun n => check n w args) code) \/
  (cmd = "show" /\ exists fuel sh, show fuel w args = Ok (code, sh)) \/
  (In cmd ["help"; "-help"] /\ code = 0%Z) \/
  (~ In cmd commandNames /\ code = (-1)%Z).
Proof.
  unfold Exits, mainExit, mainCode.
  destruct (String.eqb_spec cmd "generate") as [->|Hg].
  { split.
    - intros [n H]. binv H. destruct x as [c o]. inversion H; subst. right. left. eauto.
    - intros [[X _]|[[_ (fuel & o & H)]|[[X _]|[[X _]|[[[X|[X|[]]] _]|[X _]]]]]]; try discriminate; [|exfalso; apply X; simpl; auto]. exists fuel. rewrite H. auto. }
  destruct (String.eqb_spec cmd "check-syntax") as [->|Hs].
  { split.
    - intros [n H]. binv H. binv E. inversion E; subst. inversion H; subst. left. eauto.
    - intros [[_ [fuel H]]|[[X _]|[[X _]|[[X _]|[[[X|[X|[]]] _]|[X _]]]]]]; try discriminate; [|exfalso; apply X; simpl; auto]. exists fuel. rewrite H. auto. }
  destruct (String.eqb_spec cmd "check") as [->|Hc].
  { split.
    - intros [n H]. binv H. binv E. inversion E; subst. inversion H; subst. right. right. left. eauto.
    - intros [[X _]|[[X _]|[[_ [fuel H]]|[[X _]|[[[X|[X|[]]] _]|[X _]]]]]]; try discriminate; [|exfalso; apply X; simpl; auto]. exists fuel. rewrite H. auto. }
  destruct (String.eqb_spec cmd "show") as [->|Hw].
  { split.
    - intros [n H]. binv H. binv E. destruct x0 as [c sh]. inversion E; subst. inversion H; subst. right. right. right. left. split; auto. exists n, sh. auto.
    - intros [[X _]|[[X _]|[[X _]|[[_ (fuel & sh & H)]|[[[X|[X|[]]] _]|[X _]]]]]]; try discriminate; [|exfalso; apply X; simpl; auto]. exists fuel. rewrite H. auto. }
  destruct (String.eqb_spec cmd "help") as [->|Hh]; [|destruct (String.eqb_spec cmd "-help") as [->|Hh']]; cbn [orb bind].
  - split; [intros [n H]; inversion H; subst; do 4 right; left; simpl; auto|].
    intros [[X _]|[[X _]|[[X _]|[[X _]|[[_ ->]|[X _]]]]]]; try discriminate; [exists 0; auto|exfalso; apply X; simpl; auto 10].
  - split; [intros [n H]; inversion H; subst; do 4 right; left; simpl; auto|].
    intros [[X _]|[[X _]|[[X _]|[[X _]|[[_ ->]|[X _]]]]]]; try discriminate; [exists 0; auto|exfalso; apply X; simpl; auto 10].
  - split.
    + intros [n H]; inversion H; subst. do 5 right. split; auto. simpl. intuition congruence.
    + intros [[X _]|[[X _]|[[X _]|[[X _]|[[[X|[X|[]]] _]|[_ ->]]]]]]; try congruence. exists 0. auto.
Qed.
Theorem main_none gd hc W w osArgs : List.length osArgs <= 1 -> Exits (fun n => mainExit gd hc W n w osArgs) (-1)%Z.
Proof. intros H. exists 0. destruct osArgs as [|a [|b l]]; simpl in *; auto; lia. Qed.

(** ** Generate ends *)
Section ENDS.
Variable W : writer.
Variable P : pheap.
Variable b : bool.
Definition remaining (done : list string) : nat := List.length (filter (fun o => negb (existsb (String.eqb (nodeName o)) done)) P).
Lemma existsb_incl (done done' : list string) x : incl done done' -> existsb (String.eqb x) done = true -> existsb (String.eqb x) done' = true.
Proof. intros Hi H. apply existsb_exists in H. destruct H as (y & Hy & He). apply existsb_exists. exists y. split; auto. Qed.
Lemma filter_less (f g : pobj -> bool) (l : list pobj) : (forall x, g x = true -> f x = true) -> List.length (filter g l) <= List.length (filter f l).
Proof.
  intros H. induction l as [|x l IH]; simpl; auto. specialize (H x). destruct (g x).
  - rewrite H by auto. simpl. lia.
  - destruct (f x); simpl; lia.
Qed.
Lemma filter_less1 (f g : pobj -> bool) (l : list pobj) x : (forall x, g x = true -> f x = true) -> In x l -> f x = true -> g x = false -> List.length (filter g l) < List.length (filter f l).
Proof.
  intros H. induction l as [|y l IH]; simpl; [intros []|]. intros [->|Hi] Hf Hg.
  - rewrite Hf, Hg. simpl. pose proof (filter_less f g l H). lia.
  - specialize (IH Hi Hf Hg). pose proof (H y) as Hy. destruct (g y); [rewrite Hy by auto; simpl; lia|]. destruct (f y); simpl; lia.
Qed.
Lemma remaining_incl done done' : incl done done' -> remaining done' <= remaining done.
Proof.
  intros H. apply filter_less. intros x Hx. destruct (existsb (String.eqb (nodeName x)) done) eqn:E; auto. rewrite (existsb_incl _ _ _ H E) in Hx. auto.
Qed.
Lemma remaining_next done a ob : nth_error P a = Some ob -> existsb (String.eqb (nodeName ob)) done = false -> remaining (nodeName ob :: done) < remaining done.
Proof.
  intros Ha He. apply filter_less1 with (x := ob).
  - intros x Hx. destruct (existsb (String.eqb (nodeName x)) done) eqn:E; auto. simpl in Hx. rewrite E, orb_true_r in Hx. auto.
  - apply nth_error_In in Ha. auto.
  - rewrite He. auto.
  - simpl. rewrite String.eqb_refl. auto.
Qed.
Definition goesOn (done : list string) (r : res (list string * output * option nat)) : Prop :=
  match r with Ok (done', _, _) => incl done done' | Panic _ => True | NoFuel => False end.
Lemma generateKids_ends rec n : (forall a done o, remaining done < n -> goesOn done (rec a done o)) ->
  forall l done o, remaining done < n -> goesOn done (generateKids rec l done o).
Proof.
  intros Hr. induction l as [|x l IH]; intros done o Hn; simpl; [apply incl_refl|]. pose proof (Hr x done o Hn) as Hx.
  destruct (rec x done o) as [[[d o1] [e|]]|w|]; cbn [bind]; auto. simpl in Hx. pose proof (remaining_incl _ _ Hx). pose proof (IH d o1 ltac:(lia)) as H2.
  unfold goesOn in *. destruct (generateKids rec l d o1) as [[[d2 o2] e2]|w|]; auto. eapply incl_tran; eauto.
Qed.
Lemma kidIDs_ends l : kidIDs P l <> NoFuel.
Proof. induction l as [|x l IH]; simpl; [discriminate|]. destruct (nth_error P x); [|discriminate]. destruct (kidIDs P l); simpl; congruence. Qed.
Lemma generate_ends n : forall a done o, remaining done < n -> goesOn done (generate W P b n a done o).
Proof.
  induction n as [|n IH]; intros a done o Hn; [lia|]. cbn [generate]. destruct (nth_error P a) as [ob|] eqn:Ea; [|exact I].
  assert (G : goesOn done (if existsb (String.eqb (nodeName ob)) done then Ok (done, o, None)
        else
          let done := nodeName ob :: done in
          let (o, err) := fprintfs W (declPieces b ob) (o, None) in
          match kids ob with
          | [] => Ok (done, o, err)
          | ks =>
            r <- generateKids (generate W P b n) ks done o ;;
            match r with
            | (done, o, Some e) => Ok (done, o, Some e)
            | (done, o, None) =>
              ids <- kidIDs P ks ;;
              let (o, err) := fprintfs W (linkPieces b (nodeID ob) (isSeq ob) ids) (o, err) in Ok (done, o, err)
            end
          end)).
  { destruct (existsb _ done) eqn:Ed; [apply incl_refl|]. cbv zeta. destruct (fprintfs W (declPieces b ob) (o, None)) as [o1 err].
    assert (Hd : incl done (nodeName ob :: done)) by (intros x; right; auto).
    destruct (kids ob) as [|k ks]; [exact Hd|]. pose proof (remaining_next _ _ _ Ea Ed) as Hm.
    pose proof (generateKids_ends _ n IH (k :: ks) (nodeName ob :: done) o1 ltac:(lia)) as Hk. unfold goesOn in *.
    destruct (generateKids _ (k :: ks) _ o1) as [[[d o2] [e|]]|w|]; cbn [bind]; auto; [eapply incl_tran; eauto|].
    pose proof (kidIDs_ends (k :: ks)) as Hq. destruct (kidIDs P (k :: ks)); cbn [bind]; auto. destruct (fprintfs W _ _). eapply incl_tran; eauto. }
  destruct ob; auto. destruct (fprintfs W _ _). apply incl_refl.
Qed.
Lemma remaining_all done : remaining done <= List.length P.
Proof. unfold remaining. induction P as [|x l IH]; simpl; auto. destruct (negb _); simpl; lia. Qed.
End ENDS.

Theorem Generate_terminates gd hc opts W s : reachable s -> exists fuel0, forall fuel, fuel0 <= fuel -> Generate gd hc opts W fuel s <> NoFuel.
Proof.
  intros Hr. destruct (Init_terminates s Hr) as (f0 & H0). pose proof (H0 f0 (Nat.le_refl _)) as HI.
  destruct (Init f0 s) as [[s1 r]|w|] eqn:EI; [| |contradiction].
  - exists (f0 + S (List.length (parsers s1))). intros fuel Hf. assert (E : Init fuel s = Ok (s1, r)).
    { pose proof (Init_mono f0 fuel s ltac:(lia)) as M. unfold leRes in M. rewrite EI in M. apply M. discriminate. }
    unfold Generate. rewrite E. cbn [bind]. destruct r as [err|]; [discriminate|]. destruct (sRoot s1) as [root|]; [|discriminate]. cbv zeta.
    destruct (fprintfs W _ _) as [o err].
    assert (HL : forall done, remaining (parsers s1) done < fuel) by (intros d; pose proof (remaining_all (parsers s1) d); lia).
    pose proof (generateKids_ends (parsers s1) (generate W (parsers s1) false fuel) fuel (generate_ends W (parsers s1) false fuel) (sKeywords s1) [] o (HL _)) as G1.
    destruct (generateKids _ _ _ _) as [[[d1 o1] [e1|]]|w1|]; cbn [bind]; try discriminate; [|destruct G1].
    destruct (fprintf W newline _) as [o2 e2]. pose proof (generate_ends W (parsers s1) false fuel root d1 o2 (HL _)) as G2.
    destruct (generate W _ false _ _ _ _) as [[[d3 o3] [e3|]]|w3|]; cbn [bind]; try discriminate; [|destruct G2].
    pose proof (generate_ends W (parsers s1) true fuel root [] o3 (HL _)) as G3.
    destruct (generate W _ true _ _ _ _) as [[[d4 o4] [e4|]]|w4|]; cbn [bind]; try discriminate; [|destruct G3].
    pose proof (kidIDs_ends (parsers s1) (sKeywords s1)) as K1. destruct (kidIDs _ (sKeywords s1)); cbn [bind]; try discriminate; [|congruence].
    pose proof (kidIDs_ends (parsers s1) [root]) as K2. destruct (kidIDs _ [root]); cbn [bind]; try discriminate; [|congruence].
    destruct (fprintfs W _ _). discriminate.
  - exists f0. intros fuel Hf. assert (E : Init fuel s = Panic w).
    { pose proof (Init_mono f0 fuel s Hf) as M. unfold leRes in M. rewrite EI in M. apply M. discriminate. }
    unfold Generate. rewrite E. discriminate.
Qed.
Theorem generateCommand_ends gd hc W w args : exists fuel0, forall fuel, fuel0 <= fuel -> generateCommand gd hc W fuel w args <> NoFuel.
Proof.
  change (ends (fun n => generateCommand gd hc W n w args)). unfold generateCommand. destruct (isHelp args); [apply ends_now; discriminate|].
  destruct (parseFlags _ args []) as [[v rest]|]; [|apply ends_now; discriminate].
  apply ends_bind.
  - intros n m H. now apply openSyntax_mono.
  - apply openSyntax_ends.
  - intros n [[s used]|] E; [|apply ends_now; discriminate]. apply ends_bind.
    + intros k m H. now apply Generate_mono.
    + apply Generate_terminates. eapply openSyntax_reachable; eauto.
    + intros k [[s' o] [err|]] _; apply ends_now; discriminate.
Qed.

(** ** no panic *)
Section SAFE.
Variable W : writer.
Variable P : pheap.
Variable b : bool.
Variable kws : list addr.
Hypothesis Hwf : wfHeap P kws.
Definition calm {A} (r : res A) : Prop := match r with Panic _ => False | _ => True end.
Lemma kids_range a ob x : nth_error P a = Some ob -> In x (kids ob) -> x < List.length P.
Proof.
  destruct Hwf as (H1 & H2 & _). intros Ha Hx. destruct ob; simpl in Hx; [destruct Hx|..].
  - eapply H1; eauto.
  - eapply H2; eauto.
Qed.
Lemma generateKids_calm rec l : (forall a done o, a < List.length P -> calm (rec a done o)) -> (forall x, In x l -> x < List.length P) -> forall done o, calm (generateKids rec l done o).
Proof.
  intros Hr. induction l as [|x l IH]; intros Hl done o; simpl; auto. pose proof (Hr x done o (Hl x (or_introl eq_refl))) as Hx.
  destruct (rec x done o) as [[[d o1] [e|]]|w|]; cbn [bind]; auto. apply IH. intros y Hy. apply Hl. right. auto.
Qed.
Lemma kidIDs_calm l : (forall x, In x l -> x < List.length P) -> calm (kidIDs P l).
Proof.
  induction l as [|x l IH]; intros Hl; simpl; auto. destruct (nth_error P x) eqn:E; [|apply nth_error_None in E; specialize (Hl x (or_introl eq_refl)); lia].
  assert (Hl' : forall y, In y l -> y < List.length P) by (intros y Hy; apply Hl; right; auto). specialize (IH Hl'). destruct (kidIDs P l); simpl; auto.
Qed.
Lemma generate_calm n : forall a done o, a < List.length P -> calm (generate W P b n a done o).
Proof.
  induction n as [|n IH]; intros a done o Ha; [exact I|]. cbn [generate]. destruct (nth_error P a) as [ob|] eqn:Ea; [|apply nth_error_None in Ea; lia].
  pose proof (kids_range a ob) as Hk.
  assert (G : calm (if existsb (String.eqb (nodeName ob)) done then Ok (done, o, None)
        else
          let done := nodeName ob :: done in
          let (o, err) := fprintfs W (declPieces b ob) (o, None) in
          match kids ob with
          | [] => Ok (done, o, err)
          | ks =>
            r <- generateKids (generate W P b n) ks done o ;;
            match r with
            | (done, o, Some e) => Ok (done, o, Some e)
            | (done, o, None) =>
              ids <- kidIDs P ks ;;
              let (o, err) := fprintfs W (linkPieces b (nodeID ob) (isSeq ob) ids) (o, err) in Ok (done, o, err)
            end
          end)).
  { destruct (existsb _ done); [exact I|]. cbv zeta. destruct (fprintfs W (declPieces b ob) (o, None)) as [o1 err].
    destruct (kids ob) as [|k ks]; [exact I|]. pose proof (generateKids_calm _ (k :: ks) IH (fun x Hx => Hk x Ea Hx) (nodeName ob :: done) o1) as G.
    destruct (generateKids _ (k :: ks) _ o1) as [[[d o2] [e|]]|w|]; cbn [bind]; auto.
    pose proof (kidIDs_calm (k :: ks) (fun x Hx => Hk x Ea Hx)) as Hq. destruct (kidIDs P (k :: ks)); cbn [bind]; auto. destruct (fprintfs W _ _). exact I. }
  destruct ob; auto. destruct (fprintfs W _ _). exact I.
Qed.
End SAFE.
Lemma Init_iinv n s s' : reachable s -> Init n s = Ok (s', None) -> iinv s'.
Proof.
  intros Hr H. pose proof (reachable_sinv _ Hr) as Hs. unfold sinv in Hs. destruct (sInitFailed s) eqn:Ef; [unfold Init in H; rewrite Ef in H; discriminate|].
  destruct (sInitialized s) eqn:Ei; [unfold Init in H; rewrite Ef, Ei in H; inversion H; subst; exact Hs|]. eapply Init_dinv; eauto.
Qed.
Lemma Generate_calm gd hc opts W fuel s s' r : reachable s -> Init fuel s = Ok (s', r) -> calm (Generate gd hc opts W fuel s).
Proof.
  intros Hr HI. unfold Generate. rewrite HI. cbn [bind]. destruct r as [err|]; [exact I|].
  destruct (Init_iinv _ _ _ Hr HI) as [(root & Er & [_ _ Wf Rt])]. rewrite Er. cbv zeta. destruct (fprintfs W _ _) as [o err].
  pose proof Wf as (_ & _ & Hkw).
  pose proof (generateKids_calm (parsers s') (generate W (parsers s') false fuel) (sKeywords s') (generate_calm W (parsers s') false _ Wf fuel) Hkw [] o) as G1.
  destruct (generateKids _ _ _ _) as [[[d1 o1] [e1|]]|w1|]; cbn [bind]; auto.
  destruct (fprintf W newline _) as [o2 e2]. pose proof (generate_calm W (parsers s') false _ Wf fuel root d1 o2 Rt) as G2.
  destruct (generate W _ false _ _ _ _) as [[[d3 o3] [e3|]]|w3|]; cbn [bind]; auto.
  pose proof (generate_calm W (parsers s') true _ Wf fuel root [] o3 Rt) as G3.
  destruct (generate W _ true _ _ _ _) as [[[d4 o4] [e4|]]|w4|]; cbn [bind]; auto.
  pose proof (kidIDs_calm (parsers s') (sKeywords s') Hkw) as K1. destruct (kidIDs _ (sKeywords s')); cbn [bind]; auto.
  pose proof (kidIDs_calm (parsers s') [root] ltac:(intros x [<-|[]]; auto)) as K2. destruct (kidIDs _ [root]); cbn [bind]; auto.
  destruct (fprintfs W _ _). exact I.
Qed.
Lemma made_reachable s : made s -> reachable s.
Proof.
  induction 1 as [|s d s' H IH E|s fuel input e s' H IH E]; [apply re_new|exact (rawSteps_reachable _ _ (call_raw _ _ _ _ E) IH)|exact (rawSteps_reachable _ _ (read_raw _ _ _ _ _ _ E) IH)].
Qed.
Theorem Generate_returns gd hc opts W s : made s -> exists s' o err, Generates gd hc opts W s s' o err.
Proof.
  intros Hm. pose proof (made_reachable _ Hm) as Hr. destruct (made_init s Hm) as (n0 & H0). destruct (Generate_terminates gd hc opts W s Hr) as (n1 & H1).
  destruct (H0 (n0 + n1) ltac:(lia)) as (s' & r & HI). pose proof (Generate_calm gd hc opts W _ _ _ _ Hr HI) as Hc. specialize (H1 (n0 + n1) ltac:(lia)).
  destruct (Generate gd hc opts W (n0 + n1) s) as [[[s1 o] err]|w|] eqn:E; [|destruct Hc|contradiction]. exists s1, o, err, (n0 + n1). exact E.
Qed.

Lemma openSyntax_calm n w o : cleanSources w -> cleanOptions o -> calm (openSyntax n w o).
Proof.
  intros Hw Ho. unfold openSyntax. destruct (openSource w false o) as [[src [bs e]]|] eqn:Es; [|exact I].
  assert (Hv : ~ In runeError (decodeUtf8 bs)).
  { unfold openSource in Es. destruct (getSource _ o) as [[|name|t]|] eqn:Eg; [|..|discriminate].
    - destruct (wStdin w) as [c|] eqn:Ei; inversion Es; subst. apply (Hw SrcInput bs e); [discriminate|]. apply dl_input. auto.
    - destruct (String.eqb_spec name "") as [->|Hn]; [inversion Es; subst; intros []|]. destruct (wFile w name) as [c|] eqn:Ei; inversion Es; subst. apply (Hw (SrcFile name) bs e); [discriminate|]. apply dl_file; auto.
    - inversion Es; subst. replace t with (foInline o); [exact Ho|]. clear - Eg. unfold getSource in Eg.
      repeat match type of Eg with context[if ?c then _ else _] => destruct c; try discriminate end. inversion Eg; auto. }
  pose proof (read_noPanic_reader emptySyntax (decodeUtf8 bs) e Hv) as Hn. destruct (ReadSyntax n emptySyntax (decodeUtf8 bs) e) as [[s [err|]]|why|] eqn:E; cbn [bind]; try exact I. apply Hn. exists n, why. exact E.
Qed.
Theorem generate_returns gd hc W w args : cleanSources w -> (forall vs rest, commandLine generateArgs args vs rest -> cleanOptions (syntaxGiven vs rest)) ->
  exists fuel code o, generateCommand gd hc W fuel w args = Ok (code, o) /\ (code = 0%Z \/ code = (-1)%Z).
Proof.
  intros Hw Ho. destruct (generateCommand_ends gd hc W w args) as (f0 & H0).
  assert (Hc : forall fuel, f0 <= fuel -> exists fuel', fuel <= fuel' /\ calm (generateCommand gd hc W fuel' w args)).
  { intros fuel Hf. unfold generateCommand. destruct (isHelp args); [exists fuel; split; [lia|exact I]|]. destruct (parseFlags _ args []) as [[v rest]|] eqn:Ep; [|exists fuel; split; [lia|exact I]].
    apply generateFlags_args in Ep. destruct Ep as (vs & Hv & ->). rewrite syntaxOptions_given.
    destruct (openSyntax_ends w (syntaxGiven vs rest)) as (f1 & H1).
    destruct (openSyntax f1 w (syntaxGiven vs rest)) as [[[s used]|]|why|] eqn:Eo.
    - assert (Hm : made s). { apply openSyntax_ok in Eo. destruct Eo as (src & bs & e & _ & _ & [f R] & _). eapply made_read; [apply made_new|exact R]. }
      destruct (made_init s Hm) as (f2 & H2). destruct (H2 (fuel + f1 + f2) ltac:(lia)) as (s' & r & HI). exists (fuel + f1 + f2). split; [lia|].
      rewrite (openSyntax_mono w _ f1 (fuel + f1 + f2) ltac:(lia)) by congruence. rewrite Eo. cbn [bind].
      pose proof (Generate_calm gd hc (mkGenOptions (flagValue "package-name" (rev vs)) (flagSwitch "export" (rev vs))) W _ _ _ _ (made_reachable _ Hm) HI) as G.
      destruct (Generate _ _ _ _ _ s) as [[[s1 o1] [e1|]]|w1|]; cbn [bind]; auto.
    - exists (fuel + f1). split; [lia|]. rewrite (openSyntax_mono w _ f1 (fuel + f1) ltac:(lia)) by congruence. rewrite Eo. exact I.
    - exfalso. pose proof (openSyntax_calm f1 w _ Hw (Ho _ _ Hv)) as X. rewrite Eo in X. exact X.
    - exfalso. exact (H1 f1 (Nat.le_refl _) Eo). }
  destruct (Hc f0 (Nat.le_refl _)) as (fuel & Hf & C). specialize (H0 fuel Hf). destruct (generateCommand gd hc W fuel w args) as [[code o]|why|] eqn:E; [|destruct C|contradiction].
  exists fuel, code, o. split; auto. eapply generate_codes; eauto.
Qed.
Theorem checkSyntax_returns w args : cleanSources w -> (forall vs rest, commandLine syntaxArgs args vs rest -> cleanOptions (syntaxGiven vs rest)) ->
  Exits (fun n => checkSyntax n w args) 0 \/ Exits (fun n => checkSyntax n w args) (-1).
Proof.
  intros Hw Ho. enough (H : exists code, Exits (fun n => checkSyntax n w args) code).
  { destruct H as [code H]. destruct (checkSyntax_codes _ _ _ H) as [->| ->]; auto. }
  unfold Exits, checkSyntax. destruct (isHelp args); [exists 0%Z, 0; auto|]. destruct (parseFlags _ args []) as [[v rest]|] eqn:Ep; [|exists (-1)%Z, 0; auto].
  change syntaxFlags with syntaxArgs in Ep. apply (flags_line _ _ _ _ syntaxArgs_plain) in Ep. destruct Ep as (vs & Hv & ->). rewrite syntaxOptions_given.
  destruct (openSyntax_ends w (syntaxGiven vs rest)) as (f1 & H1).
  destruct (openSyntax f1 w (syntaxGiven vs rest)) as [[[s used]|]|why|] eqn:Eo.
  - assert (Hm : made s). { apply openSyntax_ok in Eo. destruct Eo as (src & bs & e & _ & _ & [f R] & _). eapply made_read; [apply made_new|exact R]. }
    destruct (made_init s Hm) as (f2 & H2). destruct (H2 (f1 + f2) ltac:(lia)) as (s' & r & HI).
    exists (match r with None => 0%Z | Some _ => (-1)%Z end), (f1 + f2). rewrite (openSyntax_mono w _ f1 (f1 + f2) ltac:(lia)) by congruence. rewrite Eo. cbn [bind]. rewrite HI. cbn [bind]. destruct r; auto.
  - exists (-1)%Z, f1. rewrite Eo. auto.
  - exfalso. pose proof (openSyntax_calm f1 w _ Hw (Ho _ _ Hv)) as X. rewrite Eo in X. exact X.
  - exfalso. exact (H1 f1 (Nat.le_refl _) Eo).
Qed.

(** ** the commands agree *)
Lemma fprintfs_never texts : forall o, snd (fprintfs neverFails texts (o, None)) = None.
Proof. induction texts as [|t texts IH]; intros o; [reflexivity|]. simpl. apply IH. Qed.
Lemma generateKids_never rec l : (forall a done o d o' e, rec a done o = Ok (d, o', e) -> e = None) ->
  forall done o d o' e, generateKids rec l done o = Ok (d, o', e) -> e = (@None nat).
Proof.
  intros Hr. induction l as [|x l IH]; intros done o d o' e H; simpl in H; [inversion H; auto|]. binv H. destruct x0 as [[d1 o1] [e1|]]; [apply Hr in E; discriminate|]. eapply IH; eauto.
Qed.
Lemma generate_never P b n : forall a done o d o' e, generate neverFails P b n a done o = Ok (d, o', e) -> e = None.
Proof.
  induction n as [|n IH]; intros a done o d o' e H; [discriminate|]. cbn [generate] in H. destruct (nth_error P a) as [ob|]; [|discriminate].
  assert (G : (if existsb (String.eqb (nodeName ob)) done then Ok (done, o, None)
        else
          let done := nodeName ob :: done in
          let (o, err) := fprintfs neverFails (declPieces b ob) (o, None) in
          match kids ob with
          | [] => Ok (done, o, err)
          | ks =>
            r <- generateKids (generate neverFails P b n) ks done o ;;
            match r with
            | (done, o, Some e) => Ok (done, o, Some e)
            | (done, o, None) =>
              ids <- kidIDs P ks ;;
              let (o, err) := fprintfs neverFails (linkPieces b (nodeID ob) (isSeq ob) ids) (o, err) in Ok (done, o, err)
            end
          end) = Ok (d, o', e) -> e = None).
  { clear H. intros H. destruct (existsb _ done); [inversion H; auto|]. cbv zeta in H. pose proof (fprintfs_never (declPieces b ob) o) as F. destruct (fprintfs neverFails (declPieces b ob) (o, None)) as [o1 err]. simpl in F. subst err.
    destruct (kids ob) as [|k ks]; [inversion H; auto|]. binv H. destruct x as [[d1 o2] [e1|]]; [apply (generateKids_never _ _ IH) in E; discriminate|]. binv H.
    pose proof (fprintfs_never (linkPieces b (nodeID ob) (isSeq ob) x) o2) as F2. destruct (fprintfs neverFails (linkPieces _ _ _ _) (o2, None)) as [o3 err]. simpl in F2. inversion H; subst. auto. }
  destruct ob; auto. clear G. match type of H with context [declPieces b ?x] => pose proof (fprintfs_never (declPieces b x) o) as F end.
  destruct (fprintfs neverFails _ _) as [o1 err]. simpl in F. inversion H; subst. auto.
Qed.
Lemma Generates_never gd hc opts s s' o err : Generates gd hc opts neverFails s s' o err ->
  match err with None => Inits s s' None | Some (inl e) => Inits s s' (Some e) | Some (inr _) => False end.
Proof.
  intros [fuel H]. unfold Generate in H. binv H. destruct x as [s1 [e|]]; [inversion H; subst; exists fuel; auto|].
  destruct (sRoot s1) as [root|]; [|discriminate]. cbv zeta in H. destruct (fprintfs neverFails _ _) as [o1 err1]. binv H. destruct x as [[d1 o2] [e1|]]; [apply (generateKids_never _ _ (generate_never (parsers s1) false fuel)) in E0; discriminate|].
  destruct (fprintf neverFails newline _) as [o3 e3]. binv H. destruct x as [[d2 o4] [e1|]]; [apply generate_never in E1; discriminate|].
  binv H. destruct x as [[d4 o5] [e1|]]; [apply generate_never in E2; discriminate|]. binv H. binv H. destruct (fprintfs neverFails _ _) as [o6 e6]. inversion H; subst. exists fuel. auto.
Qed.
Theorem generate_checkSyntax gd hc w args vs rest : ~ asksHelp args -> commandLine syntaxArgs args vs rest ->
  ((exists fuel o, generateCommand gd hc neverFails fuel w args = Ok (0%Z, o)) <-> Exits (fun n => checkSyntax n w args) 0).
Proof.
  intros Hh Hv. rewrite (checkSyntax_line w args Hh).
  assert (Hv2 : commandLine generateArgs args vs rest) by (revert Hv; apply commandLine_ext; intros f Hf; simpl in *; tauto). split.
  - intros (fuel & o & H). assert (H' : exists fuel, generateCommand gd hc neverFails fuel w args = Ok (0%Z, o)) by eauto.
    apply (generate_zero _ _ _ _ _ _ Hh) in H'. destruct H' as (vs' & rest' & src & bs & e & s & s' & L & T & D & R & G).
    destruct (line_one _ _ _ _ _ _ generateArgs_plain L Hv2) as [-> ->]. apply Generates_never in G. exists vs, rest, src, bs, e, s, s'. auto.
  - intros (vs' & rest' & src & bs & e & s & s' & L & T & D & R & HI). destruct (line_one _ _ _ _ _ _ syntaxArgs_plain L Hv) as [-> ->].
    assert (Hm : made s) by (destruct R as [f R]; eapply made_read; [apply made_new|exact R]).
    destruct (Generate_returns gd hc (mkGenOptions (lastOf "package-name" vs) (switchedOn "export" vs)) neverFails s Hm) as (s1 & o & err & G).
    pose proof (Generates_never _ _ _ _ _ _ _ G) as K. destruct err as [[er|er]|]; [|destruct K|].
    { exfalso. destruct K as [n1 K], HI as [n2 HI]. pose proof (Init_mono n1 (n1 + n2) s ltac:(lia)) as M1. pose proof (Init_mono n2 (n1 + n2) s ltac:(lia)) as M2. unfold leRes in M1, M2. rewrite K in M1. rewrite HI in M2.
      specialize (M1 ltac:(discriminate)). specialize (M2 ltac:(discriminate)). congruence. }
    assert (Z : exists fuel, generateCommand gd hc neverFails fuel w args = Ok (0%Z, o)).
    { apply (generate_zero _ _ _ _ _ _ Hh). exists vs, rest, src, bs, e, s, s1. auto. }
    destruct Z as [fuel Z]. eauto.
Qed.
Theorem show_check w args vs rest : ~ asksHelp args -> commandLine checkArgs args vs rest ->
  ((exists fuel sh, show fuel w args = Ok (0%Z, Some sh)) <-> Exits (fun n => check n w args) 0).
Proof.
  intros Hh Hv. rewrite (check_line w args Hh).
  assert (Hv2 : commandLine showArgs args vs rest) by (revert Hv; apply commandLine_ext; intros f Hf; simpl in *; tauto). split.
  - intros (fuel & sh & H). assert (H' : exists fuel, show fuel w args = Ok (0%Z, Some sh)) by eauto. apply (show_line _ _ _ Hh) in H'.
    destruct H' as (vs' & rest' & t & toks & L & T & _). destruct (line_one _ _ _ _ _ _ showArgs_plain L Hv2) as [-> ->]. eauto 8.
  - intros (vs' & rest' & t & toks & L & T). destruct (line_one _ _ _ _ _ _ checkArgs_plain L Hv) as [-> ->].
    destruct (proj2 (show_line w args (mapNode toks t) Hh)) as [fuel F]; [exists vs, rest, t, toks; auto|]. eauto.
Qed.
Lemma Parses_tree_inits s u e s' t toks : Parses s u e s' (Tree t toks) -> Inits s s' None.
Proof.
  intros [fuel H]. unfold Parse in H. binv H. destruct x as [s1 [er|]]; [discriminate|]. destruct (sRoot s1); [|discriminate]. binv H. inversion H; subst. exists fuel. auto.
Qed.
Theorem check_checkSyntax w args vs rest args' vs' : ~ asksHelp args -> commandLine checkArgs args vs rest ->
  ~ asksHelp args' -> commandLine syntaxArgs args' vs' [] ->
  lastOf "syntax" vs' = lastOf "syntax" vs -> lastOf "syntax-string" vs' = lastOf "syntax-string" vs ->
  Exits (fun n => check n w args) 0 -> Exits (fun n => checkSyntax n w args') 0.
Proof.
  intros Hh Hv Hh' Hv' E1 E2 H. apply (check_line w args Hh) in H. destruct H as (v2 & r2 & t & toks & L & T).
  destruct (line_one _ _ _ _ _ _ checkArgs_plain L Hv) as [-> ->]. destruct T as (src1 & bs1 & e1 & s & src2 & bs2 & e2 & s' & T1 & D & R & _ & _ & P).
  apply (checkSyntax_line w args' Hh'). exists vs', [], src1, bs1, e1, s, s'. unfold syntaxGiven in *. rewrite E1, E2. repeat split; auto. eapply Parses_tree_inits; eauto.
Qed.
Theorem show_check_code w args vs rest code : ~ asksHelp args -> commandLine checkArgs args vs rest ->
  ((exists fuel sh, show fuel w args = Ok (code, sh)) <-> Exits (fun n => check n w args) code).
Proof.
  intros Hh Hv. assert (Hv2 : commandLine showArgs args vs rest) by (revert Hv; apply commandLine_ext; intros f Hf; simpl in *; tauto).
  pose proof (proj2 (flags_line checkArgs args (rev vs) rest checkArgs_plain) (ex_intro _ vs (conj Hv eq_refl))) as F1.
  pose proof (proj2 (flags_line showArgs args (rev vs) rest showArgs_plain) (ex_intro _ vs (conj Hv2 eq_refl))) as F2.
  change showArgs with showFlags in F2. change checkArgs with (syntaxFlags ++ inputFlags) in F1. unfold Exits, show, check. rewrite (not_help _ Hh), F1, F2. split.
  - intros (fuel & sh & H). exists fuel. destruct (parseCommand fuel w (rev vs) rest) as [[[n t]|]| |]; simpl in *; congruence.
  - intros (fuel & H). exists fuel. destruct (parseCommand fuel w (rev vs) rest) as [[[n t]|]| |]; simpl in *; try discriminate; inversion H; eauto.
Qed.
Theorem generate_checkSyntax_code gd hc w args vs rest code : ~ asksHelp args -> commandLine syntaxArgs args vs rest ->
  ((exists fuel o, generateCommand gd hc neverFails fuel w args = Ok (code, o)) <-> Exits (fun n => checkSyntax n w args) code).
Proof.
  intros Hh Hv. assert (Hv2 : commandLine generateArgs args vs rest) by (revert Hv; apply commandLine_ext; intros f Hf; simpl in *; tauto).
  pose proof (proj2 (flags_line syntaxArgs args (rev vs) rest syntaxArgs_plain) (ex_intro _ vs (conj Hv eq_refl))) as F1.
  pose proof (proj2 (generateFlags_args args (rev vs) rest) (ex_intro _ vs (conj Hv2 eq_refl))) as F2.
  change syntaxArgs with syntaxFlags in F1. split.
  - intros (fuel & o & H). destruct (generate_codes _ _ _ _ _ _ _ _ H) as [C0|C0]; subst code; [apply (generate_checkSyntax gd hc w args vs rest Hh Hv); eauto|].
    unfold generateCommand in H. rewrite (not_help _ Hh), F2 in H. unfold Exits, checkSyntax. rewrite (not_help _ Hh), F1.
    exists fuel. binv H. destruct x as [[s u]|]; [|rewrite E; reflexivity]. rewrite E. simpl. binv H. destruct x as [[s1 o1] err]. destruct err as [er|]; [|discriminate].
    assert (G : Generates gd hc (mkGenOptions (flagValue "package-name" (rev vs)) (flagSwitch "export" (rev vs))) neverFails s s1 o1 (Some er)) by (exists fuel; auto).
    unfold Generate in E0. binv E0. destruct x as [s2 [e2|]]; [rewrite E1; reflexivity|]. exfalso. apply Generates_never in G. destruct er as [er|er]; [|exact G].
    destruct G as [n1 K]. pose proof (Init_mono n1 (n1 + fuel) s ltac:(lia)) as M1. pose proof (Init_mono fuel (n1 + fuel) s ltac:(lia)) as M2. unfold leRes in M1, M2. rewrite K in M1. rewrite E1 in M2.
    specialize (M1 ltac:(discriminate)). specialize (M2 ltac:(discriminate)). congruence.
  - intros [fuel H]. assert (C : code = 0%Z \/ code = (-1)%Z).
    { unfold checkSyntax in H. rewrite (not_help _ Hh), F1 in H. binv H. destruct x as [[s u]|]; [|inversion H; auto]. binv H. destruct x as [s2 [e2|]]; inversion H; auto. }
    destruct C as [C0|C0]; subst code; [apply (generate_checkSyntax gd hc w args vs rest Hh Hv); exists fuel; auto|].
    unfold checkSyntax in H. rewrite (not_help _ Hh), F1 in H. exists fuel. unfold generateCommand. rewrite (not_help _ Hh), F2. binv H. rewrite E. simpl. destruct x as [[s u]|]; [|eauto].
    binv H. destruct x as [s2 [e2|]]; [|discriminate]. unfold Generate. rewrite E0. simpl. eauto.
Qed.
