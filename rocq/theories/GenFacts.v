(** Facts about Generate as a whole. *)
From Verif Require Import Base Utf8 IdSet Results Parser Build Syntax ListFacts WsNames ParseFacts FuelFacts RunFacts Grammar WsLang ApiSpec InitSpec InitFuel Rep Live Api WsApi ApiFacts RefSpec RefFuel RefCheck.
From Verif Require Import Generate GoSpec GoRead GenSpec GenWalk GenSim GenRun GenApi GenText GenWrite GenNames.

Lemma generateKids_mono rec rec' l : (forall a d o, leRes (rec a d o) (rec' a d o)) -> forall d o, leRes (generateKids rec l d o) (generateKids rec' l d o).
Proof.
  intros H. induction l as [|x l IH]; intros d o; cbn [generateKids]; [apply leRes_refl|]. apply leRes_bind; [apply H|].
  intros [[d' o'] [e|]]; [apply leRes_refl|apply IH].
Qed.
Lemma generate_mono W P b : forall n n' a d o, n <= n' -> leRes (generate W P b n a d o) (generate W P b n' a d o).
Proof.
  induction n as [|n IH]; intros n' a d o Hn; [intros H; destruct H; reflexivity|]. destruct n' as [|n']; [lia|]. cbn [generate].
  destruct (nth_error P a) as [ob|]; [|apply leRes_refl].
  assert (Hk : forall l d o, leRes (generateKids (generate W P b n) l d o) (generateKids (generate W P b n') l d o)).
  { intros l. apply generateKids_mono. intros; apply IH; lia. }
  destruct ob; [apply leRes_refl| |].
  - destruct (existsb _ d); [apply leRes_refl|]. cbv zeta. destruct (fprintfs _ _ _) as [o1 e1]. cbn [kids]. destruct items; [apply leRes_refl|]. apply leRes_bind; [apply Hk|]. intros; apply leRes_refl.
  - destruct (existsb _ d); [apply leRes_refl|]. cbv zeta. destruct (fprintfs _ _ _) as [o1 e1]. cbn [kids]. destruct options; [apply leRes_refl|]. apply leRes_bind; [apply Hk|]. intros; apply leRes_refl.
Qed.
Theorem Generate_mono gd hc opts W n n' s : n <= n' -> leRes (Generate gd hc opts W n s) (Generate gd hc opts W n' s).
Proof.
  intros Hn. unfold Generate. apply leRes_bind; [apply Init_mono; auto|]. intros [s1 [err|]]; [apply leRes_refl|].
  destruct (sRoot s1) as [root|]; [|apply leRes_refl]. cbv zeta. destruct (fprintfs W _ _) as [o err].
  apply leRes_bind; [apply generateKids_mono; intros; apply generate_mono; auto|]. intros [[d o1] [e|]]; [apply leRes_refl|].
  destruct (fprintf W newline _) as [o2 e2]. apply leRes_bind; [apply generate_mono; auto|]. intros [[d2 o3] [e|]]; [apply leRes_refl|].
  apply leRes_bind; [apply generate_mono; auto|]. intros; apply leRes_refl.
Qed.
Theorem Generates_one gd hc opts W s s1 o1 err1 s2 o2 err2 :
  Generates gd hc opts W s s1 o1 err1 -> Generates gd hc opts W s s2 o2 err2 -> s1 = s2 /\ o1 = o2 /\ err1 = err2.
Proof.
  intros [f1 H1] [f2 H2]. pose proof (Generate_mono gd hc opts W f1 (f1 + f2) s ltac:(lia)) as M1. pose proof (Generate_mono gd hc opts W f2 (f1 + f2) s ltac:(lia)) as M2.
  rewrite H1 in M1. rewrite H2 in M2. assert (E1 := M1 ltac:(discriminate)). assert (E2 := M2 ltac:(discriminate)). rewrite E1 in E2. inversion E2. auto.
Qed.

Lemma join_head gd hc opts : join (headPieces gd hc opts) = preamble gd hc opts.
Proof.
  unfold headPieces, preamble, join. cbn [fold_right]. rewrite !str_app_assoc. destruct (gExport opts); reflexivity.
Qed.

Lemma index_free n : colonFree n -> String.index 0 ":" n = None.
Proof.
  induction n as [|c n IH]; intros H; [reflexivity|]. unfold colonFree in *. cbn [list_ascii_of_string In] in H.
  cbn [String.index]. destruct (prefix ":" (String c n)) eqn:E; [|rewrite IH; auto].
  exfalso. cbn [prefix] in E. destruct (Ascii.ascii_dec ":" c) as [<-|]; [|discriminate]. apply H. left; auto.
Qed.
Lemma definitionName_free n : colonFree n -> definitionName n = n.
Proof. intros H. unfold definitionName. rewrite index_free by auto. auto. Qed.
Lemma rootName_free calls s n : Defined calls s -> rootName calls = Some n -> colonFree n.
Proof.
  intros Hd Hn. destruct (defineAll_raw _ _ _ Hd) as [_ Hv]. 
  assert (H : exists d, In d calls /\ callName d = n).
  { unfold rootName in Hn. destruct (find isRoot calls) as [d|] eqn:E.
    - apply find_some in E. inversion Hn; subst. exists d. tauto.
    - clear - Hn. destruct calls as [|d0 l] using rev_ind; [discriminate|]. rewrite map_app in Hn. simpl in Hn. rewrite last_app_one in Hn. inversion Hn. exists d0. split; auto. apply in_or_app; right; left; auto. }
  destruct H as (d & Hin & <-). apply valid_colonFree; auto.
Qed.

Section GENERATED.
Variables (gd hc : string) (opts : genOptions) (calls : list defcall) (s s' : syntax).
Hypothesis Hdef : Defined calls s.
Hypothesis Hrefs : refersToDefs calls.
Hypothesis Hlit : literalKeywords calls.
Hypothesis Hsrc : sourceNames calls.
Hypothesis HI : Inits s s' None.

Lemma generated : exists fuel fn B1 B2 T,
  readFunc (join (B1 ++ [newline] ++ B2 ++ T)) = Some fn /\
  (forall W, exists o err, Generate gd hc opts W fuel s = Ok (s', o, err) /\
    (accepts W 0 (List.length (headPieces gd hc opts ++ B1 ++ [newline] ++ B2 ++ T)) ->
       oTexts o = headPieces gd hc opts ++ B1 ++ [newline] ++ B2 ++ T /\ err = None) /\
    (err = None -> exists H H' N N' T1 T2, headPieces gd hc opts = H ++ H' /\ [newline] = N ++ N' /\ T = T1 ++ T2 /\
       oTexts o = H ++ B1 ++ N ++ B2 ++ T1)) /\
  exists f0, forall fuel input e, f0 <= fuel -> exists out, call fn fuel input e = Some out /\
    sameButName (rootDefinition calls) (outcome (Parse fuel s input e)) out /\ (noWhitespaceDefs calls -> out = outcome (Parse fuel s input e)).
Proof.
  pose proof HI as [fi Hi]. pose proof (literal_ready _ Hrefs Hlit) as Hws.
  destruct (setup_init _ _ _ _ Hdef Hws Hi) as (PL & root & name & R1 & Su).
  set (fuel := fi + S (List.length (parsers s'))).
  assert (Hif : forall n, fi <= n -> Init n s = Ok (s', None)).
  { intros n Hn. pose proof (Init_mono _ _ s Hn) as M. rewrite Hi in M. apply M. discriminate. }
  destruct (setup_generates calls s s' PL root name R1 Hdef Hws Hlit Hrefs Su fuel) as (fn & Hp & Hc); [unfold fuel; lia|].
  pose proof (su_root _ _ _ _ _ _ Su) as Hroot.
  assert (Hlive : usedIn PL root /\ forall k, In k (sKeywords s') -> usedIn PL k).
  { pose proof (su_ok _ _ _ _ _ _ Su) as A. split.
    - destruct (ao_nonChar _ _ _ _ _ A) as (o & Ho & No & _). left. eauto.
    - intros k Hk. destruct (proj2 (su_kws _ _ _ _ _ _ Su) Hlit k Hk) as (w & _ & Hl).
      destruct Hl as (nm & id & commit & items & rs & gs & Ho & _). left. eexists. split; [exact Ho|exact I]. }
  destruct (generate_writes gd hc opts s s' fuel root fn (usedIn PL)) as (B1 & B2 & T & HR & HW); auto.
  - apply Hif. unfold fuel. lia.
  - intros a o x Ha Ho Hx. rewrite (used_same calls s' PL root name R1 Su) in Ho by auto. eapply live_kids; eauto.
  - intros b a o Ha Ho. rewrite (used_same calls s' PL root name R1 Su) in Ho by auto. eapply live_nameOf; eauto.
  - exists fuel, fn, B1, B2, T. split; auto. split; [exact HW|]. exists fi. intros n input e Hn. destruct (Hc n input e) as (out & H1 & H2 & H3).
    exists out. split; auto. assert (E : outcome (Parse n s input e) = parseInput (parsers s') (sKeywords s') root n input e).
    { unfold Parse. rewrite Hif by auto. cbn [bind]. rewrite Hroot. destruct (parseInput _ _ _ _ _ _); reflexivity. }
    rewrite E. split; [|intros Hno].
    { rewrite definitionName_free in H2; [unfold rootDefinition; rewrite (su_name _ _ _ _ _ _ Su); auto|]. eapply rootName_free; [exact Hdef|exact (su_name _ _ _ _ _ _ Su)]. }
    apply H3. eapply root_userDefined; eauto.
Qed.

Lemma generated_same : exists o body fn f0,
  Generates gd hc opts neverFails s s' o None /\ content o = String.append (preamble gd hc opts) body /\ readFunc body = Some fn /\
  forall fuel input e, f0 <= fuel -> exists out, call fn fuel input e = Some out /\
    sameButName (rootDefinition calls) (outcome (Parse fuel s input e)) out /\ (noWhitespaceDefs calls -> out = outcome (Parse fuel s input e)).
Proof.
  destruct generated as (fuel & fn & B1 & B2 & T & HR & HW & f0 & Hc). destruct (HW neverFails) as (o & err & HG & HA & _).
  destruct HA as [HT ->]; [intros i _; reflexivity|].
  exists o, (join (B1 ++ [newline] ++ B2 ++ T)), fn, f0. split; [exists fuel; auto|]. split; [|auto].
  change (content o) with (join (oTexts o)). rewrite HT, join_app, join_head. auto.
Qed.

Theorem generated_written : exists o0 B1 B2 T,
  Generates gd hc opts neverFails s s' o0 None /\ oTexts o0 = headPieces gd hc opts ++ B1 ++ [newline] ++ B2 ++ T /\
  forall W o err, Generates gd hc opts W s s' o err -> err = None ->
    exists H N T1, beginning H (headPieces gd hc opts) /\ beginning N [newline] /\ beginning T1 T /\ oTexts o = H ++ B1 ++ N ++ B2 ++ T1.
Proof.
  destruct generated as (fuel & fn & B1 & B2 & T & HR & HW & _). destruct (HW neverFails) as (o0 & err & HG & HA & _).
  destruct HA as [HT ->]; [intros i _; reflexivity|]. exists o0, B1, B2, T. split; [exists fuel; auto|]. split; auto.
  intros W o err Hg ->. destruct (HW W) as (o1 & err1 & HG1 & _ & HB).
  destruct (Generates_one gd hc opts W s s' o None s' o1 err1) as (_ & -> & <-); [auto|exists fuel; auto|].
  destruct (HB eq_refl) as (H & H' & N & N' & T1 & T2 & E1 & E2 & E3 & E4). exists H, N, T1. unfold beginning. eauto 10.
Qed.
Theorem generated_like : exists o body fn f0,
  Generates gd hc opts neverFails s s' o None /\ content o = String.append (preamble gd hc opts) body /\ readFunc body = Some fn /\
  forall fuel input e, f0 <= fuel -> exists out, call fn fuel input e = Some out /\ sameButName (rootDefinition calls) (outcome (Parse fuel s input e)) out.
Proof.
  destruct generated_same as (o & body & fn & f0 & H1 & H2 & H3 & H4). exists o, body, fn, f0. repeat split; auto.
  intros fuel input e Hf. destruct (H4 fuel input e Hf) as (out & E1 & E2 & _). eauto.
Qed.
Theorem generated_equal : noWhitespaceDefs calls -> exists o body fn f0,
  Generates gd hc opts neverFails s s' o None /\ content o = String.append (preamble gd hc opts) body /\ readFunc body = Some fn /\
  forall fuel input e, f0 <= fuel -> call fn fuel input e = Some (outcome (Parse fuel s input e)).
Proof.
  intros Hno. destruct generated_same as (o & body & fn & f0 & H1 & H2 & H3 & H4). exists o, body, fn, f0. repeat split; auto.
  intros fuel input e Hf. destruct (H4 fuel input e Hf) as (out & E1 & _ & E3). rewrite <- (E3 Hno). auto.
Qed.
End GENERATED.

Theorem generated_invalid gd hc opts W s s' err : Inits s s' (Some err) -> Generates gd hc opts W s s' noOutput (Some (inl err)).
Proof. intros [f H]. exists f. unfold Generate. rewrite H. reflexivity. Qed.
