(** The facts of ConcFacts.v for an initialized syntax. *)
From Verif Require Import Base Utf8 Parser Build Syntax Grammar ApiSpec DefSpec InitSpec InitFuel NoPanic DefineFacts GenSpec ListFacts ParseFacts Conc ConcFacts ConcSpec.

Section SYNTAX.
Variables (s : syntax) (root : addr).
Let D := parsers s.
Let kws := sKeywords s.
Let live (a : addr) := a < List.length D.

Record pready : Prop := mkPready {
  pr_init : sInitialized s = true; pr_ok : sInitFailed s = false; pr_root : sRoot s = Some root; pr_pwf : pwf D kws root }.
Hypothesis R : pready.

Lemma live_obj a : live a -> exists o, nth_error D a = Some o.
Proof. unfold live. intros H. destruct (nth_error D a) eqn:E; eauto. apply nth_error_None in E. lia. Qed.
Lemma live_kids a o x : live a -> nth_error D a = Some o -> In x (subDefs o) -> live x.
Proof.
  intros _ Ho Hx. destruct (pw_wf _ _ _ (pr_pwf R)) as (W1 & W2 & _). destruct o; simpl in Hx; [destruct Hx| |].
  - eapply W1; eauto.
  - eapply W2; eauto.
Qed.
Lemma live_kws k : In k kws -> live k.
Proof. destruct (pw_wf _ _ _ (pr_pwf R)) as (_ & _ & W). apply W. Qed.
Lemma live_root : live root.
Proof. apply (pw_root _ _ _ (pr_pwf R)). Qed.

Lemma outcome_eq fuel input e : outcome (Parse fuel s input e) = parseInput D kws root fuel input e.
Proof.
  unfold Parse, Init. rewrite (pr_ok R), (pr_init R). cbn [bind]. rewrite (pr_root R). fold D kws. destruct (parseInput D kws root fuel input e); reflexivity.
Qed.

Lemma runs_csteps fuel x y : runs D fuel x y -> csteps D fuel (fst x, [snd x]) (fst y, [snd y]).
Proof.
  induction 1 as [x|sh t sh' t' z H _ IH]; [constructor|]. simpl in *. eapply csteps_more; [|exact IH].
  change [t'] with (updNth 0 (fun _ => t') [t]). econstructor; [reflexivity|auto].
Qed.
Lemma csteps_trans fuel x y z : csteps D fuel x y -> csteps D fuel y z -> csteps D fuel x z.
Proof. induction 1; auto. intros. eapply csteps_more; eauto. Qed.

(** a run of one thread to its end is the only one *)
Lemma csteps_one fuel sh t sh' ts : csteps D fuel (sh, [t]) (sh', ts) -> exists t', ts = [t'] /\ runs D fuel (sh, t) (sh', t').
Proof.
  intros S. remember (sh, [t]) as x eqn:Ex. remember (sh', ts) as z eqn:Ez. revert sh t Ex.
  induction S as [x|x y z S1 S2 IH]; intros sh t Ex.
  - rewrite Ex in Ez. inversion Ez; subst. exists t. split; auto. constructor.
  - subst. inversion S1 as [a b i t0 sh1 t1 Hi Ht]; subst. destruct i as [|i]; [|destruct i; discriminate]. inversion Hi; subst t0.
    destruct (IH eq_refl sh1 t1 eq_refl) as (t' & E & Rr). exists t'. split; auto. eapply runs_more; eauto.
Qed.
Lemma runs_end fuel x y1 y2 : runs D fuel x y1 -> runs D fuel x y2 -> tstep D fuel (fst y1) (snd y1) = None -> tstep D fuel (fst y2) (snd y2) = None -> y1 = y2.
Proof.
  induction 1 as [x|sh t sh' t' z H _ IH]; intros R2 E1 E2.
  - inversion R2; subst; auto. simpl in E1. congruence.
  - inversion R2 as [|sh0 t0 sh1 t1 z0 H0 R3]; subst; [simpl in E2; congruence|]. rewrite H in H0. inversion H0; subst. auto.
Qed.
Lemma finished_end fuel sh t out : tCtl t = Finished out -> tstep D fuel sh t = None.
Proof. unfold tstep. intros ->. auto. Qed.

Lemma startAll_eq inputs : startAll s inputs = map (fun i => parseThread root kws (fst i) (snd i)) inputs.
Proof. unfold startAll. rewrite (pr_root R). auto. Qed.

Lemma lone_ok fuel sh input e : quiet D sh -> exists sh', Lone s fuel sh input e sh' (outcome (Parse fuel s input e)) /\ quiet D sh' /\ created D root kws sh' /\
  forall sh2 out, Lone s fuel sh input e sh2 out -> sh2 = sh' /\ out = outcome (Parse fuel s input e).
Proof.
  intros Q. destruct (lone_parse D root kws fuel live live_obj live_kids live_root live_kws sh input e Q) as (sh' & t' & H1 & H2 & H3 & H4).
  exists sh'. split; [|split; auto; split; auto].
  - exists t'. split; [|unfold returned; rewrite H2, outcome_eq; auto]. unfold Steps. rewrite startAll_eq. cbn [map fst snd]. apply (runs_csteps _ _ _ H1).
  - intros sh2 out (t2 & S2 & R2). unfold Steps in S2. rewrite startAll_eq in S2. cbn [map fst snd] in S2. apply csteps_one in S2. destruct S2 as (t3 & E & S2). inversion E; subst t3.
    unfold returned in R2. assert (X : (sh', t') = (sh2, t2)). { eapply runs_end; eauto; simpl; eapply finished_end; eauto. }
    inversion X; subst. split; auto. rewrite outcome_eq. congruence.
Qed.
Lemma turn_quiet k sh : inTurn s k sh -> quiet D sh /\ (k <> 0 -> created D root kws sh).
Proof.
  induction 1 as [|k sh fuel input e sh' out _ [Q _] L]; [split; [apply quiet_fresh|congruence]|].
  destruct (lone_ok fuel sh input e Q) as (sh1 & _ & Q1 & C1 & U). destruct (U _ _ L) as [-> _]. auto.
Qed.

(** every call can go on to its end *)
Definition left (t : thread) : nat := 3 * List.length (tTodo t) + match tCtl t with Idle => 1 | Enter _ _ _ => 3 | Return _ _ _ => 2 | _ => 0 end.
Fixpoint total (ts : list thread) : nat := match ts with [] => 0 | t :: ts' => left t + total ts' end.
Lemma step_left fuel sh t : quiet D sh -> created D root kws sh -> onTrack D root kws fuel sh t -> (exists out, tCtl t = Finished out) \/ exists t', tstep D fuel sh t = Some (sh, t') /\ left t' < left t.
Proof.
  intros Q C T. destruct (tstep D fuel sh t) as [[sh' t']|] eqn:E.
  - right. destruct (onTrack_step D root kws fuel sh t sh' t' Q C T E) as (-> & _). exists t'. split; auto. unfold onTrack in T. unfold tstep in E. unfold left.
    destruct (tCtl t) as [|b d st|b d st|b d i st|b p st|out] eqn:Ec; [| | | | |discriminate].
    + destruct (tTodo t) as [|[b d] todo] eqn:Et.
      * destruct (tGot t) as [|p [|b ks]]; try discriminate. inversion E; subst. cbn [goto tTodo tCtl]. rewrite Et. simpl. lia.
      * inversion E; subst. cbn [tTodo tCtl List.length]. lia.
    + destruct T as (before & E1 & -> & before' & -> & F).
      assert (Hin : In (b, d) ((false, root) :: (true, root) :: map (fun k => (false, k)) kws)) by (rewrite E1; apply in_or_app; left; apply in_or_app; right; left; auto).
      pose proof (created_all D root kws _ _ _ C Hin) as Hc. unfold ptr in Hc. destruct (nth_error D d) as [o|]; [|congruence].
      assert (Es : exists q, Some (sh, t') = Some (sh, goto t (Return b q []))).
      { rewrite <- E. destruct o; simpl in Hc; [eauto| |]; destruct (cached sh b d); eauto; congruence. }
      destruct Es as (q & Es). inversion Es; subst. cbn [goto tTodo tCtl]. lia.
    + destruct T as (before & _ & []).
    + destruct T as (before & _ & []).
    + destruct T as (before & E1 & -> & F). inversion E; subst. cbn [tTodo tCtl]. lia.
  - left. unfold onTrack in T. unfold tstep in E. destruct (tCtl t) as [|b d st|b d st|b d i st|b p st|out] eqn:Ec.
    + destruct (tTodo t) as [|[b d] todo]; [|discriminate]. destruct T as (before & X & F). rewrite app_nil_r in X. subst before.
      destruct (tGot t) as [|p [|b ks]]; [inversion F|inversion F as [|c1 q1 l1 ps1 Hp F1]; inversion F1|discriminate].
    + destruct (nth_error D d) as [[]|]; try discriminate; destruct (cached sh b d); discriminate.
    + destruct T as (before & _ & []).
    + destruct T as (before & _ & []).
    + destruct T as (before & E1 & -> & F). discriminate.
    + eauto.
Qed.
Lemma total_upd ts i t t' : nth_error ts i = Some t -> left t' < left t -> total (updNth i (fun _ => t') ts) < total ts.
Proof.
  revert i. induction ts as [|x ts IH]; intros [|i] H Hl; simpl in *; try discriminate; [inversion H; subst; lia|]. specialize (IH i H Hl). lia.
Qed.
Lemma all_finish fuel sh : quiet D sh -> created D root kws sh -> forall n ts, total ts <= n -> (forall i t, nth_error ts i = Some t -> onTrack D root kws fuel sh t) ->
  exists ts', csteps D fuel (sh, ts) (sh, ts') /\ forall t, In t ts' -> exists out, tCtl t = Finished out.
Proof.
  intros Q C. induction n as [|n IH]; intros ts Hn T.
  - exists ts. split; [constructor|]. intros t Ht. apply In_nth_error in Ht. destruct Ht as (i & Hi). destruct (step_left fuel sh t Q C (T i t Hi)) as [X|(t' & _ & Hl)]; auto.
    pose proof (total_upd _ _ _ _ Hi Hl). lia.
  - assert (X : (forall t, In t ts -> exists out, tCtl t = Finished out) \/ exists i t t', nth_error ts i = Some t /\ tstep D fuel sh t = Some (sh, t') /\ left t' < left t).
    { clear IH Hn. induction ts as [|t ts IH]; [left; intros t []|]. destruct (step_left fuel sh t Q C (T 0 t eq_refl)) as [X|(t' & E & Hl)].
      - destruct IH as [Y|(i & t1 & t' & Y)]; [intros i t1 Hi; apply (T (S i)); auto| |].
        + left. intros t1 [<-|H]; auto.
        + right. exists (S i), t1, t'. auto.
      - right. exists 0, t, t'. auto. }
    destruct X as [X|(i & t & t' & Hi & Ht & Hl)]; [exists ts; split; [constructor|auto]|].
    assert (S1 : cstep D fuel (sh, ts) (sh, updNth i (fun _ => t') ts)) by (econstructor; eauto).
    destruct (IH (updNth i (fun _ => t') ts)) as (ts' & H1 & H2).
    + pose proof (total_upd _ _ _ _ Hi Hl). lia.
    + intros j tj Hj. destruct (concurrent D root kws fuel sh ts sh (updNth i (fun _ => t') ts) Q C T) as (_ & H); [eapply csteps_more; [exact S1|constructor]|]. eapply H; eauto.
    + exists ts'. split; auto. eapply csteps_more; eauto.
Qed.
End SYNTAX.

Lemma Ready_pready s : Ready s -> exists root, pready s root.
Proof.
  intros (s0 & A & n & I). apply apiSteps_reachable in A; [|constructor]. apply reachable_sinv in A. destruct (Init_iinv _ _ _ A I) as (H1 & H2 & [(root & H3 & H4)]).
  exists root. constructor; auto.
Qed.

Theorem parse_in_turn s k sh fuel input e : Ready s -> inTurn s k sh ->
  (exists sh', Lone s fuel sh input e sh' (outcome (Parse fuel s input e))) /\
  forall sh' out, Lone s fuel sh input e sh' out -> out = outcome (Parse fuel s input e).
Proof.
  intros H T. destruct (Ready_pready s H) as (root & P). destruct (turn_quiet s root P k sh T) as (Q & _).
  destruct (lone_ok s root P fuel sh input e Q) as (sh' & L & _ & _ & U). split; eauto. intros sh2 out L2. apply (U _ _ L2).
Qed.
Theorem parse_concurrently s k sh fuel inputs sh' ts : Ready s -> inTurn s (S k) sh -> Steps s fuel (sh, startAll s inputs) (sh', ts) ->
  sh' = sh /\
  (forall i t out, nth_error ts i = Some t -> returned t out ->
     exists input e, nth_error inputs i = Some (input, e) /\ out = outcome (Parse fuel s input e)) /\
  exists ts', Steps s fuel (sh', ts) (sh', ts') /\ List.length ts' = List.length inputs /\ forall t, In t ts' -> exists out, returned t out.
Proof.
  intros H T S. destruct (Ready_pready s H) as (root & P). destruct (turn_quiet s root P _ sh T) as (Q & C). specialize (C (Nat.neq_succ_0 _)).
  pose proof (startAll_eq s root P inputs) as Es. rewrite Es in S.
  assert (T0 : forall i t, nth_error (map (fun i => parseThread root (sKeywords s) (fst i) (snd i)) inputs) i = Some t -> onTrack (parsers s) root (sKeywords s) fuel sh t).
  { intros i t Hi. rewrite nth_error_map in Hi. destruct (nth_error inputs i); [|discriminate]. inversion Hi. apply onTrack_start. }
  destruct (concurrent _ _ _ fuel sh _ sh' ts Q C T0 S) as (-> & H2). split; auto.
  destruct (all_finish s root fuel sh Q C (total ts) ts (le_n _)) as (ts' & F1 & F2); [intros i t Hi; apply (H2 i t Hi)|]. split.
  - intros i t out Hi Ho. destruct (H2 i t Hi) as (O & t0 & E0 & E1 & E2). rewrite nth_error_map in E0. destruct (nth_error inputs i) as [[input e]|]; [|discriminate].
    inversion E0; subst t0. exists input, e. split; auto. unfold onTrack in O. rewrite Ho in O. rewrite O, E1, E2, (outcome_eq s root P). reflexivity.
  - exists ts'. split; auto. split; auto. assert (L : forall x y, csteps (parsers s) fuel x y -> List.length (snd y) = List.length (snd x)).
    { induction 1 as [|x y z S1 _ IH]; auto. rewrite IH. inversion S1; subst. simpl. apply updNth_length. }
    apply L in F1. apply L in S. simpl in *. rewrite map_length in S. lia.
Qed.
Lemma follow_steps D fuel sched : forall x y, follow D fuel sched x = Some y -> csteps D fuel x y.
Proof.
  induction sched as [|i l IH]; intros [sh ts] y H; simpl in H; [inversion H; constructor|].
  destruct (nth_error ts i) as [t|] eqn:Ei; [|discriminate]. destruct (tstep D fuel sh t) as [[sh' t']|] eqn:Et; [|discriminate].
  eapply csteps_more; [econstructor; eauto|auto].
Qed.

(** finding runs by computation *)
Definition isFinished (t : thread) : option (res parseOut) := match tCtl t with Finished out => Some out | _ => None end.
Lemma isFinished_returned t out : isFinished t = Some out -> returned t out.
Proof. unfold isFinished, returned. destruct (tCtl t); congruence. Qed.
Lemma steps_to s fuel sched sh0 inputs i out :
  match follow (parsers s) fuel sched (sh0, startAll s inputs) with Some (_, ts) => option_map isFinished (nth_error ts i) | None => None end = Some (Some out) ->
  exists sh ts t, Steps s fuel (sh0, startAll s inputs) (sh, ts) /\ nth_error ts i = Some t /\ returned t out.
Proof.
  destruct (follow _ _ _ _) as [[sh ts]|] eqn:E; [|discriminate]. intros H. destruct (nth_error ts i) as [t|] eqn:Et; [|discriminate]. cbn [option_map] in H. injection H as H.
  exists sh, ts, t. split; [exact (follow_steps _ _ _ _ _ E)|]. split; auto. apply isFinished_returned; auto.
Qed.
Lemma steps_then s fuel sched sched' a b input e out :
  match follow (parsers s) fuel sched (freshMemory (parsers s), startAll s [a; b]) with
  | Some (sh, [t1; t2]) =>
    match isFinished t1, isFinished t2, follow (parsers s) fuel sched' (sh, startAll s [(input, e)]) with
    | Some _, Some _, Some (_, [t]) => isFinished t
    | _, _, _ => None
    end
  | _ => None
  end = Some out ->
  exists sh t1 t2 o1 o2 sh2, Steps s fuel (freshMemory (parsers s), startAll s [a; b]) (sh, [t1; t2]) /\ returned t1 o1 /\ returned t2 o2 /\
    Lone s fuel sh input e sh2 out.
Proof.
  destruct (follow _ _ sched _) as [[sh [|t1 [|t2 [|t3 ts]]]]|] eqn:E; try discriminate. destruct (isFinished t1) as [o1|] eqn:E1; [|discriminate]. destruct (isFinished t2) as [o2|] eqn:E2; [|discriminate].
  destruct (follow _ _ sched' _) as [[sh2 [|t [|t3 ts]]]|] eqn:E3; try discriminate. intros H.
  exists sh, t1, t2, o1, o2, sh2. split; [exact (follow_steps _ _ _ _ _ E)|]. split; [apply isFinished_returned; auto|]. split; [apply isFinished_returned; auto|].
  exists t. split; [exact (follow_steps _ _ _ _ _ E3)|apply isFinished_returned; auto].
Qed.
