(** The number and the depth of the calls of builder.build, for a syntax. *)
From Verif Require Import Base Utf8 IdSet Results Parser Build Syntax Define ListFacts ResultsFacts ReaderFacts ParseFacts
  FuelFacts TermFacts BuildFacts StoreFacts OnceFacts NoPanic Lang Sound RunFacts Restrict Grammar WsLang ApiSpec Live Rep Api WsApi ApiFacts RefSpec RefApi RefCheck ReadFacts ReadSpec SelfGrammar SelfLang ReadLang ReadMeans
  Cost CostFacts CostBound CostBuild CostBuildFacts CostBuildBound CostBuildSpec.
From Verif Require AliasFacts.
Local Open Scope string_scope.
Local Open Scope nat_scope.

(** ** how many matches are stored *)
Definition idsOf (o : pobj) : list nat :=
  match o with PChar _ _ _ _ _ => [] | PSeq _ id _ _ _ gs _ => id :: gs | PChoice _ id _ _ _ => [id] end.
Definition allIds (P : pheap) : list nat := flat_map idsOf P.

Lemma row_nodup row : (forall id t, entCount id t row <= 1) -> NoDup (filter isLive row).
Proof.
  induction row as [|[[id|] t] row IH]; intros H; simpl; [constructor| |].
  - constructor.
    + intros Hin. apply filter_In in Hin. destruct Hin as [Hin _]. apply entCount_in in Hin. specialize (H id t). unfold entCount in *. simpl in H.
      replace (entryIs id t (Some id, t)) with true in H by (symmetry; apply entryIs_true; auto). simpl in H. lia.
    + apply IH. intros id' t'. specialize (H id' t'). unfold entCount in *. simpl in H. destruct (entryIs id' t' (Some id, t)); simpl in H; lia.
  - apply IH. intros id' t'. specialize (H id' t'). unfold entCount in *. simpl in H. exact H.
Qed.
Lemma tblLive_le X : forall l M, (forall o, rowLive (nth o l []) <= if o <? M then X else 0) -> tblLive l <= M * X.
Proof.
  induction l as [|row l IH]; intros M H; simpl; [apply Nat.le_0_l|]. pose proof (H 0) as H0. simpl nth in H0. destruct M as [|M].
  - simpl in H0. assert (tblLive l <= 0 * X); [|lia]. apply IH. intros o. apply (H (S o)).
  - change (0 <? S M) with true in H0. cbv iota in H0. assert (tblLive l <= M * X); [|simpl; lia]. apply IH. intros o. apply (H (S o)).
Qed.
Lemma live_le ids N r : StoreFacts.once r -> (forall o id t, stored r o id t -> o <= N /\ t <= N /\ In id ids) -> BuildFacts.live r <= S N * (List.length ids * S N).
Proof.
  intros Ho Hs. unfold BuildFacts.live. apply tblLive_le. intros o. fold (matchRow r o). unfold rowLive.
  assert (Hin : forall e, In e (filter isLive (matchRow r o)) -> exists id t, e = (Some id, t) /\ stored r o id t).
  { intros [[id|] t] He; apply filter_In in He; destruct He as [He Hl]; [|discriminate]. exists id, t. auto. }
  destruct (o <? S N) eqn:Elt.
  - replace (List.length ids * S N) with (List.length (map (fun x => (Some (fst x), snd x)) (list_prod ids (seq 0 (S N))))) by (rewrite map_length, prod_length, seq_length; auto).
    apply NoDup_incl_length; [apply row_nodup; intros; apply Ho|]. intros e He. destruct (Hin e He) as (id & t & -> & Hst). apply Hs in Hst. destruct Hst as (_ & H2 & H3).
    apply in_map_iff. exists (id, t). split; auto. apply in_prod; auto. apply in_seq. lia.
  - apply Nat.ltb_ge in Elt. destruct (filter isLive (matchRow r o)) as [|e l]; auto. destruct (Hin e (or_introl eq_refl)) as (id & t & -> & Hst). apply Hs in Hst. lia.
Qed.

Section RUN.
Variables (P : pheap) (kws : list addr) (input : list rune) (e : rend).
Let N := List.length input.
Definition idG (id o t : nat) : Prop := In id (allIds P).
Lemma idG_seq p name id commit items ranges gs ac o t :
  nth_error P p = Some (PSeq name id commit items ranges gs ac) ->
  o <= t -> t <= List.length input -> seqRun P input idG items ranges 0 0 o t ->
  (hasFlag commit CNoKeyword = true -> notKw P kws input o t) ->
  idG id o t /\ forall g, In g gs -> idG g o t.
Proof.
  intros Hp _ _ _ _. apply nth_error_In in Hp. split; [|intros g Hg]; apply in_flat_map; (eexists; split; [exact Hp|]); simpl; auto.
Qed.
Lemma idG_choice p name id commit options gs op o t :
  nth_error P p = Some (PChoice name id commit options gs) -> In op options -> IG P input idG op o t -> idG id o t.
Proof. intros Hp _ _. apply nth_error_In in Hp. apply in_flat_map. eexists. split; [exact Hp|]. left; auto. Qed.

Lemma run_live n root c : parse P kws n root (newContext input e) = Ok c -> BuildFacts.live (cResults c) <= S N * (List.length (allIds P) * S N).
Proof.
  intros Hk. pose proof (parse_once _ _ _ _ _ _ Hk) as Ho. eapply (parse_spec P kws input e idG) in Hk; [|apply idG_seq|apply idG_choice|apply cinv_new].
  destruct Hk as [(Hc & _) _]. apply live_le.
  - apply Ho. intros o id t. simpl. unfold matchRow. simpl. destruct o; simpl; auto.
  - intros o id t Hs. pose proof (ci_stored _ _ _ _ Hc _ _ _ Hs) as H1. pose proof (ci_G _ _ _ _ Hc _ _ _ Hs) as H2. pose proof (cinv_len _ _ _ _ Hc) as H3. unfold N. split; [lia|]. split; [lia|exact H2].
Qed.
End RUN.

Lemma flen_le {A} (f : A -> bool) l : List.length (filter f l) <= List.length l.
Proof. induction l as [|a l IH]; simpl; auto. destruct (f a); simpl; lia. Qed.

(** a bound of the measure before building *)
Definition measBound (P : pheap) (N : nat) : nat := S N * (List.length (allIds P) * S N) + S N * List.length P.
Lemma build_meas P N c : BuildFacts.live (cResults c) <= S N * (List.length (allIds P) * S N) -> bmeas P N c <= measBound P N.
Proof.
  intros H. unfold bmeas, measBound. apply Nat.add_le_mono; auto. unfold bfree. etransitivity; [apply flen_le|]. unfold bpairs. rewrite prod_length, seq_length, ?map_length. lia.
Qed.
Definition buildConst (P : pheap) : nat :=
  Wm P + (List.length (allIds P) + List.length P) * Q P + K P * List.length (allIds P).
Lemma sq_bound L p n : S n * (L * S n) + S n * p <= (L + p) * (S n * S n).
Proof.
  rewrite Nat.mul_add_distr_r. apply Nat.add_le_mono; [apply Nat.eq_le_incl; ring|]. rewrite Nat.mul_comm. apply Nat.mul_le_mono_l. rewrite <- (Nat.mul_1_l (S n)) at 1. apply Nat.mul_le_mono_r. lia.
Qed.

(** the context the builders start from *)
Lemma build_start P kws root fuel input e c c1 :
  parse P kws fuel root (newContext input e) = Ok c -> cReadErr c = None -> finalizeParse P c root = Ok (c1, None) ->
  let cb := setResults (setOffset c1 0) (resetPending (cResults (setOffset c1 0))) in
  binv (List.length input) cb /\ BuildFacts.live (cResults cb) <= S (List.length input) * (List.length (allIds P) * S (List.length input)).
Proof.
  intros E Ere E0 cb. pose proof (parse_cinv _ _ _ _ _ _ _ E) as Hc. destruct (finalize_ok _ _ _ _ _ _ Hc Ere E0) as (ob & F1 & F2 & F3 & F4 & F5 & F6 & F7 & F8). split.
  - split; simpl; [lia|]. rewrite F4. intros o i t Hs. apply (ci_stored _ _ _ _ Hc o i t) in Hs. pose proof (cinv_len _ _ _ _ Hc). lia.
  - change (BuildFacts.live (cResults cb)) with (BuildFacts.live (cResults c1)). rewrite F4. eapply run_live; eauto.
Qed.

Theorem calls_le s fuel input e k : buildCalls fuel s input e = Ok k -> k <= buildConst (parsers s) * S (List.length input) ^ 3.
Proof.
  unfold buildCalls, buildMeasure. destruct (sRoot s) as [root|]; [|discriminate]. set (P := parsers s). set (n := List.length input). intros H. binv H. destruct (cReadErr x) eqn:Ere; [injection H as <-; apply Nat.le_0_l|].
  binv H. destruct x0 as [c1 [err|]]; [injection H as <-; apply Nat.le_0_l|]. binv H. injection H as <-. destruct x0 as [y k]. cbn [snd].
  destruct (build_start _ _ _ _ _ _ _ _ E Ere E0) as [Hb Hl]. cbv zeta in Hb, Hl. set (cb := setResults _ _) in *. fold n in Hb, Hl. pose proof (build_meas _ _ _ Hl) as Hm.
  apply (calls_build P n) in E1; [|exact Hb|reflexivity]. etransitivity; [exact E1|]. unfold measBound in Hm.
  pose proof (sq_bound (List.length (allIds P)) (List.length P) n) as Hs. fold P in Hm, Hl.
  set (L := List.length (allIds P)) in *. set (p := List.length P) in *. set (m := bmeas P n cb) in *. set (lv := BuildFacts.live (cResults cb)) in *.
  assert (Hm2 : m <= (L + p) * (S n * S n)) by lia. unfold buildConst. fold L p. set (W := Wm P). set (q := Q P). set (kk := K P).
  rewrite !Nat.mul_add_distr_r. apply Nat.add_le_mono; [apply Nat.add_le_mono|].
  - rewrite <- (Nat.mul_1_r W) at 1. apply Nat.mul_le_mono_l. apply Nat.neq_0_lt_0, Nat.pow_nonzero. discriminate.
  - rewrite <- Nat.mul_add_distr_r. transitivity ((L + p) * (S n * S n) * q * S n); [|apply Nat.eq_le_incl; simpl Nat.pow; ring].
    transitivity (m * q * S n); [apply Nat.mul_le_mono_l; lia|]. apply Nat.mul_le_mono_r, Nat.mul_le_mono_r. exact Hm2.
  - rewrite <- Nat.mul_assoc. apply Nat.mul_le_mono_l. etransitivity; [exact Hl|]. rewrite (Nat.mul_comm (S n)), <- Nat.mul_assoc. apply Nat.mul_le_mono_l.
    replace (S n ^ 3) with (S n * S n * S n) by (cbn [Nat.pow]; ring). rewrite <- (Nat.mul_1_r (S n * S n)) at 1. apply Nat.mul_le_mono_l. lia.
Qed.
Theorem bdepth_le s fuel input e d : buildDepth fuel s input e = Ok d -> d <= S (List.length (allIds (parsers s)) + List.length (parsers s)) * S (List.length input) ^ 2.
Proof.
  unfold buildDepth, buildMeasure. destruct (sRoot s) as [root|]; [|discriminate]. set (P := parsers s). set (n := List.length input). intros H. binv H. destruct (cReadErr x) eqn:Ere; [injection H as <-; apply Nat.le_0_l|].
  binv H. destruct x0 as [c1 [err|]]; [injection H as <-; apply Nat.le_0_l|]. binv H. injection H as <-. destruct x0 as [y k]. cbn [snd].
  destruct (build_start _ _ _ _ _ _ _ _ E Ere E0) as [Hb Hl]. cbv zeta in Hb, Hl. set (cb := setResults _ _) in *. fold n in Hb, Hl. pose proof (build_meas _ _ _ Hl) as Hm.
  apply (build_depth P n _ _ _ _ _ _ Hb Hm) in E1. unfold measBound in E1. fold P in E1. pose proof (sq_bound (List.length (allIds P)) (List.length P) n) as Hs.
  set (L := List.length (allIds P)) in *. set (p := List.length P) in *. simpl Nat.pow. rewrite Nat.mul_1_r. rewrite Nat.mul_succ_l.
  assert (1 <= S n * S n) by (simpl; lia). lia.
Qed.

(** a Parse that ends has a number of calls *)
Lemma measure_exists op s input e s2 out fuel :
  sInitFailed s = false -> sInitialized s = true -> Parse fuel s input e = Ok (s2, out) -> exists k, forall fuel', fuel <= fuel' -> buildMeasure op fuel' s input e = Ok k.
Proof.
  intros F I H. rewrite (AliasFacts.Parse_ready _ _ _ _ F I) in H. assert (Hx : exists k, buildMeasure op fuel s input e = Ok k).
  { unfold buildMeasure. destruct (sRoot s) as [root|]; [|discriminate]. binv H. unfold parseInput, parseInputPB in E. binv E. rewrite E0. cbn [bind]. destruct (cReadErr x0); [eauto|].
    binv E. rewrite E1. cbn [bind]. destruct x1 as [c1 [err|]]; [eauto|]. binv E. destruct x1 as [[ns ok] c2]. apply (build_runN op) in E2. destruct E2 as (k & ->). cbn [bind snd]. eauto. }
  destruct Hx as (k & Hx). exists k. intros f' Hf. eapply buildMeasure_mono; eauto.
Qed.

Theorem build_calls_bound s s' : Inits s s' None ->
  exists C, forall input e,
    (forall k, BuildCalls s' input e k -> k <= C * S (List.length input) ^ 3) /\
    (forall s2 out, Parses s' input e s2 out -> exists k, BuildCalls s' input e k).
Proof.
  intros (f0 & HI). apply AliasFacts.Init_ready in HI. destruct HI as [HF HI]. exists (buildConst (parsers s')). intros input e. split.
  - intros k (f & H). exact (calls_le _ _ _ _ _ (H f (Nat.le_refl _))).
  - intros s2 out (f & H). destruct (measure_exists Nat.add _ _ _ _ _ _ HF HI H) as (k & Hk). exists k, f. exact Hk.
Qed.
Theorem build_depth_bound s s' : Inits s s' None ->
  exists C, forall input e,
    (forall d, BuildDepth s' input e d -> d <= C * S (List.length input) ^ 2) /\
    (forall s2 out, Parses s' input e s2 out -> exists d, BuildDepth s' input e d).
Proof.
  intros (f0 & HI). apply AliasFacts.Init_ready in HI. destruct HI as [HF HI]. exists (S (List.length (allIds (parsers s')) + List.length (parsers s'))). intros input e. split.
  - intros d (f & H). exact (bdepth_le _ _ _ _ _ (H f (Nat.le_refl _))).
  - intros s2 out (f & H). destruct (measure_exists Nat.max _ _ _ _ _ _ HF HI H) as (k & Hk). exists k, f. exact Hk.
Qed.
Theorem BuildCalls_unique s input e k k' : BuildCalls s input e k -> BuildCalls s input e k' -> k = k'.
Proof. intros (f & H) (f' & H'). specialize (H (f + f') ltac:(lia)). specialize (H' (f + f') ltac:(lia)). congruence. Qed.
Theorem BuildDepth_unique s input e k k' : BuildDepth s input e k -> BuildDepth s input e k' -> k = k'.
Proof. intros (f & H) (f' & H'). specialize (H (f + f') ltac:(lia)). specialize (H' (f + f') ltac:(lia)). congruence. Qed.
