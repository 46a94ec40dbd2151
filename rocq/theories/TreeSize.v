(** The different nodes of a tree: one call of builder.build makes one at most. *)
From Verif Require Import Base Utf8 IdSet Results Parser Build ListFacts ResultsFacts ReaderFacts ParseFacts
  FuelFacts TermFacts BuildFacts RunFacts Syntax Cost CostFacts CostBuild CostBuildFacts ApiSpec CostBuildSpec CostBuildApi.
From Verif Require AliasFacts.
Local Open Scope nat_scope.

(** the nodes of the trees [ns] are among [L] *)
Definition among (L : list node) (ns : list node) : Prop := forall x m, In x ns -> inTree m x -> In m L.
Lemma among_app L a b : among L (a ++ b) <-> among L a /\ among L b.
Proof.
  unfold among. split; [intros H; split; intros x m Hx; apply H; apply in_or_app; auto|]. intros [H1 H2] x m Hx. apply in_app_or in Hx. destruct Hx; [apply H1|apply H2]; auto.
Qed.
Lemma among_rep L l k : among L l -> among L (List.concat (repeat l k)).
Proof. intros H. induction k as [|k IH]; simpl; [intros x m []|]. apply among_app. auto. Qed.
Lemma among_incl L L' l : incl L L' -> among L l -> among L' l.
Proof. intros Hi H x m Hx Hm. apply Hi. eapply H; eauto. Qed.
Lemma among_node L a f t ns : among L ns -> among (Node a f t ns :: L) [Node a f t ns].
Proof. intros H x m [<-|[]] Hm. inversion Hm; subst; [left; auto|]. right. eapply H; eauto. Qed.
Lemma among_nil L : among L [].
Proof. intros x m []. Qed.

Lemma buildLoop_among B n items ranges k :
  (forall a c x j, buildN Nat.add B n a c = Ok (x, j) -> exists L, among L (fst (fst x)) /\ List.length L <= j) ->
  forall ii cnt nodes c ns c' j, buildLoopN Nat.add (buildN Nat.add B n) k items ranges ii cnt nodes c = Ok (ns, c', j) ->
  forall L0, among L0 nodes -> exists L, among (L0 ++ L) ns /\ List.length L <= j.
Proof.
  intros Hn. induction k as [|k IH]; intros ii cnt nodes c ns c' j Hk L0 H0; [discriminate|].
  cbn [buildLoopN] in Hk. destruct (nth_error items ii) as [item|] eqn:Ei; [|injection Hk as <- <- <-; exists []; rewrite app_nil_r; auto]. cbv zeta in Hk.
  binv Hk. destruct x as [[[n1 ok] c1] m1]. apply Hn in E. cbn [fst] in E. destruct E as (L1 & A1 & Hl1).
  assert (H01 : among (L0 ++ L1) nodes) by (eapply among_incl; [|exact H0]; apply incl_appl, incl_refl).
  assert (H11 : among (L0 ++ L1) n1) by (eapply among_incl; [|exact A1]; apply incl_appr, incl_refl).
  assert (Hd : forall j2 ns2 nodes', among (L0 ++ L1) nodes' -> (forall L, among L nodes' -> exists L', among (L ++ L') ns2 /\ List.length L' <= j2) ->
    exists L, among (L0 ++ L) ns2 /\ List.length L <= m1 + j2).
  { intros j2 ns2 nodes' Hx Hy. destruct (Hy _ Hx) as (L2 & A2 & Hl2). exists (L1 ++ L2). rewrite app_assoc, app_length. split; [auto|lia]. }
  destruct ok.
  - destruct (nth_error ranges ii) as [[mn mx]|]; [|discriminate]. binv Hk. destruct x as [[ns2 c2] j2]. injection Hk as <- <- <-. cbn [fst snd].
    destruct (_ <? _); [destruct (_ && _)%bool|]; (eapply Hd; [|intros L HL; eapply IH; [exact E|exact HL]]); apply among_app; auto using among_rep.
  - binv Hk. destruct x as [[ns2 c2] j2]. injection Hk as <- <- <-. cbn [fst snd]. eapply Hd; [|intros L HL; eapply IH; [exact E|exact HL]]. auto.
Qed.
Theorem build_among B : forall n b c x k, buildN Nat.add B n b c = Ok (x, k) -> exists L, among L (fst (fst x)) /\ List.length L <= k.
Proof.
  induction n as [|n IH]; intros b c x k Hk; [discriminate|]. cbn [buildN] in Hk. binv Hk. destruct x0 as [x0 kk]. injection Hk as <- <-. cbn [fst snd].
  assert (Hnil : exists L, among L [] /\ List.length L <= S kk) by (exists []; split; [apply among_nil|simpl; lia]).
  destruct (nth_error B b) as [[nm i cn ch rs|name id commit items ranges gs ac|name id commit options gs]|]; [| | |discriminate].
  - injection E as <- <-. exact Hnil.
  - unfold seqBuildN in E. destruct (longestMatch _ _ _) as [to|]; [|injection E as <- <-; exact Hnil]. cbv zeta in E.
    destruct ac; [destruct (hasFlag _ _); injection E as <- <-; [exact Hnil|]|].
    { exists [Node name (cOffset c) to []]. split; [apply among_node, among_nil|simpl; lia]. }
    binv E. destruct x as [c1|]; [|injection E as <- <-; exact Hnil]. binv E. destruct x as [[nodes c2] j]. binv E.
    destruct (buildLoop_among _ _ _ _ _ IH _ _ _ _ _ _ _ E1 [] (among_nil _)) as (L & A & Hl). simpl in A.
    destruct (hasFlag _ _); injection E as <- <-; cbn [fst]; [exists L; auto|]. exists (Node name (cOffset c) to nodes :: L). split; [apply among_node; auto|simpl; lia].
  - unfold choiceBuildN in E. destruct (longestMatch _ _ _) as [to|]; [|injection E as <- <-; exact Hnil]. cbv zeta in E.
    binv E. destruct x as [c1|]; [|injection E as <- <-; exact Hnil]. binv E. destruct x as [o|]; [|discriminate].
    binv E. destruct x as [[[nodes ok] c2] j]. binv E. apply IH in E2. cbn [fst] in E2. destruct E2 as (L & A & Hl).
    destruct (hasFlag _ _); injection E as <- <-; cbn [fst]; [exists L; auto|]. exists (Node name (cOffset c) to nodes :: L). split; [apply among_node; auto|simpl; lia].
Qed.

Theorem tree_nodes s s' : Inits s s' None ->
  exists C, forall input e s2 n toks, Parses s' input e s2 (Tree n toks) ->
    exists L, (forall m, inTree m n -> In m L) /\ List.length L <= C * S (List.length input) ^ 3.
Proof.
  intros HI. pose proof HI as HI'. destruct (build_calls_bound _ _ HI) as (C & HC). exists C. intros input e s2 n toks HP. destruct (HC input e) as [HC1 HC2]. destruct (HC2 _ _ HP) as (d & Hd). specialize (HC1 _ Hd).
  destruct HI as (f0 & HI). apply AliasFacts.Init_ready in HI. destruct HI as [HF HI].
  destruct HP as (f & HP). assert (Hx : exists k, buildCalls f s' input e = Ok k /\ exists L, (forall m, inTree m n -> In m L) /\ List.length L <= k).
  2:{ destruct Hx as (k & Hx & L & HL & Hle). destruct Hd as (f1 & Hd). specialize (Hd (Nat.max f f1) ltac:(lia)). apply (buildMeasure_mono Nat.add f (Nat.max f f1)) in Hx; [|lia]. unfold buildCalls in Hd. assert (k = d) by congruence. exists L. split; [auto|lia]. }
  rewrite (AliasFacts.Parse_ready _ _ _ _ HF HI) in HP. unfold buildCalls, buildMeasure. destruct (sRoot s') as [root|]; [|discriminate].
  binv HP. injection HP as _ ->. unfold parseInput, parseInputPB in E. binv E. rewrite E0. cbn [bind]. destruct (cReadErr x); [discriminate|].
  binv E. rewrite E1. cbn [bind]. destruct x0 as [c1 [err|]]; [discriminate|]. cbv zeta in E. binv E. destruct x0 as [[ns ok] c2]. destruct ns as [|n1 ns]; [discriminate|].
  injection E as -> _. apply (build_runN Nat.add) in E2. destruct E2 as (k & E2). exists k. rewrite E2. split; [reflexivity|].
  apply build_among in E2. cbn [fst] in E2. destruct E2 as (L & A & Hl). exists L. split; [|auto]. intros m Hm. eapply A; [left; reflexivity|auto].
Qed.
