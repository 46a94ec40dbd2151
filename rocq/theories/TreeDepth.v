(** The tree is not deeper than the calls of builder.build. *)
From Verif Require Import Base Utf8 IdSet Results Parser Build ListFacts ResultsFacts ReaderFacts ParseFacts
  FuelFacts TermFacts BuildFacts RunFacts Syntax Cost CostFacts CostBuild CostBuildFacts ApiSpec ReadSpec CostBuildSpec CostBuildApi.
From Verif Require AliasFacts.
Local Open Scope nat_scope.

(** the depth of a list of trees *)
Definition depths (ns : list node) : nat := fold_right (fun x d => Nat.max (depth x) d) 0 ns.
Lemma depths_app a b : depths (a ++ b) = Nat.max (depths a) (depths b).
Proof. unfold depths. induction a as [|x a IH]; simpl; auto. rewrite IH. lia. Qed.
Lemma depths_rep l k : depths (List.concat (repeat l k)) <= depths l.
Proof. induction k as [|k IH]; simpl; [lia|]. rewrite depths_app. lia. Qed.
Lemma depth_node a f t ns : depth (Node a f t ns) = S (depths ns).
Proof. reflexivity. Qed.

Lemma buildLoop_height B n items ranges k :
  (forall a c x j, buildN Nat.max B n a c = Ok (x, j) -> depths (fst (fst x)) <= j) ->
  forall ii cnt nodes c ns c' j, buildLoopN Nat.max (buildN Nat.max B n) k items ranges ii cnt nodes c = Ok (ns, c', j) -> depths ns <= Nat.max (depths nodes) j.
Proof.
  intros Hn. induction k as [|k IH]; intros ii cnt nodes c ns c' j Hk; [discriminate|].
  cbn [buildLoopN] in Hk. destruct (nth_error items ii) as [item|] eqn:Ei; [|injection Hk as <- <- <-; lia]. cbv zeta in Hk.
  binv Hk. destruct x as [[[n1 ok] c1] m1]. apply Hn in E. cbn [fst] in E. destruct ok.
  - destruct (nth_error ranges ii) as [[mn mx]|]; [|discriminate]. binv Hk. destruct x as [[ns2 c2] j2]. injection Hk as <- <- <-. cbn [fst snd].
    destruct (_ <? _); [destruct (_ && _)%bool|]; apply IH in E0; rewrite depths_app in E0; try lia.
    pose proof (depths_rep n1 (Z.to_nat (mn - Z.of_nat cnt))). lia.
  - binv Hk. destruct x as [[ns2 c2] j2]. injection Hk as <- <- <-. cbn [fst snd]. apply IH in E0. lia.
Qed.
Theorem build_height B : forall n b c x k, buildN Nat.max B n b c = Ok (x, k) -> depths (fst (fst x)) <= k.
Proof.
  induction n as [|n IH]; intros b c x k Hk; [discriminate|]. cbn [buildN] in Hk. binv Hk. destruct x0 as [x0 kk]. injection Hk as <- <-. cbn [fst snd].
  destruct (nth_error B b) as [[nm i cn ch rs|name id commit items ranges gs ac|name id commit options gs]|]; [| | |discriminate].
  - injection E as <- <-. simpl. lia.
  - unfold seqBuildN in E. destruct (longestMatch _ _ _) as [to|]; [|injection E as <- <-; simpl; lia]. cbv zeta in E.
    destruct ac; [destruct (hasFlag _ _); injection E as <- <-; simpl; lia|].
    binv E. destruct x as [c1|]; [|injection E as <- <-; simpl; lia]. binv E. destruct x as [[nodes c2] j]. binv E.
    apply buildLoop_height in E1; auto. change (depths []) with 0 in E1. destruct (hasFlag _ _); injection E as <- <-; cbn [fst]; [lia|].
    cbn [depths fold_right]. rewrite depth_node. lia.
  - unfold choiceBuildN in E. destruct (longestMatch _ _ _) as [to|]; [|injection E as <- <-; simpl; lia]. cbv zeta in E.
    binv E. destruct x as [c1|]; [|injection E as <- <-; simpl; lia]. binv E. destruct x as [o|]; [|discriminate].
    binv E. destruct x as [[[nodes ok] c2] j]. binv E. apply IH in E2. cbn [fst] in E2. destruct (hasFlag _ _); injection E as <- <-; cbn [fst]; [lia|].
    cbn [depths fold_right]. rewrite depth_node. lia.
Qed.

Theorem tree_depth s s' : Inits s s' None ->
  exists C, forall input e s2 n toks, Parses s' input e s2 (Tree n toks) ->
    depth n <= C * S (List.length input) ^ 2 /\ exists d, BuildDepth s' input e d /\ depth n <= d.
Proof.
  intros HI. pose proof HI as HI'. destruct (build_depth_bound _ _ HI) as (C & HC). exists C. intros input e s2 n toks HP. destruct (HC input e) as [HC1 HC2]. destruct (HC2 _ _ HP) as (d & Hd). specialize (HC1 _ Hd).
  assert (depth n <= d); [|split; [lia|eauto]]. destruct HI as (f0 & HI). apply AliasFacts.Init_ready in HI. destruct HI as [HF HI].
  destruct HP as (f & HP). assert (Hx : exists k, buildDepth f s' input e = Ok k /\ depth n <= k).
  2:{ destruct Hx as (k & Hx & Hle). destruct Hd as (f1 & Hd). specialize (Hd (Nat.max f f1) ltac:(lia)). apply (buildMeasure_mono Nat.max f (Nat.max f f1)) in Hx; [|lia]. unfold buildDepth in Hd. congruence. }
  rewrite (AliasFacts.Parse_ready _ _ _ _ HF HI) in HP. unfold buildDepth, buildMeasure. destruct (sRoot s') as [root|]; [|discriminate].
  binv HP. injection HP as _ ->. unfold parseInput, parseInputPB in E. binv E. rewrite E0. cbn [bind]. destruct (cReadErr x); [discriminate|].
  binv E. rewrite E1. cbn [bind]. destruct x0 as [c1 [err|]]; [discriminate|]. cbv zeta in E. binv E. destruct x0 as [[ns ok] c2]. destruct ns as [|n1 ns]; [discriminate|].
  injection E as -> _. apply (build_runN Nat.max) in E2. destruct E2 as (k & E2). exists k. rewrite E2. split; [reflexivity|].
  apply build_height in E2. cbn [fst depths fold_right] in E2. lia.
Qed.
