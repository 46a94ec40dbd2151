(** A choice that starts with itself matches a base and then extensions, until nothing continues. *)
From Verif Require Import Base Parser Build Syntax Grammar WsLang ApiSpec RefSpec RefFuel LeftSpec GrowSpec GrowFuel GrowTotal GrowSim GrowApi.

Section CHAIN.
Context {A : Type}.
Variable eqA : A -> A -> bool.
Variable G : A -> option (gobj A).
Variable K : list (list rune).
Variable input : list rune.
Notation ev := (evalL eqA G K input).
Notation Cont := (ContinuesL eqA G K input).
Notation Beg := (BeginsL eqA G K input).
Notation gr := (grownL eqA G K input).
Variable e : A.

Lemma ext_shape x : isExtension eqA G e x = true -> exists l first rest, G x = Some (GSeq l false (first :: rest)).
Proof.
  unfold isExtension. destruct (G x) as [[|l [|] [|[y [mn mx]] rest]|]|]; try discriminate. eauto.
Qed.
Lemma round_grown n k label from xs0 bases : forall xs t ns t' ns', (forall x, In x xs -> In x xs0 /\ isExtension eqA G e x = true) -> n = k ->
  gr label xs0 bases from t ns -> evalRound G (ev n) k label from xs t ns = Match t' ns' ->
  gr label xs0 bases from t' ns' /\ t <= t' /\ (t' = t -> ns' = ns /\ forall x, In x xs -> exists l, Cont x l t NoMatch).
Proof.
  induction xs as [|x xs IH]; intros t ns t' ns' Hx -> Hg H; cbn [evalRound] in H.
  - inversion H; subst. split; auto. split; auto. intros _. split; auto. intros x [].
  - destruct (Hx x) as [Hin Hi]; [left; auto|]. destruct (ext_shape x Hi) as (l & first & rest & Ex). rewrite Ex in H.
    destruct (evalItems (ev k) k rest 0 t) as [| |t1 ns1] eqn:Ei; [discriminate| |].
    + destruct (IH t ns t' ns') as (R1 & R2 & R3); auto; [intros; apply Hx; right; auto|]. split; auto. split; auto. intros Ht. destruct (R3 Ht) as [R4 R5]. split; auto.
      intros y [<-|Hy]; auto. exists l. split; [discriminate|]. exists first, rest, k. auto.
    + destruct (Nat.ltb_spec t t1); [|discriminate]. apply IH in H; auto; [|intros; apply Hx; right; auto|].
      * destruct H as (R1 & R2 & _). split; auto. split; [lia|]. intros; lia.
      * eapply gl_more; eauto. split; [discriminate|]. exists first, rest, k. auto.
Qed.
Lemma grow_grown n label from xs bases : (forall x, In x xs -> isExtension eqA G e x = true) -> forall j t ns t' ns',
  gr label xs bases from t ns -> evalGrow G (ev n) n label from j xs t ns = Match t' ns' -> gr label xs bases from t' ns' /\ noMoreL eqA G K input xs t'.
Proof.
  intros Hx. induction j as [|j IH]; intros t ns t' ns' Hg H; [discriminate|]. cbn [evalGrow] in H.
  destruct (evalRound G (ev n) n label from xs t ns) as [| |t1 ns1] eqn:E; try discriminate.
  destruct (round_grown n n label from xs bases xs t ns t1 ns1) as (R1 & R2 & R3); auto.
  destruct (Nat.ltb_spec t t1); [eapply IH; eauto|]. inversion H; subst. split; auto. assert (t1 = t') by lia. subst t1. destruct (R3 eq_refl) as [_ R]. exact R.
Qed.
Theorem gives_grown label options o t ns : G e = Some (GChoice label options) -> extensionsOf eqA G e options <> [] -> GivesL eqA G K input e o (Match t ns) ->
  gr label (extensionsOf eqA G e options) (basesOf eqA G e options) o t ns /\ noMoreL eqA G K input (extensionsOf eqA G e options) t.
Proof.
  intros Ee Hx [_ (n & E)]. destruct n as [|n]; [discriminate|]. cbn [evalL] in E. rewrite Ee in E.
  assert (Hxs : forall x, In x (extensionsOf eqA G e options) -> isExtension eqA G e x = true) by (intros x H; apply filter_In in H; tauto).
  destruct (extensionsOf eqA G e options) as [|x0 xs]; [congruence|]. destruct (inBlocks eqA G e options); [|discriminate].
  destruct (evalOptions (ev n) (basesOf eqA G e options) o NoMatch) as [| |t0 ns0] eqn:Eb; try discriminate. destruct (o <? t0); [|discriminate].
  eapply grow_grown; [exact Hxs| |exact E]. apply gl_base. split; [discriminate|]. eauto.
Qed.

(** one extension: there is only one way *)
Lemma Beg_fun bases o r r' : Beg bases o r -> Beg bases o r' -> r = r'.
Proof.
  assert (X : forall n m, n <= m -> evalOptions (ev n) bases o NoMatch <> Unfinished -> evalOptions (ev m) bases o NoMatch = evalOptions (ev n) bases o NoMatch).
  { intros n m L H. apply evalOptions_mono; auto. intros x o'. apply evalL_mono; auto. }
  intros [H1 (n & E1)] [H2 (m & E2)]. destruct (Nat.le_ge_cases n m) as [L|L]; specialize (X _ _ L); [rewrite E1, E2 in X; symmetry; auto|rewrite E1, E2 in X; auto].
Qed.
Lemma Cont_fun x l l' o r r' : Cont x l o r -> Cont x l' o r' -> l = l' /\ r = r'.
Proof.
  intros [H1 (f1 & rest & n & Ex & E1)] [H2 (f2 & rest2 & m & Ex2 & E2)]. rewrite Ex in Ex2. inversion Ex2; subst l' f2 rest2. split; auto.
  assert (X : forall n m, n <= m -> evalItems (ev n) n rest 0 o <> Unfinished -> evalItems (ev m) m rest 0 o = evalItems (ev n) n rest 0 o).
  { intros a b L H. apply evalItems_mono; auto. intros y o'. apply evalL_mono; auto. }
  destruct (Nat.le_ge_cases n m) as [L|L]; specialize (X _ _ L); [rewrite E1, E2 in X; symmetry; auto|rewrite E1, E2 in X; auto].
Qed.

Section ONE.
Variables (label : option string) (x : A) (bases : list A) (from : nat).
Inductive steps : nat -> list node -> nat -> list node -> Prop :=
| st_refl t ns : steps t ns t ns
| st_next t ns l t' ns' t2 ns2 : Cont x l t (Match t' ns') -> steps t' (named label from t' (named l from t' (ns ++ ns'))) t2 ns2 -> steps t ns t2 ns2.
Lemma steps_more t ns t1 ns1 l t' ns' : steps t ns t1 ns1 -> Cont x l t1 (Match t' ns') -> steps t ns t' (named label from t' (named l from t' (ns1 ++ ns'))).
Proof. induction 1; intros Hc; econstructor; eauto. constructor. Qed.
Lemma grown_steps t ns : gr label [x] bases from t ns -> exists t0 ns0, Beg bases from (Match t0 ns0) /\ steps t0 (named label from t0 ns0) t ns.
Proof.
  induction 1 as [t ns Hb|t ns y l t' ns' Hg (t0 & ns0 & Hb & Hs) Hy Hc]; [exists t, ns; split; auto; constructor|].
  destruct Hy as [<-|[]]. exists t0, ns0. split; auto. eapply steps_more; eauto.
Qed.
Lemma steps_end t ns t1 ns1 : steps t ns t1 ns1 -> forall t2 ns2, steps t ns t2 ns2 -> noMoreL eqA G K input [x] t1 -> noMoreL eqA G K input [x] t2 -> t1 = t2 /\ ns1 = ns2.
Proof.
  induction 1 as [t ns|t ns l t' ns' t1 ns1 Hc Hs IH]; intros t2 ns2 H2 N1 N2.
  - destruct H2 as [|? ? l t' ns' ? ? Hc]; auto. destruct (N1 x) as (l' & Hn); [left; auto|]. destruct (Cont_fun _ _ _ _ _ _ Hc Hn). discriminate.
  - destruct H2 as [t ns|t ns l2 t2' ns2' ? ? Hc2 Hs2].
    + destruct (N2 x) as (l' & Hn); [left; auto|]. destruct (Cont_fun _ _ _ _ _ _ Hc Hn). discriminate.
    + destruct (Cont_fun _ _ _ _ _ _ Hc Hc2) as [-> E]. inversion E; subst. apply IH; auto.
Qed.
Lemma grown_unique t ns t' ns' : gr label [x] bases from t ns -> noMoreL eqA G K input [x] t -> gr label [x] bases from t' ns' -> noMoreL eqA G K input [x] t' -> t = t' /\ ns = ns'.
Proof.
  intros H1 N1 H2 N2. apply grown_steps in H1, H2. destruct H1 as (t0 & ns0 & B1 & S1), H2 as (t1 & ns1 & B2 & S2).
  pose proof (Beg_fun _ _ _ _ B1 B2) as E. inversion E; subst. eapply steps_end; eauto.
Qed.
End ONE.

Theorem one_extension label options o x : groundedGrowth eqA G e -> G e = Some (GChoice label options) -> extensionsOf eqA G e options = [x] ->
  forall t ns, GivesL eqA G K input e o (Match t ns) <-> gr label [x] (basesOf eqA G e options) o t ns /\ noMoreL eqA G K input [x] t.
Proof.
  intros (Hx & E & rank & HE & Hg) Ee Exs t ns.
  assert (Hf : forall t ns, GivesL eqA G K input e o (Match t ns) -> gr label [x] (basesOf eqA G e options) o t ns /\ noMoreL eqA G K input [x] t).
  { intros t' ns' H. pose proof (gives_grown label options o t' ns' Ee) as X. rewrite Exs in X. apply X; auto. discriminate. }
  split; auto. intros [H1 H2].
  destruct (evalL_total eqA G K input E rank HE (reaches G e) Hg (re_next G e) (List.length input - o) o (Nat.le_refl _) (rank e) e (Nat.le_refl _) Hx (re_start _ _)) as (m & Hm).
  assert (Hr : GivesL eqA G K input e o (ev m e o)) by (split; eauto).
  destruct (ev m e o) as [| |t0 ns0] eqn:Em; [contradiction| |].
  - exfalso. destruct m as [|m]; [discriminate|]. cbn [evalL] in Em. rewrite Ee, Exs in Em. destruct (inBlocks eqA G e options); [|discriminate].
    destruct (grown_steps _ _ _ _ _ _ H1) as (t1 & ns1 & B & _).
    destruct (evalOptions (ev m) (basesOf eqA G e options) o NoMatch) as [| |t2 ns2] eqn:Eb; [discriminate| |].
    + assert (B' : Beg (basesOf eqA G e options) o NoMatch) by (split; [discriminate|eauto]). pose proof (Beg_fun _ _ _ _ B B'). discriminate.
    + destruct (o <? t2); [|discriminate]. clear - Em. revert t2 ns2 Em. generalize (named label o). intros nm t2 ns2 Em.
      assert (X : forall j t ns, evalGrow G (ev m) m label o j [x] t ns <> NoMatch).
      { assert (Y : forall xs t ns, evalRound G (ev m) m label o xs t ns <> NoMatch).
        { induction xs as [|y xs IH]; intros t ns; cbn [evalRound]; [discriminate|]. destruct (G y) as [[|l nk [|f rest]|]|]; try discriminate.
          destruct (evalItems (ev m) m rest 0 t); try discriminate; auto. destruct (_ <? _); [auto|discriminate]. }
        induction j as [|j IH]; intros t ns; [discriminate|]. cbn [evalGrow]. pose proof (Y [x] t ns). destruct (evalRound G (ev m) m label o [x] t ns); try congruence. destruct (_ <? _); [auto|discriminate]. }
      eapply X; eauto.
  - destruct (Hf _ _ Hr) as [G1 G2]. destruct (grown_unique _ _ _ _ _ _ _ _ G1 G2 H1 H2); subst. auto.
Qed.
End CHAIN.

Theorem meansL_grown calls input n o label options t ns : graphOf calls (KDef n) = Some (GChoice label options) -> extensionsOf keyEqb (graphOf calls) (KDef n) options <> [] ->
  MeansL calls input n o (Match t ns) ->
  grownL keyEqb (graphOf calls) (keywordTexts calls) input label (extensionsOf keyEqb (graphOf calls) (KDef n) options) (basesOf keyEqb (graphOf calls) (KDef n) options) o t ns /\
  noMoreL keyEqb (graphOf calls) (keywordTexts calls) input (extensionsOf keyEqb (graphOf calls) (KDef n) options) t.
Proof. apply gives_grown. Qed.
Theorem meansL_one calls input n o label options x : growthGrounded calls n -> graphOf calls (KDef n) = Some (GChoice label options) ->
  extensionsOf keyEqb (graphOf calls) (KDef n) options = [x] ->
  forall t ns, MeansL calls input n o (Match t ns) <->
    grownL keyEqb (graphOf calls) (keywordTexts calls) input label [x] (basesOf keyEqb (graphOf calls) (KDef n) options) o t ns /\
    noMoreL keyEqb (graphOf calls) (keywordTexts calls) input [x] t.
Proof. apply one_extension. Qed.
