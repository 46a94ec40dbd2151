(** Definitions that start with themselves on grounds without left recursion. *)
From Verif Require Import Base Utf8 Parser Build Syntax ListFacts Lang Grammar WsLang ApiSpec RefSpec RefFuel RefTotal LeftSpec LeftFacts.

Section TOTAL.
Context {A : Type}.
Variable G : A -> option (gobj A).
Variable K : list (list rune).
Variable input : list rune.
Notation ev := (eval G K input).
Hypothesis Hclosed : forall a, match G a with
  | Some (GSeq _ _ items) => forall x b, In (x, b) items -> G x <> None
  | Some (GChoice _ options) => forall x, In x options -> G x <> None
  | _ => True end.

Section RANK.
Variables (E : A -> bool) (rank : A -> nat) (D : A -> Prop).
Hypothesis HE : mayBeEmpty G E.
Hypothesis Hrank : forall a x, D a -> startsWith G E a x -> rank x < rank a.
Hypothesis Hitem : forall a l k items x b, D a -> G a = Some (GSeq l k items) -> In (x, b) items -> D x.
Hypothesis Hoption : forall a l options x, D a -> G a = Some (GChoice l options) -> In x options -> D x.

Theorem eval_total_on : forall m o, List.length input - o <= m -> forall k a, rank a <= k -> G a <> None -> D a -> avail G K input a o.
Proof.
  induction m as [m IHm] using lt_wf_ind. intros o Hm. induction k as [k IHk] using lt_wf_ind. intros a Hk Ha HD.
  destruct (G a) as [[cn ch rs|lb nk items|lb options]|] eqn:Ea; [| | |contradiction].
  - exists 1. cbn [eval]. rewrite Ea. destruct (nth_error input o); [destruct (classHas _ _ _ _)|]; discriminate.
  - pose proof (Hclosed a) as Hc. rewrite Ea in Hc. destruct (items_total G K input E HE m items 0 o Hm) as (n & Hn).
    + left. split; auto. intros before x b behind -> Hb. assert (Hin : In (x, b) (before ++ (x, b) :: behind)) by (apply in_or_app; right; left; auto). apply (IHk (rank x)); eauto.
      assert (rank x < rank a) by (apply Hrank; auto; eapply sw_item; eauto). lia.
    + intros x b o' Hx Ho Hl. apply (IHm (List.length input - o')) with (k := rank x); eauto; lia.
    + exists (S n). cbn [eval]. rewrite Ea. destruct (evalItems (ev n) n items 0 o) as [| |t ns]; [contradiction|discriminate|]. destruct (_ && _); [discriminate|]. simpl. discriminate.
  - pose proof (Hclosed a) as Hc. rewrite Ea in Hc. destruct (options_total G K input o options) as (n & Hn).
    + intros x Hx. apply (IHk (rank x)); eauto. assert (rank x < rank a) by (apply Hrank; auto; eapply sw_option; eauto). lia.
    + exists (S n). cbn [eval]. rewrite Ea. specialize (Hn NoMatch ltac:(discriminate)). destruct (evalOptions (ev n) options o NoMatch); [contradiction|discriminate|discriminate].
Qed.
End RANK.

Theorem grounded_growing e label extensions bases from :
  leftRecursive G e label extensions bases -> groundedLeft G e extensions bases -> growing G K input label extensions bases from.
Proof.
  intros [Hsome (os & HG & Hos) Hbs Hxs] (E & rank & HE & Hrank & HEb & HEx).
  set (D := fun a => ~ reaches G e a).
  assert (Hitem : forall a l k items x b, D a -> G a = Some (GSeq l k items) -> In (x, b) items -> D x).
  { intros a l k items x b HD Ha Hx Hr. apply HD. eapply re_item; eauto. }
  assert (Hoption : forall a l options x, D a -> G a = Some (GChoice l options) -> In x options -> D x).
  { intros a l options x HD Ha Hx Hr. apply HD. eapply re_option; eauto. }
  assert (Htot : forall a o, G a <> None -> D a -> avail G K input a o).
  { intros a o Ha HD. apply (eval_total_on E rank D HE Hrank Hitem Hoption (List.length input - o) o (Nat.le_refl _) (rank a)); auto. }
  assert (Hdef : forall b, In b bases -> G b <> None).
  { intros b Hb. pose proof (Hclosed e) as Hc. rewrite HG in Hc. apply Hc. destruct Hos as [->| ->]; apply in_or_app; auto. }
  assert (Hcont : forall x t, In x extensions -> exists l r, Continues G K input x l t r).
  { intros x t Hx. destruct (Hxs x Hx) as (l & rest & Gx & Hrest). pose proof (Hclosed x) as Hc. rewrite Gx in Hc.
    destruct (items_total G K input E HE _ rest 0 t (Nat.le_refl _)) as (n & Hn).
    - right. intros y b Hy. apply Htot; [apply (Hc y b); right; auto|eapply Hrest; eauto].
    - intros y b o' Hy _ _. apply Htot; [apply (Hc y b); right; auto|eapply Hrest; eauto].
    - exists l, (evalItems (ev n) n rest 0 t). split; auto. exists (e, (1, Some 1)), rest, n. auto. }
  constructor.
  - destruct (options_total G K input from bases) as (n & Hn); [intros b Hb; apply Htot; [auto|apply Hbs; auto]|].
    exists (evalOptions (ev n) bases from NoMatch). split; [apply Hn; discriminate|eauto].
  - intros t ns x _ Hx. auto.
  - intros t ns [_ (n & H)]. destruct (evalOptions_case (ev n) bases from NoMatch) as [E1|(b & Hb & E1)]; [congruence|]. rewrite H in E1. symmetry in E1.
    pose proof (eval_ge _ _ _ _ _ _ _ _ E1) as L. destruct (Nat.eq_dec from t) as [->|]; [|lia]. apply (eval_empty G K input E HE) in E1. rewrite (HEb b Hb) in E1. discriminate.
  - intros t ns x l t' ns' _ Hx [_ (first & rest & n & Gx & H)].
    pose proof (evalItems_ge (ev n) (fun x o t ns => eval_ge _ _ _ n x o t ns) _ _ _ _ _ _ H) as L. destruct (Nat.eq_dec t t') as [->|]; [|lia]. exfalso.
    destruct (HEx x l first rest Hx Gx) as (y & mn & mx & Hy & Hmn & Hey).
    destruct (evalItems_empty E (ev n) (fun x o ns => eval_empty G K input E HE n x o ns) (fun x o t ns => eval_ge _ _ _ n x o t ns) _ _ _ _ H y mn mx Hy) as [X|X]; [lia|congruence].
Qed.
End TOTAL.

Section ONE.
Context {A : Type}.
Variable G : A -> option (gobj A).
Variable K : list (list rune).
Variable input : list rune.
Variables (label : option string) (x : A) (bases : list A) (from : nat).

(** with one extension, everything grown is on the way of the rounds *)
Lemma grown_rounds t ns : grown G K input label [x] bases from t ns ->
  forall t2 ns2, rounds G K input label [x] from t ns t2 ns2 ->
  exists t0 ns0, Begins G K input bases from (Match t0 ns0) /\ rounds G K input label [x] from t0 (named label from t0 ns0) t2 ns2.
Proof.
  induction 1 as [t ns HB|t ns y l t' ns' Hg IH Hy HC]; intros t2 ns2 Hr; [eauto|].
  apply IH. destruct Hy as [<-|[]]. eapply rs_next; [|exact Hr]. eapply rd_more; [exact HC|constructor].
Qed.
Lemma continues_le y l t t' ns' : Continues G K input y l t (Match t' ns') -> t < t' -> t' <= List.length input.
Proof.
  intros [_ (first & rest & n & _ & H)] L.
  eapply (evalItems_le input (eval G K input n)); eauto; [intros z o z' ms; apply eval_le|intros z o z' ms; apply eval_ge].
Qed.
Theorem one_grown ns : growing G K input label [x] bases from -> 
  (grown G K input label [x] bases from (List.length input) ns <-> leftGives G K input label [x] bases from (Match (List.length input) ns)).
Proof.
  intros Hg. split.
  - intros H. simpl. apply (grown_rounds _ _ H). apply rs_last. intros y Hy. destruct (gw_continues _ _ _ _ _ _ _ Hg _ _ y H Hy) as (l & [| |t' ns'] & HC).
    + destruct HC as [HC _]. congruence.
    + eauto.
    + pose proof (gw_more _ _ _ _ _ _ _ Hg _ _ _ _ _ _ H Hy HC) as L. pose proof (continues_le _ _ _ _ _ HC L). lia.
  - intros (t0 & ns0 & HB & Hr). assert (H0 : grown G K input label [x] bases from t0 (named label from t0 ns0)) by (apply gr_base; auto). clear HB. induction Hr as [|t ns1 t1 ns2 t2 ns3 Hr Hrs IH]; auto. apply IH. eapply rounds_grown; eauto. apply incl_refl.
Qed.
End ONE.

Section NESTED.
Context {A : Type}.
Variable G : A -> option (gobj A).
Variable K : list (list rune).
Variable input : list rune.
Variables (label : option string) (extensions bases : list A) (from : nat).
Lemma named_nested l o t ns : nestedTo o t ns -> nestedTo o t (named l o t ns).
Proof.
  intros H. destruct l as [n|]; simpl; auto. split; [|constructor; [apply wellNested_node; auto|constructor]].
  simpl. destruct H as [H _]. apply inOrder_le in H. lia.
Qed.
Lemma grown_nested t ns : grown G K input label extensions bases from t ns -> nestedTo from t ns.
Proof.
  induction 1 as [t ns [_ (n & HB)]|t ns x l t' ns' Hg IH Hx [_ (first & rest & n & _ & HC)]].
  - apply named_nested. destruct (evalOptions_case (eval G K input n) bases from NoMatch) as [E|(b & _ & E)]; rewrite HB in E; [discriminate|].
    symmetry in E. eapply eval_nested; eauto.
  - apply named_nested, named_nested. eapply nested_app; [exact IH|]. eapply (evalItems_nested (eval G K input n)); eauto. intros z o z' ms. apply eval_nested.
Qed.
Lemma leftGives_grown t ns : leftGives G K input label extensions bases from (Match t ns) -> grown G K input label extensions bases from t ns.
Proof.
  intros (t0 & ns0 & HB & Hr).
  assert (H0 : grown G K input label extensions bases from t0 (named label from t0 ns0)) by (apply gr_base; auto). clear HB.
  induction Hr as [|t1 ns1 t2 ns2 t3 ns3 Hr Hrs IH]; auto. apply IH. eapply rounds_grown; eauto. apply incl_refl.
Qed.
Lemma leftGives_nested t n : leftGives G K input label extensions bases from (Match t [n]) -> wellNested n.
Proof. intros H. apply leftGives_grown, grown_nested in H. destruct H as [_ H]. inversion H; auto. Qed.
End NESTED.
