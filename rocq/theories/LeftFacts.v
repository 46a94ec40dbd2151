(** The specification of left recursive choices gives at most one outcome. *)
From Verif Require Import Base Parser Build Syntax Grammar WsLang RefSpec RefFuel LeftSpec.

Section FACTS.
Context {A : Type}.
Variable G : A -> option (gobj A).
Variable K : list (list rune).
Variable input : list rune.

Lemma Begins_once bases o r r' : Begins G K input bases o r -> Begins G K input bases o r' -> r = r'.
Proof.
  intros [H1 (n & E1)] [H2 (m & E2)]. subst.
  assert (X : forall a b, a <= b -> evalOptions (eval G K input a) bases o NoMatch <> Unfinished ->
            evalOptions (eval G K input b) bases o NoMatch = evalOptions (eval G K input a) bases o NoMatch).
  { intros a b Hab Hu. apply evalOptions_mono; auto. intros x o'. apply eval_mono; auto. }
  destruct (Nat.le_ge_cases n m) as [L|L]; [symmetry|]; apply X; auto.
Qed.
Lemma Continues_once x l l' o r r' : Continues G K input x l o r -> Continues G K input x l' o r' -> l = l' /\ r = r'.
Proof.
  intros [H1 (f1 & rest1 & n & G1 & E1)] [H2 (f2 & rest2 & m & G2 & E2)]. rewrite G1 in G2. inversion G2; subst. split; auto.
  assert (X : forall a b, a <= b -> evalItems (eval G K input a) a rest2 0 o <> Unfinished ->
            evalItems (eval G K input b) b rest2 0 o = evalItems (eval G K input a) a rest2 0 o).
  { intros a b Hab Hu. apply evalItems_mono; auto. intros y o'. apply eval_mono; auto. }
  destruct (Nat.le_ge_cases n m) as [L|L]; [symmetry|]; apply X; auto.
Qed.

Variables (label : option string) (extensions bases : list A) (from : nat).
Lemma round_once xs t ns t1 ns1 : round G K input label from xs t ns t1 ns1 -> forall t2 ns2, round G K input label from xs t ns t2 ns2 -> t1 = t2 /\ ns1 = ns2.
Proof.
  induction 1 as [t ns|x l xs t ns t1 ns1 Hc H IH|x l xs t ns t' ns' t1 ns1 Hc H IH]; intros t2 ns2 H2.
  - inversion H2; auto.
  - inversion H2 as [|? l' ? ? ? ? ? Hc' H'|? l' ? ? ? ? ? ? ? Hc' H']; subst; [auto|]. destruct (Continues_once _ _ _ _ _ _ Hc Hc'). discriminate.
  - inversion H2 as [|? l' ? ? ? ? ? Hc' H'|? l' ? ? ? ? ? ? ? Hc' H']; subst; destruct (Continues_once _ _ _ _ _ _ Hc Hc') as [El E]; [discriminate|].
    inversion E; subst. auto.
Qed.
Lemma round_noMore xs t ns t1 ns1 : round G K input label from xs t ns t1 ns1 -> (forall x, In x xs -> exists l, Continues G K input x l t NoMatch) -> t1 = t /\ ns1 = ns.
Proof.
  induction 1 as [t ns|x l xs t ns t1 ns1 Hc H IH|x l xs t ns t' ns' t1 ns1 Hc H IH]; intros Hn; auto.
  - apply IH. intros y Hy. apply Hn. right. auto.
  - destruct (Hn x (or_introl eq_refl)) as (l' & Hc'). destruct (Continues_once _ _ _ _ _ _ Hc Hc'). discriminate.
Qed.
Lemma rounds_stop t ns t1 ns1 : rounds G K input label extensions from t ns t1 ns1 -> noMore G K input extensions t -> t1 = t /\ ns1 = ns.
Proof.
  induction 1 as [t ns Hn|t ns t1 ns1 t2 ns2 Hr H IH]; intros Hn'; auto.
  destruct (round_noMore _ _ _ _ _ Hr Hn') as [-> ->]. auto.
Qed.
Lemma rounds_once t ns t1 ns1 : rounds G K input label extensions from t ns t1 ns1 -> forall t2 ns2, rounds G K input label extensions from t ns t2 ns2 -> t1 = t2 /\ ns1 = ns2.
Proof.
  induction 1 as [t ns Hn|t ns t1 ns1 t2 ns2 Hr H IH]; intros t3 ns3 H3.
  - destruct (rounds_stop _ _ _ _ H3 Hn). auto.
  - inversion H3 as [? ? Hn|? ? t4 ns4 ? ? Hr' H']; subst.
    + destruct (round_noMore _ _ _ _ _ Hr Hn) as [-> ->]. destruct (rounds_stop _ _ _ _ H Hn). auto.
    + destruct (round_once _ _ _ _ _ Hr _ _ Hr') as [-> ->]. auto.
Qed.
Lemma leftGives_once r r' : leftGives G K input label extensions bases from r -> leftGives G K input label extensions bases from r' -> r = r'.
Proof.
  destruct r as [| |t ns], r' as [| |t' ns']; simpl; try contradiction; auto.
  - intros H1 (t0 & ns0 & H2 & _). pose proof (Begins_once _ _ _ _ H1 H2). discriminate.
  - intros (t0 & ns0 & H2 & _) H1. pose proof (Begins_once _ _ _ _ H1 H2). discriminate.
  - intros (t0 & ns0 & H1 & H2) (t1 & ns1 & H3 & H4). pose proof (Begins_once _ _ _ _ H1 H3) as E. inversion E; subst.
    destruct (rounds_once _ _ _ _ H2 _ _ H4) as [-> ->]. auto.
Qed.
Lemma rounds_grown xs t ns t1 ns1 : incl xs extensions -> round G K input label from xs t ns t1 ns1 ->
  grown G K input label extensions bases from t ns -> grown G K input label extensions bases from t1 ns1.
Proof.
  intros Hi H. revert Hi. induction H as [t ns|x l xs t ns t1 ns1 Hc H IH|x l xs t ns t' ns' t1 ns1 Hc H IH]; intros Hi Hg; auto.
  - apply IH; auto. intros y Hy. apply Hi. right. auto.
  - apply IH; [intros y Hy; apply Hi; right; auto|]. eapply gr_more; eauto. apply Hi. left. auto.
Qed.
End FACTS.
