(** A check for choices that start with themselves. *)
From Verif Require Import Base Utf8 Parser Build Syntax Grammar WsLang ApiSpec RefSpec RefFuel RefCheck LeftSpec.
Local Open Scope nat_scope.

Lemma key_eq_ok a b : key_eq a b = true <-> a = b.
Proof.
  destruct a, b; simpl; rewrite ?andb_true_iff, ?String.eqb_eq, ?Nat.eqb_eq; split; intros H; try discriminate; auto;
    try (destruct H; congruence); try congruence; inversion H; auto.
Qed.
Lemma member_In l k : member l k = true <-> In k l.
Proof.
  unfold member. rewrite existsb_exists. split.
  - intros (x & Hx & E). apply key_eq_ok in E. subst; auto.
  - intros H. exists k. split; auto. apply key_eq_ok; auto.
Qed.

Section CHECK.
Variable calls : list defcall.
Notation G := (graphOf calls).
Variables (e : key) (label : option string) (extensions bases : list key).

Definition children (k : key) : list key :=
  match G k with
  | Some (GSeq _ _ items) => map fst items
  | Some (GChoice _ options) => options
  | _ => []
  end.
Definition reachStep (l : list key) (k : key) : bool := existsb (member l) (children k).
Fixpoint reachKeys (n : nat) : list key :=
  match n with O => [e] | S n' => e :: filter (reachStep (reachKeys n')) (keysOf calls) end.
Definition sameKeys (a b : list key) : bool := (List.length a =? List.length b) && forallb (fun p => key_eq (fst p) (snd p)) (combine a b).
Definition sameLabel (a b : option string) : bool :=
  match a, b with Some x, Some y => String.eqb x y | None, None => true | _, _ => false end.

Definition leftCheck (n : nat) : bool :=
  let R := reachKeys n in
  let E := member (emptyKeys calls n) in
  negb (List.length extensions =? 0) &&
  match G e with
  | Some (GChoice l options) => sameLabel l label && (sameKeys options (extensions ++ bases) || sameKeys options (bases ++ extensions))
  | _ => false end &&
  forallb (fun k => implb (existsb (member R) (children k)) (member R k)) (keysOf calls) &&
  forallb (fun b => negb (member R b) && negb (E b)) bases &&
  forallb (fun x => match G x with
    | Some (GSeq _ false ((y, (1, Some 1)) :: rest)) =>
      key_eq y e && forallb (fun z => negb (member R (fst z))) rest && existsb (fun z => (0 <? fst (snd z)) && negb (E (fst z))) rest
    | _ => false end) extensions &&
  forallb (fun k => implb (emptyStep calls (emptyKeys calls n) k) (E k)) (keysOf calls) &&
  forallb (fun k => member R k || forallb (fun x => depth calls E n x <? depth calls E n k) (starts calls E k)) (keysOf calls).

Lemma sameKeys_ok a b : sameKeys a b = true -> a = b.
Proof.
  unfold sameKeys. intros H. apply andb_true_iff in H. destruct H as [H1 H2]. apply Nat.eqb_eq in H1. revert b H1 H2.
  induction a as [|x a IH]; intros [|y b] H1 H2; simpl in *; try discriminate; auto. apply andb_true_iff in H2. destruct H2 as [H2 H3].
  apply key_eq_ok in H2. subst. f_equal. apply IH; auto.
Qed.
Lemma reach_sound n k : In k (reachKeys n) -> reaches G e k.
Proof.
  revert k. induction n as [|n IH]; intros k; [simpl; intros [<-|[]]; constructor|]. cbn [reachKeys In]. intros [<-|H]; [constructor|].
  apply filter_In in H. destruct H as [_ H]. unfold reachStep in H. apply existsb_exists in H. destruct H as (x & Hx & Hm). apply member_In, IH in Hm. unfold children in Hx.
  destruct (G k) as [[cn ch rs|l nk items|l options]|] eqn:Ek; try destruct Hx.
  - apply in_map_iff in Hx. destruct Hx as ([y bd] & <- & Hx). eapply re_item; eauto.
  - eapply re_option; eauto.
Qed.
Lemma reach_all n : forallb (fun k => implb (existsb (member (reachKeys n)) (children k)) (member (reachKeys n) k)) (keysOf calls) = true ->
  forall k, reaches G e k -> member (reachKeys n) k = true.
Proof.
  intros H k Hr. rewrite forallb_forall in H.
  assert (Hstep : forall a x, G a <> None -> In x (children a) -> member (reachKeys n) x = true -> member (reachKeys n) a = true).
  { intros a x Ha Hx Hm. specialize (H a (keys_cover calls a Ha)). assert (X : existsb (member (reachKeys n)) (children a) = true) by (apply existsb_exists; eauto).
    rewrite X in H. exact H. }
  induction Hr as [|a l nk items x bd Ea Hx Hr IH|a l options x Ea Hx Hr IH].
  - apply member_In. destruct n; left; auto.
  - eapply Hstep; [congruence| |exact IH]. unfold children. rewrite Ea. apply in_map_iff. exists (x, bd). auto.
  - eapply Hstep; [congruence| |exact IH]. unfold children. rewrite Ea. auto.
Qed.

Theorem leftCheck_ok n : leftCheck n = true -> leftRecursive G e label extensions bases /\ groundedLeft G e extensions bases.
Proof.
  intros H. unfold leftCheck in H. set (R := reachKeys n) in *. set (E := member (emptyKeys calls n)) in *.
  repeat (apply andb_true_iff in H; let X := fresh "C" in destruct H as [H X]).
  pose proof (reach_all n C3) as HR. fold R in HR. rewrite forallb_forall in C, C0, C1, C2.
  assert (HnR : forall k, negb (member R k) = true -> ~ reaches G e k).
  { intros k Hk Hr. rewrite (HR k Hr) in Hk. discriminate. }
  assert (Hext : forall x, In x extensions -> exists l rest, G x = Some (GSeq l false ((e, (1, Some 1)) :: rest)) /\
    (forall y bd, In (y, bd) rest -> ~ reaches G e y) /\ exists y mn mx, In (y, (mn, mx)) rest /\ 0 < mn /\ E y = false).
  { intros x Hx. specialize (C1 x Hx). destruct (G x) as [[cn ch rs|l [|] [|[y [[|[|mn]] [[|[|mx]]|]]] rest]|l options]|]; try discriminate.
    apply andb_true_iff in C1. destruct C1 as [C1 C1c]. apply andb_true_iff in C1. destruct C1 as [C1a C1b]. apply key_eq_ok in C1a. subst y.
    exists l, rest. split; auto. split.
    - intros y bd Hy. apply HnR. rewrite forallb_forall in C1b. apply (C1b (y, bd) Hy).
    - apply existsb_exists in C1c. destruct C1c as ([y [mn mx]] & Hy & Hm). simpl in Hm. apply andb_true_iff in Hm. destruct Hm as [Hm1 Hm2]. apply Nat.ltb_lt in Hm1.
      exists y, mn, mx. split; auto. split; auto. destruct (E y); [discriminate|auto]. }
  split.
  - constructor.
    + intros ->. discriminate.
    + destruct (G e) as [[cn ch rs|l nk items|l options]|]; try discriminate. apply andb_true_iff in C4. destruct C4 as [C4a C4b]. exists options. split.
      * unfold sameLabel in C4a. destruct l, label; try discriminate; auto. apply String.eqb_eq in C4a. subst; auto.
      * apply orb_true_iff in C4b. destruct C4b as [C4b|C4b]; apply sameKeys_ok in C4b; auto.
    + intros b Hb. specialize (C2 b Hb). apply andb_true_iff in C2. apply HnR, C2.
    + intros x Hx. destruct (Hext x Hx) as (l & rest & H1 & H2 & _). eauto.
  - exists E, (depth calls E n). split; [|split; [|split]].
    + intros k. destruct (G k) as [[cn ch rs|lb nk items|lb options]|] eqn:Eg; auto; assert (Hin : In k (keysOf calls)) by (apply keys_cover; congruence); specialize (C0 k Hin);
        unfold emptyStep in C0; rewrite Eg in C0.
      * intros Hi. destruct (E k); auto. assert (X : forallb (fun x => (fst (snd x) =? 0) || member (emptyKeys calls n) (fst x)) items = true).
        { apply forallb_forall. intros [x [mn mx]] Hx. simpl. destruct (Hi x mn mx Hx) as [->|Hx']; [reflexivity|]. unfold E in Hx'. rewrite Hx'. apply orb_true_r. }
        rewrite X in C0. discriminate.
      * intros x Hx HEx. destruct (E k); auto. assert (X : existsb (member (emptyKeys calls n)) options = true) by (apply existsb_exists; exists x; auto). rewrite X in C0. discriminate.
    + intros a x Hn Hs. assert (Hin : In a (keysOf calls)) by (apply keys_cover; auto; destruct Hs; congruence). specialize (C a Hin). apply orb_true_iff in C.
      destruct C as [C|C]; [exfalso; apply Hn; eapply reach_sound; apply member_In; exact C|]. rewrite forallb_forall in C.
      apply Nat.ltb_lt, C. unfold starts. destruct Hs as [l k before b behind Eg Hb|l options Eg Ho]; rewrite Eg; auto. apply firstItems_In; auto.
    + intros b Hb. specialize (C2 b Hb). apply andb_true_iff in C2. destruct C2 as [_ C2]. destruct (E b); [discriminate|auto].
    + intros x l first rest Hx Gx. destruct (Hext x Hx) as (l' & rest' & H1 & _ & H2). rewrite H1 in Gx. inversion Gx; subst. auto.
Qed.
End CHECK.
