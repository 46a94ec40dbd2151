(** The reference semantics on texts laid out as words, and on repeated items. *)
From Verif Require Import Base Parser Build RefSpec RefFuel AbsEval.
Local Open Scope nat_scope.

Section LAID.
Context {A : Type}.
Variable G : A -> option (gobj A).
Variable K : list (list rune).

(** ** the items of a sequence *)
Section ITEMS.
Variable input : list rune.
Notation ev := (eval G K input).
(** the outcome of items from an offset, the first of which has matched [count] times *)
Definition Goes (items : list (A * (nat * option nat))) (count o : nat) (r : outcome) : Prop :=
  r <> Unfinished /\ exists n, forall m, n <= m -> evalItems (ev m) m items count o = r.
Lemma gives_from a o r : Gives G K input a o r -> exists n, forall m, n <= m -> ev m a o = r.
Proof. intros [Hr (n & H)]. exists n. intros m Hm. rewrite (eval_mono G K input n m a o Hm); [auto|rewrite H; auto]. Qed.
(** one step more of the same fuel *)
Lemma goes_step items count o r : r <> Unfinished ->
  (exists n, forall m, n <= m -> evalItems (ev m) (S m) items count o = r) -> Goes items count o r.
Proof.
  intros Hr (n & H). split; auto. exists (S n). intros m Hm. destruct m as [|m]; [lia|].
  rewrite (evalItems_mono (ev m) (ev (S m)) (fun x o0 => eval_mono1 G K input m x o0) (S m) (S m) items count o); auto.
  - apply H; lia.
  - rewrite H by lia. auto.
Qed.
Lemma after_not ns r : r <> Unfinished -> after ns r <> Unfinished.
Proof. destruct r; simpl; congruence. Qed.
Lemma goes_nil o : Goes [] 0 o (Match o []).
Proof. split; [discriminate|]. exists 1. intros m Hm. destruct m; [lia|]. auto. Qed.
Lemma goes_more x mn mx its count o t ns r : Gives G K input x o (Match t ns) -> o < t -> mx <> Some (S count) ->
  Goes ((x, (mn, mx)) :: its) (S count) t r -> Goes ((x, (mn, mx)) :: its) count o (after ns r).
Proof.
  intros Hx Ho Hmx [Hr (n & H)]. destruct (gives_from _ _ _ Hx) as (n1 & H1). apply goes_step; [apply after_not; auto|].
  exists (n + n1). intros m Hm. cbn [evalItems]. rewrite H1 by lia. apply Nat.ltb_lt in Ho. rewrite Ho, H by lia.
  destruct mx as [mx|]; auto. destruct (Nat.eqb_spec (S count) mx); auto. congruence.
Qed.
Lemma goes_last x mn its count o t ns r : Gives G K input x o (Match t ns) -> o < t ->
  Goes its 0 t r -> Goes ((x, (mn, Some (S count))) :: its) count o (after ns r).
Proof.
  intros Hx Ho [Hr (n & H)]. destruct (gives_from _ _ _ Hx) as (n1 & H1). apply goes_step; [apply after_not; auto|].
  exists (n + n1). intros m Hm. cbn [evalItems]. rewrite H1 by lia. apply Nat.ltb_lt in Ho. rewrite Ho, H by lia.
  rewrite Nat.eqb_refl. auto.
Qed.
Lemma goes_skip x mn mx its count o r : Gives G K input x o NoMatch -> mn <= count ->
  Goes its 0 o r -> Goes ((x, (mn, mx)) :: its) count o r.
Proof.
  intros Hx Ho [Hr (n & H)]. destruct (gives_from _ _ _ Hx) as (n1 & H1). apply goes_step; [auto|].
  exists (n + n1). intros m Hm. cbn [evalItems]. rewrite H1 by lia. apply Nat.leb_le in Ho. rewrite Ho, H by lia. auto.
Qed.
Lemma goes_gives a label items o r : G a = Some (GSeq label false items) -> Goes items 0 o r -> Gives G K input a o (labelled label o r).
Proof.
  intros Ha [Hr (n & H)]. split; [destruct r; simpl; congruence|]. exists (S n). cbn [eval]. rewrite Ha, H by lia. destruct r; auto.
Qed.

(** [x] matches so many times, one after the other, never the empty text *)
Inductive Reps (x : A) : nat -> nat -> nat -> list node -> Prop :=
| reps_nil o : Reps x 0 o o []
| reps_cons k o t u ns ns' : Gives G K input x o (Match t ns) -> o < t -> Reps x k t u ns' -> Reps x (S k) o u (ns ++ ns').
Lemma after_after ns ns' r : after ns (after ns' r) = after (ns ++ ns') r.
Proof. destruct r; simpl; auto. rewrite app_assoc. auto. Qed.
Lemma goes_star x mn its k o t ns r : Reps x k o t ns -> Gives G K input x t NoMatch -> Goes its 0 t r ->
  forall count, mn <= count + k -> Goes ((x, (mn, None)) :: its) count o (after ns r).
Proof.
  intros HR Hno Hr. induction HR as [o|k o t u ns ns' Hx Ho HR IH]; intros count Hc.
  - replace (after [] r) with r by (destruct r; auto). apply goes_skip; auto. lia.
  - rewrite <- after_after. eapply goes_more; eauto; [discriminate|]. apply IH; auto. lia.
Qed.
End ITEMS.

(** ** words *)
Variable eqA : A -> A -> bool.
Hypothesis eqA_ok : forall a b, eqA a b = true -> a = b.
Hypothesis Hlabel : forall a, match G a with
  | Some (GSeq (Some l) _ _) | Some (GChoice (Some l) _) => String.eqb l "?" = false
  | _ => True end.
Variables (pre post : list rune).
Variable ws : list (list rune).
Variable text : list (asym (A := A)).
Variable closed : bool.
Variable nodes : nat -> nat -> list node.
Definition wpos (i : nat) : nat := List.length pre + List.length (List.concat (firstn i ws)) + (i - List.length ws).
Definition winput : list rune := pre ++ List.concat ws ++ post.
(** the word is one of those that the symbol stands for *)
Definition fits (s : asym (A := A)) (w : list rune) : Prop :=
  match w with
  | [] => False
  | r :: w' => (forall cn ch rs b, testsOf s cn ch rs = Some b -> classHas cn ch rs r = b) /\
               match s with ARune _ => w' = [] | AWord _ _ => True end
  end.
Hypothesis Hfits : Forall2 fits text ws.
Hypothesis Hword : forall i ks t j k m, nth_error text i = Some (AWord ks t) -> nth_error ks j = Some (k, m) ->
  Gives G K winput k (wpos i) (match m with Some m => Match (wpos (i + m)) (nodes i j) | None => NoMatch end).
Hypothesis Hclosed : closed = true -> post = [].

Lemma words_nonempty : Forall (fun w => w <> []) ws.
Proof. clear Hword. induction Hfits as [|s w t' w' H HF IH]; constructor; auto. destruct w; [destruct H|discriminate]. Qed.
Lemma text_length : List.length text = List.length ws.
Proof. clear Hword. induction Hfits; simpl; auto. Qed.
Lemma fits_nth i s : nth_error text i = Some s -> exists w, nth_error ws i = Some w /\ fits s w.
Proof.
  clear Hword. revert i. induction Hfits as [|s' w t' w' H HF IH]; intros i Hi; [destruct i; discriminate|].
  destruct i as [|i]; simpl in *; [inversion Hi; subst; eauto|auto].
Qed.
Lemma wpos_S i w : nth_error ws i = Some w -> wpos (S i) = wpos i + List.length w.
Proof.
  intros H. unfold wpos. assert (Hl : i < List.length ws) by (apply nth_error_Some; congruence).
  apply nth_error_split in H. destruct H as (l1 & l2 & -> & <-).
  rewrite firstn_app, firstn_all2, Nat.sub_succ_l, Nat.sub_diag by lia. rewrite firstn_app, firstn_all, Nat.sub_diag. cbn [firstn].
  rewrite !concat_app, !app_length. cbn [List.concat]. rewrite !app_length in *. cbn [List.length] in *. lia.
Qed.
Lemma wpos_end i : List.length ws <= i -> wpos i = List.length pre + List.length (List.concat ws) + (i - List.length ws).
Proof. intros H. unfold wpos. rewrite firstn_all2 by lia. auto. Qed.
Lemma wpos_step i : wpos i < wpos (S i).
Proof.
  destruct (nth_error ws i) as [w|] eqn:E.
  - rewrite (wpos_S i w E). pose proof words_nonempty as H. rewrite Forall_forall in H. specialize (H w (nth_error_In _ _ E)). destruct w; [congruence|]. simpl. lia.
  - apply nth_error_None in E. rewrite !wpos_end by lia. lia.
Qed.
Lemma wpos_up i j : i < j -> wpos i < wpos j.
Proof. induction 1 as [|j Hj IH]; [apply wpos_step|]. pose proof (wpos_step j). lia. Qed.
Lemma wpos_read i w : nth_error ws i = Some w -> exists l1 l2, winput = l1 ++ w ++ l2 /\ List.length l1 = wpos i.
Proof.
  intros H. assert (Hl : i < List.length ws) by (apply nth_error_Some; congruence). unfold wpos, winput.
  exists (pre ++ List.concat (firstn i ws)), (List.concat (skipn (S i) ws) ++ post). split; [|rewrite app_length; lia].
  rewrite <- (firstn_skipn i ws) at 1. rewrite concat_app, <- !app_assoc. do 2 f_equal.
  apply nth_error_split in H. destruct H as (l1 & l2 & -> & <-).
  assert (E : skipn (S (List.length l1)) (l1 ++ w :: l2) = l2) by (clear; induction l1; simpl; auto).
  assert (E' : skipn (List.length l1) (l1 ++ w :: l2) = w :: l2) by (clear; induction l1; simpl; auto).
  rewrite E, E'. cbn [List.concat]. rewrite <- app_assoc. auto.
Qed.

Theorem laid_gives n a i r : aeval G eqA text closed n a i = r -> r <> Unfinished -> Gives G K winput a (wpos i) (fillOut wpos nodes r).
Proof.
  apply (aeval_gives G eqA eqA_ok text closed K winput wpos nodes); auto.
  - apply wpos_up.
  - intros j s Hs. destruct (fits_nth j s Hs) as (w & Hw & Hf). destruct w as [|c w]; [destruct Hf|]. exists c. destruct Hf as [Hf1 Hf2].
    destruct (wpos_read j _ Hw) as (l1 & l2 & E & El). split; [|split; auto].
    + rewrite E, nth_error_app2, <- El, Nat.sub_diag by lia. auto.
    + destruct s; auto. subst w. rewrite (wpos_S j _ Hw). simpl. lia.
  - intros Hc j Hj. apply nth_error_None. unfold winput. rewrite (Hclosed Hc), app_nil_r, app_length.
    assert (El : List.length text = List.length ws) by exact text_length. rewrite wpos_end by lia. lia.
Qed.
End LAID.
