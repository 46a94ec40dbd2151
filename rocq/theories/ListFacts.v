(** Facts on lists and on [updNth], [ensureOffset]. *)
From Verif Require Import Base IdSet Results.

Lemma updNth_length {A} (f : A -> A) l : forall i, List.length (updNth i f l) = List.length l.
Proof. induction l; destruct i; simpl; auto. Qed.

Lemma nth_error_updNth {A} (f : A -> A) l : forall i j,
  nth_error (updNth i f l) j = if Nat.eqb i j then option_map f (nth_error l j) else nth_error l j.
Proof.
  induction l as [|x l IH]; intros [|i] [|j]; simpl; auto.
  destruct (Nat.eqb i j); auto.
Qed.

Lemma nth_updNth {A} (f : A -> A) l d : forall i j, i < List.length l ->
  nth j (updNth i f l) d = if Nat.eqb i j then f (nth j l d) else nth j l d.
Proof.
  induction l as [|x l IH]; intros [|i] [|j] H; simpl in *; auto; try lia.
  apply IH. lia.
Qed.

Lemma ensureOffset_length {A} (d : A) l o : o < List.length (ensureOffset d l o).
Proof. unfold ensureOffset. rewrite app_length, repeat_length. lia. Qed.

Lemma ensureOffset_ge {A} (d : A) l o : List.length l <= List.length (ensureOffset d l o).
Proof. unfold ensureOffset. rewrite app_length. lia. Qed.

Lemma nth_ensureOffset {A} (d : A) l o i : nth i (ensureOffset d l o) d = nth i l d.
Proof.
  unfold ensureOffset. destruct (Nat.lt_ge_cases i (List.length l)).
  - now rewrite app_nth1.
  - rewrite app_nth2 by lia. rewrite (nth_overflow l) by lia. apply nth_repeat.
Qed.

Lemma nth_error_ensureOffset_lt {A} (d : A) l o i : i < List.length l ->
  nth_error (ensureOffset d l o) i = nth_error l i.
Proof. intros. unfold ensureOffset. now rewrite nth_error_app1. Qed.

Lemma nth_nth_error {A} (d : A) l i : nth i l d = match nth_error l i with Some x => x | None => d end.
Proof. revert i; induction l; destruct i; simpl; auto. Qed.

Lemma nth_error_map' {A B} (f : A -> B) l : forall i, nth_error (map f l) i = option_map f (nth_error l i).
Proof. induction l; destruct i; simpl; auto. Qed.

Lemma nth_error_ext' {A} (l : list A) : forall l', (forall i, nth_error l i = nth_error l' i) -> l = l'.
Proof.
  induction l as [|x l IH]; intros [|y l'] H; auto; try (specialize (H 0); discriminate).
  pose proof (H 0) as H0. inversion H0; subst. f_equal. apply IH. intros i. exact (H (S i)).
Qed.
