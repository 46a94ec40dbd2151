(** Two result stores in which the same parsers have different ids. *)
From Verif Require Import Base IdSet Results ListFacts ResultsFacts GenSim.

(** the ends of the matches of an id at an offset, in the order in which they were stored *)
Definition ends (r : results) (o i : nat) : list nat := map snd (filter (entryId i) (matchRow r o)).
Definition slots (r : results) (i : nat) : list (option nat) := nth i (rPending r) [].

Lemma existsb_is i t row : existsb (entryIs i t) row = existsb (Nat.eqb t) (map snd (filter (entryId i) row)).
Proof.
  induction row as [|[[j|] u] row IH]; auto. cbn [existsb filter]. unfold entryIs at 1, entryId at 1. cbn [fst snd].
  destruct (j =? i); cbn [andb map existsb snd]; [|exact IH]. rewrite IH, (Nat.eqb_sym u t). reflexivity.
Qed.
Lemma existsb_id i row : existsb (entryId i) row = negb (match map snd (filter (entryId i) row) with [] => true | _ => false end).
Proof. induction row as [|e row IH]; auto. cbn [existsb filter]. destruct (entryId i e); auto. Qed.
Fixpoint longestEnd (l : list nat) (acc : option nat) : option nat :=
  match l with
  | [] => acc
  | t :: l' => longestEnd l' (match acc with None => Some t | Some u => if u <? t then Some t else Some u end)
  end.
Lemma longest_ends i row : forall acc, longestIn i row acc = longestEnd (map snd (filter (entryId i) row)) acc.
Proof. induction row as [|e row IH]; intros acc; auto. cbn [longestIn filter]. destruct (entryId i e); [cbn [map longestEnd]|]; apply IH. Qed.
Fixpoint dropEnd (t : nat) (l : list nat) : list nat :=
  match l with [] => [] | u :: l' => if u =? t then l' else u :: dropEnd t l' end.
Lemma ends_some k u j row : map snd (filter (entryId j) ((Some k, u) :: row)) = if k =? j then u :: map snd (filter (entryId j) row) else map snd (filter (entryId j) row).
Proof. cbn [filter]. change (entryId j (Some k, u)) with (k =? j). destruct (k =? j); auto. Qed.
Lemma ends_none u j row : map snd (filter (entryId j) ((None, u) :: row)) = map snd (filter (entryId j) row).
Proof. reflexivity. Qed.
Lemma drop_ends i t j row : map snd (filter (entryId j) (dropIn i t row)) =
  if j =? i then dropEnd t (map snd (filter (entryId j) row)) else map snd (filter (entryId j) row).
Proof.
  induction row as [|[[k|] u] row IH]; [destruct (j =? i); reflexivity| |].
  - cbn [dropIn]. change (entryIs i t (Some k, u)) with ((k =? i) && (u =? t))%bool. destruct (Nat.eqb_spec k i) as [->|E1]; cbn [andb].
    + destruct (u =? t) eqn:E2; rewrite ?ends_none, !ends_some, (Nat.eqb_sym i j); destruct (j =? i) eqn:E3; cbn [dropEnd snd]; rewrite ?E2, ?IH; auto.
    + rewrite !ends_some, IH. destruct (Nat.eqb_spec k j) as [->|E3]; auto. destruct (Nat.eqb_spec j i); [congruence|]. auto.
  - cbn [dropIn]. change (entryIs i t (None, u)) with false. cbn iota. rewrite !ends_none. exact IH.
Qed.
Lemma ends_set r o i t o' j : ends (setMatch r o i t) o' j =
  if (o' =? o) && (j =? i) then (if existsb (Nat.eqb t) (ends r o i) then ends r o i else ends r o i ++ [t]) else ends r o' j.
Proof.
  unfold ends, matchRow, setMatch. cbv zeta. rewrite nth_ensureOffset, existsb_is.
  destruct (existsb (Nat.eqb t) _) eqn:E; cbn [rMatch].
  - rewrite nth_ensureOffset. destruct (o' =? o) eqn:E1, (j =? i) eqn:E2; cbn [andb]; auto. apply Nat.eqb_eq in E1, E2. subst. auto.
  - rewrite nth_updNth by apply ensureOffset_length. rewrite (Nat.eqb_sym o o'), nth_ensureOffset. destruct (o' =? o) eqn:E1; cbn [andb]; auto. apply Nat.eqb_eq in E1. subst o'.
    rewrite filter_app, map_app. cbn [filter]. unfold entryId at 2. cbn [fst]. rewrite (Nat.eqb_sym i j). destruct (j =? i) eqn:E2; cbn [map snd].
    + apply Nat.eqb_eq in E2. subst. auto.
    + apply app_nil_r.
Qed.
Lemma ends_noMatch r o i o' j : ends (setNoMatch r o i) o' j = ends r o' j.
Proof. unfold ends. rewrite matchRow_setNoMatch. auto. Qed.
Lemma has_noMatch r o i o' j : noMatchHas (setNoMatch r o i) o' j =
  (noMatchHas r o' j || ((o' =? o) && (j =? i) && match ends r o i with [] => true | _ => false end))%bool.
Proof.
  unfold setNoMatch. rewrite existsb_id. fold (ends r o i). destruct (ends r o i) as [|x l]; cbn [negb].
  - rewrite !noMatchHas_nth. cbn [rNoMatch]. rewrite nth_updNth by apply ensureOffset_length. rewrite nth_ensureOffset, (Nat.eqb_sym o o'), andb_true_r.
    destruct (o' =? o) eqn:E; cbn [andb]; [|rewrite orb_false_r; auto]. apply Nat.eqb_eq in E. subst o'. rewrite idset_has_set, (Nat.eqb_sym i j).
    destruct (nth o (rNoMatch r) None); [|rewrite idset_has_nil]; rewrite orb_comm; destruct (j =? i); auto; rewrite ?orb_false_r; auto.
  - rewrite !andb_false_r, orb_false_r. auto.
Qed.
Lemma slots_mark r o i j : slots (markPending r o i) j = if j =? i then markIn o (slots r i) else slots r j.
Proof.
  unfold slots, markPending. cbn [rPending]. rewrite nth_updNth by apply ensureOffset_length. rewrite nth_ensureOffset, (Nat.eqb_sym i j).
  destruct (j =? i) eqn:E; auto. apply Nat.eqb_eq in E. subst. auto.
Qed.

Section STORE.
(** the id of a parser in the first store and in the second *)
Variable I : nat -> nat -> Prop.
Hypothesis Iinj : forall i i' j j', I i i' -> I j j' -> (i =? j) = (i' =? j').

Record RR (lo lo' : nat) (r r' : results) : Prop := mkRR {
  rr_len : List.length (rMatch r) = List.length (rMatch r');
  rr_ends : forall i i' o, I i i' -> ends r o i = ends r' o i';
  rr_no : forall i i' o, I i i' -> noMatchHas r o i = noMatchHas r' o i';
  rr_slots : forall i i', I i i' -> slots r i = slots r' i';
  rr_lo : lo <= List.length (rPending r);
  rr_lo' : lo' <= List.length (rPending r') }.

Lemma RR_weaken lo lo' k k' r r' : RR k k' r r' -> lo <= k -> lo' <= k' -> RR lo lo' r r'.
Proof. intros [A B C D E F] H1 H2. constructor; auto; lia. Qed.
Lemma RR_empty : RR 0 0 emptyResults emptyResults.
Proof.
  constructor; auto.
  - intros i i' o _. unfold ends, matchRow. simpl. destruct o; auto.
  - intros i i' o _. unfold noMatchHas. simpl. destruct o; auto.
  - intros i i' _. unfold slots. simpl. destruct i, i'; auto.
Qed.
Lemma RR_hasMatchTo lo lo' r r' i i' o t : RR lo lo' r r' -> I i i' -> hasMatchTo r o i t = hasMatchTo r' o i' t.
Proof. intros H Hi. unfold hasMatchTo. rewrite !existsb_is. fold (ends r o i) (ends r' o i'). rewrite (rr_ends _ _ _ _ H i i' o Hi). auto. Qed.
Lemma RR_longestMatch lo lo' r r' i i' o : RR lo lo' r r' -> I i i' -> longestMatch r o i = longestMatch r' o i'.
Proof. intros H Hi. unfold longestMatch. rewrite !longest_ends. fold (ends r o i) (ends r' o i'). rewrite (rr_ends _ _ _ _ H i i' o Hi). auto. Qed.
Lemma RR_longestResult lo lo' r r' i i' o : RR lo lo' r r' -> I i i' -> longestResult r o i = longestResult r' o i'.
Proof. intros H Hi. unfold longestResult. rewrite (rr_no _ _ _ _ H i i' o Hi), (RR_longestMatch _ _ _ _ _ _ o H Hi). auto. Qed.
Lemma RR_pending lo lo' r r' i i' o : RR lo lo' r r' -> I i i' -> pending r o i = pending r' o i'.
Proof. intros H Hi. unfold pending. fold (slots r i) (slots r' i'). rewrite (rr_slots _ _ _ _ H i i' Hi). auto. Qed.
Lemma setMatch_len r o i t : List.length (rMatch (setMatch r o i t)) = Nat.max (List.length (rMatch r)) (S o).
Proof. unfold setMatch. destruct (existsb _ _); cbn [rMatch]; rewrite ?updNth_length; unfold ensureOffset; rewrite app_length, repeat_length; lia. Qed.
Lemma setMatch_pend r o i t : rPending (setMatch r o i t) = rPending r.
Proof. unfold setMatch. destruct (existsb _ _); auto. Qed.
Lemma RR_setMatch lo lo' r r' i i' o t : RR lo lo' r r' -> I i i' -> RR lo lo' (setMatch r o i t) (setMatch r' o i' t).
Proof.
  intros [A B C D E F] Hi. constructor; rewrite ?setMatch_len, ?setMatch_pend; auto.
  - intros j j' o' Hj. rewrite !ends_set, (B i i' o Hi), (B j j' o' Hj), (Iinj j j' i i' Hj Hi). auto.
  - intros j j' o' Hj. rewrite !noMatchHas_nth, !noMatch_setMatch, <- !noMatchHas_nth. auto.
  - intros j j' Hj. unfold slots. rewrite !setMatch_pend. apply D. auto.
Qed.
Lemma setNoMatch_same r o i : rMatch (setNoMatch r o i) = rMatch r /\ rPending (setNoMatch r o i) = rPending r.
Proof. unfold setNoMatch. destruct (existsb _ _); auto. Qed.
Lemma RR_setNoMatch lo lo' r r' i i' o : RR lo lo' r r' -> I i i' -> RR lo lo' (setNoMatch r o i) (setNoMatch r' o i').
Proof.
  intros [A B C D E F] Hi. destruct (setNoMatch_same r o i) as [M1 M2], (setNoMatch_same r' o i') as [M3 M4]. constructor; rewrite ?M1, ?M2, ?M3, ?M4; auto.
  - intros j j' o' Hj. rewrite !ends_noMatch. auto.
  - intros j j' o' Hj. rewrite !has_noMatch, (C j j' o' Hj), (B i i' o Hi), (Iinj j j' i i' Hj Hi). auto.
  - intros j j' Hj. unfold slots. rewrite M2, M4. apply D. auto.
Qed.
Lemma mark_len r o i : List.length (rPending (markPending r o i)) = Nat.max (List.length (rPending r)) (S i).
Proof. unfold markPending. cbn [rPending]. rewrite updNth_length. unfold ensureOffset. rewrite app_length, repeat_length. lia. Qed.
Lemma RR_mark lo lo' r r' i i' o : RR lo lo' r r' -> I i i' -> RR (Nat.max lo (S i)) (Nat.max lo' (S i')) (markPending r o i) (markPending r' o i').
Proof.
  intros [A B C D E F] Hi. constructor; rewrite ?mark_len; auto; try lia.
  intros j j' Hj. rewrite !slots_mark, (Iinj j j' i i' Hj Hi), (D i i' Hi), (D j j' Hj). auto.
Qed.
Lemma RR_unmark lo lo' r r' i i' o : RR lo lo' r r' -> I i i' -> i < lo -> i' < lo' -> rel (RR lo lo') (unmarkPending r o i) (unmarkPending r' o i').
Proof.
  intros [A B C D E F] Hi H1 H2. unfold unmarkPending.
  destruct (Nat.leb_spec (List.length (rPending r)) i); [lia|]. destruct (Nat.leb_spec (List.length (rPending r')) i'); [lia|]. constructor.
  constructor; cbn [rPending rMatch]; rewrite ?updNth_length; auto.
  intros j j' Hj. unfold slots. cbn [rPending]. rewrite !nth_updNth by auto. rewrite (Iinj i i' j j' Hi Hj).
  pose proof (D j j' Hj) as Dj. unfold slots in Dj. rewrite Dj. auto.
Qed.
Lemma RR_drop lo lo' r r' i i' o t : RR lo lo' r r' -> I i i' -> rel (RR lo lo') (dropMatchTo r o i t) (dropMatchTo r' o i' t).
Proof.
  intros [A B C D E F] Hi. unfold dropMatchTo. rewrite <- A. destruct (Nat.leb_spec (List.length (rMatch r)) o) as [Hl|Hl]; [constructor|]. constructor.
  constructor; cbn [rPending rMatch]; rewrite ?updNth_length; auto.
  intros j j' o' Hj. unfold ends, matchRow. cbn [rMatch]. rewrite !nth_updNth by (rewrite <- ?A; auto). pose proof (B j j' o' Hj) as Bj. unfold ends, matchRow in Bj.
  destruct (o =? o'); auto. rewrite !drop_ends, (Iinj j j' i i' Hj Hi), Bj. auto.
Qed.
Lemma RR_reset lo lo' r r' : RR lo lo' r r' -> RR 0 0 (resetPending r) (resetPending r').
Proof.
  intros [A B C D E F]. constructor; cbn [resetPending rPending rMatch]; auto; try lia.
  intros i i' _. unfold slots. cbn [resetPending rPending]. destruct i, i'; auto.
Qed.
End STORE.
