(** The reference semantics on texts that are only known in part.

    A text is given as a list of symbols.  A symbol is one rune, of which some class tests are known, or
    a word of which the outcomes of some keys are known: a match over a number of symbols, or none.  What is computed on the symbols holds for
    every text made of them. *)
From Verif Require Import Base Parser Build RefSpec RefFuel.
Local Open Scope nat_scope.

Section ABS.
Context {A : Type}.
Variable G : A -> option (gobj A).
Variable eqA : A -> A -> bool.
Hypothesis eqA_ok : forall a b, eqA a b = true -> a = b.

Definition tests := bool -> list rune -> list (rune * rune) -> option bool.
Inductive asym := ARune (t : tests) | AWord (ks : list (A * option nat)) (t : tests).
Definition testsOf (s : asym) : tests := match s with ARune t => t | AWord _ t => t end.
(** everything is known about the rune [r] *)
Definition exactly (r : rune) : tests := fun cn ch rs => Some (classHas cn ch rs r).

Variable text : list asym.
Variable closed : bool.
Fixpoint findKey (ks : list (A * option nat)) (a : A) (j : nat) : option (nat * option nat) :=
  match ks with [] => None | (k, m) :: ks' => if eqA k a then Some (j, m) else findKey ks' a (S j) end.
(** stands for the nodes of the key number [j] of the word [i] *)
Definition hole (i j : nat) : node := Node "?" i j [].

Fixpoint aeval (n : nat) (a : A) (i : nat) : outcome :=
  match n with
  | O => Unfinished
  | S n' =>
    match nth_error text i with
    | Some (AWord ks t) =>
      match findKey ks a 0 with Some (j, Some m) => Match (i + m) [hole i j] | Some (_, None) => NoMatch | None =>
      match G a with
      | Some (GChar cn ch rs) => match t cn ch rs with Some false => NoMatch | _ => Unfinished end
      | Some (GSeq label nokw items) =>
        if nokw then Unfinished else labelled label i (evalItems (aeval n') n' items 0 i)
      | Some (GChoice label options) => labelled label i (evalOptions (aeval n') options i NoMatch)
      | None => Unfinished
      end end
    | Some (ARune t) =>
      match G a with
      | Some (GChar cn ch rs) => match t cn ch rs with Some true => Match (S i) [] | Some false => NoMatch | None => Unfinished end
      | Some (GSeq label nokw items) =>
        if nokw then Unfinished else labelled label i (evalItems (aeval n') n' items 0 i)
      | Some (GChoice label options) => labelled label i (evalOptions (aeval n') options i NoMatch)
      | None => Unfinished
      end
    | None =>
      match G a with
      | Some (GChar cn ch rs) => if closed then NoMatch else Unfinished
      | Some (GSeq label nokw items) =>
        if nokw then Unfinished else labelled label i (evalItems (aeval n') n' items 0 i)
      | Some (GChoice label options) => labelled label i (evalOptions (aeval n') options i NoMatch)
      | None => Unfinished
      end
    end
  end.

(** ** texts made of the symbols *)
Variable K : list (list rune).
Variable input : list rune.
Variable pos : nat -> nat.
Variable nodes : nat -> nat -> list node.
Hypothesis pos_up : forall i j, i < j -> pos i < pos j.
Hypothesis Hrune : forall i s, nth_error text i = Some s -> exists r, nth_error input (pos i) = Some r /\
  (forall cn ch rs b, testsOf s cn ch rs = Some b -> classHas cn ch rs r = b) /\
  match s with ARune _ => pos (S i) = S (pos i) | AWord _ _ => True end.
Definition known (i j : nat) (m : option nat) : outcome := match m with Some m => Match (pos (i + m)) (nodes i j) | None => NoMatch end.
Hypothesis Hword : forall i ks t j k m, nth_error text i = Some (AWord ks t) -> nth_error ks j = Some (k, m) -> Gives G K input k (pos i) (known i j m).
Hypothesis Hend : closed = true -> forall i, List.length text <= i -> nth_error input (pos i) = None.

(** the nodes of the words in the place of the holes *)
Fixpoint fill (n : node) : list node :=
  match n with
  | Node name from to ns =>
    if String.eqb name "?" then nodes from to else [Node name (pos from) (pos to) (flat_map fill ns)]
  end.
Definition fillAll (ns : list node) : list node := flat_map fill ns.
Definition fillOut (r : outcome) : outcome :=
  match r with Match t ns => Match (pos t) (fillAll ns) | _ => r end.
(** no label is that of a hole *)
Hypothesis Hlabel : forall a, match G a with
  | Some (GSeq (Some l) _ _) | Some (GChoice (Some l) _) => String.eqb l "?" = false
  | _ => True end.

Lemma pos_lt i j : pos i < pos j <-> i < j.
Proof.
  split; [|apply pos_up]. intros H. destruct (Nat.lt_total i j) as [L|[L|L]]; auto; [subst; lia|]. apply pos_up in L. lia.
Qed.
Lemma ltb_pos i j : (pos i <? pos j) = (i <? j).
Proof. destruct (Nat.ltb_spec i j) as [L|L]; [apply Nat.ltb_lt, pos_up; auto|]. apply Nat.ltb_ge. destruct (Nat.eq_dec j i) as [->|]; [lia|]. assert (pos j < pos i) by (apply pos_up; lia). lia. Qed.
Lemma fillAll_app a b : fillAll (a ++ b) = fillAll a ++ fillAll b.
Proof. apply flat_map_app. Qed.
Lemma fill_after ns r : fillOut (after ns r) = after (fillAll ns) (fillOut r).
Proof. destruct r; simpl; auto. rewrite fillAll_app. auto. Qed.
Lemma fill_repeat ns k : fillAll (List.concat (repeat ns k)) = List.concat (repeat (fillAll ns) k).
Proof. induction k as [|k IH]; simpl; auto. rewrite fillAll_app, IH. auto. Qed.
Lemma fill_labelled l i r : match l with Some n => String.eqb n "?" = false | None => True end -> fillOut (labelled l i r) = labelled l (pos i) (fillOut r).
Proof. intros H. destruct r as [| |t ns]; simpl; auto. destruct l as [n|]; auto. simpl. rewrite H. auto. Qed.
Lemma fill_longer a b : a <> Unfinished -> b <> Unfinished -> fillOut (longer a b) = longer (fillOut a) (fillOut b).
Proof. destruct a as [| |t ns], b as [| |t' ns']; simpl; try congruence; intros _ _. rewrite ltb_pos. destruct (t <? t'); auto. Qed.

Definition follows (rec rec' : A -> nat -> outcome) : Prop := forall a i, rec a i <> Unfinished -> rec' a (pos i) = fillOut (rec a i).
Lemma items_follow rec rec' : follows rec rec' -> (forall a i t ns, rec a i = Match t ns -> i <= t) ->
  forall k k' items count i, k <= k' -> evalItems rec k items count i <> Unfinished ->
  evalItems rec' k' items count (pos i) = fillOut (evalItems rec k items count i).
Proof.
  intros Hr Hge. induction k as [|k IH]; intros k' items count i Hk H; [exfalso; apply H; auto|].
  destruct k' as [|k']; [lia|]. assert (Hk' : k <= k') by lia. cbn [evalItems] in *.
  destruct items as [|[x [mn mx]] items]; auto.
  assert (Hx : rec x i <> Unfinished) by (intros E; rewrite E in H; auto). rewrite (Hr x i Hx).
  pose proof (Hge x i) as Hgx. destruct (rec x i) as [| |t ns]; [contradiction| |].
  - simpl. destruct (mn <=? count); auto.
  - cbn [fillOut]. rewrite ltb_pos. destruct (Nat.ltb_spec i t) as [L|L].
    + destruct (match mx with Some m => _ | None => _ end); rewrite fill_after, (IH k'); auto; eapply after_unf; eauto.
    + assert (t = i) by (specialize (Hgx _ _ eq_refl); lia). subst t. rewrite fill_after, fill_repeat, (IH k'); auto. eapply after_unf; eauto.
Qed.
Lemma options_follow rec rec' : follows rec rec' ->
  forall options i best, best <> Unfinished -> evalOptions rec options i best <> Unfinished ->
  evalOptions rec' options (pos i) (fillOut best) = fillOut (evalOptions rec options i best).
Proof.
  intros Hr. induction options as [|x options IH]; intros i best Hb H; cbn [evalOptions] in *; auto.
  assert (Hx : rec x i <> Unfinished) by (intros E; rewrite E in H; auto). rewrite (Hr x i Hx).
  destruct (rec x i) as [| |t ns] eqn:Ex; [contradiction| |]; cbn [fillOut].
  - rewrite <- IH; auto; [|destruct best; simpl; congruence]. f_equal. rewrite fill_longer; auto; try discriminate.
  - rewrite <- IH; auto; [|destruct best; simpl; try congruence; destruct (_ <? _); congruence]. f_equal. rewrite fill_longer; auto; try discriminate.
Qed.
Lemma aeval_ge n : forall a i t ns, aeval n a i = Match t ns -> i <= t.
Proof.
  induction n as [|n IH]; intros a i t ns H; [discriminate|]. cbn [aeval] in H.
  assert (Hseq : forall label items, labelled label i (evalItems (aeval n) n items 0 i) = Match t ns -> i <= t).
  { intros label items E. destruct (evalItems (aeval n) n items 0 i) as [| |t1 ns1] eqn:E1; try discriminate. inversion E; subst. eapply evalItems_ge; eauto. }
  assert (Hch : forall label options, labelled label i (evalOptions (aeval n) options i NoMatch) = Match t ns -> i <= t).
  { intros label options E. destruct (evalOptions_case (aeval n) options i NoMatch) as [E1|(x & _ & E1)]; rewrite E1 in E; [discriminate|].
    destruct (aeval n x i) eqn:E2; try discriminate. inversion E; subst. eauto. }
  destruct (nth_error text i) as [[t0|k t0]|].
  - destruct (G a) as [[cn ch rs|label [|] items|label options]|]; try discriminate; eauto. destruct (t0 cn ch rs) as [[|]|]; try discriminate. inversion H; lia.
  - destruct (findKey k a 0) as [[j [m|]]|]; [inversion H; lia|discriminate|]. destruct (G a) as [[cn ch rs|label [|] items|label options]|]; try discriminate; eauto. destruct (t0 cn ch rs) as [[|]|]; discriminate.
  - destruct (G a) as [[cn ch rs|label [|] items|label options]|]; try discriminate; eauto. destruct closed; discriminate.
Qed.

Lemma findKey_ok ks a j j' m : findKey ks a j = Some (j', m) -> j <= j' /\ nth_error ks (j' - j) = Some (a, m).
Proof.
  revert j. induction ks as [|[k m0] ks IH]; intros j H; simpl in H; [discriminate|]. destruct (eqA k a) eqn:E.
  - apply eqA_ok in E. inversion H; subst. split; auto. rewrite Nat.sub_diag. auto.
  - destruct (IH _ H) as [H1 H2]. split; [lia|]. replace (j' - j) with (S (j' - S j)) by lia. exact H2.
Qed.
(** fuel enough for every word *)
Definition enough (M : nat) : Prop := forall i ks t j k m, nth_error text i = Some (AWord ks t) -> nth_error ks j = Some (k, m) -> eval G K input M k (pos i) = known i j m.
Lemma known_unf i j m : known i j m <> Unfinished.
Proof. destruct m; simpl; discriminate. Qed.
Lemma words_fuel : exists M, enough M.
Proof.
  assert (Hks : forall i ks t, nth_error text i = Some (AWord ks t) -> forall q, exists M, forall j k m, j < q -> nth_error ks j = Some (k, m) -> eval G K input M k (pos i) = known i j m).
  { intros i ks t Hi. induction q as [|q (M & IH)]; [exists 0; intros; lia|]. destruct (nth_error ks q) as [[k m]|] eqn:E.
    - destruct (Hword i ks t q k m Hi E) as [Hu (M' & HM)]. exists (M + M'). intros j k' m' Hj Hn. destruct (Nat.eq_dec j q) as [->|].
      + rewrite E in Hn. inversion Hn; subst. rewrite (eval_mono G K input M' (M + M')); [exact HM|lia|rewrite HM; auto].
      + assert (Hj' : j < q) by lia. pose proof (IH _ _ _ Hj' Hn) as X. rewrite (eval_mono G K input M (M + M')); [exact X|lia|rewrite X; apply known_unf].
    - exists M. intros j k m Hj Hn. destruct (Nat.eq_dec j q) as [->|]; [congruence|]. apply IH; auto. lia. }
  assert (H : forall q, exists M, forall i ks t j k m, i < q -> nth_error text i = Some (AWord ks t) -> nth_error ks j = Some (k, m) -> eval G K input M k (pos i) = known i j m).
  { induction q as [|q (M & IH)]; [exists 0; intros; lia|]. destruct (nth_error text q) as [[t|ks t]|] eqn:E.
    - exists M. intros i ks t' j k m Hi Hn. destruct (Nat.eq_dec i q) as [->|]; [congruence|]. eapply IH; eauto. lia.
    - destruct (Hks q ks t E (List.length ks)) as (M' & HM). exists (M + M'). intros i ks' t' j k m Hi Hn Hj. destruct (Nat.eq_dec i q) as [->|].
      + rewrite E in Hn. inversion Hn; subst. assert (Hl : j < List.length ks') by (apply nth_error_Some; congruence). pose proof (HM _ _ _ Hl Hj) as X.
        rewrite (eval_mono G K input M' (M + M')); [exact X|lia|rewrite X; apply known_unf].
      + assert (Hi' : i < q) by lia. pose proof (IH _ _ _ _ _ _ Hi' Hn Hj) as X. rewrite (eval_mono G K input M (M + M')); [exact X|lia|rewrite X; apply known_unf].
    - exists M. intros i ks t' j k m Hi Hn. destruct (Nat.eq_dec i q) as [->|]; [congruence|]. eapply IH; eauto. lia. }
  destruct (H (List.length text)) as (M & HM). exists M. intros i ks t j k m Hn. eapply HM; eauto. apply nth_error_Some. congruence.
Qed.

Lemma aeval_follow M : enough M ->
  forall n, follows (aeval n) (eval G K input (n + M)).
Proof.
  intros HM. induction n as [|n IH]; intros a i H; [exfalso; apply H; auto|].
  change (S n + M) with (S (n + M)). 
  assert (Hseq : forall label items, G a = Some (GSeq label false items) -> labelled label i (evalItems (aeval n) n items 0 i) <> Unfinished ->
    eval G K input (S (n + M)) a (pos i) = fillOut (labelled label i (evalItems (aeval n) n items 0 i))).
  { intros label items Ea Hu. cbn [eval]. rewrite Ea. pose proof (labelled_unf _ _ _ Hu) as Hi.
    assert (Hle : n <= n + M) by lia. rewrite (items_follow _ _ IH (aeval_ge n) n (n + M) items 0 i Hle Hi).
    pose proof (Hlabel a) as Hl. rewrite Ea in Hl. rewrite fill_labelled; [|destruct label; auto].
    destruct (evalItems (aeval n) n items 0 i) as [| |t ns]; auto. }
  assert (Hch : forall label options, G a = Some (GChoice label options) -> labelled label i (evalOptions (aeval n) options i NoMatch) <> Unfinished ->
    eval G K input (S (n + M)) a (pos i) = fillOut (labelled label i (evalOptions (aeval n) options i NoMatch))).
  { intros label options Ea Hu. cbn [eval]. rewrite Ea. pose proof (labelled_unf _ _ _ Hu) as Hi.
    pose proof (options_follow _ _ IH options i NoMatch ltac:(discriminate) Hi) as X. cbn [fillOut] in X. rewrite X.
    pose proof (Hlabel a) as Hl. rewrite Ea in Hl. rewrite fill_labelled; auto; destruct label; auto. }
  cbn [aeval] in *. pose proof (Hrune i) as Hr. pose proof (Hword i) as Hw. pose proof (HM i) as HMi.
  destruct (nth_error text i) as [[t0|k t0]|] eqn:En.
  - destruct (Hr _ eq_refl) as (r & Hin & Ht & Hp). simpl in Ht, Hp. specialize (Ht). destruct (G a) as [[cn ch rs|label [|] items|label options]|] eqn:Ea; try contradiction; auto.
    cbn [eval]. rewrite Ea, Hin. specialize (Ht cn ch rs). destruct (t0 cn ch rs) as [b|]; [|contradiction]. rewrite (Ht b eq_refl). destruct b; simpl; auto. rewrite Hp. auto.
  - destruct (Hr _ eq_refl) as (r & Hin & Ht & Hp). simpl in Ht. destruct (findKey k a 0) as [[j m]|] eqn:Ek.
    + destruct (findKey_ok _ _ _ _ _ Ek) as [_ Hj]. rewrite Nat.sub_0_r in Hj. pose proof (HMi k t0 j a m eq_refl Hj) as X.
      assert (Hle : M <= S (n + M)) by lia. rewrite (eval_mono G K input M (S (n + M)) a (pos i) Hle); [|rewrite X; apply known_unf]. rewrite X.
      destruct m as [m|]; simpl; auto. rewrite app_nil_r. auto.
    + destruct (G a) as [[cn ch rs|label [|] items|label options]|] eqn:Ea; try contradiction; auto.
      cbn [eval]. rewrite Ea, Hin. specialize (Ht cn ch rs). destruct (t0 cn ch rs) as [[|]|]; try contradiction. rewrite (Ht false eq_refl). auto.
  - destruct (G a) as [[cn ch rs|label [|] items|label options]|] eqn:Ea; try contradiction; auto.
    destruct closed eqn:Ec; [|contradiction]. cbn [eval]. rewrite Ea. rewrite (Hend eq_refl i); auto. apply nth_error_None. auto.
Qed.

Theorem aeval_gives n a i r : aeval n a i = r -> r <> Unfinished -> Gives G K input a (pos i) (fillOut r).
Proof.
  intros E H. split; [destruct r; simpl; congruence|]. destruct words_fuel as (M & HM). exists (n + M).
  rewrite (aeval_follow M HM n a i); [rewrite E; auto|rewrite E; auto].
Qed.
End ABS.
