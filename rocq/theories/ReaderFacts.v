(** The reader side of the context: what has been read is a prefix of the input. *)
From Verif Require Import Base Utf8 IdSet Results Parser ListFacts ResultsFacts.

Section READER.
Variable input0 : list rune.
Variable e0 : rend.

Record rinv (c : context) : Prop := mkRinv {
  ri_tokens : ~ In runeError (cTokens c);
  ri_end : cEnd c = e0;
  ri_case : match cReadErr c with
            | None => input0 = cTokens c ++ cInput c /\ cReadOffset c = List.length (cTokens c) /\
                      (cEof c = true -> cInput c = [] /\ e0 = REof)
            | Some ErrInvalidUnicodeCharacter =>
              input0 = cTokens c ++ runeError :: cInput c /\ cReadOffset c = S (List.length (cTokens c)) /\
              cEof c = false
            | Some (ErrReader k) =>
              input0 = cTokens c /\ e0 = RFail k /\ cReadOffset c = List.length (cTokens c) /\ cEof c = false
            | Some _ => False
            end }.

(** the part of the context that reading does not touch *)
Definition sameState (c c' : context) : Prop :=
  cOffset c' = cOffset c /\ cConsumed c' = cConsumed c /\ cOffsetLimit c' = cOffsetLimit c /\
  cFailOffset c' = cFailOffset c /\ cFailingParser c' = cFailingParser c /\
  cResults c' = cResults c /\ cMatchLast c' = cMatchLast c.

Definition sameReader (c c' : context) : Prop :=
  cInput c' = cInput c /\ cEnd c' = cEnd c /\ cReadOffset c' = cReadOffset c /\
  cReadErr c' = cReadErr c /\ cEof c' = cEof c /\ cTokens c' = cTokens c.

Lemma rinv_same c c' : sameReader c c' -> rinv c -> rinv c'.
Proof.
  intros (H1 & H2 & H3 & H4 & H5 & H6) [A B C]. split; rewrite ?H1, ?H2, ?H3, ?H4, ?H5, ?H6; auto.
Qed.

Lemma rinv_prefix c : rinv c -> exists rest, input0 = cTokens c ++ rest.
Proof.
  intros [_ _ H]. destruct (cReadErr c) as [[]|]; try contradiction.
  - exists (runeError :: cInput c). apply H.
  - exists []. rewrite app_nil_r. apply H.
  - exists (cInput c). apply H.
Qed.

Lemma rinv_len c : rinv c -> List.length (cTokens c) <= List.length input0.
Proof. intros H. apply rinv_prefix in H. destruct H as [r ->]. rewrite app_length. lia. Qed.

Lemma rinv_nth c i x : rinv c -> nth_error (cTokens c) i = Some x -> nth_error input0 i = Some x.
Proof.
  intros H Hi. apply rinv_prefix in H. destruct H as [r ->].
  rewrite nth_error_app1; auto. apply nth_error_Some. congruence.
Qed.

Lemma rinv_readOffset c : rinv c -> List.length (cTokens c) <= cReadOffset c.
Proof. intros [_ _ H]. destruct (cReadErr c) as [[]|]; try contradiction; lia. Qed.

Lemma rinv_new : rinv (newContext input0 e0).
Proof. split; simpl; auto. split; auto. split; auto. discriminate. Qed.

Lemma rinv_readOffset_ok c : rinv c -> ~ In runeError input0 -> cReadOffset c = List.length (cTokens c).
Proof.
  intros [_ _ H] Hn. destruct (cReadErr c) as [[]|]; try contradiction; try apply H.
  destruct H as (H & _). exfalso. apply Hn. rewrite H. apply in_or_app. right. left. auto.
Qed.

Lemma read_spec c : rinv c ->
  rinv (fst (read c)) /\ sameState c (fst (read c)) /\
  (if snd (read c)
   then exists r, cTokens (fst (read c)) = cTokens c ++ [r] /\ cReadOffset c = List.length (cTokens c)
                  /\ cReadErr (fst (read c)) = None /\ cReadErr c = None
   else cTokens (fst (read c)) = cTokens c /\
        (cReadErr (fst (read c)) <> None \/
         (cEof (fst (read c)) = true /\ input0 = cTokens c /\ e0 = REof))).
Proof.
  intros Hr. pose proof Hr as [A B C]. unfold read.
  destruct (cEof c) eqn:Ee.
  { simpl. split; [exact Hr|]. split; [unfold sameState; auto 10|]. split; auto.
    destruct (cReadErr c) as [[]|] eqn:Er; try contradiction; try (left; discriminate).
    right. split; auto. destruct C as (C1 & C2 & C3). destruct (C3 eq_refl) as [C4 C5].
    rewrite C4, app_nil_r in C1. auto. }
  destruct (cReadErr c) as [er|] eqn:Er.
  { simpl. split; [exact Hr|]. split; [unfold sameState; auto 10|]. split; auto.
    left. rewrite Er. discriminate. }
  destruct C as (C1 & C2 & C3).
  destruct (cInput c) as [|t rest] eqn:Ei.
  - rewrite app_nil_r in C1. destruct (cEnd c) as [|k] eqn:En; simpl.
    + split; [split; simpl; auto|].
      * split; [now rewrite app_nil_r|]. split; auto.
      * split; [unfold sameState; simpl; auto 10|]. split; auto.
    + split; [split; simpl; auto|].
      split; [unfold sameState; simpl; auto 10|]. split; auto. left. discriminate.
  - destruct (Z.eqb_spec t runeError) as [->|Ht]; simpl.
    + split; [split; simpl; auto|].
      split; [unfold sameState; simpl; auto 10|]. split; auto. left. discriminate.
    + split; [split; simpl; auto|].
      * intros Hin. apply in_app_or in Hin. destruct Hin as [|[|[]]]; auto.
      * rewrite <- app_assoc. simpl. split; auto. rewrite app_length; simpl. split; [lia|].
        discriminate.
      * split; [unfold sameState; simpl; auto 10|]. exists t. auto.
Qed.

Lemma token_spec c c' tok : rinv c -> cOffset c <= List.length (cTokens c) -> token c = Ok (c', tok) ->
  rinv c' /\ sameState c c' /\ (exists ext, cTokens c' = cTokens c ++ ext) /\
  match tok with
  | Some r => nth_error (cTokens c') (cOffset c) = Some r /\ cOffsetLimit c <> Some (cOffset c)
  | None => cTokens c' = cTokens c /\
      (cOffsetLimit c = Some (cOffset c) \/ cReadErr c' <> None \/
       (cOffset c = List.length input0 /\ cEof c' = true /\ e0 = REof /\ input0 = cTokens c))
  end.
Proof.
  intros Hr Ho. unfold token.
  destruct (match cOffsetLimit c with Some l => cOffset c =? l | None => false end) eqn:El.
  { inversion 1; subst. split; auto. split; [unfold sameState; auto 10|].
    split; [exists []; now rewrite app_nil_r|]. split; auto. left.
    destruct (cOffsetLimit c'); [|discriminate]. apply Nat.eqb_eq in El. now subst. }
  assert (Hl : cOffsetLimit c <> Some (cOffset c)).
  { destruct (cOffsetLimit c); [|discriminate]. intros H. inversion H; subst. rewrite Nat.eqb_refl in El. discriminate. }
  destruct (cOffset c =? cReadOffset c) eqn:Eo.
  - apply Nat.eqb_eq in Eo. pose proof (read_spec c Hr) as (R1 & R2 & R3).
    destruct (read c) as [c1 ok]. simpl in *. pose proof R2 as (Q1 & _). rewrite Q1.
    destruct ok.
    + destruct R3 as (r & R3 & R4 & _). rewrite R3.
      replace (cOffset c) with (List.length (cTokens c)) by lia.
      rewrite nth_error_app2, Nat.sub_diag by lia. simpl. inversion 1; subst. rewrite R3.
      split; auto. split; auto. split; [eauto|].
      rewrite nth_error_app2, Nat.sub_diag by lia. simpl. split; auto. congruence.
    + inversion 1; subst. destruct R3 as [R3 R4]. split; auto. split; auto.
      split; [exists []; now rewrite app_nil_r|]. split; auto. right.
      destruct R4 as [|(R4 & R5 & R6)]; auto. right. split; auto.
      pose proof (rinv_readOffset c Hr). rewrite R5. lia.
  - destruct (nth_error (cTokens c) (cOffset c)) eqn:En; [|discriminate].
    inversion 1; subst. split; auto. split; [unfold sameState; auto 10|].
    split; [exists []; now rewrite app_nil_r|]. split; auto.
Qed.

Lemma token_ok c : rinv c -> ~ In runeError input0 -> cOffset c <= List.length (cTokens c) ->
  exists c' tok, token c = Ok (c', tok).
Proof.
  intros Hr Hn Ho. unfold token. destruct (match cOffsetLimit c with Some l => _ | None => _ end); [eauto|].
  pose proof (rinv_readOffset_ok c Hr Hn) as Hro.
  destruct (cOffset c =? cReadOffset c) eqn:Eo.
  - apply Nat.eqb_eq in Eo. pose proof (read_spec c Hr) as (R1 & (R2 & _) & R3).
    destruct (read c) as [c1 ok]. simpl in *. destruct ok; [|eauto].
    destruct R3 as (r & R3 & _). rewrite R3, R2, nth_error_app2 by lia.
    replace (cOffset c - List.length (cTokens c)) with 0 by lia. simpl. eauto.
  - apply Nat.eqb_neq in Eo. destruct (nth_error (cTokens c) (cOffset c)) eqn:En; [eauto|].
    apply nth_error_None in En. lia.
Qed.

Lemma token_no_fuel c : token c <> NoFuel.
Proof.
  unfold token. destruct (match cOffsetLimit c with Some l => _ | None => _ end); [discriminate|].
  destruct (if cOffset c =? cReadOffset c then read c else (c, true)) as [c1 []]; [|discriminate].
  destruct (nth_error _ _); discriminate.
Qed.
End READER.
