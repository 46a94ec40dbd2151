(** A syntax and inputs where the number of calls of parser.parse is exponential: sequences are parsed
    again at the same offset. *)
From Verif Require Import Base Utf8 IdSet Results Parser Build Syntax ListFacts ResultsFacts ReaderFacts ParseFacts
  FuelFacts BuildFacts Grammar ApiSpec Cost CostFacts CostBound CostSpec CostApi.
Local Open Scope string_scope.

(** [s:root = t? u?; t = "a" s "b"; u = "a" s "c"] *)
Definition twice : list defcall :=
  let item n := mkItem n 0%Z 0%Z in
  let optional n := mkItem n 0%Z 1%Z in
  [ DCharSequence "a" CAlias [97%Z]; DCharSequence "b" CAlias [98%Z]; DCharSequence "c" CAlias [99%Z];
    DSequence "t" CNone [item "a"; item "s"; item "b"];
    DSequence "u" CNone [item "a"; item "s"; item "c"];
    DSequence "s" CRoot [optional "t"; optional "u"] ].
Definition letters (n : nat) : list rune := repeat 97%Z n.

Definition twiceSyntax : syntax :=
  match Init 30 (fst (defineAll emptySyntax twice)) with Ok (s', None) => s' | _ => emptySyntax end.
Definition TP : pheap := Eval vm_compute in parsers twiceSyntax.
Lemma twice_parsers : parsers twiceSyntax = TP. Proof. vm_compute. reflexivity. Qed.
Lemma twice_root : sRoot twiceSyntax = Some 8. Proof. vm_compute. reflexivity. Qed.
Lemma twice_kws : sKeywords twiceSyntax = []. Proof. vm_compute. reflexivity. Qed.

Section RUN.
Variable N : nat.
Let input := letters N.
(** no result for t, u, b, c; s only matches the empty text *)
Definition TG (id o t : nat) : Prop := match id with 4 | 6 | 7 | 8 => False | 9 => t = o | _ => True end.

Lemma letters_nth i r : nth_error input i = Some r -> r = 97%Z.
Proof. intros H. apply nth_error_In in H. apply repeat_spec in H. auto. Qed.
Lemma letters_lt i : i < N -> nth_error input i = Some 97%Z.
Proof. intros H. apply nth_error_repeat. auto. Qed.
Lemma letters_ok : ~ In runeError input.
Proof. intros H. apply repeat_spec in H. discriminate. Qed.

Lemma T_char a o t nm id r : IG TP input TG a o t -> nth_error TP a = Some (PChar nm id false [r] []) -> matchChar [r] [] false 97%Z = true.
Proof. unfold IG. intros H Ha. rewrite Ha in H. destruct H as (_ & y & Hy & Hm). apply letters_nth in Hy. subst y. auto. Qed.
Lemma T_item items ranges ii n o t : seqRun TP input TG items ranges ii n o t -> forall j it mn mx, ii < j \/ ii = j /\ n = 0 ->
  nth_error items j = Some it -> nth_error ranges j = Some (mn, mx) -> (0 < mn)%Z -> exists o1 o2, IG TP input TG it o1 o2.
Proof.
  induction 1; intros j it0 mn0 mx0 Hj Hit Hrg Hmn.
  - apply nth_error_None in H. assert (j < List.length items) by (apply nth_error_Some; congruence). lia.
  - destruct Hj as [Hj|[-> ->]]; [apply (IHseqRun j it0 mn0 mx0); auto; lia|]. rewrite Hrg in H0. injection H0 as <- <-. simpl in H1. lia.
  - destruct Hj as [Hj|[-> ->]]; [apply (IHseqRun j it0 mn0 mx0); auto; lia|]. rewrite Hit in H. injection H as <-. eauto.
  - destruct Hj as [Hj|[-> ->]]; [apply (IHseqRun j it0 mn0 mx0); auto; lia|]. rewrite Hit in H. injection H as <-. eauto.
  - destruct Hj as [Hj|[-> ->]]; [apply (IHseqRun j it0 mn0 mx0); auto; lia|]. rewrite Hit in H. injection H as <-. eauto.
Qed.
Lemma T_empty items ranges ii n o t : seqRun TP input TG items ranges ii n o t -> (forall j it o1 o2, nth_error items j = Some it -> ~ IG TP input TG it o1 o2) -> t = o.
Proof. induction 1; intros Hno; auto; exfalso; eapply Hno; eauto. Qed.
Lemma T_seq p name id commit items ranges gs ac o t :
  nth_error TP p = Some (PSeq name id commit items ranges gs ac) ->
  o <= t -> t <= List.length input -> seqRun TP input TG items ranges 0 0 o t ->
  (hasFlag commit CNoKeyword = true -> notKw TP [] input o t) ->
  TG id o t /\ forall g, In g gs -> TG g o t.
Proof.
  intros Hp _ _ Hr _.
  destruct p as [|[|[|[|[|[|[|[|[|p]]]]]]]]]; simpl in Hp; try discriminate; [..|destruct p; discriminate]; injection Hp as <- <- <- <- <- <- <-; (split; [|intros g []]).
  - exact I.
  - destruct (T_item _ _ _ _ _ _ Hr 0 2 1%Z 1%Z) as (o1 & o2 & H); auto; [lia|]. eapply T_char in H; [|reflexivity]. discriminate.
  - destruct (T_item _ _ _ _ _ _ Hr 0 4 1%Z 1%Z) as (o1 & o2 & H); auto; [lia|]. eapply T_char in H; [|reflexivity]. discriminate.
  - destruct (T_item _ _ _ _ _ _ Hr 2 3 1%Z 1%Z) as (o1 & o2 & H); auto; lia.
  - destruct (T_item _ _ _ _ _ _ Hr 2 5 1%Z 1%Z) as (o1 & o2 & H); auto; lia.
  - apply T_empty in Hr; [exact Hr|]. intros [|[|j]] it o1 o2 Hj; simpl in Hj; [| |destruct j; discriminate]; injection Hj as <-; intros [].
Qed.
Lemma T_choice p name id commit options gs op o t :
  nth_error TP p = Some (PChoice name id commit options gs) -> In op options -> IG TP input TG op o t -> TG id o t.
Proof. intros Hp. do 9 (destruct p as [|p]; [discriminate|]). destruct p; discriminate. Qed.

Notation cinv := (cinv input REof TG).
Notation post := (post TP input REof TG).
Lemma T_post n p c c' : cinv c -> parse TP [] n p c = Ok c' -> post p c c'.
Proof. intros H Hk. eapply parse_spec in Hk; eauto; [apply Hk|apply T_seq|apply T_choice]. Qed.

Lemma T_a n c c' : cinv c -> cOffsetLimit c = None -> cOffset c < N -> parse TP [] n 1 c = Ok c' ->
  cMatchLast c' = true /\ cOffset c' = S (cOffset c).
Proof.
  intros H Hl Ho Hk. destruct n as [|n]; [discriminate|]. cbn [parse] in Hk. change (nth_error TP 1) with (Some (PSeq "a" 2 266%N [0] [(1, 1)%Z; (1, 1)%Z] [] true)) in Hk.
  cbv beta iota in Hk. unfold seqParse in Hk. cbn [negb andb] in Hk. cbv zeta in Hk. binv Hk.
  destruct n as [|n]; [discriminate|]. cbn [seqLoop nth_error] in E. binv E. rename x0 into c1.
  assert (Hc : cMatchLast c1 = true /\ cOffset c1 = S (cOffset c)).
  { cbn [parse] in E0. change (nth_error TP 0) with (Some (PChar "a:0" 1 false [97%Z] [])) in E0. cbv beta iota in E0. unfold charParse in E0. binv E0. destruct x0 as [c2 tok].
    destruct (token_spec _ _ _ _ _ (ci_r _ _ _ _ H) (ci_off _ _ _ _ H) E1) as (T1 & T2 & _ & T4). destruct tok as [r|].
    - destruct T4 as [T4 _]. apply (rinv_nth _ _ _ _ _ T1) in T4. apply letters_nth in T4. subst r. simpl in E0. injection E0 as <-. simpl. destruct T2 as (-> & _). auto.
    - exfalso. destruct T4 as (_ & [T4|[T4|(T4 & _)]]); [congruence| |].
      + pose proof (ri_case _ _ _ T1) as Hc. destruct (cReadErr c2) as [[]|]; auto; try contradiction.
        * destruct Hc as [Hc _]. apply letters_ok. rewrite Hc. apply in_or_app. right. left. auto.
        * destruct Hc as (_ & Hc & _). discriminate.
      + unfold input, letters in T4. rewrite repeat_length in T4. lia. }
  destruct Hc as [Hc1 Hc2]. rewrite Hc1, Hc2 in E. cbn [negb orb] in E. assert (Hlt : Nat.ltb (cOffset c) (S (cOffset c)) = true) by (apply Nat.ltb_lt; lia). rewrite Hlt in E.
  change ((0 <? 1)%Z && (Z.of_nat 1 =? 1)%Z)%bool with true in E. cbv iota in E.
  destruct n as [|n]; [discriminate|]. cbn [seqLoop nth_error] in E. injection E as <-. cbn in Hk. injection Hk as <-. auto.
Qed.

(** nothing is pending from an offset on *)
Definition fresh (c : context) (o : nat) : Prop := forall o' i, o <= o' -> pcount (cResults c) o' i = 0.
Lemma T_fresh n p c c' o : cinv c -> parse TP [] n p c = Ok c' -> fresh c o -> fresh c' o.
Proof. intros H Hk Hf o' i Ho. apply T_post in Hk; auto. destruct Hk as (_ & _ & Hp & _). rewrite Hp. auto. Qed.

(** t, u: at least the calls of s at the next offset *)
Lemma T_tu d n c c' k p id name last : (p = 6 \/ p = 7) ->
  nth_error TP p = Some (PSeq name id 256%N [1; 8; last] [(1, 1)%Z; (1, 1)%Z; (1, 1)%Z; (1, 1)%Z; (1, 1)%Z; (1, 1)%Z] [] false) ->
  (forall n c c' k, cinv c -> cOffset c + d = N -> cOffsetLimit c = None -> fresh c (cOffset c) -> parseN Nat.add TP [] n 8 c = Ok (c', k) -> 2 ^ d <= k) ->
  cinv c -> cOffset c + S d = N -> cOffsetLimit c = None -> fresh c (S (cOffset c)) -> pending (cResults c) (cOffset c) id = false ->
  parseN Nat.add TP [] n p c = Ok (c', k) -> 2 ^ d <= k.
Proof.
  intros Hp Ep IH H Ho Hl Hf Hpd Hk. destruct n as [|n]; [discriminate|]. cbn [parseN] in Hk. rewrite Ep in Hk. binv Hk. injection Hk as <- <-.
  unfold seqParseN in E. rewrite Hpd in E. cbn [negb andb] in E. cbv zeta in E. set (c1 := setResults c _) in E.
  assert (H1 : cinv c1) by (apply cinv_mark; auto).
  assert (Hf1 : fresh c1 (S (cOffset c))). { intros o' i Ho'. unfold c1. simpl. rewrite pcount_mark. rewrite (Hf o' i Ho'). destruct (Nat.eqb_spec (cOffset c) o'); [lia|]. simpl. rewrite ?Bool.andb_false_r. auto. }
  binv E. destruct n as [|n]; [discriminate|]. cbn [seqLoopN nth_error] in E0. binv E0. destruct x1 as [c2 m]. pose proof (parseN_run _ _ _ _ _ _ _ _ E1) as E1'.
  destruct (T_a _ _ _ H1 Hl ltac:(unfold c1; simpl; lia) E1') as [Hm Hoff]. change (cOffset c1) with (cOffset c) in Hoff.
  pose proof (T_post _ _ _ _ H1 E1') as (H2 & S2 & _ & _). pose proof (T_fresh _ _ _ _ _ H1 E1' Hf1) as Hf2. rewrite Hm, Hoff in E0. cbn [negb orb] in E0.
  assert (Hlt : Nat.ltb (cOffset c) (S (cOffset c)) = true) by (apply Nat.ltb_lt; lia). rewrite Hlt in E0.
  change ((0 <? 1)%Z && (Z.of_nat 1 =? 1)%Z)%bool with true in E0. cbv iota in E0. binv E0. injection E0 as <-.
  destruct n as [|n]; [discriminate|]. cbn [seqLoopN nth_error] in E2. rename x1 into out. binv E2. destruct x0 as [c3 m3].
  assert (Hs : 2 ^ d <= m3). { eapply IH; [exact H2| |rewrite (st_limit _ _ S2); exact Hl|rewrite Hoff; exact Hf2|exact E0]. lia. }
  assert (Hx : m3 <= snd out).
  { destruct (negb (cMatchLast c3)).
    - change (1 <=? Z.of_nat 0)%Z with false in E2. cbv iota in E2. destruct (fromResults (setOffset c3 (cOffset c)) id); binv E2; injection E2 as <-; auto.
    - binv E2. injection E2 as <-. simpl. lia. }
  destruct out as [out m4]. cbn [fst snd] in *. destruct out as [to c4|c4].
  - binv E. destruct x0 as [[c5 b] m5]. binv E. injection E as <-. cbn [snd]. lia.
  - injection E as <-. cbn [snd]. lia.
Qed.

Lemma T_calls d : forall n c c' k, cinv c -> cOffset c + d = N -> cOffsetLimit c = None -> fresh c (cOffset c) ->
  parseN Nat.add TP [] n 8 c = Ok (c', k) -> 2 ^ d <= k.
Proof.
  induction d as [|d IH]; intros n c c' k H Ho Hl Hf Hk.
  { destruct n as [|n]; [discriminate|]. cbn [parseN] in Hk. binv Hk. injection Hk as <- <-. simpl. lia. }
  destruct n as [|n]; [discriminate|]. cbn [parseN] in Hk. change (nth_error TP 8) with (Some (PSeq "s" 9 384%N [6; 7] [(0, 1)%Z; (0, 1)%Z; (0, 1)%Z; (0, 1)%Z] [] false)) in Hk.
  cbv beta iota in Hk. binv Hk. injection Hk as <- <-.
  unfold seqParseN in E. assert (Hpd : forall i, pending (cResults c) (cOffset c) i = false).
  { intros i. destruct (pending (cResults c) (cOffset c) i) eqn:Ep; auto. apply pending_pcount in Ep. rewrite (Hf _ _ (Nat.le_refl _)) in Ep. lia. }
  rewrite Hpd in E. cbn [negb andb] in E. cbv zeta in E. set (c1 := setResults c _) in E.
  assert (H1 : cinv c1) by (apply cinv_mark; auto).
  assert (Hf1 : forall o i, cOffset c <= o -> (o <> cOffset c \/ i <> 9) -> pcount (cResults c1) o i = 0).
  { intros o i Ho' Hi. unfold c1. simpl. rewrite pcount_mark, (Hf o i Ho'). destruct (Nat.eqb_spec (cOffset c) o), (Nat.eqb_spec 9 i); simpl; try lia. }
  assert (Hfs : forall c2, (forall o i, pcount (cResults c2) o i = pcount (cResults c1) o i) -> fresh c2 (S (cOffset c)) /\ forall i, i <> 9 -> pending (cResults c2) (cOffset c) i = false).
  { intros c2 Hc. split; [intros o i Ho'; rewrite Hc; apply Hf1; lia|]. intros i Hi. destruct (pending (cResults c2) (cOffset c) i) eqn:Ep; auto. apply pending_pcount in Ep. rewrite Hc, Hf1 in Ep; auto; lia. }
  binv E. destruct n as [|n]; [discriminate|]. cbn [seqLoopN nth_error] in E0. rename x0 into out. binv E0. destruct x0 as [c2 m].
  destruct (Hfs c1 ltac:(auto)) as [F1 F2].
  assert (Ht : 2 ^ d <= m) by (eapply (T_tu d) with (c := c1) (p := 6) (id := 7); [left; reflexivity|reflexivity|exact IH|exact H1|exact Ho|exact Hl|exact F1|apply F2; lia|exact E1]).
  pose proof (T_post _ _ _ _ H1 (parseN_run _ _ _ _ _ _ _ _ E1)) as (H2 & S2 & P2 & R2).
  destruct (cMatchLast c2); [destruct R2 as [_ []]|]. change (cOffset c1) with (cOffset c) in R2. cbn [negb] in E0. change (0 <=? Z.of_nat 0)%Z with true in E0. cbv iota in E0. binv E0. injection E0 as <-.
  destruct n as [|n]; [discriminate|]. cbn [seqLoopN nth_error] in E2. rename x0 into out. binv E2. destruct x0 as [c3 m3].
  destruct (Hfs c2 P2) as [F3 F4].
  assert (Hu : 2 ^ d <= m3). { eapply (T_tu d) with (c := c2) (p := 7) (id := 8); [right; reflexivity|reflexivity|exact IH|exact H2|lia|rewrite (st_limit _ _ S2); exact Hl|rewrite R2; exact F3|rewrite R2; apply F4; lia|exact E0]. }
  pose proof (T_post _ _ _ _ H2 (parseN_run _ _ _ _ _ _ _ _ E0)) as (H3 & S3 & P3 & R3).
  destruct (cMatchLast c3); [destruct R3 as [_ []]|]. cbn [negb] in E2. change (0 <=? Z.of_nat 0)%Z with true in E2. cbv iota in E2. binv E2. injection E2 as <-.
  destruct x0 as [out m4]. cbn [fst snd] in *. cbn [Nat.pow]. destruct out as [to c4|c4].
  - binv E. destruct x0 as [[c5 b] m5]. binv E. injection E as <-. cbn [snd]. lia.
  - injection E as <-. cbn [snd]. lia.
Qed.

Theorem twice_exponential k : Calls twiceSyntax input REof k -> 2 ^ N <= k.
Proof.
  intros (f & H). specialize (H f (Nat.le_refl _)). unfold parseCalls, parseMeasure in H. rewrite twice_root, twice_parsers, twice_kws in H. binv H. destruct x as [c' k']. injection H as <-.
  eapply T_calls in E; eauto.
  - apply cinv_new.
  - intros o i _. unfold pcount. simpl. destruct i; reflexivity.
Qed.
End RUN.

Lemma exp_beats d : forall C, exists n0, forall n, n0 <= n -> C * S n ^ d < 2 ^ n.
Proof.
  induction d as [|d IH]; intros C.
  - exists C. intros n Hn. simpl. rewrite Nat.mul_1_r. apply Nat.le_lt_trans with n; auto. apply Nat.pow_gt_lin_r. lia.
  - destruct (IH (C * 2 ^ S d)) as (m0 & Hm). exists (2 * m0). intros n Hn. set (m := Nat.div2 n).
    assert (Hd : n = 2 * m \/ n = S (2 * m)). { unfold m. pose proof (Nat.div2_odd n). destruct (Nat.odd n); simpl Nat.b2n in *; lia. }
    specialize (Hm m ltac:(lia)).
    assert (H1 : S n ^ S d <= 2 ^ S d * (S m ^ d * S m)).
    { replace (S m ^ d * S m) with (S m ^ S d) by (simpl; lia). rewrite <- Nat.pow_mul_l. apply Nat.pow_le_mono_l. lia. }
    assert (H2 : 2 ^ m * 2 ^ m <= 2 ^ n). { rewrite <- Nat.pow_add_r. apply Nat.pow_le_mono_r; lia. }
    assert (H3 : S m <= 2 ^ m) by (apply Nat.pow_gt_lin_r; lia).
    apply Nat.lt_le_trans with (2 ^ m * 2 ^ m); auto.
    apply Nat.le_lt_trans with (C * 2 ^ S d * S m ^ d * S m).
    + replace (C * 2 ^ S d * S m ^ d * S m) with (C * (2 ^ S d * (S m ^ d * S m))) by ring. apply Nat.mul_le_mono_l. auto.
    + apply Nat.lt_le_trans with (2 ^ m * S m); [apply Nat.mul_lt_mono_pos_r; auto; lia|apply Nat.mul_le_mono_l; auto].
Qed.
