(** Bounds for the calls of builder.build.  Every stored match that is not empty is built once; an empty one
    is marked while it is built, and the offset never decreases. *)
From Verif Require Import Base Utf8 IdSet Results Parser Build ListFacts ResultsFacts ReaderFacts ParseFacts
  FuelFacts TermFacts BuildFacts CostBound Syntax Cost CostFacts CostBuild CostBuildFacts.

Section BOUND.
Variable B : pheap.
Variable N : nat.
Notation binv := (binv N).
Notation bmeas := (bmeas B N).
Notation bstep := (bstep N).
Notation bpost := (bpost B N).

Lemma buildN_step op n b c x k : binv c -> buildN op B n b c = Ok (x, k) -> bstep c (snd x).
Proof. intros H Hk. apply buildN_run in Hk. apply (build_spec B N (cResults c)) in Hk; auto. apply Hk. Qed.

(** the ids that are not marked at the offset *)
Definition open (c : context) : nat := List.length (filter (fun i => Nat.eqb (pcount (cResults c) (cOffset c) i) 0) (map nodeID B)).
Lemma open_le c : open c <= List.length B.
Proof. unfold open. rewrite <- (map_length nodeID B). generalize (map nodeID B). intros l. induction l; simpl; auto. destruct (_ =? _); simpl; lia. Qed.
Lemma open_same c c' : samePending c c' -> cOffset c' = cOffset c -> open c' = open c.
Proof. intros H Ho. unfold open. f_equal. apply filter_ext. intros i. rewrite Ho, H. auto. Qed.
Lemma open_enter b ob c gs to c' : nth_error B b = Some ob -> to <= cOffset c ->
  enterBuild c (nodeID ob) gs to = Ok (Some c') -> open c' < open c.
Proof.
  intros Hb Hto He. apply enterBuild_spec in He. destruct He as (E1 & _ & _ & E4 & E5).
  destruct E5 as [(E5 & _)|(_ & E6 & _)]; [lia|]. assert (Elt : (cOffset c <? to) = false) by (apply Nat.ltb_ge; auto). rewrite Elt in E4.
  unfold open. rewrite E1. apply filter_lt with (x := nodeID ob).
  - intros y. rewrite !Nat.eqb_eq, E4. lia.
  - apply in_map. eapply nth_error_In; eauto.
  - apply Nat.eqb_neq. rewrite E4, occ_cons, !Nat.eqb_refl. simpl. lia.
  - apply Nat.eqb_eq. now apply pending_false.
Qed.

Definition I : nat := S (maxItems B).
Definition W (f : nat) : nat := S I ^ f.
Definition Wm : nat := W (List.length B).
Definition Q : nat := Wm * S I.
Definition K : nat := S (I * Wm).
Lemma W_pos f : 1 <= W f.
Proof. unfold W. induction f; simpl; lia. Qed.
Lemma W_mono f f' : f <= f' -> W f <= W f'.
Proof. intros H. unfold W. apply Nat.pow_le_mono_r; lia. Qed.
Lemma W_lt f f' : f < f' -> S (I * W f) <= W f'.
Proof.
  intros H. etransitivity; [|apply (W_mono (S f) f'); lia]. unfold W. pose proof (W_pos f) as Hp. unfold W in Hp. rewrite Nat.pow_succ_r'. simpl. lia.
Qed.
Lemma W_max c : W (open c) <= Wm.
Proof. apply W_mono, open_le. Qed.

(** what calls from [c] to [c'] cost *)
Definition costs (M w : nat) (c c' : context) (k : nat) : Prop :=
  k + K * live (cResults c') + M * cOffset c <= w + M * cOffset c' + K * live (cResults c).

Section LOOP.
Variable n m : nat.
Variable base : context.
Variable w : nat.
Hypothesis Hw : w <= Wm.

Lemma buildLoop_costs items ranges k : List.length items <= I ->
  (forall a c x j, In a items -> binv c -> bmeas c <= m -> buildN Nat.add B n a c = Ok (x, j) -> costs (m * Q) (W (open c)) c (snd x) j) ->
  (forall c, samePending base c -> cOffset c = cOffset base -> W (open c) <= w) ->
  forall ii cnt nodes c ns c' j, binv c -> bmeas c <= m -> samePending base c ->
  buildLoopN Nat.add (buildN Nat.add B n) k items ranges ii cnt nodes c = Ok (ns, c', j) ->
  costs (S m * Q) ((List.length items - ii) * (if Nat.eqb (cOffset c) (cOffset base) then w else Wm)) c c' j /\ bstep c c'.
Proof.
  intros Hit Hn Hopen. induction k as [|k IH]; intros ii cnt nodes c ns c' j H Hm Hs Hk; [discriminate|].
  cbn [buildLoopN] in Hk. destruct (nth_error items ii) as [item|] eqn:Ei.
  2:{ inversion Hk; subst. split; [|apply bstep_refl; auto]. unfold costs. generalize ((List.length items - ii) * (if cOffset c' =? cOffset base then w else Wm)) (K * live (cResults c')) (S m * Q * cOffset c'). lia. }
  assert (Hii : ii < List.length items) by (apply nth_error_Some; congruence).
  assert (Hin : In item items) by (eapply nth_error_In; eauto). cbv zeta in Hk.
  binv Hk. destruct x as [[[n1 ok] c1] m1]. pose proof (Hn _ _ _ _ Hin H Hm E) as Hj. apply buildN_step in E; auto. cbn [snd] in Hj, E.
  pose proof (bs_inv _ _ _ E) as H1. pose proof (bmeas_step B N _ _ E) as Hm1. assert (Hm1' : bmeas c1 <= m) by lia.
  assert (Hs1 : samePending base c1) by (eapply samePending_trans; eauto; apply E). pose proof (bs_off _ _ _ E) as Ho.
  set (wc := if cOffset c =? cOffset base then w else Wm) in *.
  assert (Hwc : W (open c) <= wc). { unfold wc. destruct (Nat.eqb_spec (cOffset c) (cOffset base)); [apply Hopen; auto|apply W_max]. }
  assert (Hwm : wc <= Wm) by (unfold wc; destruct (_ =? _); lia).
  (* the rest of the loop *)
  assert (Hrest : forall ii' cnt' ns' y, (ii' = S ii \/ ii' = ii /\ cOffset c < cOffset c1) ->
    (z <- buildLoopN Nat.add (buildN Nat.add B n) k items ranges ii' cnt' ns' c1 ;; Ok (fst z, Nat.add m1 (snd z))) = Ok y -> y = (ns, c', j) ->
    costs (S m * Q) ((List.length items - ii) * wc) c c' j /\ bstep c c').
  { intros ii' cnt' ns' y Hi' Hy ->. binv Hy. destruct x as [[ns2 c2] j2]. injection Hy as <- <- <-. apply IH in E0; auto. destruct E0 as [E0 E2]. cbn [fst snd].
    split; [|eapply bstep_trans; eauto]. unfold costs in *. set (wc1 := if cOffset c1 =? cOffset base then w else Wm) in *.
    pose proof (bs_off _ _ _ E2) as Ho2. change (S m * Q) with (Q + m * Q) in *. rewrite !Nat.mul_add_distr_r in *.
    destruct (Nat.eq_dec (cOffset c1) (cOffset c)) as [Eo|Eo].
    - destruct Hi' as [->|[_ Hi']]; [|lia]. assert (Ewc : wc1 = wc) by (unfold wc1, wc; rewrite Eo; auto). rewrite Ewc, Eo in *.
      assert (Er : (List.length items - ii) * wc = wc + (List.length items - S ii) * wc) by (replace (List.length items - ii) with (S (List.length items - S ii)) by lia; reflexivity).
      lia.
    - assert (Hq : Q * cOffset c + Q <= Q * cOffset c1). { replace (Q * cOffset c + Q) with (Q * S (cOffset c)) by (rewrite Nat.mul_succ_r; lia). apply Nat.mul_le_mono_l. lia. }
      assert (Hr : wc + (List.length items - ii') * wc1 <= Q).
      { unfold Q. rewrite Nat.mul_succ_r. assert (Hwm1 : wc1 <= Wm) by (unfold wc1; destruct (cOffset c1 =? cOffset base); [exact Hw|apply Nat.le_refl]).
        assert ((List.length items - ii') * wc1 <= I * Wm) by (apply Nat.mul_le_mono; lia). rewrite (Nat.mul_comm Wm I). lia. }
      pose proof (Nat.le_0_l ((List.length items - ii) * wc)) as Hp. clear - Hj E0 Hq Hr Hwc Ho2 Hp. clearbody wc wc1.
      remember ((List.length items - ii) * wc) as z1. remember ((List.length items - ii') * wc1) as z2. lia. }
  destruct ok.
  - destruct (nth_error ranges ii) as [[mn mx]|]; [|discriminate].
    destruct (cOffset c <? cOffset c1) eqn:Elt; [apply Nat.ltb_lt in Elt; destruct (_ && _)%bool|]; (eapply Hrest; [|exact Hk|reflexivity]; auto).
  - (eapply Hrest; [|exact Hk|reflexivity]; auto).
Qed.
End LOOP.

Theorem build_costs : forall n m b c x k, binv c -> bmeas c <= m -> buildN Nat.add B n b c = Ok (x, k) -> costs (m * Q) (W (open c)) c (snd x) k.
Proof.
  induction n as [|n IH]; intros m b c x k H Hm Hk; [discriminate|].
  pose proof (buildN_step _ _ _ _ _ _ H Hk) as Hstep. cbn [buildN] in Hk.
  assert (Hleaf : k = 1 -> costs (m * Q) (W (open c)) c (snd x) k).
  { intros ->. unfold costs. pose proof (W_pos (open c)). pose proof (sh_live _ _ (bs_shrink _ _ _ Hstep)) as Hl. apply (Nat.mul_le_mono_l _ _ K) in Hl.
    pose proof (bs_off _ _ _ Hstep) as Ho. apply (Nat.mul_le_mono_l _ _ (m * Q)) in Ho. lia. }
  destruct (nth_error B b) as [ob|] eqn:Hb; [|discriminate].
  (* a frame: [kk] is the cost of what is inside *)
  assert (Hframe : forall to gs c1 c2 c3 kk, stored (cResults c) (cOffset c) (nodeID ob) to ->
     enterBuild c (nodeID ob) gs to = Ok (Some c1) -> leaveBuild c2 (nodeID ob) gs (cOffset c) to = Ok c3 -> c3 = snd x -> k = S kk ->
     (forall m1 w, w <= Wm -> m = S m1 -> binv c1 -> bmeas c1 <= m1 -> (forall c', samePending c1 c' -> cOffset c' = cOffset c1 -> W (open c') <= w) ->
        costs (m * Q) (I * w) c1 c2 kk) -> costs (m * Q) (W (open c)) c (snd x) k).
  { intros to gs c1 c2 c3 kk Hst He Hl <- -> Hin. pose proof (bmeas_enter B N _ _ _ _ _ _ H Hb Hst He) as Hlt.
    pose proof He as He'. apply enterBuild_spec in He. destruct He as (E1 & _ & E3 & _ & E5).
    apply leaveBuild_spec in Hl. destruct Hl as (V1 & _ & V3 & _). assert (Elive : live (cResults c3) = live (cResults c2)) by (unfold live; rewrite V3; auto).
    assert (H1 : binv c1). { split; [rewrite E1; apply H|]. intros o i t Hs. apply (bi_stored _ _ H _ i). eapply sh_stored; eauto. }
    destruct m as [|m1]; [lia|]. destruct E5 as [(E5 & E6 & _)|(E5 & E6 & E7)].
    - specialize (E6 Hst). specialize (Hin m1 Wm (Nat.le_refl _) eq_refl H1 ltac:(lia) (fun c' _ _ => W_max c')). unfold costs in *. rewrite V1, Elive. rewrite E1 in Hin.
      apply (Nat.mul_le_mono_l _ _ K) in E6. rewrite Nat.mul_succ_r in E6. change K with (S (I * Wm)) in E6 at 2. lia.
    - pose proof (open_enter _ _ _ _ _ _ Hb E5 He') as Ho. specialize (Hin m1 (W (open c1)) (W_max c1) eq_refl H1 ltac:(lia)).
      specialize (Hin (fun c' Hs Ho' => W_mono _ _ (Nat.eq_le_incl _ _ (open_same _ _ Hs Ho')))). unfold costs in *. rewrite V1, Elive. rewrite E1 in Hin.
      assert (El : live (cResults c1) = live (cResults c)) by (unfold live; rewrite E7; auto). rewrite El in Hin. apply W_lt in Ho. lia. }
  binv Hk. destruct x0 as [x0 kk]. injection Hk as <- <-. cbn [fst snd] in *.
  destruct ob as [nm i cn ch rs|name id commit items ranges gs ac|name id commit options gs].
  - injection E as <- <-. auto.
  - unfold seqBuildN in E. destruct (longestMatch _ _ _) as [to|] eqn:El; [|injection E as <- <-; auto].
    apply longestMatch_some in El. destruct El as [Hst _]. cbv zeta in E.
    destruct ac; [destruct (hasFlag _ _); injection E as <- <-; auto|].
    binv E. destruct x as [c1|]; [|injection E as <- <-; auto]. binv E. destruct x as [[nodes c2] j]. binv E. rename x into c3.
    assert (Ex : kk = j /\ c3 = snd x0) by (destruct (hasFlag _ _); injection E as <- <-; auto). destruct Ex as [-> ->].
    eapply (Hframe to gs c1 c2 _ j); eauto. intros m1 w Hw -> H1 Hm1 Hop.
    apply (buildLoop_costs n m1 c1 w Hw) in E1; auto using samePending_refl.
    + destruct E1 as [E1 _]. rewrite Nat.eqb_refl, Nat.sub_0_r in E1. unfold costs in *. pose proof (maxItems_ge _ _ _ _ _ _ _ _ _ Hb) as Hmi.
      assert (List.length items * w <= I * w) by (apply Nat.mul_le_mono_r; unfold I; lia). lia.
    + pose proof (maxItems_ge _ _ _ _ _ _ _ _ _ Hb) as Hmi. unfold I. lia.
    + intros a c0 x j0 _ H0 Hm0 Hj0. eapply IH; eauto.
  - unfold choiceBuildN in E. destruct (longestMatch _ _ _) as [to|] eqn:El; [|injection E as <- <-; auto].
    apply longestMatch_some in El. destruct El as [Hst _]. cbv zeta in E.
    binv E. destruct x as [c1|]; [|injection E as <- <-; auto]. binv E. destruct x as [o|]; [|discriminate].
    binv E. destruct x as [[[nodes ok] c2] j]. binv E. rename x into c3.
    assert (Ex : kk = j /\ c3 = snd x0) by (destruct (hasFlag _ _); injection E as <- <-; auto). destruct Ex as [-> ->].
    eapply (Hframe to gs c1 c2 _ j); eauto. intros m1 w Hw -> H1 Hm1 Hop.
    pose proof (bs_off _ _ _ (buildN_step _ _ _ _ _ _ H1 E2)) as Ho. cbn [snd] in Ho. apply (IH m1) in E2; auto. cbn [snd] in E2.
    specialize (Hop c1 (samePending_refl _) eq_refl). unfold costs in *. change (S m1 * Q) with (Q + m1 * Q). rewrite !Nat.mul_add_distr_r.
    apply (Nat.mul_le_mono_l _ _ Q) in Ho. change (I * w) with (w + maxItems B * w).
    pose proof (Nat.le_0_l (maxItems B * w)) as Hp. clear - E2 Hop Ho Hp. remember (maxItems B * w) as z. lia.
Qed.
Theorem calls_build n b c x k : binv c -> cOffset c = 0 -> buildN Nat.add B n b c = Ok (x, k) ->
  k <= Wm + bmeas c * Q * N + K * live (cResults c).
Proof.
  intros H Ho Hk. pose proof (buildN_step _ _ _ _ _ _ H Hk) as Hs. apply (build_costs n (bmeas c)) in Hk; auto. unfold costs in Hk. rewrite Ho, Nat.mul_0_r in Hk.
  pose proof (W_max c). pose proof (bi_off _ _ (bs_inv _ _ _ Hs)) as Hn. apply (Nat.mul_le_mono_l _ _ (bmeas c * Q)) in Hn. lia.
Qed.

(** ** the depth *)
Lemma buildLoop_depth n m items ranges k :
  (forall a c x j, In a items -> binv c -> bmeas c <= m -> buildN Nat.max B n a c = Ok (x, j) -> j <= S m) ->
  forall ii cnt nodes c ns c' j, binv c -> bmeas c <= m ->
  buildLoopN Nat.max (buildN Nat.max B n) k items ranges ii cnt nodes c = Ok (ns, c', j) -> j <= S m.
Proof.
  intros Hn. induction k as [|k IH]; intros ii cnt nodes c ns c' j H Hm Hk; [discriminate|].
  cbn [buildLoopN] in Hk. destruct (nth_error items ii) as [item|] eqn:Ei; [|inversion Hk; lia].
  assert (Hin : In item items) by (eapply nth_error_In; eauto). cbv zeta in Hk.
  binv Hk. destruct x as [[[n1 ok] c1] m1]. pose proof (Hn _ _ _ _ Hin H Hm E) as Hj. apply buildN_step in E; auto. cbn [snd] in E.
  pose proof (bs_inv _ _ _ E) as H1. pose proof (bmeas_step B N _ _ E) as Hm1. assert (Hm1' : bmeas c1 <= m) by lia.
  destruct ok.
  - destruct (nth_error ranges ii) as [[mn mx]|]; [|discriminate]. binv Hk. destruct x as [[ns2 c2] j2]. injection Hk as <- <- <-. cbn [snd].
    apply Nat.max_lub; auto. destruct (_ <? _); [destruct (_ && _)%bool|]; eapply IH; eauto.
  - binv Hk. destruct x as [[ns2 c2] j2]. injection Hk as <- <- <-. cbn [snd]. apply Nat.max_lub; auto. eapply IH; eauto.
Qed.
Theorem build_depth : forall n m b c x k, binv c -> bmeas c <= m -> buildN Nat.max B n b c = Ok (x, k) -> k <= S m.
Proof.
  induction n as [|n IH]; intros m b c x k H Hm Hk; [discriminate|]. cbn [buildN] in Hk.
  destruct (nth_error B b) as [ob|] eqn:Hb; [|discriminate].
  assert (Hen : forall to gs c1, stored (cResults c) (cOffset c) (nodeID ob) to -> enterBuild c (nodeID ob) gs to = Ok (Some c1) ->
    binv c1 /\ exists m1, m = S m1 /\ bmeas c1 <= m1).
  { intros to gs c1 Hst He. pose proof (bmeas_enter B N _ _ _ _ _ _ H Hb Hst He) as Hlt. apply enterBuild_spec in He. destruct He as (E1 & _ & E3 & _).
    split; [|exists (m - 1); lia]. split; [rewrite E1; apply H|]. intros o i t Hs. apply (bi_stored _ _ H _ i). eapply sh_stored; eauto. }
  binv Hk. destruct x0 as [x0 kk]. injection Hk as <- <-. cbn [fst snd]. apply le_n_S.
  destruct ob as [nm i cn ch rs|name id commit items ranges gs ac|name id commit options gs].
  - injection E as <- <-. lia.
  - unfold seqBuildN in E. destruct (longestMatch _ _ _) as [to|] eqn:El; [|injection E as <- <-; lia].
    apply longestMatch_some in El. destruct El as [Hst _]. cbv zeta in E.
    destruct ac; [destruct (hasFlag _ _); injection E as <- <-; lia|].
    binv E. destruct x as [c1|]; [|injection E as <- <-; lia]. destruct (Hen _ _ _ Hst E0) as (H1 & m1 & -> & Hm1).
    binv E. destruct x as [[nodes c2] j]. binv E.
    assert (Ex : kk = j) by (destruct (hasFlag _ _); injection E as <- <-; auto). subst kk.
    eapply buildLoop_depth in E1; eauto.
  - unfold choiceBuildN in E. destruct (longestMatch _ _ _) as [to|] eqn:El; [|injection E as <- <-; lia].
    apply longestMatch_some in El. destruct El as [Hst _]. cbv zeta in E.
    binv E. destruct x as [c1|]; [|injection E as <- <-; lia]. destruct (Hen _ _ _ Hst E0) as (H1 & m1 & -> & Hm1).
    binv E. destruct x as [o|]; [|discriminate].
    binv E. destruct x as [[[nodes ok] c2] j]. binv E.
    assert (Ex : kk = j) by (destruct (hasFlag _ _); injection E as <- <-; auto). subst kk.
    eapply IH in E2; eauto.
Qed.
End BOUND.
