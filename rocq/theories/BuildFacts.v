(** Building terminates, and every node stands for a stored match: facts that hold whatever the
    definitions and whatever the memo table are. *)
From Verif Require Import Base Utf8 IdSet Results Parser Build ListFacts ResultsFacts ReaderFacts ParseFacts
  FuelFacts TermFacts.

Definition isLive (e : option nat * nat) : bool := match fst e with Some _ => true | None => false end.
Definition rowLive (row : list (option nat * nat)) : nat := List.length (filter isLive row).
Fixpoint tblLive (l : list (list (option nat * nat))) : nat :=
  match l with [] => 0 | row :: l' => rowLive row + tblLive l' end.
Definition live (r : results) : nat := tblLive (rMatch r).

Lemma dropIn_in id to row x : In x (dropIn id to row) -> In x row \/ fst x = None.
Proof.
  induction row as [|e row IH]; simpl; [auto|]. destruct (entryIs id to e).
  - intros [<-|H]; auto.
  - intros [<-|H]; auto. destruct (IH H); auto.
Qed.
Lemma dropIn_keep id to row x : In x row -> entryIs id to x = false -> In x (dropIn id to row).
Proof.
  induction row as [|e row IH]; simpl; [auto|]. intros [->|H] Hx.
  - rewrite Hx. left; auto.
  - destruct (entryIs id to e); right; auto.
Qed.
Lemma rowLive_dropIn id to row :
  rowLive (dropIn id to row) + (if existsb (entryIs id to) row then 1 else 0) = rowLive row.
Proof.
  unfold rowLive. induction row as [|e row IH]; simpl; auto.
  destruct (entryIs id to e) eqn:E; simpl.
  - apply entryIs_true in E. subst e. simpl. lia.
  - destruct (isLive e); simpl; lia.
Qed.
Lemma tblLive_updNth o f l : (forall row, rowLive (f row) <= rowLive row) ->
  tblLive (updNth o f l) <= tblLive l /\
  (o < List.length l -> rowLive (f (nth o l [])) < rowLive (nth o l []) -> tblLive (updNth o f l) < tblLive l).
Proof.
  intros Hf. revert o. induction l as [|row l IH]; intros o; destruct o; simpl; split; auto; try lia.
  - specialize (Hf row). lia.
  - destruct (IH o) as [H1 _]. lia.
  - intros Ho Hr. destruct (IH o) as [_ H1]. specialize (H1 ltac:(lia) Hr). lia.
Qed.

Lemma rowLive_le id to row : rowLive (dropIn id to row) <= rowLive row.
Proof. pose proof (rowLive_dropIn id to row). lia. Qed.

Lemma matchRow_drop r o id to r' : dropMatchTo r o id to = Ok r' ->
  rPending r' = rPending r /\ List.length (rMatch r') = List.length (rMatch r) /\
  matchRow r' o = dropIn id to (matchRow r o) /\
  (forall o', o' <> o -> matchRow r' o' = matchRow r o') /\
  live r' <= live r /\ (stored r o id to -> live r' < live r).
Proof.
  unfold dropMatchTo. destruct (_ <=? _) eqn:E; [discriminate|]. intros H; inversion H; subst; clear H.
  apply Nat.leb_gt in E. simpl. split; auto. split; [apply updNth_length|].
  assert (Hn : forall o', nth o' (updNth o (dropIn id to) (rMatch r)) [] =
            if Nat.eqb o o' then dropIn id to (nth o (rMatch r) []) else nth o' (rMatch r) []).
  { intros o'. rewrite nth_updNth by auto. destruct (Nat.eqb_spec o o') as [<-|]; auto. }
  split; [unfold matchRow; simpl; rewrite Hn, Nat.eqb_refl; auto|].
  split.
  { intros o' Ho. unfold matchRow. simpl. rewrite Hn. destruct (Nat.eqb_spec o o'); congruence. }
  unfold live. simpl. destruct (tblLive_updNth o (dropIn id to) (rMatch r) (rowLive_le id to)) as [H1 H2].
  split; auto. intros Hs. apply H2; auto. pose proof (rowLive_dropIn id to (nth o (rMatch r) [])) as Hd.
  unfold stored, matchRow in Hs. apply existsb_entryIs in Hs. rewrite Hs in Hd. lia.
Qed.

Lemma stored_drop r o id to r' : dropMatchTo r o id to = Ok r' -> forall o' i t,
  stored r' o' i t -> stored r o' i t.
Proof.
  intros H o' i t Hs. apply matchRow_drop in H. destruct H as (_ & _ & H1 & H2 & _).
  unfold stored in *. destruct (Nat.eq_dec o' o) as [->|Hne]; [|rewrite H2 in Hs; auto].
  rewrite H1 in Hs. apply dropIn_in in Hs. destruct Hs as [|Hs]; auto. discriminate.
Qed.
Lemma stored_drop_keep r o id to r' : dropMatchTo r o id to = Ok r' -> forall o' i t,
  stored r o' i t -> ~ (o' = o /\ i = id /\ t = to) -> stored r' o' i t.
Proof.
  intros H o' i t Hs Hne. apply matchRow_drop in H. destruct H as (_ & _ & H1 & H2 & _).
  unfold stored in *. destruct (Nat.eq_dec o' o) as [->|Ho]; [|rewrite H2; auto].
  rewrite H1. apply dropIn_keep; auto. destruct (entryIs id to (Some i, t)) eqn:E; auto.
  apply entryIs_true in E. inversion E; subst. exfalso. auto.
Qed.

Lemma stored_length r o id t : stored r o id t -> o < List.length (rMatch r).
Proof.
  unfold stored, matchRow. intros H. destruct (Nat.lt_ge_cases o (List.length (rMatch r))); auto.
  rewrite nth_overflow in H by auto. contradiction.
Qed.
Lemma dropMatchTo_ok r o id to : o < List.length (rMatch r) -> exists r', dropMatchTo r o id to = Ok r'.
Proof. intros H. unfold dropMatchTo. destruct (_ <=? _) eqn:E; eauto. apply Nat.leb_le in E. lia. Qed.
Lemma dropMatchTo_noFuel r o id to : dropMatchTo r o id to <> NoFuel.
Proof. unfold dropMatchTo. destruct (_ <=? _); discriminate. Qed.

(** how the table evolves while building *)
Record shrink (r r' : results) : Prop := mkShrink {
  sh_stored : forall o i t, stored r' o i t -> stored r o i t;
  sh_len : List.length (rMatch r') = List.length (rMatch r);
  sh_live : live r' <= live r }.
Lemma shrink_refl r : shrink r r.
Proof. split; auto. Qed.
Lemma shrink_trans a b c : shrink a b -> shrink b c -> shrink a c.
Proof. intros [A1 A2 A3] [B1 B2 B3]. split; auto; [congruence|lia]. Qed.
Lemma shrink_same r r' : rMatch r' = rMatch r -> shrink r r'.
Proof. intros H. split; [apply stored_ext; auto|congruence|unfold live; rewrite H; auto]. Qed.

Lemma forDrop gs : forall o to r r', forIds (fun r g => dropMatchTo r o g to) gs r = Ok r' ->
  shrink r r' /\ rPending r' = rPending r /\
  (forall o' i t, stored r o' i t -> ~ (o' = o /\ In i gs /\ t = to) -> stored r' o' i t).
Proof.
  induction gs as [|g gs IH]; intros o to r r' H; cbn [forIds] in H.
  - inversion H; subst. split; [apply shrink_refl|]. auto.
  - binv H. apply IH in H. destruct H as (H1 & H2 & H3). pose proof E as E'.
    apply matchRow_drop in E. destruct E as (D1 & D2 & D3 & D4 & D5 & D6).
    split; [|split; [congruence|]].
    + eapply shrink_trans; [|exact H1]. split; auto. eapply stored_drop; eauto.
    + intros o' i t Hs Hne. apply H3.
      * eapply stored_drop_keep; eauto. intros (-> & -> & ->). apply Hne. simpl; auto.
      * intros (-> & Hi & ->). apply Hne. simpl; auto.
Qed.
Lemma forDrop_ok gs : forall o to r, o < List.length (rMatch r) ->
  exists r', forIds (fun r g => dropMatchTo r o g to) gs r = Ok r'.
Proof.
  induction gs as [|g gs IH]; intros o to r H; cbn [forIds]; eauto.
  destruct (dropMatchTo_ok r o g to H) as [r' E]. rewrite E. cbn [bind]. apply IH.
  apply matchRow_drop in E. destruct E as (_ & E & _). rewrite E. auto.
Qed.

Definition occ (o : nat) (gs : list nat) (o' i : nat) : nat :=
  if Nat.eqb o o' then count_occ Nat.eq_dec gs i else 0.
Lemma occ_cons o g gs o' i : occ o (g :: gs) o' i = occ o gs o' i + (if Nat.eqb g i && Nat.eqb o o' then 1 else 0).
Proof.
  unfold occ. simpl. destruct (Nat.eqb o o'); rewrite ?andb_true_r, ?andb_false_r; auto.
  destruct (Nat.eq_dec g i) as [->|Hne]; [rewrite Nat.eqb_refl|apply Nat.eqb_neq in Hne; rewrite Hne]; lia.
Qed.

Lemma forMark gs : forall o r r', forIds (fun r g => Ok (markPending r o g)) gs r = Ok r' ->
  rMatch r' = rMatch r /\ forall o' i, pcount r' o' i = pcount r o' i + occ o gs o' i.
Proof.
  induction gs as [|g gs IH]; intros o r r' H; cbn [forIds] in H.
  - inversion H; subst. split; auto. intros. unfold occ. destruct (Nat.eqb _ _); simpl; lia.
  - cbn [bind] in H. apply IH in H. destruct H as [H1 H2]. split; [rewrite H1; reflexivity|].
    intros. rewrite H2, pcount_mark, occ_cons. lia.
Qed.
Lemma forMark_ok gs : forall o r, exists r', forIds (fun r g => Ok (markPending r o g)) gs r = Ok r'.
Proof. induction gs as [|g gs IH]; intros; cbn [forIds bind]; eauto. Qed.

Lemma forUnmark gs : forall o r r', forIds (fun r g => unmarkPending r o g) gs r = Ok r' ->
  rMatch r' = rMatch r /\ forall o' i, pcount r' o' i = pcount r o' i - occ o gs o' i.
Proof.
  induction gs as [|g gs IH]; intros o r r' H; cbn [forIds] in H.
  - inversion H; subst. split; auto. intros. unfold occ. destruct (Nat.eqb _ _); simpl; lia.
  - binv H. apply IH in H. destruct H as [H1 H2]. pose proof (unmark_match _ _ _ _ E) as [E1 _].
    split; [congruence|]. intros. rewrite H2, (pcount_unmark _ _ _ _ E), occ_cons. lia.
Qed.
Lemma forUnmark_ok gs : forall o r, (forall i, occ o gs o i <= pcount r o i) ->
  exists r', forIds (fun r g => unmarkPending r o g) gs r = Ok r'.
Proof.
  induction gs as [|g gs IH]; intros o r H; cbn [forIds]; eauto.
  destruct (unmark_ok r o g) as [r' E].
  { specialize (H g). rewrite occ_cons, !Nat.eqb_refl in H. simpl in H. lia. }
  rewrite E. cbn [bind]. apply IH. intros i. rewrite (pcount_unmark _ _ _ _ E). specialize (H i).
  rewrite occ_cons in H. lia.
Qed.
Lemma forIds_noFuel f gs : (forall r g, f r g <> NoFuel) -> forall r, forIds f gs r <> NoFuel.
Proof. intros Hf. induction gs as [|g gs IH]; intros r; cbn [forIds]; [discriminate|]. apply bind_noFuel; auto. Qed.

Section BUILD.
Variable B : pheap.
Variable N : nat.

Record binv (c : context) : Prop := mkBinv {
  bi_off : cOffset c <= N;
  bi_stored : forall o id t, stored (cResults c) o id t -> o <= t /\ t <= N }.

Record bstep (c c' : context) : Prop := mkBstep {
  bs_inv : binv c';
  bs_off : cOffset c <= cOffset c';
  bs_pend : samePending c c';
  bs_shrink : shrink (cResults c) (cResults c');
  bs_tokens : cTokens c' = cTokens c }.

Lemma bstep_refl c : binv c -> bstep c c.
Proof. intros H. split; auto using shrink_refl. intros ? ?; auto. Qed.
Lemma bstep_trans a b c : bstep a b -> bstep b c -> bstep a c.
Proof.
  intros [A1 A2 A3 A4 A5] [B1 B2 B3 B4 B5]. split; auto; try lia.
  - intros o i. now rewrite B3.
  - eapply shrink_trans; eauto.
  - congruence.
Qed.

(** [enterBuild]: the match being built is dropped, or marked when it is empty *)
Lemma enterBuild_spec c id gs to c' : enterBuild c id gs to = Ok (Some c') ->
  cOffset c' = cOffset c /\ cTokens c' = cTokens c /\ shrink (cResults c) (cResults c') /\
  (forall o i, pcount (cResults c') o i =
     pcount (cResults c) o i + (if cOffset c <? to then 0 else occ (cOffset c) (id :: gs) o i)) /\
  ((cOffset c < to /\ (stored (cResults c) (cOffset c) id to -> live (cResults c') < live (cResults c)) /\
    forall o i t, stored (cResults c) o i t -> ~ (o = cOffset c /\ In i (id :: gs) /\ t = to) ->
                  stored (cResults c') o i t)
   \/ (to <= cOffset c /\ pending (cResults c) (cOffset c) id = false /\
       rMatch (cResults c') = rMatch (cResults c))).
Proof.
  unfold enterBuild. destruct (cOffset c <? to) eqn:E.
  - apply Nat.ltb_lt in E. intros H. binv H. inversion H; subst; clear H. simpl.
    pose proof (forDrop _ _ _ _ _ E0) as (H1 & H2 & H3).
    split; auto. split; auto. split; auto.
    split; [intros; unfold pcount; rewrite H2; lia|].
    left. split; auto. split; auto.
    intros Hs. cbn [forIds] in E0. binv E0. apply matchRow_drop in E1.
    destruct E1 as (_ & _ & _ & _ & _ & E1). specialize (E1 Hs).
    apply forDrop in E0. destruct E0 as ([_ _ E0] & _). lia.
  - apply Nat.ltb_ge in E. destruct (pending _ _ _) eqn:Ep; [discriminate|]. intros H. binv H.
    inversion H; subst; clear H. simpl. apply forMark in E0. destruct E0 as [E1 E2].
    split; auto. split; auto. split; [apply shrink_same; auto|]. split; auto.
Qed.

Lemma leaveBuild_spec c id gs from to c' : leaveBuild c id gs from to = Ok c' ->
  cOffset c' = cOffset c /\ cTokens c' = cTokens c /\ rMatch (cResults c') = rMatch (cResults c) /\
  forall o i, pcount (cResults c') o i =
     pcount (cResults c) o i - (if from <? to then 0 else occ from (id :: gs) o i).
Proof.
  unfold leaveBuild. destruct (from <? to).
  - inversion 1; subst. repeat (split; auto). intros. lia.
  - intros H. binv H. inversion H; subst. simpl. apply forUnmark in E. destruct E. auto.
Qed.

(** the nodes of a tree all stand for stored matches of non-alias definitions *)
Variable r0 : results.
Inductive nodeOk : node -> Prop :=
| nodeOk_intro b ob from to nodes :
    nth_error B b = Some ob ->
    match ob with PChar _ _ _ _ _ => False | _ => True end ->
    hasFlag (commitTypeOf ob) CAlias = false ->
    stored r0 from (nodeID ob) to ->
    Forall nodeOk nodes ->
    nodeOk (Node (nodeName ob) from to nodes).

Definition bpost (c : context) (x : list node * bool * context) : Prop :=
  bstep c (snd x) /\ ((forall o i t, stored (cResults c) o i t -> stored r0 o i t) -> Forall nodeOk (fst (fst x))).

Lemma buildLoop_spec rec items ranges k :
  (forall a c x, binv c -> rec a c = Ok x -> bpost c x) ->
  forall ii cnt nodes c ns c', binv c ->
  buildLoop rec k items ranges ii cnt nodes c = Ok (ns, c') ->
  bstep c c' /\ ((forall o i t, stored (cResults c) o i t -> stored r0 o i t) -> Forall nodeOk nodes -> Forall nodeOk ns).
Proof.
  intros Hrec. induction k as [|k IH]; intros ii cnt nodes c ns c' H Hk; [discriminate|].
  cbn [buildLoop] in Hk. destruct (nth_error items ii) as [item|].
  2:{ inversion Hk; subst. split; auto using bstep_refl. }
  binv Hk. destruct x as [[n ok] c1]. apply Hrec in E; auto. destruct E as [E1 E2]. simpl in *.
  assert (Hr0 : (forall o i t, stored (cResults c) o i t -> stored r0 o i t) ->
                forall o i t, stored (cResults c1) o i t -> stored r0 o i t).
  { intros Hr o i t Hs. apply Hr. eapply sh_stored; [apply (bs_shrink _ _ E1)|]; auto. }
  destruct ok.
  - destruct (nth_error ranges ii) as [[mn mx]|]; [|discriminate].
    destruct (_ <? _) eqn:Elt; [destruct (_ && _)%bool|]; apply IH in Hk; try apply E1;
      destruct Hk as [Hk1 Hk2]; (split; [eapply bstep_trans; eauto|]); intros Hr Hn; apply Hk2; auto;
      apply Forall_app; split; auto.
    apply Forall_concat. apply Forall_forall. intros l Hl. apply repeat_spec in Hl. subst; auto.
  - apply IH in Hk; try apply E1. destruct Hk as [Hk1 Hk2]. split; [eapply bstep_trans; eauto|].
    intros Hr Hn. apply Hk2; auto.
Qed.

Lemma build_spec n : forall b c x, binv c -> build B n b c = Ok x -> bpost c x.
Proof.
  induction n as [|n IH]; intros b c x H Hk; [discriminate|].
  cbn [build] in Hk. destruct (nth_error B b) as [ob|] eqn:Hb; [|discriminate].
  destruct ob as [|name id commit items ranges gs ac|name id commit options gs].
  - inversion Hk; subst. split; simpl; auto. now apply bstep_refl.
  - unfold seqBuild in Hk. destruct (longestMatch _ _ _) as [to|] eqn:El.
    2:{ inversion Hk; subst. split; simpl; auto. now apply bstep_refl. }
    apply longestMatch_some in El. destruct El as [Hst _].
    pose proof (bi_stored _ H _ _ _ Hst) as [Hle HleN].
    destruct ac.
    + assert (bstep c (setOffset c to)).
      { split; simpl; auto using shrink_refl. split; simpl; auto. apply H. intros ? ?; auto. }
      destruct (hasFlag commit CAlias) eqn:Ea; inversion Hk; subst; split; simpl; auto.
      intros Hr. constructor; auto.
      apply (nodeOk_intro b (PSeq name id commit items ranges gs true)); simpl; auto.
    + binv Hk. destruct x0 as [c1|].
      2:{ inversion Hk; subst. split; simpl; auto. now apply bstep_refl. }
      apply enterBuild_spec in E. destruct E as (E1 & E2 & E3 & E4 & E5).
      assert (H1 : binv c1).
      { split; [rewrite E1; apply H|]. intros o i t Hs. apply (bi_stored _ H _ i). eapply sh_stored; eauto. }
      binv Hk. destruct x0 as [nodes c2]. apply buildLoop_spec in E; auto. destruct E as [L1 L2].
      binv Hk. apply leaveBuild_spec in E. destruct E as (V1 & V2 & V3 & V4).
      assert (Hst2 : bstep c x0).
      { split.
        - split; [rewrite V1; apply L1|]. intros o i t Hs. apply (stored_ext _ _ V3) in Hs.
          eapply bi_stored; [apply L1|eauto].
        - rewrite V1, <- E1. apply L1.
        - intros o i. rewrite V4, (bs_pend _ _ L1), E4. lia.
        - eapply shrink_trans; [exact E3|]. eapply shrink_trans; [apply L1|]. apply shrink_same. auto.
        - rewrite V2, (bs_tokens _ _ L1). auto. }
      assert (Hn : (forall o i t, stored (cResults c) o i t -> stored r0 o i t) -> Forall nodeOk nodes).
      { intros Hr. apply L2; auto. intros o i t Hs. apply Hr. eapply sh_stored; eauto. }
      destruct (hasFlag commit CAlias) eqn:Ea; inversion Hk; subst; split; simpl; auto.
      intros Hr. constructor; auto.
      apply (nodeOk_intro b (PSeq name id commit items ranges gs false)); simpl; auto.
  - unfold choiceBuild in Hk. destruct (longestMatch _ _ _) as [to|] eqn:El.
    2:{ inversion Hk; subst. split; simpl; auto. now apply bstep_refl. }
    apply longestMatch_some in El. destruct El as [Hst _].
    pose proof (bi_stored _ H _ _ _ Hst) as [Hle HleN].
    binv Hk. destruct x0 as [c1|].
    2:{ inversion Hk; subst. split; simpl; auto. now apply bstep_refl. }
    apply enterBuild_spec in E. destruct E as (E1 & E2 & E3 & E4 & E5).
    assert (H1 : binv c1).
    { split; [rewrite E1; apply H|]. intros o i t Hs. apply (bi_stored _ H _ i). eapply sh_stored; eauto. }
    binv Hk. destruct x0 as [op|]; [|discriminate].
    binv Hk. destruct x0 as [[nodes ok] c2]. apply IH in E0; auto. destruct E0 as [L1 L2]. simpl in L1, L2.
    binv Hk. apply leaveBuild_spec in E0. destruct E0 as (V1 & V2 & V3 & V4).
    assert (Hst2 : bstep c x0).
    { split.
      - split; [rewrite V1; apply L1|]. intros o i t Hs. apply (stored_ext _ _ V3) in Hs.
        eapply bi_stored; [apply L1|eauto].
      - rewrite V1, <- E1. apply L1.
      - intros o i. rewrite V4, (bs_pend _ _ L1), E4. lia.
      - eapply shrink_trans; [exact E3|]. eapply shrink_trans; [apply L1|]. apply shrink_same. auto.
      - rewrite V2, (bs_tokens _ _ L1). auto. }
    assert (Hn : (forall o i t, stored (cResults c) o i t -> stored r0 o i t) -> Forall nodeOk nodes).
    { intros Hr. apply L2; auto. intros o i t Hs. apply Hr. eapply sh_stored; eauto. }
    destruct (hasFlag commit CAlias) eqn:Ea; inversion Hk; subst; split; simpl; auto.
    intros Hr. constructor; auto.
    apply (nodeOk_intro b (PChoice name id commit options gs)); simpl; auto.
Qed.

(** termination: stored matches that are left + pairs that are not marked *)
Definition bpairs : list (nat * nat) := list_prod (seq 0 (S N)) (map nodeID B).
Definition bfree (c : context) : nat := List.length (filter (isFree c) bpairs).
Definition bmeas (c : context) : nat := live (cResults c) + bfree c.

Lemma bfree_le c c' : (forall o i, pcount (cResults c) o i <= pcount (cResults c') o i) -> bfree c' <= bfree c.
Proof.
  intros H. unfold bfree. induction bpairs as [|x l IH]; simpl; auto.
  destruct (isFree c' x) eqn:E.
  - assert (E' : isFree c x = true).
    { unfold isFree in *. apply Nat.eqb_eq in E. apply Nat.eqb_eq. specialize (H (fst x) (snd x)). lia. }
    rewrite E'. simpl. lia.
  - destruct (isFree c x); simpl; lia.
Qed.
Lemma bmeas_step c c' : bstep c c' -> bmeas c' <= bmeas c.
Proof.
  intros [_ _ A [_ _ S] _]. unfold bmeas. assert (bfree c' <= bfree c); [|lia].
  apply bfree_le. intros. rewrite A. auto.
Qed.
Lemma bmeas_enter b ob c gs to c' : binv c -> nth_error B b = Some ob ->
  stored (cResults c) (cOffset c) (nodeID ob) to ->
  enterBuild c (nodeID ob) gs to = Ok (Some c') -> bmeas c' < bmeas c.
Proof.
  intros H Hb Hst He. apply enterBuild_spec in He. destruct He as (_ & _ & E3 & E4 & E5). unfold bmeas.
  assert (bfree c' <= bfree c) by (apply bfree_le; intros; rewrite E4; lia).
  destruct E5 as [(E5 & E6 & _)|(E5 & E6 & _)].
  - specialize (E6 Hst). lia.
  - assert (bfree c' < bfree c); [|destruct E3; lia].
    unfold bfree. apply filter_lt with (x := (cOffset c, nodeID ob)).
    + intros y. unfold isFree. rewrite !Nat.eqb_eq, E4. lia.
    + apply in_prod; [apply in_seq; destruct H; lia|]. apply in_map. eapply nth_error_In; eauto.
    + unfold isFree. simpl. apply Nat.eqb_neq. rewrite E4. apply Nat.ltb_ge in E5. rewrite E5, occ_cons, !Nat.eqb_refl. simpl. lia.
    + unfold isFree. simpl. apply Nat.eqb_eq. now apply pending_false.
Qed.

Lemma buildLoop_noFuel rec items ranges m k :
  (forall a c x, binv c -> rec a c = Ok x -> bpost c x) ->
  (forall a c, In a items -> binv c -> bmeas c <= m -> rec a c <> NoFuel) ->
  forall ii cnt nodes c, binv c -> bmeas c <= m ->
  List.length items - ii + (N - cOffset c) < k ->
  buildLoop rec k items ranges ii cnt nodes c <> NoFuel.
Proof.
  intros Hrec Hnf. induction k as [|k IH]; intros ii cnt nodes c H Hm Hk; [lia|].
  cbn [buildLoop]. destruct (nth_error items ii) as [item|] eqn:Ei; [|discriminate].
  assert (Hii : ii < List.length items) by (apply nth_error_Some; congruence).
  apply bind_noFuel; [apply Hnf; auto; eapply nth_error_In; eauto|].
  intros [[n ok] c1] Hx. apply Hrec in Hx; auto. destruct Hx as [Hx _]. simpl in Hx.
  pose proof (bmeas_step _ _ Hx). pose proof (bs_off _ _ Hx). pose proof (bi_off _ (bs_inv _ _ Hx)).
  destruct ok; [destruct (nth_error ranges ii) as [[mn mx]|]; [|discriminate];
    destruct (_ <? _) eqn:Elt; [destruct (_ && _)%bool|]|]; try apply Nat.ltb_lt in Elt;
    apply IH; try apply Hx; lia.
Qed.

Lemma pickOption_noFuel r o to options : pickOption B r o to options <> NoFuel.
Proof.
  induction options; cbn [pickOption]; [discriminate|].
  destruct (nth_error B a); [|discriminate]. destruct (hasMatchTo _ _ _ _); auto; discriminate.
Qed.
Lemma enterBuild_noFuel c id gs to : enterBuild c id gs to <> NoFuel.
Proof.
  unfold enterBuild. destruct (_ <? _).
  - apply bind_noFuel; [|discriminate]. apply forIds_noFuel. intros; apply dropMatchTo_noFuel.
  - destruct (pending _ _ _); [discriminate|]. apply bind_noFuel; [|discriminate]. apply forIds_noFuel. discriminate.
Qed.
Lemma leaveBuild_noFuel c id gs from to : leaveBuild c id gs from to <> NoFuel.
Proof.
  unfold leaveBuild. destruct (_ <? _); [discriminate|].
  apply bind_noFuel; [|discriminate]. apply forIds_noFuel. intros; apply unmark_no_fuel.
Qed.

Lemma build_noFuel m : forall n b c, binv c -> bmeas c <= m -> m + maxItems B + N + 3 <= n -> build B n b c <> NoFuel.
Proof.
  induction m as [m IHm] using lt_wf_ind. intros n b c H Hm Hn.
  destruct n as [|n]; [lia|]. cbn [build]. destruct (nth_error B b) as [ob|] eqn:Hb; [|discriminate].
  assert (Hrec : forall to gs c', stored (cResults c) (cOffset c) (nodeID ob) to ->
     enterBuild c (nodeID ob) gs to = Ok (Some c') ->
     binv c' /\ bmeas c' <= m - 1 /\ forall a c2, binv c2 -> bmeas c2 <= m - 1 -> build B n a c2 <> NoFuel).
  { intros to gs c' Hst He. pose proof (bmeas_enter _ _ _ _ _ _ H Hb Hst He) as Hlt.
    apply enterBuild_spec in He. destruct He as (E1 & _ & E3 & _).
    split; [|split; [lia|]].
    - split; [rewrite E1; apply H|]. intros o i t Hs. apply (bi_stored _ H _ i). eapply sh_stored; eauto.
    - intros a c2 H2 Hc2. apply (IHm (m - 1)); auto; lia. }
  destruct ob as [|name id commit items ranges gs ac|name id commit options gs]; [discriminate| |].
  - unfold seqBuild. destruct (longestMatch _ _ _) as [to|] eqn:El; [|discriminate].
    apply longestMatch_some in El. destruct El as [Hst _].
    destruct ac; [destruct (hasFlag _ _); discriminate|].
    apply bind_noFuel; [apply enterBuild_noFuel|]. intros [c1|] He; [|discriminate].
    destruct (Hrec _ _ _ Hst He) as (R1 & R2 & R3).
    apply bind_noFuel.
    + apply buildLoop_noFuel with (m := m - 1); auto.
      * intros; eapply build_spec; eauto.
      * pose proof (maxItems_ge _ _ _ _ _ _ _ _ _ Hb). lia.
    + intros [nodes c2] _. apply bind_noFuel; [apply leaveBuild_noFuel|]. intros c3 _. destruct (hasFlag _ _); discriminate.
  - unfold choiceBuild. destruct (longestMatch _ _ _) as [to|] eqn:El; [|discriminate].
    apply longestMatch_some in El. destruct El as [Hst _].
    apply bind_noFuel; [apply enterBuild_noFuel|]. intros [c1|] He; [|discriminate].
    destruct (Hrec _ _ _ Hst He) as (R1 & R2 & R3).
    apply bind_noFuel; [apply pickOption_noFuel|]. intros [op|] _; [|discriminate].
    apply bind_noFuel; [apply R3; auto|]. intros [[nodes ok] c2] _.
    apply bind_noFuel; [apply leaveBuild_noFuel|]. intros c3 _. destruct (hasFlag _ _); discriminate.
Qed.
End BUILD.
