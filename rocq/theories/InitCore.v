(** The second half of Init (validate and init of the keywords and the root), as one step. *)
From Verif Require Import Base Utf8 IdSet Results Parser Build Syntax ListFacts ParseFacts TermFacts NoPanic Sound InitWalk InitRun InitOk SyntaxFacts.

(** syntax.go:326-344 *)
Definition initCore (m : list (string * addr)) (n : nat) (l : list addr) (h : dheap) : res (dheap * option gerr) :=
  he <- validateAll m n l h ;;
  match he with
  | (h, Some e) => Ok (h, Some e)
  | (h, None) => h <- forAddrs (initDef m n n) l h ;; Ok (h, None)
  end.

Section CORE.
Variable m : list (string * addr).
Variable h0 : dheap.
Hypothesis Hun : forall a d, nth_error h0 a = Some d -> unwalkedK (dKind d).
Hypothesis Hmap : mapOk m h0.

Lemma gInv_none h : (forall a d, nth_error h a = Some d -> gensK (dKind d) = []) -> gInv h.
Proof. intros H b d g Hd Hg. rewrite (H b d Hd) in Hg. destruct Hg. Qed.

Lemma vEv_unwalked h1 a d1 : vEvolved h0 h1 -> nth_error h1 a = Some d1 ->
  exists d0, nth_error h0 a = Some d0 /\ gensK (dKind d1) = [] /\ odOf (dKind d1) = [] /\
             (initK (dKind d1) = initK (dKind d0)) /\ (d1 = d0 \/ d1 = setKind (setValidated (dKind d0)) d0).
Proof.
  intros H Hd1. specialize (H a). destruct (nth_error h0 a) as [d0|] eqn:Hd0; [|congruence].
  destruct H as (d' & Hd' & Hor). rewrite Hd1 in Hd'. inversion Hd'; subst d'. exists d0. split; auto.
  pose proof (Hun a d0 Hd0) as Hu. destruct Hor as [->| ->]; simpl; destruct (dKind d0) eqn:Ek; simpl in *; intuition auto.
Qed.

(** nothing is validated at the start *)
Lemma closed_all h1 : vEvolved h0 h1 -> (forall b, validated h1 b -> ~ validated h0 b -> closedAt m h1 b) ->
  refsClosed m h1.
Proof.
  intros He Hc b Hb. pose proof Hb as (d & Hd & Hv).
  pose proof (He b) as Hb0. destruct (nth_error h0 b) as [d0|] eqn:Hd0; [|congruence].
  pose proof (Hun b d0 Hd0) as Hu.
  destruct (dKind d0) as [x y z|oi items ranges itemDefs gs ac v i|options od gs v i] eqn:Ek.
  - intros d' r Hd' Hr. destruct Hb0 as (d'' & Hd'' & Hor). rewrite Hd' in Hd''. inversion Hd''; subst d''.
    destruct Hor as [Hor|Hor]; rewrite Hor in Hr; simpl in Hr; try rewrite Ek in Hr; simpl in Hr; destruct Hr.
  - apply Hc; auto. intros (d' & Hd' & Hv'). rewrite Hd0 in Hd'. inversion Hd'; subst. rewrite Ek in Hv'. simpl in *.
    destruct Hu as (_ & _ & _ & -> & _). discriminate.
  - apply Hc; auto. intros (d' & Hd' & Hv'). rewrite Hd0 in Hd'. inversion Hd'; subst. rewrite Ek in Hv'. simpl in *.
    destruct Hu as (_ & _ & -> & _). discriminate.
Qed.

Lemma unval_le (h : dheap) : unval h <= List.length h.
Proof. unfold unval. induction h; simpl; auto. destruct (negb _); simpl; lia. Qed.

Lemma initCore_good n l : (forall a, In a l -> a < List.length h0) -> List.length h0 < n -> good (initCore m n l h0).
Proof.
  intros Hl Hn. unfold initCore. apply good_bind.
  - pose proof (unval_le h0). apply validateAll_ok; auto. lia.
  - intros [h1 [e|]] H1; [apply good_ok|]. apply validateAll_spec in H1. destruct H1 as (E1 & V1 & C1).
    apply good_bind; [|intros; apply good_ok].
    pose proof (sameShape_len _ _ (vEvolved_shape _ _ E1)) as El.
    apply initAll_good with (L := List.length h0); auto.
    split; auto. split; [intros k a Hk; rewrite El; eauto|]. split.
    + intros x d y Hd Hy. destruct (vEv_unwalked _ _ _ E1 Hd) as (d0 & _ & _ & Eo & _). rewrite Eo in Hy. destruct Hy.
    + apply closed_all; auto.
Qed.

(** the parser made from the definition at [b] after a successful init *)
Definition finalAt (h' : dheap) (b : addr) : Prop :=
  match nth_error h0 b with
  | None => nth_error h' b = None
  | Some d0 => exists d', nth_error h' b = Some d' /\
    match dKind d0 with
    | KChar cn ch rs => toParser d' = PChar (dName d0) (dId d0) cn ch rs
    | KSeq _ items ranges _ _ _ _ _ =>
      let kids := lookups m (map siName items) in
      exists gs,
      (initK (dKind d') = false /\ toParser d' = PSeq (dName d0) (dId d0) (dCommit d0) [] ranges gs false) \/
      (initK (dKind d') = true /\ (forall r, In r (map siName items) -> lookup m r <> None) /\ (forall x, In x kids -> inited h' x) /\
       toParser d' = PSeq (dName d0) (dId d0) (dCommit d0) kids
                          (ranges ++ map itemRange (map normalizeItemRange items)) gs (forallb (isCharAt h0) kids))
    | KChoice options _ _ _ _ =>
      let kids := lookups m options in
      exists gs,
      (initK (dKind d') = false /\ toParser d' = PChoice (dName d0) (dId d0) (dCommit d0) [] gs) \/
      (initK (dKind d') = true /\ (forall r, In r options -> lookup m r <> None) /\ (forall x, In x kids -> inited h' x) /\
       toParser d' = PChoice (dName d0) (dId d0) (dCommit d0) kids gs)
    end
  end.

(** a completed object, as a parser *)
Lemma initCore_ok n l h' e : initCore m n l h0 = Ok (h', e) ->
  match e with
  | Some err => exists a, In a l /\ undefinedRef m h0 a err
  | None => (forall b, finalAt h' b) /\ (forall a, In a l -> inited h' a) /\ gInv h'
  end.
Proof.
  unfold initCore. intros H. binv H. destruct x as [h1 [err|]].
  - inversion H; subst. apply validateAll_spec in E. destruct E as [_ E]. auto.
  - binv H. inversion H; subst. apply validateAll_spec in E. destruct E as (E1 & V1 & C1).
    apply initAll_spec in E0. destruct E0 as (I1 & I2 & I3). split; [|split; auto].
    2:{ apply I3. apply gInv_none. intros a d Hd. destruct (vEv_unwalked _ _ _ E1 Hd) as (d0 & _ & G & _). auto. }
    assert (Cs : sameChars h0 h1).
    { intros x. rewrite !isCharAt_tag. specialize (E1 x). destruct (nth_error h0 x) as [d0|].
      - destruct E1 as (d1 & -> & [->| ->]); auto. simpl. destruct (dKind d0); auto.
      - rewrite E1. auto. }
    intros b. unfold finalAt. pose proof (E1 b) as Eb. pose proof (I1 b) as Ib. unfold evAt in Ib.
    destruct (nth_error h0 b) as [d0|] eqn:Hd0.
    2:{ rewrite Eb in Ib. auto. }
    destruct Eb as (d1 & Hd1 & Eb). rewrite Hd1 in Ib. destruct Ib as (d' & Hd' & Ib). exists d'. split; auto.
    pose proof (Hun b d0 Hd0) as Hu.
    assert (Ek : exists v, dName d1 = dName d0 /\ dId d1 = dId d0 /\ dCommit d1 = dCommit d0 /\
      dKind d1 = match dKind d0 with KChar x y z => KChar x y z
                 | KSeq oi items ranges _ _ _ _ _ => KSeq oi items ranges [] [] false v false
                 | KChoice options _ _ _ _ => KChoice options [] [] v false end).
    { destruct Eb as [->| ->]; simpl; destruct (dKind d0); simpl in *; [exists true| exists false|exists false|exists true|exists true|exists true];
        split; auto; split; auto; split; auto; intuition congruence. }
    destruct Ek as (v & N1 & N2 & N3 & Ek).
    destruct Ib as [Ib|(F & Ib & Df & Li)].
    + apply eraseG_eq in Ib. destruct Ib as (M1 & M2 & M3 & Ib). rewrite Ek in Ib. unfold toParser. rewrite M1, M2, M3, N1, N2, N3.
      destruct (dKind d0) eqn:K0; simpl in Ib; destruct (dKind d') eqn:K'; simpl in Ib; try discriminate; inversion Ib; subst; auto.
      * exists generalizations0. left. auto.
      * exists generalizations0. left. auto.
    + rewrite Ek in F, Ib, Df, Li. pose proof (f_equal dName Ib) as M1. pose proof (f_equal dId Ib) as M2. pose proof (f_equal dCommit Ib) as M3.
      pose proof (f_equal dKind Ib) as M4. simpl in M1, M2, M3, M4. unfold toParser. rewrite M1, M2, M3, N1, N2, N3.
      destruct (dKind d0) eqn:K0; simpl in M4; destruct (dKind d') eqn:K'; simpl in M4; try discriminate; inversion M4; subst; auto.
      * exists generalizations0. right. split; auto. split; auto. split; auto. f_equal. apply forallb_ext'. auto.
      * exists generalizations0. right. split; auto.
Qed.

End CORE.
