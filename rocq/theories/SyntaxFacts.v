(** Invariants of the definition calls. *)
From Verif Require Import Base Utf8 IdSet Results Parser Build Syntax ListFacts.

(** ** flags are bits *)
Lemma land_pow2 c k : N.land c (2 ^ k)%N = if N.testbit c k then (2 ^ k)%N else 0%N.
Proof.
  apply N.bits_inj. intros i. rewrite N.land_spec, N.pow2_bits_eqb.
  destruct (N.eqb_spec k i) as [->|Hne].
  - rewrite andb_true_r. destruct (N.testbit c i) eqn:E; [|rewrite N.bits_0; auto]. rewrite N.pow2_bits_true. auto.
  - rewrite andb_false_r. destruct (N.testbit c k); [|rewrite N.bits_0; auto].
    rewrite N.pow2_bits_false; auto.
Qed.
Lemma hasFlag_bit c k : hasFlag c (2 ^ k)%N = N.testbit c k.
Proof.
  unfold hasFlag. rewrite land_pow2. destruct (N.testbit c k); auto.
  destruct (N.eqb_spec (2 ^ k)%N 0%N) as [E|]; auto. exfalso. apply (N.pow_nonzero 2 k); auto. discriminate.
Qed.

(** the same flags, except for those in the list *)
Definition sameBut (l : list N) (c c' : commitType) : Prop := forall k, ~ In k l -> N.testbit c' k = N.testbit c k.
Lemma sameBut_refl l c : sameBut l c c.
Proof. intros k _. auto. Qed.
Lemma sameBut_trans l a b c : sameBut l a b -> sameBut l b c -> sameBut l a c.
Proof. intros H1 H2 k Hk. rewrite H2, H1; auto. Qed.
Lemma sameBut_incl l l' a b : incl l l' -> sameBut l a b -> sameBut l' a b.
Proof. intros Hi H k Hk. apply H. auto. Qed.
Lemma sameBut_lor c k : sameBut [k] c (N.lor c (2 ^ k)%N).
Proof.
  intros i Hi. rewrite N.lor_spec, N.pow2_bits_false, orb_false_r; auto. intros ->. apply Hi. left; auto.
Qed.
Lemma sameBut_ldiff c k : sameBut [k] c (N.ldiff c (2 ^ k)%N).
Proof.
  intros i Hi. rewrite N.ldiff_spec, N.pow2_bits_false, andb_true_r; auto. intros ->. apply Hi. left; auto.
Qed.
Lemma sameBut_flag l c c' k : ~ In k l -> sameBut l c c' -> hasFlag c' (2 ^ k)%N = hasFlag c (2 ^ k)%N.
Proof. intros Hk H. rewrite !hasFlag_bit. auto. Qed.

(** ** heaps that differ in commit types only *)
Definition commitEv (l : list N) (h h' : dheap) : Prop :=
  forall a, match nth_error h a with
            | None => nth_error h' a = None
            | Some d => exists d', nth_error h' a = Some d' /\ dName d' = dName d /\ dId d' = dId d /\
                        dKind d' = dKind d /\ sameBut l (dCommit d) (dCommit d') /\
                        (forall x y z, dKind d = KChar x y z -> dCommit d' = dCommit d)
            end.
Lemma commitEv_refl l h : commitEv l h h.
Proof. intros a. destruct (nth_error h a) as [d|]; auto. exists d. repeat (split; auto). Qed.
Lemma commitEv_trans l a b c : commitEv l a b -> commitEv l b c -> commitEv l a c.
Proof.
  intros H1 H2 x. specialize (H1 x). specialize (H2 x). destruct (nth_error a x) as [d|].
  - destruct H1 as (d1 & E1 & A1 & A2 & A3 & A4 & A5). rewrite E1 in H2. destruct H2 as (d2 & E2 & B1 & B2 & B3 & B4 & B5).
    exists d2. split; auto. split; [congruence|]. split; [congruence|]. split; [congruence|].
    split; [eapply sameBut_trans; eauto|]. intros u v w E. rewrite (B5 u v w), (A5 u v w); auto. congruence.
  - rewrite H1 in H2. auto.
Qed.
Lemma commitEv_incl l l' a b : incl l l' -> commitEv l a b -> commitEv l' a b.
Proof.
  intros Hi H x. specialize (H x). destruct (nth_error a x) as [d|]; auto.
  destruct H as (d1 & E1 & A1 & A2 & A3 & A4 & A5). exists d1. repeat (split; auto). eapply sameBut_incl; eauto.
Qed.
Lemma commitEv_set l h a f : (forall c, sameBut l c (f c)) ->
  commitEv l h (updNth a (fun d => setCommitType (f (dCommit d)) d) h).
Proof.
  intros Hf x. rewrite nth_error_updNth. destruct (nth_error h x) as [d|] eqn:E; [|destruct (a =? x); auto].
  destruct (Nat.eqb_spec a x) as [->|]; [|exists d; repeat (split; auto)].
  simpl. eexists. split; [reflexivity|]. unfold setCommitType. destruct (dKind d) eqn:Ek; simpl; rewrite ?Ek; repeat (split; auto).
  all: try (intros; discriminate).
Qed.
Lemma commitEv_len l h h' : commitEv l h h' -> List.length h' = List.length h.
Proof.
  intros H. destruct (Nat.lt_trichotomy (List.length h') (List.length h)) as [Hl|[?|Hl]]; auto; exfalso.
  - apply nth_error_Some in Hl as Hn. specialize (H (List.length h')).
    destruct (nth_error h (List.length h')) eqn:E; [|auto]. destruct H as (d' & Hd' & _).
    assert (nth_error h' (List.length h') <> None) by congruence. apply nth_error_Some in H. lia.
  - specialize (H (List.length h)).
    assert (nth_error h (List.length h) = None) as E by (apply nth_error_None; lia). rewrite E in H.
    apply nth_error_None in H. lia.
Qed.

(** ** the registry *)
Record regInv (h : dheap) (r : registry) : Prop := mkRegInv {
  ri_seed : gIdSeed r = List.length (gDefinitions r);
  ri_nodup : NoDup (gDefinitions r);
  ri_defs : forall i a, nth_error (gDefinitions r) i = Some a ->
            exists d, nth_error h a = Some d /\ dId d = S i /\ lookup (gDefinition r) (dName d) = Some a;
  ri_map : forall n a, lookup (gDefinition r) n = Some a ->
           In a (gDefinitions r) /\ exists d, nth_error h a = Some d /\ dName d = n }.

Lemma regInv_empty h : regInv h emptyRegistry.
Proof. constructor; simpl; auto; try constructor; intros; try discriminate. destruct i; discriminate. Qed.
Lemma regInv_commit l h h' r : commitEv l h h' -> regInv h r -> regInv h' r.
Proof.
  intros H [I1 I2 I3 I4]. constructor; auto.
  - intros i a Hi. destruct (I3 i a Hi) as (d & Hd & Ei & El). specialize (H a). rewrite Hd in H.
    destruct H as (d' & Hd' & E1 & E2 & _). exists d'. split; auto. split; congruence.
  - intros n a Hn. destruct (I4 n a Hn) as (Hin & d & Hd & En). split; auto. specialize (H a). rewrite Hd in H.
    destruct H as (d' & Hd' & E1 & E2 & _). exists d'. split; congruence.
Qed.
Lemma regInv_app h x r : regInv h r -> regInv (h ++ x) r.
Proof.
  intros [I1 I2 I3 I4]. constructor; auto.
  - intros i a Hi. destruct (I3 i a Hi) as (d & Hd & Ei & El). exists d. split; auto.
    rewrite nth_error_app1; auto. apply nth_error_Some. congruence.
  - intros n a Hn. destruct (I4 n a Hn) as (Hin & d & Hd & En). split; auto. exists d. split; auto.
    rewrite nth_error_app1; auto. apply nth_error_Some. congruence.
Qed.
Lemma NoDup_app_one {A} (l : list A) x : NoDup l -> ~ In x l -> NoDup (l ++ [x]).
Proof.
  intros H Hx. apply NoDup_rev in H. rewrite <- (rev_involutive (l ++ [x])). apply NoDup_rev.
  rewrite rev_app_distr. simpl. constructor; auto. rewrite <- in_rev. auto.
Qed.

(** what setDefinition does *)
Lemma setDefinition_inv h r a h' r' e : regInv h r -> a < List.length h -> setDefinition h r a = (h', r', e) ->
  regInv h' r' /\
  exists d, nth_error h a = Some d /\
  match e with
  | Some err => err = ErrDuplicateDefinition (dName d) /\ h' = h /\ r' = r /\ lookup (gDefinition r) (dName d) <> None
  | None => lookup (gDefinition r) (dName d) = None /\ h' = updNth a (setID (S (gIdSeed r))) h /\
            gDefinitions r' = gDefinitions r ++ [a] /\ gDefinition r' = (dName d, a) :: gDefinition r
  end.
Proof.
  intros HI Ha H. pose proof HI as [I1 I2 I3 I4]. unfold setDefinition in H.
  destruct (nth_error h a) as [d|] eqn:Hd; [|apply nth_error_None in Hd; lia].
  destruct (lookup (gDefinition r) (dName d)) as [b|] eqn:El.
  - inversion H; subst. split; auto. exists d. split; auto. split; auto. split; auto. split; auto. rewrite El. discriminate.
  - inversion H; subst. split.
    2:{ exists d. repeat (split; auto). }
    assert (Hna : ~ In a (gDefinitions r)).
    { intros Hin. apply In_nth_error in Hin. destruct Hin as [i Hi]. destruct (I3 i a Hi) as (d' & Hd' & _ & E). congruence. }
    constructor; simpl.
    + rewrite app_length, I1. simpl. lia.
    + apply NoDup_app_one; auto.
    + intros i b Hi. rewrite nth_error_updNth. destruct (Nat.lt_ge_cases i (List.length (gDefinitions r))) as [Hlt|Hge].
      * rewrite nth_error_app1 in Hi; auto. destruct (I3 i b Hi) as (d' & Hd' & Ei & E).
        destruct (Nat.eqb_spec a b) as [->|Hne]. { exfalso. apply Hna. eapply nth_error_In; eauto. }
        exists d'. split; auto. split; auto. destruct (String.eqb_spec (dName d) (dName d')) as [En|]; auto. congruence.
      * rewrite nth_error_app2 in Hi; auto. destruct (i - List.length (gDefinitions r)) as [|[|]] eqn:Ei; simpl in Hi; try discriminate.
        inversion Hi; subst b. rewrite Nat.eqb_refl, Hd. simpl. eexists. split; [reflexivity|]. simpl. split; [lia|].
        rewrite String.eqb_refl. auto.
    + intros n b Hn. destruct (String.eqb_spec (dName d) n) as [<-|Hne].
      * inversion Hn; subst. split; [apply in_or_app; right; left; auto|]. rewrite nth_error_updNth, Nat.eqb_refl, Hd. simpl.
        eexists. split; [reflexivity|]. auto.
      * destruct (I4 n b Hn) as (Hin & d' & Hd' & En). split; [apply in_or_app; auto|]. rewrite nth_error_updNth.
        destruct (Nat.eqb_spec a b) as [->|]; [|eauto]. rewrite Hd. simpl. eexists. split; [reflexivity|]. simpl. congruence.
Qed.

(** ** objects that no walk has visited *)
Definition unwalkedK (k : dkind) : Prop :=
  match k with
  | KChar _ _ _ => True
  | KSeq _ _ _ itemDefs gs ac v i => itemDefs = [] /\ gs = [] /\ ac = false /\ v = false /\ i = false
  | KChoice _ od gs v i => od = [] /\ gs = [] /\ v = false /\ i = false
  end.
(** objects as the definition calls create them *)
Definition freshK (k : dkind) : Prop :=
  unwalkedK k /\ match k with KSeq oi items ranges _ _ _ _ _ => oi = items /\ ranges = [] | _ => True end.

Definition regOf (s : syntax) : registry := match sRegistry s with Some r => r | None => emptyRegistry end.

Record dinv (s : syntax) : Prop := mkDinv {
  di_fresh : forall a d, nth_error (sHeap s) a = Some d -> freshK (dKind d);
  di_reg : regInv (sHeap s) (regOf s);
  di_root : forall r, sRoot s = Some r -> r < List.length (sHeap s) /\ sRegistry s <> None;
  di_kws : forall a, In a (sKeywords s) -> exists d, nth_error (sHeap s) a = Some d /\
             hasFlag (dCommit d) CNoKeyword = false }.

Lemma dinv_empty : dinv emptySyntax.
Proof.
  constructor; simpl.
  - intros [|a] d; discriminate.
  - apply regInv_empty.
  - discriminate.
  - intros a [].
Qed.

Lemma applyRoot_ev s a s' e : applyRoot s a = (s', e) ->
  commitEv [7%N] (sHeap s) (sHeap s') /\ sRegistry s' = sRegistry s /\ sInitialized s' = sInitialized s /\
  sInitFailed s' = sInitFailed s /\ sKeywords s' = sKeywords s /\
  (sRoot s' = sRoot s \/ (sRoot s' = Some a /\ a < List.length (sHeap s))).
Proof.
  unfold applyRoot. destruct (nth_error (sHeap s) a) as [d|] eqn:Hd.
  2:{ intros H; inversion H; subst. split; [apply commitEv_refl|]. repeat (split; auto). }
  assert (Ha : a < List.length (sHeap s)) by (apply nth_error_Some; congruence).
  destruct (hasFlag (dCommit d) CRoot && sExplicitRoot s).
  { intros H; inversion H; subst. split; [apply commitEv_refl|]. repeat (split; auto). }
  set (cond := hasFlag (dCommit d) CRoot || negb (sExplicitRoot s)).
  set (h1 := match sRoot s with Some r => if cond then _ else _ | None => _ end).
  assert (E1 : commitEv [7%N] (sHeap s) h1).
  { unfold h1. destruct (sRoot s) as [r|]; [|apply commitEv_refl]. destruct cond; [|apply commitEv_refl].
    apply (commitEv_set _ _ _ (fun c => N.ldiff c CRoot)). intros c. apply (sameBut_ldiff c 7). }
  destruct cond; intros H; inversion H; subst; clear H; simpl.
  - split; [|repeat (split; auto)]. eapply commitEv_trans; eauto.
    apply (commitEv_set _ _ _ (fun c => N.lor c CRoot)). intros c. apply (sameBut_lor c 7).
  - split; [auto|repeat (split; auto)].
Qed.

Lemma find_none_forall {A} (f : A -> bool) l : find f l = None -> forall x, In x l -> f x = false.
Proof. intros H x Hx. apply (find_none f l H). auto. Qed.

(** no incompatible pair of flags in a checked definition *)
Lemma checkCommitTypeIn_none t d : checkCommitTypeIn t d = None ->
  forall ct ict c, In (ct, ict) t -> In c ict -> hasFlag (dCommit d) ct = true -> hasFlag (dCommit d) c = false.
Proof.
  induction t as [|[ct ict] t IH]; simpl; intros H ct' ict' c Hin Hc Hf; [destruct Hin|].
  destruct Hin as [E|Hin].
  - inversion E; subst. rewrite Hf in H. destruct (find _ ict') eqn:Ef; [discriminate|].
    apply (find_none_forall _ _ Ef). auto.
  - eapply IH; eauto. destruct (hasFlag (dCommit d) ct); auto. destruct (find _ ict); [discriminate|auto].
Qed.
Lemma kw_not_nokw d : checkCommitType d = None -> hasFlag (dCommit d) CKeyword = true -> hasFlag (dCommit d) CNoKeyword = false.
Proof.
  intros H Hk. apply (checkCommitTypeIn_none _ _ H CKeyword [CNoKeyword; CRoot]); auto.
  - simpl. auto.
  - left; auto.
Qed.

Lemma dinv_kws_ev l s h' : ~ In 5%N l -> commitEv l (sHeap s) h' ->
  (forall a, In a (sKeywords s) -> exists d, nth_error (sHeap s) a = Some d /\ hasFlag (dCommit d) CNoKeyword = false) ->
  forall a, In a (sKeywords s) -> exists d, nth_error h' a = Some d /\ hasFlag (dCommit d) CNoKeyword = false.
Proof.
  intros Hl H Hk a Ha. destruct (Hk a Ha) as (d & Hd & Hf). specialize (H a). rewrite Hd in H.
  destruct H as (d' & Hd' & _ & _ & _ & Hs & _). exists d'. split; auto.
  rewrite <- Hf. apply (sameBut_flag l _ _ 5); auto.
Qed.

Lemma register_dinv s d s' e : dinv s -> freshK (dKind d) -> register s d = (s', e) -> dinv s'.
Proof.
  intros [F R Rt K] Hd H. unfold register in H. destruct (sInitialized s); [inversion H; subst; constructor; auto|].
  set (s1 := mkSyntax (sHeap s ++ [d]) _ _ _ _ _ _) in H.
  assert (D1 : dinv s1).
  { constructor; simpl.
    - intros a d' Ha. destruct (Nat.lt_ge_cases a (List.length (sHeap s))) as [Hlt|Hge].
      + rewrite nth_error_app1 in Ha; eauto.
      + rewrite nth_error_app2 in Ha; auto. destruct (a - List.length (sHeap s)) as [|[|]]; simpl in Ha; try discriminate.
        inversion Ha; subst; auto.
    - apply regInv_app. auto.
    - intros r Hr. destruct (Rt r Hr). rewrite app_length. split; [lia|discriminate].
    - intros a Ha. destruct (K a Ha) as (d' & Hd' & Hf). exists d'. split; auto. rewrite nth_error_app1; auto.
      apply nth_error_Some. congruence. }
  destruct (checkCommitType d) as [err|] eqn:Ec; [inversion H; subst; auto|].
  destruct (applyRoot s1 (List.length (sHeap s))) as [s2 [err|]] eqn:Ea.
  - inversion H; subst. apply applyRoot_ev in Ea. destruct Ea as (E1 & E2 & E3 & E4 & E5 & E6).
    destruct D1 as [F1 R1 Rt1 K1]. pose proof (commitEv_len _ _ _ E1) as El. constructor.
    + intros a d' Ha. specialize (E1 a). destruct (nth_error (sHeap s1) a) as [d0|] eqn:E0; [|congruence].
      destruct E1 as (d'' & Hd'' & _ & _ & Ek & _). rewrite Ha in Hd''. inversion Hd''; subst. rewrite Ek. eauto.
    + unfold regOf. rewrite E2. eapply regInv_commit; eauto.
    + intros r Hr. rewrite E2, El. destruct E6 as [E6|[E6 E7]]; rewrite E6 in Hr; auto. inversion Hr; subst. split; auto. discriminate.
    + rewrite E5. eapply dinv_kws_ev with (l := [7%N]); eauto. intros [|[]]; discriminate.
  - apply applyRoot_ev in Ea. destruct Ea as (E1 & E2 & E3 & E4 & E5 & E6).
    destruct D1 as [F1 R1 Rt1 K1]. pose proof (commitEv_len _ _ _ E1) as El.
    destruct (setDefinition (sHeap s2) _ (List.length (sHeap s))) as [[h3 reg3] e3] eqn:Es.
    apply setDefinition_inv in Es.
    2:{ eapply regInv_commit; eauto. }
    2:{ rewrite El. simpl. rewrite app_length. simpl. lia. }
    destruct Es as (R3 & d3 & Hd3 & Hm).
    assert (Hk2 : forall a, In a (if hasFlag (dCommit d) CKeyword then sKeywords s2 ++ [List.length (sHeap s)] else sKeywords s2) ->
       exists d, nth_error (sHeap s2) a = Some d /\ hasFlag (dCommit d) CNoKeyword = false).
    { assert (H7 : ~ In 5%N [7%N]) by (intros [|[]]; discriminate).
      pose proof (dinv_kws_ev _ _ _ H7 E1 K1) as Kold. intros a Ha. rewrite E5 in Ha.
      destruct (hasFlag (dCommit d) CKeyword) eqn:Ek; auto. apply in_app_or in Ha. destruct Ha as [Ha|[<-|[]]]; auto.
      pose proof (E1 (List.length (sHeap s))) as E1a. simpl in E1a. rewrite nth_error_app2, Nat.sub_diag in E1a; auto. simpl in E1a.
      destruct E1a as (d' & Hd' & _ & _ & _ & Hs & _). exists d'. split; auto.
      rewrite <- (kw_not_nokw d); auto. apply (sameBut_flag [7%N] _ _ 5); auto. }
    assert (Hev : forall a x, nth_error h3 a = Some x -> exists y, nth_error (sHeap s2) a = Some y /\ dKind x = dKind y /\ dCommit x = dCommit y).
    { intros a x Hx. destruct e3 as [err|].
      - destruct Hm as (_ & -> & _). exists x. auto.
      - destruct Hm as (_ & -> & _). rewrite nth_error_updNth in Hx. destruct (_ =? a); [|eauto].
        destruct (nth_error (sHeap s2) a) as [y|]; [|discriminate]. simpl in Hx. inversion Hx; subst. exists y. auto. }
    assert (Hlen : List.length h3 = List.length (sHeap s2)).
    { destruct e3; destruct Hm as (_ & -> & _); auto. apply updNth_length. }
    assert (Hgen : forall e', (mkSyntax h3 (Some reg3) (sInitialized s2) (sInitFailed s2) (sExplicitRoot s2)
         (if hasFlag (dCommit d) CKeyword then sKeywords s2 ++ [List.length (sHeap s)] else sKeywords s2) (sRoot s2), e') = (s', e) -> dinv s').
    { intros e' He. inversion He; subst s'. constructor; simpl.
      - intros a x Hx. apply Hev in Hx. destruct Hx as (y & Hy & Ek & _). rewrite Ek. specialize (E1 a).
        destruct (nth_error (sHeap s1) a) as [d0|] eqn:E0; [|congruence].
        destruct E1 as (d'' & Hd'' & _ & _ & Ek' & _). rewrite Hy in Hd''. inversion Hd''; subst. rewrite Ek'. eauto.
      - auto.
      - intros r Hr. rewrite Hlen, El. split; [|discriminate]. destruct E6 as [E6|[E6 E7]]; rewrite E6 in Hr.
        + destruct (Rt1 r Hr). auto.
        + inversion Hr; subst. auto.
      - intros a Ha. destruct (Hk2 a Ha) as (y & Hy & Hf). 
        assert (a < List.length h3) as Hl by (rewrite Hlen; apply nth_error_Some; congruence).
        destruct (nth_error h3 a) as [x|] eqn:Hx; [|apply nth_error_None in Hx; lia]. exists x. split; auto.
        apply Hev in Hx. destruct Hx as (y' & Hy' & _ & Ecm). congruence. }
    eapply Hgen. exact H.
Qed.

Lemma fresh_newChar n cn ch rs : freshK (dKind (newChar n cn ch rs)).
Proof. split; simpl; auto. Qed.
Lemma fresh_newSequence n ct items : freshK (dKind (newSequence n ct items)).
Proof. repeat split; auto. Qed.
Lemma fresh_newChoice n ct options : freshK (dKind (newChoice n ct options)).
Proof. repeat split; auto. Qed.
#[export] Hint Resolve fresh_newChar fresh_newSequence fresh_newChoice : core.

(** every definition call is a number of registrations: properties of the state that a
    registration keeps are kept by the calls *)
Section PRESERVE.
Variable I : syntax -> Prop.
Hypothesis HI : forall s d s' e, I s -> freshK (dKind d) -> register s d = (s', e) -> I s'.

Lemma charSeqLoop_pres name chars : forall s i s' e, I s -> charSeqLoop s name i chars = (s', e) -> I s'.
Proof.
  induction chars as [|c chars IH]; intros s i s' e Hs H; cbn [charSeqLoop] in H; [inversion H; subst; auto|].
  destruct (register s _) as [s1 [err|]] eqn:E; [inversion H; subst|]; eapply HI in E; eauto.
Qed.
Lemma defineRaw_pres s d s' e : I s -> defineRaw s d = (s', e) -> I s'.
Proof.
  intros Hs H. destruct d; cbn [defineRaw] in H; unfold anyChar, class, charSequence, sequence, choice in H.
  - destruct (register s (newChar _ _ _ _)) as [s1 [err|]] eqn:E; [inversion H; subst|]; eapply HI in E; eauto.
  - destruct (register s (newChar _ _ _ _)) as [s1 [err|]] eqn:E; [inversion H; subst|]; eapply HI in E; eauto.
  - destruct (charSeqLoop s name 0 chars) as [s1 [err|]] eqn:E; [inversion H; subst|]; eapply charSeqLoop_pres in E; eauto.
  - eapply HI in H; eauto.
  - eapply HI in H; eauto.
Qed.
Lemma defineCall_pres s d s' e : I s -> defineCall s d = (s', e) -> I s'.
Proof.
  unfold defineCall. intros Hs H. destruct (isValidSymbol _); [|inversion H; subst; auto]. eapply defineRaw_pres; eauto.
Qed.
End PRESERVE.

Lemma defineRaw_dinv s d s' e : dinv s -> defineRaw s d = (s', e) -> dinv s'.
Proof. apply defineRaw_pres. intros; eapply register_dinv; eauto. Qed.
Lemma defineCall_dinv s d s' e : dinv s -> defineCall s d = (s', e) -> dinv s'.
Proof. apply defineCall_pres. intros; eapply register_dinv; eauto. Qed.
