(** Two heaps that hold the same definitions at different addresses and with different ids are
    validated and initialized alike. *)
From Verif Require Import Base Utf8 IdSet Results Parser Build Syntax ListFacts GenSim InitCore SameStore SameSim.

Section SINIT.
Variables (A : addr -> addr -> Prop) (I : nat -> nat -> Prop).
Hypothesis Ainj : forall a a' b b', A a a' -> A b b' -> (a =? b) = (a' =? b').
Hypothesis Iinj : forall i i' j j', I i i' -> I j j' -> (i =? j) = (i' =? j').
(** the names that matter, and the two registries *)
Variable K : string -> Prop.
Variables m m' : list (string * addr).
Hypothesis HM : forall n, K n -> optA A (lookup m n) (lookup m' n).

Definition same (d d' : defobj) : Prop :=
  dName d' = dName d /\ dCommit d' = dCommit d /\ I (dId d) (dId d') /\
  match dKind d, dKind d' with
  | KChar x cs rs, KChar x' cs' rs' => x' = x /\ cs' = cs /\ rs' = rs
  | KSeq _ items rs defs gs ac v i, KSeq _ items' rs' defs' gs' ac' v' i' =>
      items' = items /\ rs' = rs /\ Forall2 A defs defs' /\ Forall2 I gs gs' /\ ac' = ac /\ v' = v /\ i' = i /\ Forall K (map siName items)
  | KChoice os defs gs v i, KChoice os' defs' gs' v' i' =>
      os' = os /\ Forall2 A defs defs' /\ Forall2 I gs gs' /\ v' = v /\ i' = i /\ Forall K os
  | _, _ => False
  end.
Definition HR (h h' : dheap) : Prop := forall a a', A a a' -> exists d d', nth_error h a = Some d /\ nth_error h' a' = Some d' /\ same d d'.

Lemma HR_upd h h' a a' f f' : HR h h' -> A a a' ->
  (forall d d', nth_error h a = Some d -> nth_error h' a' = Some d' -> same d d' -> same (f d) (f' d')) -> HR (updNth a f h) (updNth a' f' h').
Proof.
  intros H Ha Hf b b' Hb. destruct (H b b' Hb) as (d & d' & E & E' & S). rewrite !nth_error_updNth. rewrite <- (Ainj _ _ _ _ Ha Hb).
  destruct (Nat.eqb_spec a b) as [->|n].
  - assert (a' = b') by (apply Nat.eqb_eq; rewrite <- (Ainj _ _ _ _ Ha Hb); apply Nat.eqb_refl). subst a'. rewrite E, E'. exists (f d), (f' d'). split; auto.
  - rewrite E, E'. exists d, d'. auto.
Qed.
Definition HE (x y : dheap * option gerr) : Prop := HR (fst x) (fst y) /\ snd x = snd y.
Lemma validateNames_same rec rec' names : (forall h h' a a', HR h h' -> A a a' -> rel HE (rec h a) (rec' h' a')) -> Forall K names ->
  forall h h', HR h h' -> rel HE (validateNames m rec names h) (validateNames m' rec' names h').
Proof.
  intros Hrec HK. induction HK as [|n names Hn _ IH]; intros h h' H; cbn [validateNames]; [constructor; split; auto|].
  destruct (HM n Hn) as [|a a' Ha]; [constructor; split; auto|]. eapply rel_bind; [apply Hrec; eauto|].
  intros [h1 e1] [h2 e2] [H1 H2]. simpl in H1, H2. subst e2. destruct e1; [constructor; split; auto|apply IH; auto].
Qed.
Lemma validate_same n : forall h h' a a', HR h h' -> A a a' -> rel HE (validate m n h a) (validate m' n h' a').
Proof.
  induction n as [|n IH]; intros h h' a a' H Ha; [constructor|]. cbn [validate]. destruct (H a a' Ha) as (d & d' & E & E' & S). rewrite E, E'.
  pose proof S as (_ & _ & _ & Sk). destruct (dKind d) as [x cs rs|oi items rs defs gs ac v i|os defs gs v i] eqn:Kd, (dKind d') as [x' cs' rs'|oi' items' rs' defs' gs' ac' v' i'|os' defs' gs' v' i'] eqn:Kd'; try contradiction.
  - constructor; split; auto.
  - destruct Sk as (-> & -> & S1 & S2 & -> & -> & -> & S3). destruct v; [constructor; split; auto|]. apply validateNames_same; auto.
    apply HR_upd; auto. intros x y X Y (N1 & N2 & N3 & _). split; [auto|]. split; [auto|]. split; [auto|]. simpl. repeat (split; auto).
  - destruct Sk as (-> & S1 & S2 & -> & -> & S3). destruct v; [constructor; split; auto|]. apply validateNames_same; auto.
    apply HR_upd; auto. intros x y X Y (N1 & N2 & N3 & _). split; [auto|]. split; [auto|]. split; [auto|]. simpl. repeat (split; auto).
Qed.
Lemma contain_same gs gs' g g' : Forall2 I gs gs' -> I g g' -> intsContain gs g = intsContain gs' g'.
Proof. unfold intsContain. induction 1 as [|x x' gs gs' Hx _ IH]; intros Hg; simpl; auto. rewrite (Iinj _ _ _ _ Hx Hg), IH; auto. Qed.
Lemma forAddrs_same rec rec' l l' : (forall h h' a a', HR h h' -> A a a' -> rel HR (rec h a) (rec' h' a')) -> Forall2 A l l' ->
  forall h h', HR h h' -> rel HR (forAddrs rec l h) (forAddrs rec' l' h').
Proof.
  intros Hrec. induction 1 as [|a a' l l' Ha _ IH]; intros h h' H; cbn [forAddrs]; [constructor; auto|]. eapply rel_bind; [apply Hrec; eauto|]. auto.
Qed.
Lemma addGen_same n g g' : I g g' -> forall h h' a a', HR h h' -> A a a' -> rel HR (addGeneralization n g h a) (addGeneralization n g' h' a').
Proof.
  intros Hg. induction n as [|n IH]; intros h h' a a' H Ha; [constructor|]. cbn [addGeneralization]. destruct (H a a' Ha) as (d & d' & E & E' & S). rewrite E, E'.
  pose proof S as (_ & _ & _ & Sk). destruct (dKind d) as [x cs rs|oi items rs defs gs ac v i|os defs gs v i] eqn:Kd, (dKind d') as [x' cs' rs'|oi' items' rs' defs' gs' ac' v' i'|os' defs' gs' v' i'] eqn:Kd'; try contradiction.
  - constructor; auto.
  - destruct Sk as (-> & -> & S1 & S2 & -> & -> & -> & S3). rewrite <- (contain_same _ _ _ _ S2 Hg). destruct (intsContain gs g); constructor; auto.
    apply HR_upd; auto. intros x y X Y (N1 & N2 & N3 & _). split; [auto|]. split; [auto|]. split; [auto|]. simpl. repeat (split; auto). apply Forall2_app; auto.
  - destruct Sk as (-> & S1 & S2 & -> & -> & S3). rewrite <- (contain_same _ _ _ _ S2 Hg). destruct (intsContain gs g); [constructor; auto|].
    apply forAddrs_same; auto.
    apply HR_upd; auto. intros x y X Y (N1 & N2 & N3 & _). split; [auto|]. split; [auto|]. split; [auto|]. simpl. repeat (split; auto). apply Forall2_app; auto.
Qed.
Lemma add_same x x' d d' : A x x' -> same d d' -> same (addItemDef x d) (addItemDef x' d').
Proof.
  intros Hx (N1 & N2 & N3 & N4). unfold addItemDef. destruct d as [nm id ct k], d' as [nm' id' ct' k']. simpl in *.
  destruct k, k'; try contradiction; unfold same; simpl; intuition; apply Forall2_app; auto.
Qed.
Lemma inited_same d d' : same d d' -> same (setInitialized d) (setInitialized d').
Proof.
  intros (N1 & N2 & N3 & N4). unfold setInitialized. destruct d as [nm id ct k], d' as [nm' id' ct' k']. simpl in *.
  destruct k, k'; try contradiction; unfold same; simpl; intuition.
Qed.
Lemma ranges_same d d' : same d d' -> same (initRanges d) (initRanges d').
Proof.
  intros (N1 & N2 & N3 & N4). unfold initRanges. destruct d as [nm id ct k], d' as [nm' id' ct' k']. simpl in *.
  destruct k, k'; try contradiction; unfold same; simpl; intuition; subst; auto.
  rewrite map_map. rewrite map_ext with (g := siName); auto. intros it. unfold normalizeItemRange. destruct (_ && _)%bool; auto.
Qed.
Lemma chars_same b d d' : same d d' -> same (setAllChars b d) (setAllChars b d').
Proof.
  intros (N1 & N2 & N3 & N4). unfold setAllChars. destruct d as [nm id ct k], d' as [nm' id' ct' k']. simpl in *.
  destruct k, k'; try contradiction; unfold same; simpl; intuition.
Qed.
Lemma isChar_same h h' a a' : HR h h' -> A a a' -> isCharAt h' a' = isCharAt h a.
Proof.
  intros H Ha. destruct (H a a' Ha) as (d & d' & E & E' & _ & _ & _ & Sk). unfold isCharAt. rewrite E, E'. destruct d as [n i c k], d' as [n' i' c' k']. simpl in Sk. destruct k, k'; try contradiction; auto.
Qed.
Lemma items_same rec rec' a a' names : (forall h h' a a', HR h h' -> A a a' -> rel HR (rec h a) (rec' h' a')) -> A a a' -> Forall K names ->
  forall b h h', HR h h' -> rel (fun x y => HR (fst x) (fst y) /\ snd x = snd y) (initItemsLoop m rec a names b h) (initItemsLoop m' rec' a' names b h').
Proof.
  intros Hrec Ha. induction 1 as [|n names Hn _ IH]; intros b h h' H; cbn [initItemsLoop]; [constructor; split; auto|].
  destruct (HM n Hn) as [|x x' Hx]; [constructor|]. cbv zeta. eapply rel_bind; [apply Hrec; [apply HR_upd; eauto|eauto]|].
  - intros; apply add_same; auto.
  - intros h1 h2 H1. rewrite (isChar_same _ _ _ _ H1 Hx). apply IH; auto.
Qed.
Lemma options_same rec rec' gf a a' id id' names : (forall h h' a a', HR h h' -> A a a' -> rel HR (rec h a) (rec' h' a')) -> A a a' -> I id id' -> Forall K names ->
  forall h h', HR h h' -> rel HR (initOptionsLoop m rec gf a id names h) (initOptionsLoop m' rec' gf a' id' names h').
Proof.
  intros Hrec Ha Hid. induction 1 as [|n names Hn _ IH]; intros h h' H; cbn [initOptionsLoop]; [constructor; auto|].
  destruct (HM n Hn) as [|x x' Hx]; [constructor|]. cbv zeta. eapply rel_bind; [apply Hrec; [apply HR_upd; eauto|eauto]|].
  - intros; apply add_same; auto.
  - intros h1 h2 H1. eapply rel_bind; [apply addGen_same; eauto|]. auto.
Qed.
Lemma initDef_same gf n : forall h h' a a', HR h h' -> A a a' -> rel HR (initDef m n gf h a) (initDef m' n gf h' a').
Proof.
  induction n as [|n IH]; intros h h' a a' H Ha; [constructor|]. cbn [initDef]. destruct (H a a' Ha) as (d & d' & E & E' & S). rewrite E, E'.
  pose proof S as (_ & _ & Sid & Sk). destruct (dKind d) as [x cs rs|oi items rs defs gs ac v i|os defs gs v i] eqn:Kd, (dKind d') as [x' cs' rs'|oi' items' rs' defs' gs' ac' v' i'|os' defs' gs' v' i'] eqn:Kd'; try contradiction.
  - constructor; auto.
  - destruct Sk as (-> & -> & S1 & S2 & -> & -> & -> & S3). destruct i; [constructor; auto|]. cbv zeta.
    eapply rel_bind; [apply items_same; eauto|].
    + apply HR_upd; auto. intros. apply ranges_same, inited_same; auto.
    + intros [h1 b1] [h2 b2] [H1 H2]. simpl in *. subst. constructor. apply HR_upd; auto. intros; apply chars_same; auto.
  - destruct Sk as (-> & S1 & S2 & -> & -> & S3). destruct i; [constructor; auto|]. apply options_same; auto.
    apply HR_upd; auto. intros. apply inited_same; auto.
Qed.
Lemma validateAll_same n l l' : Forall2 A l l' -> forall h h', HR h h' -> rel HE (validateAll m n l h) (validateAll m' n l' h').
Proof.
  induction 1 as [|a a' l l' Ha _ IH]; intros h h' H; cbn [validateAll]; [constructor; split; auto|]. eapply rel_bind; [apply validate_same; eauto|].
  intros [h1 e1] [h2 e2] [H1 H2]. simpl in H1, H2. subst e2. destruct e1; [constructor; split; auto|apply IH; auto].
Qed.
Lemma initCore_same n l l' h h' : Forall2 A l l' -> HR h h' -> rel HE (initCore m n l h) (initCore m' n l' h').
Proof.
  intros Hl H. unfold initCore. eapply rel_bind; [apply validateAll_same; eauto|]. intros [h1 e1] [h2 e2] [H1 H2]. simpl in H1, H2. subst e2.
  destruct e1; [constructor; split; auto|]. eapply rel_bind; [apply forAddrs_same; eauto; intros; apply initDef_same; auto|]. intros x y Hx. constructor. split; auto.
Qed.
Lemma same_alike d d' : same d d' -> alike A I (toParser d) (toParser d').
Proof.
  intros (N1 & N2 & N3 & N4). unfold alike, toParser. destruct d as [nm id ct k], d' as [nm' id' ct' k']. simpl in *.
  destruct k, k'; try contradiction; simpl; intuition; subst; auto. intros j _; auto.
Qed.
Lemma HR_parsers h h' : HR h h' -> forall a a', A a a' -> exists o o', nth_error (map toParser h) a = Some o /\ nth_error (map toParser h') a' = Some o' /\ alike A I o o'.
Proof.
  intros H a a' Ha. destruct (H a a' Ha) as (d & d' & E & E' & S). exists (toParser d), (toParser d'). rewrite !nth_error_map, E, E'. split; auto. split; auto. apply same_alike; auto.
Qed.
End SINIT.
