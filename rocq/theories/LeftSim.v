(** Related graphs agree about left recursive choices. *)
From Verif Require Import Base Parser Build Syntax Grammar WsLang RefSpec RefFuel RefSim LeftSpec LeftFacts.

Section SIM.
Context {A B : Type}.
Variables (G1 : A -> option (gobj A)) (G2 : B -> option (gobj B)) (Rel : A -> B -> Prop).
Variables (K : list (list rune)) (input : list rune).
Hypothesis Hsim : sim G1 G2 Rel.

Lemma Begins_sim b1 b2 o r : Forall2 Rel b1 b2 -> (Begins G1 K input b1 o r <-> Begins G2 K input b2 o r).
Proof.
  intros H. unfold Begins. assert (E : forall n, evalOptions (eval G1 K input n) b1 o NoMatch = evalOptions (eval G2 K input n) b2 o NoMatch).
  { intros n. apply (evalOptions_sim Rel); auto. intros. apply (eval_sim G1 G2 Rel); auto. }
  split; intros (H1 & n & Hn); split; auto; exists n; [rewrite <- E|rewrite E]; auto.
Qed.
Lemma Continues_sim x y l o r : Rel x y -> (Continues G1 K input x l o r <-> Continues G2 K input y l o r).
Proof.
  intros H. unfold Continues. pose proof (Hsim x y H) as Hs. unfold sameObj in Hs.
  assert (E : forall n its its', sameItems Rel its its' -> evalItems (eval G1 K input n) n its 0 o = evalItems (eval G2 K input n) n its' 0 o).
  { intros n its its' Hi. apply (evalItems_sim Rel); auto. intros. apply (eval_sim G1 G2 Rel); auto. }
  split; intros (H1 & f & rest & n & HG & Hn); split; auto.
  - rewrite HG in Hs. destruct (G2 y) as [[ | l' k' its'| ]|]; try contradiction. destruct Hs as (<- & <- & Hi). inversion Hi as [|? y0 ? its0 Hf Hr]; subst.
    exists y0, its0, n. split; auto. symmetry. apply E. auto.
  - rewrite HG in Hs. destruct (G1 x) as [[ | l' k' its'| ]|]; try contradiction. destruct Hs as (-> & -> & Hi). inversion Hi as [|x0 ? its0 ? Hf Hr]; subst.
    exists x0, its0, n. split; auto.
Qed.

Variables (label : option string) (e1 b1 : list A) (e2 b2 : list B) (from : nat).
Hypothesis He : Forall2 Rel e1 e2.
Hypothesis Hb : Forall2 Rel b1 b2.
Lemma F2_left {X Y} (Q : X -> Y -> Prop) l l' x : Forall2 Q l l' -> In x l -> exists y, In y l' /\ Q x y.
Proof. induction 1; intros []; subst; [eexists; split; [left; eauto|auto]|]. destruct IHForall2 as (z & ? & ?); auto. exists z. split; auto. right. auto. Qed.
Lemma F2_right {X Y} (Q : X -> Y -> Prop) l l' y : Forall2 Q l l' -> In y l' -> exists x, In x l /\ Q x y.
Proof. induction 1; intros []; subst; [eexists; split; [left; eauto|auto]|]. destruct IHForall2 as (z & ? & ?); auto. exists z. split; auto. right. auto. Qed.

Lemma grown_sim t ns : grown G1 K input label e1 b1 from t ns <-> grown G2 K input label e2 b2 from t ns.
Proof.
  split; induction 1 as [t ns H|t ns x l t' ns' H IH Hx Hc].
  - apply gr_base. apply (Begins_sim b1 b2); auto.
  - destruct (F2_left _ _ _ _ He Hx) as (y & Hy & Hxy). eapply gr_more; eauto. apply (Continues_sim x y); auto.
  - apply gr_base. apply (Begins_sim b1 b2); auto.
  - destruct (F2_right _ _ _ _ He Hx) as (y & Hy & Hxy). eapply gr_more; eauto. apply (Continues_sim y x); auto.
Qed.
Lemma noMore_sim t : noMore G1 K input e1 t <-> noMore G2 K input e2 t.
Proof.
  split; intros H x Hx.
  - destruct (F2_right _ _ _ _ He Hx) as (y & Hy & Hxy). destruct (H y Hy) as (l & Hl). exists l. apply (Continues_sim y x); auto.
  - destruct (F2_left _ _ _ _ He Hx) as (y & Hy & Hxy). destruct (H y Hy) as (l & Hl). exists l. apply (Continues_sim x y); auto.
Qed.
Lemma round_sim xs ys : Forall2 Rel xs ys -> forall t ns t1 ns1, round G1 K input label from xs t ns t1 ns1 <-> round G2 K input label from ys t ns t1 ns1.
Proof.
  induction 1 as [|x y xs ys Hxy H IH]; intros t ns t1 ns1; split; intros R; inversion R; subst.
  - apply rd_end.
  - apply rd_end.
  - eapply rd_skip; [apply (Continues_sim x y); eauto|apply IH; auto].
  - eapply rd_more; [apply (Continues_sim x y); eauto|apply IH; eauto].
  - eapply rd_skip; [apply (Continues_sim x y); eauto|apply IH; auto].
  - eapply rd_more; [apply (Continues_sim x y); eauto|apply IH; eauto].
Qed.
Lemma rounds_sim t ns t1 ns1 : rounds G1 K input label e1 from t ns t1 ns1 <-> rounds G2 K input label e2 from t ns t1 ns1.
Proof.
  split; induction 1 as [t ns H|t ns t1 ns1 t2 ns2 Hr H IH].
  - apply rs_last. apply noMore_sim; auto.
  - eapply rs_next; [apply (round_sim e1 e2 He); eauto|auto].
  - apply rs_last. apply noMore_sim; auto.
  - eapply rs_next; [apply (round_sim e1 e2 He); eauto|auto].
Qed.
Lemma leftGives_sim r : leftGives G1 K input label e1 b1 from r <-> leftGives G2 K input label e2 b2 from r.
Proof.
  destruct r as [| |t ns]; simpl; [tauto|apply Begins_sim; auto|].
  split; intros (t0 & ns0 & H1 & H2); exists t0, ns0; (split; [apply (Begins_sim b1 b2); auto|apply rounds_sim; auto]).
Qed.
Lemma growing_sim : growing G2 K input label e2 b2 from -> growing G1 K input label e1 b1 from.
Proof.
  intros [H1 H2 H3 H4]. split.
  - destruct H1 as (r & Hr). exists r. apply (Begins_sim b1 b2); auto.
  - intros t ns x Hg Hx. destruct (F2_left _ _ _ _ He Hx) as (y & Hy & Hxy). apply grown_sim in Hg. destruct (H2 _ _ _ Hg Hy) as (l & r & Hc).
    exists l, r. apply (Continues_sim x y); auto.
  - intros t ns Hc. apply (Begins_sim b1 b2) in Hc; eauto.
  - intros t ns x l t' ns' Hg Hx Hc. destruct (F2_left _ _ _ _ He Hx) as (y & Hy & Hxy). apply grown_sim in Hg. apply (Continues_sim x y) in Hc; eauto.
Qed.
Lemma reaches_sim a1 a2 : Rel a1 a2 -> (forall y, Rel a1 y -> y = a2) -> forall x, reaches G1 a1 x -> forall y, Rel x y -> reaches G2 a2 y.
Proof.
  intros Ha Hf x H. induction H as [|x l k its z bd HG Hin Hz IH|x l os z HG Hin Hz IH]; intros y Hy.
  - rewrite (Hf y Hy). apply re_self.
  - pose proof (Hsim x y Hy) as Hs. unfold sameObj in Hs. rewrite HG in Hs. destruct (G2 y) as [[ | l' k' its'| ]|] eqn:Ey; try contradiction.
    destruct Hs as (_ & _ & Hi). destruct (F2_left _ _ _ _ Hi Hin) as ([z' bd'] & Hin' & Hzz & _). eapply re_item; eauto.
  - pose proof (Hsim x y Hy) as Hs. unfold sameObj in Hs. rewrite HG in Hs. destruct (G2 y) as [[ | | l' os']|] eqn:Ey; try contradiction.
    destruct Hs as (_ & Hi). destruct (F2_left _ _ _ _ Hi Hin) as (z' & Hin' & Hzz). eapply re_option; eauto.
Qed.
End SIM.
