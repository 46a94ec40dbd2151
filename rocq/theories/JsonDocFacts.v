(** The definitions of examples/json.treerack and the JSON texts. *)
From Verif Require Import Base Utf8 Parser Build Syntax ListFacts Lang Grammar WsLang ApiSpec ReadSpec JsonDoc.

(** how often an item occurs *)
Definition sole (it : seqItem) : Prop := forall k, quantity (siMin it) (siMax it) k <-> k = 1.
Lemma sole_00 n : sole (mkItem n 0 0). Proof. intros k. unfold quantity. simpl. split; [intros [H|(H & _)]; tauto|intros ->; auto]. Qed.
Lemma sole_11 n : sole (mkItem n 1 1). Proof. intros k. unfold quantity. simpl. split; [intros [H|(H & H1 & H2)]; lia|intros ->; right; lia]. Qed.
Lemma quantity_opt n k : quantity (siMin (mkItem n 0 1)) (siMax (mkItem n 0 1)) k <-> k = 0 \/ k = 1.
Proof. unfold quantity. simpl. split; [intros [H|(H & H1 & H2)]; lia|intros H; right; lia]. Qed.
Lemma quantity_star n k : quantity (siMin (mkItem n 0 (-1))) (siMax (mkItem n 0 (-1))) k.
Proof. unfold quantity. simpl. right. lia. Qed.
Lemma quantity_plus n k : quantity (siMin (mkItem n 1 (-1))) (siMax (mkItem n 1 (-1))) k <-> 1 <= k.
Proof. unfold quantity. simpl. split; [intros [H|(H & H1 & H2)]; lia|intros H; right; lia]. Qed.
Lemma quantity_4 n k : quantity (siMin (mkItem n 4 4)) (siMax (mkItem n 4 4)) k <-> k = 4.
Proof. unfold quantity. simpl. split; [intros [H|(H & H1 & H2)]; lia|intros H; right; lia]. Qed.

Section RULES.
Variable R : string -> option rule.
Variable K : list (list rune).
Variable ws : list string.
Variable root : string.
Notation T := (wgen R K ws root).
Notation B := (wbody R K ws root).
Notation items := (witems R K ws root).
Notation spaced := (wspaced R K ws root).
Notation rep := (wrep R K ws root).
Notation more := (wmore R K ws root).
Notation space := (wspace R K ws root).

Lemma gen_iff n w : n <> root -> (T n w <-> B n w).
Proof. intros H. split; [intros X; inversion X; subst; auto; congruence|apply wgen_def; auto]. Qed.
Lemma char_iff n cn ch rs w : R n = Some (RChar cn ch rs) -> (B n w <-> exists r, inClass cn ch rs r /\ w = [r]).
Proof. intros H. split; [intros X; inversion X; subst; try congruence; assert (E : RChar cnot chars ranges = RChar cn ch rs) by congruence; inversion E; subst; eauto|intros (r & Hr & ->); eapply wbody_char; eauto]. Qed.
Lemma choice_iff n ct os w : R n = Some (RChoice ct os) -> (B n w <-> exists o, In o os /\ T o w).
Proof. intros H. split; [intros X; inversion X; subst; try congruence; assert (E : RChoice ct0 options = RChoice ct os) by congruence; inversion E; subst; eauto|intros (o & Ho & Hw); eapply wbody_choice; eauto]. Qed.
Lemma compact_iff n ct l w : R n = Some (RSeq ct l) -> compact ct = true -> hasFlag ct CNoKeyword = false -> (B n w <-> items l w).
Proof. intros H Hc Hk. split; [intros X; inversion X; subst; try congruence; assert (E : RSeq ct0 items = RSeq ct l) by congruence; inversion E; subst; auto; congruence|intros Hw; eapply wbody_compact; eauto; congruence]. Qed.
Lemma spaced_iff n ct l w : R n = Some (RSeq ct l) -> compact ct = false -> hasFlag ct CNoKeyword = false -> (B n w <-> spaced true l w).
Proof. intros H Hc Hk. split; [intros X; inversion X; subst; try congruence; assert (E : RSeq ct0 items = RSeq ct l) by congruence; inversion E; subst; auto; congruence|intros Hw; eapply wbody_spaced; eauto; congruence]. Qed.
Lemma rep_1 n w : rep n 1 w <-> T n w.
Proof. split; [intros H; inversion H; subst; match goal with X : rep _ 0 _ |- _ => inversion X; subst end; rewrite app_nil_r; auto|intros H; rewrite <- (app_nil_r w); apply wrep_S; auto; constructor]. Qed.
Lemma rep_0 n w : rep n 0 w <-> w = [].
Proof. split; [intros H; inversion H; auto|intros ->; constructor]. Qed.
Lemma items_nil w : items [] w <-> w = [].
Proof. split; [intros H; inversion H; auto|intros ->; constructor]. Qed.
Lemma items_cons it l w : items (it :: l) w <-> exists k u v, quantity (siMin it) (siMax it) k /\ rep (siName it) k u /\ items l v /\ w = u ++ v.
Proof. split; [intros H; inversion H; subst; exists k, u, v; auto|intros (k & u & v & H1 & H2 & H3 & ->); eapply witems_cons; eauto]. Qed.
Lemma items_sole it l w : sole it -> (items (it :: l) w <-> exists u v, T (siName it) u /\ items l v /\ w = u ++ v).
Proof.
  intros Hs. rewrite items_cons. split.
  - intros (k & u & v & H1 & H2 & H3 & H4). apply Hs in H1. subst k. apply (proj1 (rep_1 _ _)) in H2. eauto.
  - intros (u & v & H1 & H2 & H3). exists 1, u, v. split; [apply Hs; auto|]. split; [apply rep_1; auto|auto].
Qed.
Lemma items_opt n l w : items (mkItem n 0 1 :: l) w <-> exists u v, (u = [] \/ T n u) /\ items l v /\ w = u ++ v.
Proof.
  rewrite items_cons. split.
  - intros (k & u & v & H1 & H2 & H3 & H4). apply (proj1 (quantity_opt n k)) in H1. destruct H1 as [-> | ->]; [apply (proj1 (rep_0 _ _)) in H2|apply (proj1 (rep_1 _ _)) in H2]; exists u, v; auto.
  - intros (u & v & [->|H1] & H2 & H3); [exists 0, [], v|exists 1, u, v]; (split; [apply (quantity_opt n); auto|]); (split; [apply rep_0 || apply rep_1; auto|auto]).
Qed.
(** an item that is a single character *)
Lemma rep_chars n (P : rune -> Prop) : (forall w, T n w <-> exists r, P r /\ w = [r]) -> forall k w, rep n k w <-> Forall P w /\ List.length w = k.
Proof.
  intros H. induction k as [|k IH]; intros w.
  - rewrite rep_0. split; [intros ->; auto|intros [_ X]; destruct w; [auto|discriminate]].
  - split.
    + intros X. inversion X; subst. match goal with Y : T n _ |- _ => apply H in Y; destruct Y as (r & Hr & ->) end. match goal with Y : rep n k _ |- _ => apply IH in Y; destruct Y as [Y <-] end. split; [constructor; auto|reflexivity].
    + intros [HF HL]. destruct w as [|r w]; [discriminate|]. inversion HF; subst. change (r :: w) with ([r] ++ w). apply wrep_S; [apply H; eauto|apply IH; split; auto].
Qed.
Lemma spaced_nil b w : spaced b [] w <-> w = [].
Proof. split; [intros H; inversion H; auto|intros ->; constructor]. Qed.
Lemma more_0 n w : more n 0 w <-> w = [].
Proof. split; [intros H; inversion H; auto|intros ->; constructor]. Qed.
Lemma spaced_first it l w : sole it -> (spaced true (it :: l) w <-> exists u v, T (siName it) u /\ spaced false l v /\ w = u ++ v).
Proof.
  intros Hs. split.
  - intros H. inversion H; subst; try (match goal with X : quantity _ _ 0 |- _ => apply Hs in X; discriminate end).
    match goal with X : quantity _ _ (S _) |- _ => apply Hs in X; injection X as -> end. match goal with X : more _ 0 _ |- _ => apply (proj1 (more_0 _ _)) in X; subst end. eauto.
  - intros (u & v & H1 & H2 & ->). change (u ++ v) with (u ++ [] ++ v). eapply wspaced_first; eauto; [apply Hs; auto|constructor].
Qed.
Lemma spaced_sole it l w : sole it -> (spaced false (it :: l) w <-> exists g u v, space g /\ T (siName it) u /\ spaced false l v /\ w = g ++ u ++ v).
Proof.
  intros Hs. split.
  - intros H. inversion H; subst; try (match goal with X : quantity _ _ 0 |- _ => apply Hs in X; discriminate end).
    match goal with X : quantity _ _ (S _) |- _ => apply Hs in X; injection X as -> end. match goal with X : more _ 0 _ |- _ => apply (proj1 (more_0 _ _)) in X; subst end. eexists _, _, _. split; [|split; [|split]]; eauto.
  - intros (g & u & v & H0 & H1 & H2 & ->). change (g ++ u ++ v) with (g ++ u ++ [] ++ v). eapply wspaced_next; eauto; [apply Hs; auto|constructor].
Qed.
(** an optional item and, behind it, an item that occurs once *)
Lemma spaced_opt n it w : sole it -> (forall g g', space g -> space g' -> space (g ++ g')) ->
  (spaced false [mkItem n 0 1; it] w <-> exists g v, space g /\ T (siName it) v /\ (w = g ++ v \/ exists u g', T n u /\ space g' /\ w = g ++ u ++ g' ++ v)).
Proof.
  intros Hs Hg. split.
  - intros H. inversion H; subst.
    + match goal with X : spaced false [it] _ |- _ => apply (spaced_sole it [] _ Hs) in X; destruct X as (g & u & v' & X1 & X2 & X3 & ->); apply (proj1 (spaced_nil _ _)) in X3; subst v' end. rewrite app_nil_r. exists g, u. auto.
    + match goal with X : spaced false [it] _ |- _ => apply (spaced_sole it [] _ Hs) in X; destruct X as (g & x & v' & X1 & X2 & X3 & ->); apply (proj1 (spaced_nil _ _)) in X3; subst v' end. rewrite app_nil_r. exists (u ++ g), x. split; auto. split; auto. left. rewrite app_assoc. auto.
    + match goal with X : quantity _ _ (S _) |- _ => apply (proj1 (quantity_opt n _)) in X; assert (k = 0) by lia; subst k end. match goal with X : more _ 0 _ |- _ => apply (proj1 (more_0 _ _)) in X; subst end.
      match goal with X : spaced false [it] _ |- _ => apply (spaced_sole it [] _ Hs) in X; destruct X as (g & x & v' & X1 & X2 & X3 & ->); apply (proj1 (spaced_nil _ _)) in X3; subst v' end. rewrite app_nil_r. exists s, x. split; auto. split; auto. right. exists u, g. auto.
  - intros (g & v & H1 & H2 & [->|(u & g' & H3 & H4 & ->)]).
    + apply wspaced_none; [apply (quantity_opt n); auto|]. apply spaced_sole; auto. exists g, v, []. rewrite app_nil_r. split; auto. split; auto. split; auto. constructor.
    + change (g ++ u ++ g' ++ v) with (g ++ u ++ [] ++ (g' ++ v)). apply wspaced_next with (k := 0); auto; [apply (quantity_opt n); auto|constructor|]. apply spaced_sole; auto. exists g', v, []. rewrite app_nil_r. split; auto. split; auto. split; auto. constructor.
Qed.
(** an item and any number of another one *)
Lemma spaced_star n w : spaced false [mkItem n 0 (-1)] w <-> exists k, more n k w.
Proof.
  split.
  - intros H. inversion H; subst.
    + match goal with X : spaced false [] _ |- _ => apply (proj1 (spaced_nil _ _)) in X; subst end. exists 0. constructor.
    + simpl in *. lia.
    + match goal with X : spaced false [] _ |- _ => apply (proj1 (spaced_nil _ _)) in X; subst end. rewrite app_nil_r. exists (S k). constructor; auto.
  - intros (k & H). destruct k as [|k].
    + apply (proj1 (more_0 _ _)) in H. subst. apply wspaced_none; [apply quantity_star|constructor].
    + inversion H; subst. rewrite <- (app_nil_r v). eapply wspaced_next; eauto; [apply quantity_star|constructor].
Qed.
(** classes and literals *)
Lemma class_iff n ct c cn ch rs w : R n = Some (RSeq ct [once c]) -> R c = Some (RChar cn ch rs) -> hasFlag ct CNoKeyword = false -> n <> root -> c <> root -> (T n w <-> exists r, inClass cn ch rs r /\ w = [r]).
Proof.
  intros Hn Hc Hk Hr Hr'. rewrite <- (char_iff c cn ch rs w Hc), <- gen_iff by auto. rewrite gen_iff by auto. destruct (compact ct) eqn:E.
  - rewrite (compact_iff n ct _ w Hn E Hk), items_sole by apply sole_11. simpl. split; [intros (u & v & H1 & H2 & ->); apply (proj1 (items_nil _)) in H2; subst; rewrite app_nil_r; auto|]. intros H. exists w, []. rewrite app_nil_r. split; auto. split; auto. constructor.
  - rewrite (spaced_iff n ct _ w Hn E Hk), spaced_first by apply sole_11. simpl. split; [intros (u & v & H1 & H2 & ->); apply (proj1 (spaced_nil _ _)) in H2; subst; rewrite app_nil_r; auto|]. intros H. exists w, []. rewrite app_nil_r. split; auto. split; auto. constructor.
Qed.
Lemma literal_iff n ct chars w : R n = Some (RSeq ct (map (fun i => once (childName n i)) (seq 0 (List.length chars)))) -> compact ct = true -> hasFlag ct CNoKeyword = false ->
  (forall i c, nth_error chars i = Some c -> R (childName n i) = Some (RChar false [c] []) /\ childName n i <> root) -> n <> root -> (T n w <-> w = chars).
Proof.
  intros Hn Hc Hk Hi Hr. rewrite gen_iff, (compact_iff n ct _ w Hn Hc Hk) by auto. clear Hn Hc Hk Hr.
  assert (X : forall l k w, (forall i c, nth_error l i = Some c -> R (childName n (k + i)) = Some (RChar false [c] []) /\ childName n (k + i) <> root) -> (items (map (fun i => once (childName n i)) (seq k (List.length l))) w <-> w = l)).
  { clear. induction l as [|c l IH]; intros k w H; [apply items_nil|]. simpl. rewrite items_sole by apply sole_11. simpl. destruct (H 0 c eq_refl) as [H1 H2]. rewrite Nat.add_0_r in H1, H2.
    assert (IH' : forall v, items (map (fun i => once (childName n i)) (seq (S k) (List.length l))) v <-> v = l) by (intros v; apply IH; intros i c' Hi; replace (S k + i) with (k + S i) by lia; apply H; auto). split.
    - intros (u & v & X1 & X2 & ->). apply (gen_iff _ _ H2), (char_iff _ _ _ _ _ H1) in X1. destruct X1 as (r & [[->|[]]|(lo & hi & [] & _)] & ->). apply IH' in X2. subst. reflexivity.
    - intros ->. exists [c], l. split; [|split; [apply IH'; auto|auto]]. apply (gen_iff _ _ H2), (char_iff _ _ _ _ _ H1). exists c. split; auto. left. left. auto. }
  apply X. exact Hi.
Qed.
End RULES.
