(** Predictive definitions match every text of their language. *)
From Verif Require Import Base Parser Build Syntax Grammar WsLang RefSpec RefFuel RefTotal InlineSim PredictSpec.

Section FACTS.
Context {A : Type}.
Variable G : A -> option (gobj A).
Variable K : list (list rune).
Variable root : A.
Notation item := (A * (nat * option nat))%type.
(** the language of the graph *)
Inductive glang : A -> list rune -> Prop :=
| gl_char a cnot chars ranges r : G a = Some (GChar cnot chars ranges) -> classHas cnot chars ranges r = true -> glang a [r]
| gl_seq a lb nokw items w : G a = Some (GSeq lb nokw items) -> (nokw && isOneOf w K)%bool = false -> glist items 0 w -> glang a w
| gl_choice a lb options x w : G a = Some (GChoice lb options) -> In x options -> glang x w -> glang a w
with glist : list item -> nat -> list rune -> Prop :=
| gl_nil c : glist [] c []
| gl_next x mn mx l c w : mn <= c -> glist l 0 w -> glist ((x, (mn, mx)) :: l) c w
| gl_occ x mn mx l c u v : match mx with Some m => c < m | None => True end -> glang x u -> glist ((x, (mn, mx)) :: l) (S c) v ->
    glist ((x, (mn, mx)) :: l) c (u ++ v).
Scheme glang_ind' := Minimality for glang Sort Prop
with glist_ind' := Minimality for glist Sort Prop.
Combined Scheme glang_mutind from glang_ind', glist_ind'.

Variables (E : A -> bool) (F : A -> rune -> Prop) (N : A -> rune -> Prop).
Hypothesis HE : mayBeEmpty G E.
Hypothesis HF : begins G E F.
Hypothesis HN : follows G root E F N.
Hypothesis HD : decided G root E F N.

(** ** texts and the tables *)
Lemma glang_tables : (forall a w, glang a w -> (w = [] -> E a = true) /\ (forall r u, w = r :: u -> F a r)) /\
  (forall l c w, glist l c w -> (w = [] -> match l with [] => True | (x, (mn, mx)) :: l' => (mn <= c \/ E x = true) /\ forall i, In i l' -> mayMiss E i end) /\
    (forall r u, w = r :: u -> match l with [] => False | (x, (mn, mx)) :: l' => F x r \/ ((mn <= c \/ E x = true) /\ itemsBegin E F l' r) end)).
Proof.
  apply glang_mutind.
  - intros a cn ch rs r HG Hr. split; [discriminate|]. intros r' u X. injection X as <- <-. pose proof (HF a r) as H. rewrite HG in H. auto.
  - intros a lb nk items w HG _ Hl [I1 I2]. split.
    + intros ->. specialize (I1 eq_refl). pose proof (HE a) as H. rewrite HG in H. apply H. destruct items as [|[x [mn mx]] l]; [intros ? ? ? []|].
      destruct I1 as [J1 J2]. intros y mn' mx' [X|X]; [inversion X; subst; destruct J1; auto; left; lia|]. apply (J2 _ X).
    + intros r u ->. specialize (I2 r u eq_refl). pose proof (HF a r) as H. rewrite HG in H. apply H. destruct items as [|[x [mn mx]] l]; [contradiction|].
      destruct I2 as [I2|[J1 J2]]; [apply ib_here; auto|]. apply ib_miss; auto. destruct J1; [left; simpl; lia|right; auto].
  - intros a lb options x w HG Hx Hl [I1 I2]. split.
    + intros ->. pose proof (HE a) as H. rewrite HG in H. eauto.
    + intros r u ->. pose proof (HF a r) as H. rewrite HG in H. eauto.
  - intros c. split; [auto|discriminate].
  - intros x mn mx l c w Hc Hl [I1 I2]. split.
    + intros ->. specialize (I1 eq_refl). split; auto. intros i Hi. destruct l as [|[y [mn' mx']] l]; [destruct Hi|]. destruct I1 as [J1 J2]. destruct Hi as [<-|Hi]; auto. destruct J1; [left; simpl; lia|right; auto].
    + intros r u ->. specialize (I2 r u eq_refl). right. split; auto. destruct l as [|[y [mn' mx']] l]; [contradiction|].
      destruct I2 as [I2|[J1 J2]]; [apply ib_here; auto|]. apply ib_miss; auto. destruct J1; [left; simpl; lia|right; auto].
  - intros x mn mx l c u v Hc Hu [I1 I2] Hl [I3 I4]. split.
    + intros X. apply app_eq_nil in X. destruct X as [-> ->]. specialize (I3 eq_refl). split; [right; auto|]. tauto.
    + intros r w X. destruct u as [|r' u].
      * simpl in X. subst v. specialize (I4 r w eq_refl). destruct I4 as [I4|[J1 J2]]; auto.
      * injection X as -> _. left. eauto.
Qed.
Lemma glang_empty a : glang a [] -> E a = true.
Proof. intros H. apply (proj1 glang_tables _ _ H). auto. Qed.
Lemma glang_first a r w : glang a (r :: w) -> F a r.
Proof. intros H. eapply (proj1 glang_tables _ _ H). eauto. Qed.
Lemma glist_ahead a l w u : glist l 0 w -> (forall r u', u = r :: u' -> N a r) -> forall r u', w ++ u = r :: u' -> ahead E F N a l r.
Proof.
  intros H Hu r u' X. destruct (proj2 glang_tables _ _ _ H) as [I1 I2]. destruct w as [|r' w].
  - right. split; [|eapply Hu; eauto]. specialize (I1 eq_refl). intros i Hi. destruct l as [|[x [mn mx]] l]; [destruct Hi|]. destruct I1 as [J1 J2]. destruct Hi as [<-|Hi]; auto.
    destruct J1; [left; simpl; lia|right; auto].
  - injection X as -> _. specialize (I2 r w eq_refl). left. destruct l as [|[x [mn mx]] l]; [contradiction|]. destruct I2 as [I2|[J1 J2]]; [apply ib_here; auto|].
    apply ib_miss; auto. destruct J1; [left; simpl; lia|right; auto].
Qed.

(** ** matches and the tables *)
Variable input : list rune.
Notation gives := (Gives G K input). Notation ev := (eval G K input).
Hypothesis total : forall a o, G a <> None -> exists r, gives a o r.
Hypothesis closed : forall k, match G k with
  | Some (GSeq _ _ items) => forall x b, In (x, b) items -> G x <> None
  | Some (GChoice _ options) => forall x, In x options -> G x <> None
  | _ => True end.

Lemma itemsR_first (R : A -> nat -> outcome -> Prop) : (forall x o t ns, R x o (Match t ns) -> o <= t) -> (forall x o ns, R x o (Match o ns) -> E x = true) ->
  (forall x o t ns, R x o (Match t ns) -> o < t -> exists r, nth_error input o = Some r /\ F x r) ->
  forall l c o r, itemsR R l c o r -> forall t ns, r = Match t ns -> o < t -> exists r, nth_error input o = Some r /\
    match l with [] => False | (x, (mn, mx)) :: l' => F x r \/ ((mn <= c \/ E x = true) /\ itemsBegin E F l' r) end.
Proof.
  intros Hge Hemp Hfst. assert (Hup : forall l r, match l with [] => False | (x, (mn, mx)) :: l' => F x r \/ ((mn <= 0 \/ E x = true) /\ itemsBegin E F l' r) end -> itemsBegin E F l r).
  { intros [|[x [mn mx]] l] r H; [contradiction|]. destruct H as [H|[[H|H] H']]; [apply ib_here; auto|apply ib_miss; auto; left; simpl; lia|apply ib_miss; auto; right; auto]. }
  induction 1 as [c o|x mn mx l c o r H1 H2 H3 IH|x mn mx l c o H1 H2|x mn mx l c o t1 ns1 r H1 H2 H3 H4 IH|x mn mx l c o t1 ns1 r H1 H2 H3 H4 IH|x mn mx l c o t1 ns1 r H1 H2 H3 IH]; intros t ns X L.
  - inversion X. lia.
  - destruct (IH _ _ X L) as (r' & J1 & J2). exists r'. split; auto.
  - discriminate.
  - destruct (Hfst _ _ _ _ H1 H2) as (r' & J1 & J2). eauto.
  - destruct (Hfst _ _ _ _ H1 H2) as (r' & J1 & J2). eauto.
  - pose proof (Hge _ _ _ _ H1). assert (t1 = o) by lia. subst t1. destruct r as [| |t2 ns2]; try discriminate. simpl in X. injection X as -> _.
    destruct (IH _ _ eq_refl L) as (r' & J1 & J2). exists r'. split; auto. right. split; auto. right. eapply Hemp; eauto.
Qed.
Lemma eval_first n : forall a o t ns, ev n a o = Match t ns -> o < t -> exists r, nth_error input o = Some r /\ F a r.
Proof.
  induction n as [|n IH]; intros a o t ns H L; [discriminate|]. cbn [eval] in H.
  assert (HFa : forall r, _) by exact (HF a). destruct (G a) as [[cn ch rs|lb nk items|lb options]|] eqn:HG; try discriminate.
  - destruct (nth_error input o) as [r|] eqn:Er; [|discriminate]. destruct (classHas cn ch rs r) eqn:Ec; [|discriminate]. exists r. split; auto.
  - destruct (evalItems (ev n) n items 0 o) as [| |t1 ns1] eqn:E1; try discriminate. destruct (_ && _)%bool; [discriminate|]. simpl in H. injection H as -> _.
    apply evalItems_rel in E1; [|discriminate]. 
    assert (exists r, nth_error input o = Some r /\ match items with [] => False | (x, (mn, mx)) :: l' => F x r \/ ((mn <= 0 \/ E x = true) /\ itemsBegin E F l' r) end) as (r & J1 & J2).
    { eapply (itemsR_first (fun (x : A) o r => ev n x o = r /\ r <> Unfinished)); [| | |exact E1|reflexivity|exact L].
      - intros x o' t' ns' [X _]. eapply eval_ge; eauto.
      - intros x o' ns' [X _]. eapply eval_empty; eauto.
      - intros x o' t' ns' [X _] L'. eapply IH; eauto. }
    exists r. split; auto. apply HFa. destruct items as [|[x [mn mx]] l]; [contradiction|]. destruct J2 as [J2|[[J2|J2] J3]]; [apply ib_here; auto|apply ib_miss; auto; left; simpl; lia|apply ib_miss; auto; right; auto].
  - destruct (evalOptions (ev n) options o NoMatch) as [| |t1 ns1] eqn:E1; try discriminate. simpl in H. injection H as -> _.
    destruct (evalOptions_case (ev n) options o NoMatch) as [E'|(x & Hx & E')]; rewrite E1 in E'; [discriminate|]. symmetry in E'. destruct (IH _ _ _ _ E' L) as (r & J1 & J2). exists r. split; eauto.
Qed.
Lemma gives_ge a o t ns : gives a o (Match t ns) -> o <= t.
Proof. intros [_ [n H]]. eapply eval_ge; eauto. Qed.
Lemma gives_first a o t ns : gives a o (Match t ns) -> o < t -> exists r, nth_error input o = Some r /\ F a r.
Proof. intros [_ [n H]]. eapply eval_first; eauto. Qed.
Lemma gives_empty a o ns : gives a o (Match o ns) -> E a = true.
Proof. intros [_ [n H]]. eapply eval_empty; eauto. Qed.
Lemma nth_skipn (o : nat) (r : rune) : forall (l : list rune), nth_error l o = Some r -> exists u, skipn o l = r :: u.
Proof. induction o as [|o IH]; intros [|x l] H; try discriminate; simpl in *; [inversion H; eauto|auto]. Qed.
(** nothing that begins with the next character: no match *)
Lemma gives_no a o u : G a <> None -> skipn o input = u -> E a = false -> (forall r u', u = r :: u' -> ~ F a r) -> gives a o NoMatch.
Proof.
  intros HG Hu He Hf. destruct (total a o HG) as (r & Hr). destruct r as [| |t ns]; auto.
  - destruct Hr as [X _]. congruence.
  - exfalso. pose proof (gives_ge _ _ _ _ Hr) as L. destruct (Nat.eq_dec o t) as [<-|].
    + apply gives_empty in Hr. congruence.
    + destruct (gives_first _ _ _ _ Hr) as (r & J1 & J2); [lia|]. destruct (nth_skipn _ _ _ J1) as (u' & J3). eapply Hf; [|exact J2]. rewrite <- Hu. eauto.
Qed.

Lemma skipn_app_len (o : nat) (w u : list rune) : forall (input : list rune), skipn o input = w ++ u -> skipn (o + List.length w) input = u.
Proof.
  induction o as [|o IH]; intros l H; simpl in *; [subst l; clear; induction w; simpl; auto|]. destruct l as [|x l]; [|auto].
  destruct w; [simpl in *; auto|discriminate].
Qed.
Lemma between_text (o : nat) (w u : list rune) : skipn o input = w ++ u -> between input o (o + List.length w) = w.
Proof. intros H. unfold between. replace (o + List.length w - o) with (List.length w) by lia. rewrite H, firstn_app, Nat.sub_diag, firstn_all. simpl. apply app_nil_r. Qed.

(** ** every text is matched *)
Hypothesis bounded : forall a lb nk items x mn, reached G root a -> G a = Some (GSeq lb nk items) -> ~ In (x, (mn, Some 0)) items.
Definition litOf (l : list item) (c : nat) (w : list rune) (o : nat) : Prop :=
  match l with
  | [] => w = []
  | (x, (mn, mx)) :: l' =>
    (match mx with Some m => c < m | None => True end -> exists ns, itemsR gives l c o (Match (o + List.length w) ns)) /\
    (match mx with Some m => c = m | None => False end -> exists ns, itemsR gives l' 0 o (Match (o + List.length w) ns))
  end.
Lemma options_best lb options a x o t ns : G a = Some (GChoice lb options) -> In x options -> gives x o (Match t ns) ->
  (forall y t' ns', In y options -> gives y o (Match t' ns') -> y = x \/ t' <= t) ->
  forall l, (forall y, In y l -> In y options) -> forall best, best = NoMatch \/ (exists t' ns', best = Match t' ns' /\ t' <= t) -> (In x l \/ exists ns', best = Match t ns') ->
  exists ns', optionsR gives l o best (Match t ns').
Proof.
  intros HG Hx Hm Hbest. pose proof (closed a) as Hc. rewrite HG in Hc. induction l as [|y l IH]; intros Hl best Hb Hin.
  - destruct Hin as [[]|(ns' & ->)]. exists ns'. constructor.
  - destruct (total y o) as (ry & Hy); [apply Hc, Hl; left; auto|]. destruct (IH) with (best := longer best ry) as (ns' & J).
    + intros z Hz. apply Hl. right; auto.
    + destruct ry as [| |ty nsy]; [destruct Hy; congruence| |].
      * destruct Hb as [->|(t' & ns' & -> & L)]; simpl; auto. right. eauto.
      * assert (Ly : ty <= t). { destruct (Hbest y ty nsy) as [->|]; auto; [apply Hl; left; auto|]. pose proof (Gives_fun _ _ _ _ _ _ _ Hy Hm) as X. injection X as <- _. lia. }
        right. destruct Hb as [->|(t' & ns' & -> & L)]; simpl; eauto. destruct (t' <? ty); eauto.
    + destruct Hin as [[->|Hin]|(ns' & ->)].
      * right. pose proof (Gives_fun _ _ _ _ _ _ _ Hy Hm) as ->. destruct Hb as [->|(t' & ns' & -> & L)]; simpl; eauto. destruct (Nat.ltb_spec t' t); eauto. assert (t' = t) by lia. subst. eauto.
      * auto.
      * right. destruct ry as [| |ty nsy]; simpl; eauto. destruct (Nat.ltb_spec t ty) as [L|L]; eauto. exfalso.
        destruct (Hbest y ty nsy) as [->|]; [apply Hl; left; auto|auto| |lia]. pose proof (Gives_fun _ _ _ _ _ _ _ Hy Hm) as X. injection X as <- _. lia.
    + exists ns'. eapply or_cons; eauto. apply Hy.
Qed.

Lemma lit_zero a lb nk before l w o : reached G root a -> G a = Some (GSeq lb nk (before ++ l)) -> litOf l 0 w o -> exists ns, itemsR gives l 0 o (Match (o + List.length w) ns).
Proof.
  intros Ra HG H. destruct l as [|[x [mn mx]] l]; [simpl in H; subst w; simpl; rewrite Nat.add_0_r; exists []; constructor|].
  destruct mx as [[|m]|]; [|apply H; lia|apply H; auto]. exfalso. eapply (bounded a lb nk _ x mn Ra HG). apply in_or_app. right; left; auto.
Qed.
Lemma matches : (forall a w, glang a w -> reached G root a -> forall o u, skipn o input = w ++ u -> (forall r u', u = r :: u' -> N a r) -> exists ns, gives a o (Match (o + List.length w) ns)) /\
  (forall l c w, glist l c w -> forall a lb nk before o u, reached G root a -> G a = Some (GSeq lb nk (before ++ l)) -> skipn o input = w ++ u -> (forall r u', u = r :: u' -> N a r) -> litOf l c w o).
Proof.
  apply glang_mutind.
  - intros a cn ch rs r HG Hr Ra o u Ho Hu. exists []. split; [discriminate|]. exists 1. cbn [eval]. rewrite HG. assert (X : nth_error input o = Some r).
    { rewrite <- (firstn_skipn o input), Ho. assert (L : List.length (firstn o input) = o). { apply firstn_length_le. assert (L := f_equal (@List.length rune) Ho). rewrite skipn_length in L. simpl in L. lia. }
      rewrite nth_error_app2 by lia. rewrite L, Nat.sub_diag. reflexivity. }
    rewrite X, Hr. simpl. rewrite Nat.add_1_r. reflexivity.
  - intros a lb nk items w HG Hk Hl IH Ra o u Ho Hu. specialize (IH a lb nk [] o u Ra HG Ho Hu). destruct (lit_zero a lb nk [] items w o Ra HG IH) as (ns & J).
    pose proof (gives_seq G K input a lb nk items o _ HG J) as Hg. cbn [seqResult] in Hg. rewrite (between_text o w u Ho), Hk in Hg. cbn [labelled] in Hg. eauto.
  - intros a lb options x w HG Hx Hl IH Ra o u Ho Hu. assert (Hn : forall r, _) by exact (fun r => HN a r Ra). pose proof (HD a Ra) as Hd. rewrite HG in Hn, Hd. destruct Hd as [D1 D2].
    destruct (IH (reached_option _ _ _ _ _ _ Ra HG Hx) o u Ho) as (ns & J); [intros r u' X; eapply Hn; eauto|].
    destruct (options_best lb options a x o (o + List.length w) ns HG Hx J) with (l := options) (best := NoMatch) as (ns' & J'); auto.
    + intros y t' ns' Hy Jy. destruct (Nat.le_gt_cases t' (o + List.length w)) as [L|L]; auto. left.
      destruct (gives_first _ _ _ _ Jy) as (r & R1 & R2); [lia|]. destruct (nth_skipn _ _ _ R1) as (u' & R3). rewrite R3 in Ho. destruct w as [|r' w].
      * exfalso. simpl in Ho. eapply (D2 x y r); eauto. apply glang_empty. auto.
      * injection Ho as <- _. apply (D1 y x r); auto. eapply glang_first; eauto.
    + pose proof (gives_choice G K input a lb options o _ HG J') as Hg. cbn [labelled] in Hg. eauto.
  - intros; simpl; auto.
  - intros x mn mx l c w Hc Hl IH a lb nk before o u Ra HG Ho Hu.
    assert (HG' : G a = Some (GSeq lb nk ((before ++ [(x, (mn, mx))]) ++ l))) by (rewrite <- app_assoc; auto).
    specialize (IH _ _ _ _ _ _ Ra HG' Ho Hu). destruct (lit_zero _ _ _ _ _ _ _ Ra HG' IH) as (ns & J). split; [|eauto]. intros Hm.
    exists ns. apply ir_skip; auto. pose proof (HD a Ra) as Hd. rewrite HG in Hd. destruct (Hd before x mn mx l eq_refl) as [D1 D2].
    assert (Ex : E x = false). { destruct D1 as [D1|D1]; auto. injection D1 as -> ->. lia. }
    eapply gives_no; eauto.
    + pose proof (closed a) as Hcl. rewrite HG in Hcl. eapply Hcl. apply in_or_app. right; left; eauto.
    + intros r u' X HFx. destruct D2 as [->|D2]; [lia|]. eapply (D2 r HFx). eapply glist_ahead; eauto.
  - intros x mn mx l c v w Hm Hv IHv Hw IHw a lb nk before o u Ra HG Ho Hu. rewrite <- app_assoc in Ho.
    pose proof (skipn_app_len _ _ _ _ Ho) as Ho'. specialize (IHw _ _ _ _ _ _ Ra HG Ho' Hu).
    destruct (IHv (reached_item _ _ _ _ _ _ _ _ Ra HG (in_elt _ _ _)) o (w ++ u) Ho) as (ns & J).
    { intros r u' X. pose proof (HN a r Ra) as Hn. rewrite HG in Hn. eapply (Hn before x mn mx l eq_refl).
      destruct (proj2 glang_tables _ _ _ Hw) as [T1 T2].
      assert (Case : (mx = Some 1 /\ glist l 0 w) \/ mx <> Some 1).
      { destruct mx as [[|[|m]]|]; try (right; discriminate). left. split; auto. inversion Hw; subst; auto; lia. }
      destruct Case as [[-> Hl]|Hm1].
      - left. eapply glist_ahead; eauto.
      - destruct w as [|r' w].
        + left. right. split; [apply (T1 eq_refl)|eapply Hu; eauto].
        + injection X as -> _. destruct (T2 _ _ eq_refl) as [T|[_ T]]; [right; auto|left; left; auto]. }
    split; [|destruct mx; [lia|intros []]]. intros _. rewrite app_length, Nat.add_assoc. destruct IHw as [I1 I2].
    pose proof (HD a Ra) as Hd. rewrite HG in Hd. destruct (Hd before x mn mx l eq_refl) as [D1 _].
    destruct v as [|r v].
    + apply glang_empty in Hv. destruct D1 as [D1|D1]; [|congruence]. injection D1 as -> ->. assert (c = 0) by lia. subst c. destruct (I2 eq_refl) as (ns' & J').
      pose proof (ir_empty gives x 1 (Some 1) l 0 o _ ns _ J ltac:(simpl; lia) J') as Z. eexists; exact Z.
    + destruct (match mx with Some m => S c =? m | None => false end) eqn:Em.
      * destruct I2 as (ns' & J'); [destruct mx; [apply Nat.eqb_eq in Em; auto|discriminate]|].
        pose proof (ir_last gives x mn mx l c o _ ns _ J ltac:(simpl; lia) Em J') as Z. eexists; exact Z.
      * destruct I1 as (ns' & J'); [destruct mx; auto; apply Nat.eqb_neq in Em; lia|].
        pose proof (ir_more gives x mn mx l c o _ ns _ J ltac:(simpl; lia) Em J') as Z. eexists; exact Z.
Qed.
End FACTS.
