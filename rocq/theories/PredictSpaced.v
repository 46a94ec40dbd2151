(** Predictive definitions with whitespace between words match every text of their language. *)
From Verif Require Import Base Parser Build Syntax Grammar WsLang RefSpec RefFuel RefTotal InlineSim PredictSpec PredictFacts.

(** ** runs of whitespace *)
Section RUN.
Variable W : rune -> bool.
Fixpoint dropW (l : list rune) : list rune := match l with [] => [] | r :: l' => if W r then dropW l' else l end.
Definition spaceLen (l : list rune) : nat := List.length l - List.length (dropW l).
Lemma dropW_len l : List.length (dropW l) <= List.length l.
Proof. induction l as [|r l IH]; simpl; auto. destruct (W r); simpl; lia. Qed.
Lemma dropW_app u v : dropW (u ++ v) = match dropW u with [] => dropW v | _ => dropW u ++ v end.
Proof. induction u as [|r u IH]; simpl; auto. destruct (W r); auto. Qed.
Lemma dropW_head l r u : dropW l = r :: u -> W r = false.
Proof. induction l as [|x l IH]; simpl; [discriminate|]. destruct (W x) eqn:E; auto. intros H. injection H as <- _. auto. Qed.
Lemma spaceLen_cons r l : spaceLen (r :: l) = if W r then S (spaceLen l) else 0.
Proof. unfold spaceLen. cbn [dropW List.length]. pose proof (dropW_len l). destruct (W r); cbn [List.length]; lia. Qed.
Lemma spaceLen_le l : spaceLen l <= List.length l. Proof. unfold spaceLen. lia. Qed.
Lemma spaceLen_skip : forall k l, k <= spaceLen l -> spaceLen (skipn k l) = spaceLen l - k /\ dropW (skipn k l) = dropW l.
Proof.
  induction k as [|k IH]; intros l H; [simpl; split; [lia|auto]|]. destruct l as [|r l]; [unfold spaceLen in H; simpl in H; lia|]. rewrite spaceLen_cons in *. simpl. destruct (W r); [|lia].
  destruct (IH l) as [I1 I2]; [lia|]. split; auto; lia.
Qed.
(** text that is whitespace only, and text that is not *)
Lemma all_space u v : dropW u = [] -> List.length u <= spaceLen (u ++ v).
Proof. induction u as [|r u IH]; simpl; [lia|]. intros H. change ((r :: u) ++ v) with (r :: (u ++ v)). rewrite spaceLen_cons. destruct (W r); [specialize (IH H); lia|discriminate]. Qed.
Lemma some_word u v r z : dropW u = r :: z -> spaceLen (u ++ v) < List.length u.
Proof. induction u as [|x u IH]; simpl; [discriminate|]. intros H. change ((x :: u) ++ v) with (x :: (u ++ v)). rewrite spaceLen_cons. destruct (W x); [specialize (IH H); lia|lia]. Qed.
End RUN.

Section SPACED.
Context {A : Type}.
Variable G : A -> option (gobj A).
Variable K : list (list rune).
Variables (root ws : A) (W : rune -> bool) (word : A -> bool).
Notation item := (A * (nat * option nat))%type.
Notation glang := (glang G K). Notation glist := (glist G K).
Notation visited := (visited G root ws word).
Hypothesis Hws : wsCharacters G ws W.
Variables (E0 : A -> bool) (F0 N0 : A -> rune -> Prop).
Variables (E : A -> bool) (F N : A -> rune -> Prop).
Hypothesis HE0 : mayBeEmpty G E0.
Hypothesis HF0 : begins G E0 F0.
Hypothesis Hword : forall a, visited a -> word a = true -> follows G a E0 F0 N0 /\ decided G a E0 F0 N0 /\
    E0 a = false /\ (forall r, F0 a r -> W r = false /\ F a r) /\ (forall r, W r = true \/ N a r -> N0 a r).
Hypothesis HD : spacedDecided G root ws word E F N.
Hypothesis Hrootws : root <> ws.

Lemma visited_ws a : visited a -> a <> ws.
Proof.
  induction 1 as [|a lb nk items x b Ha IH Hw HG Hx Hne|a lb options x Ha IH Hw HG Hx]; auto. pose proof (HD a Ha Hw) as H. rewrite HG in H. apply H. auto.
Qed.
(** ** texts *)
Lemma ws_text w : glang ws w -> exists r, w = [r] /\ W r = true.
Proof.
  destruct Hws as (lb & options & HG & H1 & _). intros H. inversion H; subst; rewrite HG in *; try discriminate. injection H0 as <- <-.
  destruct (H1 x H2) as (lb' & c & cn & ch & rs & G1 & G2 & G3). clear H. inversion H3; subst; rewrite G1 in *; try discriminate. injection H as <- <- <-.
  assert (forall w, glang c w -> exists r, w = [r] /\ W r = true) as Hc.
  { intros z Hz. inversion Hz; subst; rewrite G2 in *; try discriminate. injection H as <- <- <-. eauto. }
  inversion H4; subst; [lia|]. destruct (Hc _ H11) as (r & -> & Hr). inversion H12; subst; [|lia]. inversion H14; subst. eauto.
Qed.
Lemma tables : (forall a w, glang a w -> visited a -> match dropW W w with [] => E a = true | r :: _ => F a r end) /\
  (forall l c w, glist l c w -> forall a lb nk before, visited a -> word a = false -> G a = Some (GSeq lb nk (before ++ l)) -> match l with
    | [] => dropW W w = []
    | (x, (mn, mx)) :: l' => match dropW W w with
      | [] => (mn <= c \/ E x = true) /\ forall i, In i l' -> mayMiss E i
      | r :: _ => F x r \/ ((mn <= c \/ E x = true) /\ itemsBegin E F l' r)
      end end).
Proof.
  assert (Hwd : forall a w, glang a w -> visited a -> word a = true -> match dropW W w with [] => E a = true | r :: _ => F a r end).
  { intros a w H Ha Hw. destruct (Hword a Ha Hw) as (_ & _ & He & Hf & _). destruct w as [|r w].
    - apply (glang_empty G K E0 F0 HE0 HF0) in H. congruence.
    - apply (glang_first G K E0 F0 HE0 HF0) in H. destruct (Hf r H) as [X Y]. simpl. rewrite X. auto. }
  apply glang_mutind.
  - intros a cn ch rs r HG Hr Ha. destruct (word a) eqn:Ew; [eapply Hwd; eauto; eapply gl_char; eauto|]. pose proof (HD a Ha Ew) as H. rewrite HG in H. contradiction.
  - intros a lb nk items w HG Hk Hl IH Ha. destruct (word a) eqn:Ew; [eapply Hwd; eauto; eapply gl_seq; eauto|]. specialize (IH a lb nk [] Ha Ew HG).
    pose proof (HD a Ha Ew) as H. rewrite HG in H. destruct H as (_ & H1 & H2 & _). destruct items as [|[x [mn mx]] l].
    + rewrite IH. apply H1. intros ? ? ? [].
    + destruct (dropW W w) as [|r z].
      * apply H1. destruct IH as [J1 J2]. intros y mn' mx' [X|X]; [inversion X; subst; destruct J1; auto; left; lia|]. apply (J2 _ X).
      * apply H2. destruct IH as [J|[J1 J2]]; [apply ib_here; auto|]. apply ib_miss; auto. destruct J1; [left; simpl; lia|right; auto].
  - intros a lb options x w HG Hx Hl IH Ha. destruct (word a) eqn:Ew; [eapply Hwd; eauto; eapply gl_choice; eauto|]. specialize (IH (visited_option _ _ _ _ _ _ _ _ Ha Ew HG Hx)).
    pose proof (HD a Ha Ew) as H. rewrite HG in H. destruct H as (_ & H1 & H2 & _). destruct (dropW W w); eauto.
  - intros c a lb nk before Ha Hw HG. reflexivity.
  - intros x mn mx l c w Hc Hl IH a lb nk before Ha Hw HG.
    assert (HG' : G a = Some (GSeq lb nk ((before ++ [(x, (mn, mx))]) ++ l))) by (rewrite <- app_assoc; auto). specialize (IH _ _ _ _ Ha Hw HG').
    destruct l as [|[y [m M]] l]; [rewrite IH; split; auto; intros i []|]. destruct (dropW W w) as [|r z].
    + split; auto. destruct IH as [J1 J2]. intros i [<-|Hi]; auto. destruct J1; [left; simpl; lia|right; auto].
    + right. split; auto. destruct IH as [J|[J1 J2]]; [apply ib_here; auto|]. apply ib_miss; auto. destruct J1; [left; simpl; lia|right; auto].
  - intros x mn mx l c u v Hc Hu IHu Hl IH a lb nk before Ha Hw HG. specialize (IH _ _ _ _ Ha Hw HG). rewrite dropW_app.
    pose proof (HD a Ha Hw) as H. rewrite HG in H. destruct H as (_ & _ & _ & H). destruct (H before x mn mx l eq_refl) as [[-> Hm]|[Hne _]].
    + destruct (ws_text u Hu) as (r & -> & Hr). simpl. rewrite Hr. injection Hm as -> ->. destruct (dropW W v) as [|r' z].
      * split; [left; lia|]. tauto.
      * destruct IH as [J|[J1 J2]]; auto. right. split; auto. left. lia.
    + specialize (IHu (visited_item _ _ _ _ _ _ _ _ _ _ Ha Hw HG (in_elt _ _ _) Hne)). destruct (dropW W u) as [|r z].
      * destruct (dropW W v) as [|r' z']; [split; [auto|apply IH]|]. destruct IH as [J|[J1 J2]]; auto.
      * simpl. auto.
Qed.
Lemma list_ahead a lb nk before l w u : visited a -> word a = false -> G a = Some (GSeq lb nk (before ++ l)) -> glist l 0 w -> (forall r u', dropW W u = r :: u' -> N a r) ->
  forall r u', dropW W (w ++ u) = r :: u' -> ahead E F N a l r.
Proof.
  intros Ha Hw HG Hl Hu r u' X. pose proof (proj2 tables _ _ _ Hl _ _ _ _ Ha Hw HG) as T. rewrite dropW_app in X. destruct l as [|[x [mn mx]] l].
  - rewrite T in X. right. split; [intros i []|eauto].
  - destruct (dropW W w) as [|r' z].
    + right. split; [|eauto]. destruct T as [J1 J2]. intros i [<-|Hi]; auto. destruct J1; [left; simpl; lia|right; auto].
    + injection X as -> _. left. destruct T as [J|[J1 J2]]; [apply ib_here; auto|]. apply ib_miss; auto. destruct J1; [left; simpl; lia|right; auto].
Qed.

(** ** matches *)
Variable input : list rune.
Notation gives := (Gives G K input). Notation ev := (eval G K input).
Hypothesis total : forall a o, G a <> None -> exists r, gives a o r.
Hypothesis closed : forall k, match G k with
  | Some (GSeq _ _ items) => forall x b, In (x, b) items -> G x <> None
  | Some (GChoice _ options) => forall x, In x options -> G x <> None
  | _ => True end.
Hypothesis Hbound : forall c, visited c -> word c = true -> forall a lb nk items x mn, reached G c a -> G a = Some (GSeq lb nk items) -> ~ In (x, (mn, Some 0)) items.
(** where the whitespace at an offset ends *)
Definition stop (p : nat) : nat := p + spaceLen W (skipn p input).
Lemma skipn_add (a b : nat) (l : list rune) : skipn a (skipn b l) = skipn (b + a) l.
Proof. revert l. induction b as [|b IH]; intros l; auto. destruct l; simpl; [destruct a; auto|auto]. Qed.
Lemma stop_in p t : p <= t -> t <= stop p -> stop t = stop p /\ dropW W (skipn t input) = dropW W (skipn p input).
Proof.
  unfold stop. intros L1 L2. replace t with (p + (t - p)) by lia. rewrite <- skipn_add. destruct (spaceLen_skip W (t - p) (skipn p input)) as [H1 H2]; [lia|]. rewrite H1, H2. split; auto. lia.
Qed.
Lemma stop_ge p : p <= stop p. Proof. unfold stop. lia. Qed.
Lemma word_here p r : nth_error input p = Some r -> W r = false -> stop p = p /\ exists u, dropW W (skipn p input) = r :: u.
Proof. intros H Hr. destruct (nth_skipn p r input H) as (u & Hu). unfold stop. rewrite Hu, spaceLen_cons. simpl. rewrite Hr. split; [lia|eauto]. Qed.
Lemma space_here p r : nth_error input p = Some r -> W r = true -> S p <= stop p.
Proof. intros H Hr. destruct (nth_skipn p r input H) as (u & Hu). unfold stop. rewrite Hu, spaceLen_cons, Hr. lia. Qed.
Lemma no_space_stop p : stop p = p -> forall r, nth_error input p = Some r -> W r = false.
Proof. intros H r Hr. destruct (W r) eqn:Er; auto. pose proof (space_here p r Hr Er). lia. Qed.
Lemma at_space p : p < stop p -> exists r, nth_error input p = Some r /\ W r = true.
Proof.
  unfold stop. intros H. destruct (skipn p input) as [|r u] eqn:Es; [unfold spaceLen in H; simpl in H; lia|]. rewrite spaceLen_cons in H. destruct (W r) eqn:Er; [|lia]. exists r. split; auto.
  rewrite <- (firstn_skipn p input), Es. assert (L : List.length (firstn p input) = p). { apply firstn_length_le. assert (L := f_equal (@List.length rune) Es). rewrite skipn_length in L. simpl in L. lia. }
  rewrite nth_error_app2 by lia. rewrite L, Nat.sub_diag. reflexivity.
Qed.

Lemma one_char x lb c cn ch rs p r : G x = Some (GSeq lb false [(c, (1, Some 1))]) -> G c = Some (GChar cn ch rs) -> gives x p r ->
  (exists z ns, nth_error input p = Some z /\ classHas cn ch rs z = true /\ r = Match (S p) ns) \/ (r = NoMatch /\ forall z, nth_error input p = Some z -> classHas cn ch rs z = false).
Proof.
  intros G1 G2 H. destruct H as [Hr [n Hn]]. assert (Hev : evR G K input (S n) x p r).
  { split; auto. pose proof (eval_mono G K input n (S n) x p ltac:(lia)) as Q. unfold leO in Q. rewrite Hn in Q. auto. }
  destruct (ev_seq G K input n x lb false _ p r G1 Hev) as (r1 & J1 & ->). apply itemsR_once in J1. destruct J1 as (rx & [Hx Hu] & J). destruct n as [|n]; [simpl in Hx; congruence|]. cbn [eval] in Hx. rewrite G2 in Hx.
  destruct (nth_error input p) as [z|] eqn:Ez.
  - destruct (classHas cn ch rs z) eqn:Ec; subst rx.
    + destruct J as (r2 & J & ->). inversion J; subst. left. eexists _, _. split; [reflexivity|]. split; auto. simpl. reflexivity.
    + subst r1. right. split; auto. intros z' X. congruence.
  - subst rx r1. right. split; auto. discriminate.
Qed.
Lemma ws_match p t ns : gives ws p (Match t ns) -> t = S p /\ exists r, nth_error input p = Some r /\ W r = true.
Proof.
  destruct Hws as (lb & options & HG & H1 & _). intros [Hu [n H]]. destruct n as [|n]; [discriminate|]. cbn [eval] in H. rewrite HG in H.
  destruct (evalOptions (ev n) options p NoMatch) as [| |t1 ns1] eqn:E1; try discriminate. simpl in H. injection H as -> _.
  assert (Hin : exists x, In x options /\ ev n x p = Match t ns1).
  { destruct (evalOptions_case (ev n) options p NoMatch) as [E'|(x & Hx & E')]; rewrite E1 in E'; [discriminate|]. eauto. }
  destruct Hin as (x & Hx & Ex). destruct (H1 x Hx) as (lb' & c & cn & ch & rs & G1 & G2 & G3).
  destruct (one_char x lb' c cn ch rs p (Match t ns1) G1 G2) as [(z & ns' & Z1 & Z2 & Z3)|[Z _]]; [split; [discriminate|eauto]| |discriminate]. injection Z3 as -> _. eauto.
Qed.
Lemma ws_matches p r : nth_error input p = Some r -> W r = true -> exists ns, gives ws p (Match (S p) ns).
Proof.
  intros Hr HW. destruct Hws as (lb & options & HG & H1 & H2). destruct (total ws p) as (o & Ho); [congruence|]. destruct o as [| |t ns]; [destruct Ho; congruence| |].
  - exfalso. destruct (H2 r HW) as (x & lb' & c & cn & ch & rs & Hx & G1 & G2 & G3). destruct Ho as [_ [n Hn]]. destruct n as [|n]; [discriminate|].
    assert (Hev : evR G K input (S n) ws p NoMatch) by (split; [auto|discriminate]). destruct (ev_choice G K input n ws lb options p NoMatch HG Hev) as (r1 & J & Jr). destruct r1 as [| |t ns]; try discriminate. clear Jr Hev.
    assert (Hall : forall l q best r1, optionsR (evR G K input n) l q best r1 -> r1 = NoMatch -> best <> Unfinished -> best = NoMatch /\ forall y, In y l -> evR G K input n y q NoMatch).
    { clear. induction 1 as [o best|y l o best ry r1 Hy Hyu Hl IH]; intros -> Hb; [split; auto; intros y []|]. destruct (IH eq_refl (longer_fin _ _ Hyu)) as [I1 I2].
      assert (best = NoMatch /\ ry = NoMatch) as [-> ->] by (destruct best, ry; simpl in I1; try discriminate; try congruence; auto; destruct (_ <? _); discriminate). split; auto. intros y' [->|Hy']; auto. }
    destruct (Hall _ _ _ _ J eq_refl ltac:(discriminate)) as [_ Hno]. destruct (Hno x Hx) as [Ex _].
    destruct (one_char x lb' c cn ch rs p NoMatch G1 G2) as [(z & ns' & Z1 & Z2 & Z3)|[_ Z]]; [split; [discriminate|eauto]|discriminate|]. rewrite (Z r Hr) in G3. discriminate.
  - destruct (ws_match _ _ _ Ho) as [-> _]. eauto.
Qed.
Lemma ws_no p : stop p = p -> gives ws p NoMatch.
Proof.
  intros Hs. destruct Hws as (lb & options & HG & _). destruct (total ws p) as (o & Ho); [congruence|]. destruct o as [| |t ns]; auto; [destruct Ho; congruence|].
  destruct (ws_match _ _ _ Ho) as [-> (r & Hr & HW)]. rewrite (no_space_stop p Hs r Hr) in HW. discriminate.
Qed.

(** a match of whitespace only, or one that begins with a character *)
Definition seen (a : A) (p t : nat) : Prop := (t <= stop p -> E a = true) /\ (stop p < t -> exists r u, dropW W (skipn p input) = r :: u /\ F a r).
Lemma items_seen (R : A -> nat -> outcome -> Prop) a lb nk : visited a -> word a = false ->
  (forall x o t ns, R x o (Match t ns) -> o <= t) -> (forall o t ns, R ws o (Match t ns) -> t <= stop o) -> (forall x o t ns, visited x -> R x o (Match t ns) -> seen x o t) ->
  forall l c p r, itemsR R l c p r -> forall before t ns, G a = Some (GSeq lb nk (before ++ l)) -> r = Match t ns ->
   match l with
   | [] => t = p
   | (x, (mn, mx)) :: l' => (t <= stop p -> (mn <= c \/ E x = true) /\ forall i, In i l' -> mayMiss E i) /\
     (stop p < t -> exists r u, dropW W (skipn p input) = r :: u /\ (F x r \/ ((mn <= c \/ E x = true) /\ itemsBegin E F l' r)))
   end.
Proof.
  intros Ha Hw Hge Hsp Hseen. pose proof (HD a Ha Hw) as Hd.
  assert (Up : forall p t l, match l with
   | [] => t = p
   | (x, (mn, mx)) :: l' => (t <= stop p -> (mn <= 0 \/ E x = true) /\ forall i, In i l' -> mayMiss E i) /\
     (stop p < t -> exists r u, dropW W (skipn p input) = r :: u /\ (F x r \/ ((mn <= 0 \/ E x = true) /\ itemsBegin E F l' r)))
   end -> (t <= stop p -> forall i, In i l -> mayMiss E i) /\ (stop p < t -> exists r u, dropW W (skipn p input) = r :: u /\ itemsBegin E F l r)).
  { intros p t l H. destruct l as [|[x [mn mx]] l].
    - subst t. split; [intros _ i []|]. pose proof (stop_ge p). lia.
    - destruct H as [H1 H2]. split.
      + intros L. destruct (H1 L) as [J1 J2]. intros i [<-|Hi]; auto. destruct J1; [left; simpl; lia|right; auto].
      + intros L. destruct (H2 L) as (r & u & J1 & J2). exists r, u. split; auto. destruct J2 as [J2|[J2 J3]]; [apply ib_here; auto|]. apply ib_miss; auto. destruct J2; [left; simpl; lia|right; auto]. }
  (* an item that has matched up to t1, and what is behind it *)
  assert (Step : forall before x mn mx l c p t1 t, G a = Some (GSeq lb nk (before ++ (x, (mn, mx)) :: l)) -> p <= t1 -> t1 <= t -> (x = ws -> t1 <= stop p) -> (x <> ws -> seen x p t1) ->
    (t1 <= stop p -> (t <= stop t1 -> forall i, In i l -> mayMiss E i) /\ (stop t1 < t -> exists r u, dropW W (skipn t1 input) = r :: u /\ (F x r \/ itemsBegin E F l r))) ->
    (t <= stop p -> (mn <= c \/ E x = true) /\ forall i, In i l -> mayMiss E i) /\
     (stop p < t -> exists r u, dropW W (skipn p input) = r :: u /\ (F x r \/ ((mn <= c \/ E x = true) /\ itemsBegin E F l r)))).
  { intros before x mn mx l c p t1 t HG L1 L2 Hwsx Hx Hrest.
    assert (Hmiss : t1 <= stop p -> mn <= c \/ E x = true).
    { intros L. rewrite HG in Hd. destruct Hd as (_ & _ & _ & Hd). destruct (Hd before x mn mx l eq_refl) as [[-> X]|[Hne _]]; [injection X as -> ->; left; lia|right]. apply (Hx Hne); auto. }
    destruct (Nat.le_gt_cases t1 (stop p)) as [L|L].
    - destruct (stop_in p t1 L1 L) as [S1 S2]. destruct (Hrest L) as [R1 R2]. rewrite S1, S2 in *. split; [intros L'; split; auto|]. intros L'. destruct (R2 L') as (r & u & J1 & J2). exists r, u. split; auto. tauto.
    - assert (Hne : x <> ws) by (intros X; specialize (Hwsx X); lia). split; [intros; lia|]. intros _. destruct (proj2 (Hx Hne) L) as (r & u & J1 & J2). eauto. }
  induction 1 as [c p|x mn mx l c p r H1 H2 H3 IH|x mn mx l c p H1 H2|x mn mx l c p t1 ns1 r H1 H2 H3 H4 IH|x mn mx l c p t1 ns1 r H1 H2 H3 H4 IH|x mn mx l c p t1 ns1 r H1 H2 H3 IH]; intros before t ns HG X.
  - injection X as <- _. auto.
  - assert (HG' : G a = Some (GSeq lb nk ((before ++ [(x, (mn, mx))]) ++ l))) by (rewrite <- app_assoc; auto). destruct (Up _ _ _ (IH _ _ _ HG' X)) as [U1 U2]. split; [intros L; split; auto|].
    intros L. destruct (U2 L) as (r' & u & J1 & J2). exists r', u. split; auto.
  - discriminate.
  - destruct r as [| |t2 ns2]; try discriminate. simpl in X. injection X as -> _.
    assert (HG' : G a = Some (GSeq lb nk ((before ++ [(x, (mn, mx))]) ++ l))) by (rewrite <- app_assoc; auto). destruct (Up _ _ _ (IH _ _ _ HG' eq_refl)) as [U1 U2].
    apply (Step before x mn mx l c p t1 t HG); [lia| |intros ->; eauto| |].
    + assert (Q : forall l c o r, itemsR R l c o r -> forall t' ns', r = Match t' ns' -> o <= t').
      { clear - Hge. induction 1; intros t' ns' Y; [injection Y as <- _; lia|eauto|discriminate| | |]; (destruct r as [| |t2 ns2]; try discriminate; simpl in Y; injection Y as -> _; specialize (IHitemsR _ _ eq_refl)); [lia|lia|]. pose proof (Hge _ _ _ _ H). lia. }
      eapply Q; eauto.
    + intros Hne. eapply Hseen; eauto. apply (visited_item _ _ _ _ _ _ _ _ _ _ Ha Hw HG (in_elt _ _ _) Hne).
    + intros _. split; auto. intros L. destruct (U2 L) as (r & u & J1 & J2). eauto.
  - destruct r as [| |t2 ns2]; try discriminate. simpl in X. injection X as -> _.
    destruct (IH _ _ _ HG eq_refl) as [U1 U2].
    apply (Step before x mn mx l c p t1 t HG); [lia| |intros ->; eauto| |].
    + assert (Q : forall l c o r, itemsR R l c o r -> forall t' ns', r = Match t' ns' -> o <= t').
      { clear - Hge. induction 1; intros t' ns' Y; [injection Y as <- _; lia|eauto|discriminate| | |]; (destruct r as [| |t2 ns2]; try discriminate; simpl in Y; injection Y as -> _; specialize (IHitemsR _ _ eq_refl)); [lia|lia|]. pose proof (Hge _ _ _ _ H). lia. }
      eapply Q; eauto.
    + intros Hne. eapply Hseen; eauto. apply (visited_item _ _ _ _ _ _ _ _ _ _ Ha Hw HG (in_elt _ _ _) Hne).
    + intros _. split; [intros L; apply (U1 L)|]. intros L. destruct (U2 L) as (r & u & J1 & J2). exists r, u. split; auto. tauto.
  - destruct r as [| |t2 ns2]; try discriminate. simpl in X. injection X as -> _.
    assert (HG' : G a = Some (GSeq lb nk ((before ++ [(x, (mn, mx))]) ++ l))) by (rewrite <- app_assoc; auto). destruct (Up _ _ _ (IH _ _ _ HG' eq_refl)) as [U1 U2].
    pose proof (Hge _ _ _ _ H1) as Hp.
    apply (Step before x mn mx l c p t1 t HG); [lia| |intros ->; eauto| |].
    + assert (Q : forall l c o r, itemsR R l c o r -> forall t' ns', r = Match t' ns' -> o <= t').
      { clear - Hge. induction 1; intros t' ns' Y; [injection Y as <- _; lia|eauto|discriminate| | |]; (destruct r as [| |t2 ns2]; try discriminate; simpl in Y; injection Y as -> _; specialize (IHitemsR _ _ eq_refl)); [lia|lia|]. pose proof (Hge _ _ _ _ H). lia. }
      eapply Q; eauto.
    + intros Hne. eapply Hseen; eauto. apply (visited_item _ _ _ _ _ _ _ _ _ _ Ha Hw HG (in_elt _ _ _) Hne).
    + intros _. split; auto. intros L. destruct (U2 L) as (r & u & J1 & J2). eauto.
Qed.
Lemma eval_seen n : forall a p t ns, visited a -> ev n a p = Match t ns -> seen a p t.
Proof.
  induction n as [|n IH]; intros a p t ns Ha H; [discriminate|]. destruct (word a) eqn:Ew.
  - destruct (Hword a Ha Ew) as (_ & _ & He & Hf & _). pose proof (eval_ge G K input _ _ _ _ _ H) as L. assert (Lt : p < t).
    { destruct (Nat.eq_dec p t) as [<-|]; [|lia]. apply (eval_empty G K input E0 HE0) in H. congruence. }
    destruct (eval_first G K E0 F0 HE0 HF0 input _ _ _ _ _ H Lt) as (r & J1 & J2). destruct (Hf r J2) as [Hr HFr]. destruct (word_here p r J1 Hr) as [S1 (u & S2)]. split; [lia|]. intros _. eauto.
  - pose proof (HD a Ha Ew) as Hd. cbn [eval] in H. destruct (G a) as [[cn ch rs|lb nk items|lb options]|] eqn:HG; try discriminate; [contradiction| |].
    + destruct (evalItems (ev n) n items 0 p) as [| |t1 ns1] eqn:E1; try discriminate. destruct (_ && _)%bool; [discriminate|]. simpl in H. injection H as -> _. apply evalItems_rel in E1; [|discriminate].
      pose proof (items_seen (fun (x : A) o r => ev n x o = r /\ r <> Unfinished) a lb nk Ha Ew) as Q.
      specialize (Q ltac:(intros x o t' ns' [X _]; eapply eval_ge; eauto)). assert (Q2 : forall o t ns, (fun (x : A) o r => ev n x o = r /\ r <> Unfinished) ws o (Match t ns) -> t <= stop o).
      { intros o t' ns' [X _]. assert (X' : gives ws o (Match t' ns')) by (split; [discriminate|eauto]). destruct (ws_match _ _ _ X') as [-> (r & R1 & R2)]. eapply space_here; eauto. }
      specialize (Q Q2 ltac:(intros x o t' ns' Hx [X _]; eapply IH; eauto)). clear Q2. rename Q into Q'.
      specialize (Q' _ _ _ _ E1 [] _ _ HG eq_refl). destruct Hd as (_ & D1 & D2 & _). destruct items as [|[x [mn mx]] l].
      * subst t. split; [intros _; apply D1; intros ? ? ? []|]. pose proof (stop_ge p). lia.
      * destruct Q' as [Q1 Q2]. split.
        { intros L. destruct (Q1 L) as [J1 J2]. apply D1. intros y mn' mx' [X|X]; [inversion X; subst; destruct J1; auto; left; lia|]. apply (J2 _ X). }
        { intros L. destruct (Q2 L) as (r & u & J1 & J2). exists r, u. split; auto. apply D2. destruct J2 as [J2|[J2 J3]]; [apply ib_here; auto|]. apply ib_miss; auto. destruct J2; [left; simpl; lia|right; auto]. }
    + destruct (evalOptions (ev n) options p NoMatch) as [| |t1 ns1] eqn:E1; try discriminate. simpl in H. injection H as -> _.
      destruct (evalOptions_case (ev n) options p NoMatch) as [E'|(x & Hx & E')]; rewrite E1 in E'; [discriminate|]. symmetry in E'.
      destruct (IH x p t ns1 (visited_option _ _ _ _ _ _ _ _ Ha Ew HG Hx) E') as [I1 I2]. destruct Hd as (_ & D1 & D2 & _). split; [intros L; eauto|]. intros L. destruct (I2 L) as (r & u & J1 & J2). eauto.
Qed.
Lemma gives_seen a p t ns : visited a -> gives a p (Match t ns) -> seen a p t.
Proof. intros Ha [_ [n H]]. eapply eval_seen; eauto. Qed.

(** ** every text is matched *)
(** the whitespace item takes all the whitespace *)
Lemma spaces_run l t ns : forall k p c, stop p = p + k -> itemsR gives l 0 (stop p) (Match t ns) -> exists ns', itemsR gives ((ws, (0, None)) :: l) c p (Match t ns').
Proof.
  induction k as [|k IH]; intros p c Hk H.
  - exists ns. assert (Hp : stop p = p) by lia. rewrite Hp in H. apply ir_skip; auto; [apply ws_no; auto|lia].
  - destruct (at_space p) as (r & Hr & HW); [lia|]. destruct (ws_matches p r Hr HW) as (ns1 & J). destruct (stop_in p (S p)) as [S1 _]; [lia|lia|].
    destruct (IH (S p) (S c)) as (ns' & J'); [lia|rewrite S1; auto|]. pose proof (ir_more gives ws 0 None l c p _ ns1 _ J ltac:(lia) eq_refl J') as Z. eexists; exact Z.
Qed.
Lemma any_count x l : forall c p r, itemsR gives ((x, (0, None)) :: l) c p r -> forall c', itemsR gives ((x, (0, None)) :: l) c' p r.
Proof.
  intros c p r H. remember ((x, (0, @None nat)) :: l) as l0 eqn:El. induction H as [c p|y mn mx l1 c p r H1 H2 H3 IH|y mn mx l1 c p H1 H2|y mn mx l1 c p t1 ns1 r H1 H2 H3 H4 IH|y mn mx l1 c p t1 ns1 r H1 H2 H3 H4 IH|y mn mx l1 c p t1 ns1 r H1 H2 H3 IH]; try discriminate; injection El as -> -> -> ->; intros c'.
  - apply ir_skip; auto. lia.
  - lia.
  - discriminate.
  - eapply ir_more; eauto.
  - change (0 - c) with (0 - c'). eapply ir_empty; eauto.
Qed.
Definition within (l : list item) (c : nat) (w : list rune) (q p : nat) : Prop :=
  let ends l' c' := exists t ns, itemsR gives l' c' p (Match t ns) /\ q + List.length w <= t <= stop (q + List.length w) in
  match l with
  | [] => w = []
  | (x, (mn, mx)) :: l' => (match mx with Some m => c < m | None => True end -> ends l c) /\ (match mx with Some m => c = m | None => False end -> ends l' 0)
  end.
Lemma within_zero a lb nk before l w q p : visited a -> word a = false -> G a = Some (GSeq lb nk (before ++ l)) -> q <= p <= stop q -> within l 0 w q p ->
  exists t ns, itemsR gives l 0 p (Match t ns) /\ q + List.length w <= t <= stop (q + List.length w).
Proof.
  intros Ha Hw HG Hp H. destruct l as [|[x [mn mx]] l]; [simpl in H; subst w; simpl; rewrite Nat.add_0_r; exists p, []; split; [constructor|auto]|].
  destruct mx as [[|m]|]; [|apply H; lia|apply H; auto]. exfalso. pose proof (HD a Ha Hw) as Hd. rewrite HG in Hd. destruct Hd as (_ & _ & _ & Hd). destruct (Hd before x mn (Some 0) l eq_refl) as [[_ X]|(_ & _ & X & _)]; congruence.
Qed.
Lemma options_longest options p x t0 ns0 : In x options -> gives x p (Match t0 ns0) -> (forall y, In y options -> G y <> None) ->
  exists y t ns, optionsR gives options p NoMatch (Match t ns) /\ In y options /\ t0 <= t /\ gives y p (Match t ns).
Proof.
  intros Hx H0 Hc. assert (Q : forall l best, (forall y, In y l -> In y options) -> best <> Unfinished -> (forall t ns, best = Match t ns -> exists y, In y options /\ gives y p (Match t ns)) ->
    (In x l \/ exists t ns, best = Match t ns /\ t0 <= t) -> exists y t ns, optionsR gives l p best (Match t ns) /\ In y options /\ t0 <= t /\ gives y p (Match t ns)).
  { induction l as [|y l IH]; intros best Hl Hb Hm Hin.
    - destruct Hin as [[]|(t & ns & -> & L)]. destruct (Hm _ _ eq_refl) as (y & Hy & Gy). exists y, t, ns. split; [constructor|auto].
    - destruct (total y p) as (ry & Hy); [apply Hc, Hl; left; auto|]. destruct (IH (longer best ry)) as (z & t & ns & J & J').
      + intros z Hz. apply Hl. right; auto.
      + apply longer_fin. apply Hy.
      + intros t ns E1. destruct (longer_case best ry) as [E2|E2]; rewrite E2 in E1; [auto|]. subst ry. exists y. split; auto. apply Hl. left; auto.
      + destruct Hin as [[->|Hin]|(t & ns & -> & L)]; auto; right.
        * rewrite (Gives_fun _ _ _ _ _ _ _ Hy H0). destruct best as [| |tb nb]; simpl; eauto. destruct (Nat.ltb_spec tb t0); eauto.
        * destruct ry as [| |ty ny]; simpl; eauto. destruct (Nat.ltb_spec t ty); eauto. exists ty, ny. split; auto. lia.
      + exists z, t, ns. split; auto. eapply or_cons; eauto. apply Hy. }
  apply Q; auto; discriminate.
Qed.

Lemma spaced_matches : (forall a w, glang a w -> visited a -> forall q p u, skipn q input = w ++ u -> q <= p <= stop q -> (forall r u', dropW W u = r :: u' -> N a r) ->
    exists t ns, gives a p (Match t ns) /\ q + List.length w <= t <= stop (q + List.length w)) /\
  (forall l c w, glist l c w -> forall a lb nk before q p u, visited a -> word a = false -> G a = Some (GSeq lb nk (before ++ l)) -> skipn q input = w ++ u -> q <= p <= stop q -> (forall r u', dropW W u = r :: u' -> N a r) -> within l c w q p).
Proof.
  assert (Hwd : forall a w, glang a w -> visited a -> word a = true -> forall q p u, skipn q input = w ++ u -> q <= p <= stop q -> (forall r u', dropW W u = r :: u' -> N a r) ->
    exists t ns, gives a p (Match t ns) /\ q + List.length w <= t <= stop (q + List.length w)).
  { intros a w H Ha Hw q p u Hq Hp Hu. destruct (Hword a Ha Hw) as (HN & HDw & He & Hf & Hfol). destruct w as [|r w]; [apply (glang_empty G K E0 F0 HE0 HF0) in H; congruence|].
    pose proof (glang_first G K E0 F0 HE0 HF0 _ _ _ H) as Hr. apply Hf in Hr. destruct Hr as [Hr _]. assert (p = q) as ->.
    { unfold stop in Hp. rewrite Hq in Hp. change ((r :: w) ++ u) with (r :: (w ++ u)) in Hp. rewrite spaceLen_cons, Hr in Hp. lia. }
    destruct (proj1 (matches G K a E0 F0 N0 HE0 HF0 HN HDw input total closed (Hbound a Ha Hw)) a (r :: w) H (reached_root _ _) q u Hq) as (ns & J).
    - intros z u' ->. apply Hfol. destruct (W z) eqn:Ez; auto. right. eapply Hu. simpl. rewrite Ez. reflexivity.
    - exists (q + List.length (r :: w)), ns. split; auto. split; auto. apply stop_ge. }
  apply glang_mutind.
  - intros a cn ch rs r HG Hr Ha. destruct (word a) eqn:Ew; [eapply Hwd; eauto; eapply gl_char; eauto|]. pose proof (HD a Ha Ew) as H. rewrite HG in H. contradiction.
  - intros a lb nk items w HG Hk Hl IH Ha. destruct (word a) eqn:Ew; [eapply Hwd; eauto; eapply gl_seq; eauto|]. intros q p u Hq Hp Hu. specialize (IH a lb nk [] q p u Ha Ew HG Hq Hp Hu).
    destruct (within_zero a lb nk [] items w q p Ha Ew HG Hp IH) as (t & ns & J & Jt). pose proof (HD a Ha Ew) as H. rewrite HG in H. destruct H as (-> & _).
    pose proof (gives_seq G K input a lb false items p _ HG J) as Hg. cbn [seqResult andb labelled] in Hg. eauto.
  - intros a lb options x w HG Hx Hl IH Ha. destruct (word a) eqn:Ew; [eapply Hwd; eauto; eapply gl_choice; eauto|]. intros q p u Hq Hp Hu.
    pose proof (HD a Ha Ew) as Hd. rewrite HG in Hd. destruct Hd as (_ & _ & _ & Dn & D1 & D2). pose proof (visited_option _ _ _ _ _ _ _ _ Ha Ew HG Hx) as Hvx.
    destruct (IH Hvx q p u Hq Hp) as (t0 & ns0 & J0 & Jt0); [intros r u' X; eapply Dn; eauto|]. pose proof (closed a) as Hc. rewrite HG in Hc.
    destruct (options_longest options p x t0 ns0 Hx J0 Hc) as (y & t & ns & Jo & Hy & Lt & Jy). exists t. pose proof (gives_choice G K input a lb options p _ HG Jo) as Hg. cbn [labelled] in Hg. eexists. split; [exact Hg|]. split; [lia|].
    pose proof (visited_option _ _ _ _ _ _ _ _ Ha Ew HG Hy) as Hvy. destruct (gives_seen y p t ns Hvy Jy) as [_ Y]. destruct (stop_in q p) as [S1 S2]; [lia|lia|]. rewrite S1, S2 in Y.
    pose proof (proj1 tables x w Hl Hvx) as T. rewrite Hq, dropW_app in Y. destruct (dropW W w) as [|r z] eqn:Ed.
    + assert (Lq : q + List.length w <= stop q) by (unfold stop; rewrite Hq; pose proof (all_space W w u Ed); lia). destruct (stop_in q (q + List.length w)) as [S3 _]; [lia|auto|]. rewrite S3.
      destruct (Nat.le_gt_cases t (stop q)) as [L|L]; auto. exfalso. destruct (Y L) as (r & u' & Y1 & Y2). eapply (D2 x y r); eauto.
    + assert (Lq : stop q < q + List.length w) by (unfold stop; rewrite Hq; pose proof (some_word W w u r z Ed); lia). destruct Y as (r' & u' & Y1 & Y2); [lia|]. injection Y1 as <- _. assert (y = x) by (eapply D1; eauto). subst y.
      pose proof (Gives_fun _ _ _ _ _ _ _ Jy J0) as X. injection X as -> _. lia.
  - intros; simpl; auto.
  - intros x mn mx l c w Hc Hl IH a lb nk before q p u Ha Hw HG Hq Hp Hu.
    assert (HG' : G a = Some (GSeq lb nk ((before ++ [(x, (mn, mx))]) ++ l))) by (rewrite <- app_assoc; auto).
    pose proof (HD a Ha Hw) as Hd. rewrite HG in Hd. destruct Hd as (_ & _ & _ & Hd). destruct (Hd before x mn mx l eq_refl) as [[-> X]|(Hne & D1 & _ & D2 & _)].
    + injection X as -> ->. split; [intros _|intros []]. destruct (stop_in q p) as [S1 S2]; [lia|lia|].
      assert (Hp' : q <= stop p <= stop q) by (rewrite S1; pose proof (stop_ge q); lia).
      destruct (within_zero _ _ _ _ _ _ _ _ Ha Hw HG' Hp' (IH _ _ _ _ _ _ _ Ha Hw HG' Hq Hp' Hu)) as (t & ns & J & Jt).
      destruct (spaces_run l t ns (spaceLen W (skipn p input)) p c eq_refl J) as (ns' & J'). eauto.
    + destruct (within_zero _ _ _ _ _ _ _ _ Ha Hw HG' Hp (IH _ _ _ _ _ _ _ Ha Hw HG' Hq Hp Hu)) as (t & ns & J & Jt). split; [|eauto]. intros Hm. exists t, ns. split; auto. apply ir_skip; auto.
      assert (Ex : E x = false) by (destruct D1 as [D1|D1]; auto; injection D1 as -> ->; lia).
      destruct (total x p) as (rx & Hrx); [pose proof (closed a) as Hcl; rewrite HG in Hcl; eapply Hcl; apply in_elt|]. destruct rx as [| |tx nsx]; auto; [destruct Hrx; congruence|]. exfalso.
      destruct (gives_seen x p tx nsx (visited_item _ _ _ _ _ _ _ _ _ _ Ha Hw HG (in_elt _ _ _) Hne) Hrx) as [Y1 Y2]. destruct (Nat.le_gt_cases tx (stop p)) as [L|L]; [specialize (Y1 L); congruence|].
      destruct (Y2 L) as (r & u' & Z1 & Z2). destruct (stop_in q p) as [S1 S2]; [lia|lia|]. rewrite S2, Hq in Z1. destruct D2 as [->|D2]; [lia|]. eapply (D2 r Z2). eapply list_ahead; eauto.
  - intros x mn mx l c v w Hm Hv IHv Hw0 IHw a lb nk before q p u Ha Hw HG Hq Hp Hu. rewrite <- app_assoc in Hq. pose proof (skipn_app_len _ _ _ _ Hq) as Hq'.
    pose proof (HD a Ha Hw) as Hd. rewrite HG in Hd. destruct Hd as (_ & _ & _ & Hd). unfold within; cbv zeta; rewrite app_length, Nat.add_assoc. destruct (Hd before x mn mx l eq_refl) as [[-> X]|(Hne & D1 & _ & _ & D3)].
    + injection X as -> ->. destruct (ws_text v Hv) as (r & -> & Hr). simpl List.length in *. split; [intros _|intros []]. assert (Hn : nth_error input q = Some r).
      { clear - Hq. revert Hq. generalize input. induction q as [|q IH]; intros [|z i] H; simpl in *; try discriminate; [injection H as -> _; auto|auto]. }
      pose proof (space_here q r Hn Hr) as Hs. destruct (stop_in q (S q)) as [S1 _]; [lia|auto|]. rewrite Nat.add_1_r in *. destruct (Nat.eq_dec p q) as [->|].
      * destruct (proj1 (IHw _ _ _ _ (S q) (S q) u Ha Hw HG Hq' ltac:(lia) Hu) I) as (t & ns & J & Jt). destruct (ws_matches q r Hn Hr) as (ns1 & J1).
        pose proof (ir_more gives ws 0 None l c q _ ns1 _ J1 ltac:(lia) eq_refl J) as Z. eexists _, _. split; [exact Z|auto].
      * destruct (proj1 (IHw _ _ _ _ (S q) p u Ha Hw HG Hq' ltac:(lia) Hu) I) as (t & ns & J & Jt). exists t, ns. split; auto. eapply any_count; eauto.
    + pose proof (visited_item _ _ _ _ _ _ _ _ _ _ Ha Hw HG (in_elt _ _ _) Hne) as Hvx.
      destruct (IHv Hvx q p (w ++ u) Hq Hp) as (t1 & ns1 & J & Jt1).
      { intros r u' X. apply D3.
        assert (Case : (mx = Some 1 /\ glist l 0 w) \/ mx <> Some 1).
        { destruct mx as [[|[|m]]|]; try (right; discriminate). left. split; auto. inversion Hw0; subst; auto; lia. }
        destruct Case as [[-> Hl]|Hm1].
        - left. assert (HG' : G a = Some (GSeq lb nk ((before ++ [(x, (mn, Some 1))]) ++ l))) by (rewrite <- app_assoc; auto). eapply (list_ahead a lb nk _ l w u Ha Hw HG' Hl Hu); eauto.
        - pose proof (proj2 tables _ _ _ Hw0 _ _ _ _ Ha Hw HG) as T. simpl in T. rewrite dropW_app in X. destruct (dropW W w) as [|r' z].
          + left. right. split; [apply T|eapply Hu; eauto].
          + injection X as -> _. destruct T as [T|[_ T]]; [right; auto|left; left; auto]. }
      pose proof (IHw _ _ _ _ (q + List.length v) t1 u Ha Hw HG Hq' Jt1 Hu) as [I1 I2].
      split; [|destruct mx; [lia|intros []]]. intros _.
      pose proof (Gives_ge _ _ _ _ _ _ _ J) as L1. destruct (Nat.eq_dec t1 p) as [->|].
      * assert (Ex : E x = true) by (apply (gives_seen x p p ns1 Hvx J); apply stop_ge). destruct D1 as [D1|D1]; [|congruence]. injection D1 as -> ->. assert (c = 0) by lia. subst c. destruct (I2 eq_refl) as (t & ns' & J' & Jt').
        pose proof (ir_empty gives x 1 (Some 1) l 0 p _ ns1 _ J ltac:(lia) J') as Z. eexists _, _. split; [exact Z|auto].
      * destruct (match mx with Some m => S c =? m | None => false end) eqn:Em.
        { destruct I2 as (t & ns' & J' & Jt'); [destruct mx; [apply Nat.eqb_eq in Em; auto|discriminate]|]. pose proof (ir_last gives x mn mx l c p _ ns1 _ J ltac:(lia) Em J') as Z. eexists _, _. split; [exact Z|auto]. }
        { destruct I1 as (t & ns' & J' & Jt'); [destruct mx; auto; apply Nat.eqb_neq in Em; lia|]. pose proof (ir_more gives x mn mx l c p _ ns1 _ J ltac:(lia) Em J') as Z. eexists _, _. split; [exact Z|auto]. }
Qed.
Theorem spaced_match : glang root input -> exists ns, gives root 0 (Match (List.length input) ns).
Proof.
  intros H. destruct (proj1 spaced_matches root input H (visited_root _ _ _ _) 0 0 []) as (t & ns & J & Jt).
  - rewrite app_nil_r. reflexivity.
  - pose proof (stop_ge 0). lia.
  - discriminate.
  - simpl in Jt. assert (X : stop (List.length input) = List.length input) by (unfold stop; rewrite skipn_all; unfold spaceLen; simpl; lia). rewrite X in Jt. assert (t = List.length input) by lia. subst. eauto.
Qed.
End SPACED.
