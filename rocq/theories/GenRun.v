(** Running the generated function gives what Parse gives. *)
From Verif Require Import Base Utf8 IdSet Results Parser Build Syntax ListFacts Generate GoSpec GenWalk GenSim.

Section RUN.
Variables (P : pheap) (live : addr -> Prop) (kws : list addr) (root : addr).
Hypothesis Hobj : forall a, live a -> exists o, nth_error P a = Some o.
Hypothesis Hkids : forall a o x, live a -> nth_error P a = Some o -> In x (kids o) -> live x.
Hypothesis Hname : forall x y ox oy, live x -> live y -> nth_error P x = Some ox -> nth_error P y = Some oy -> nodeName ox = nodeName oy -> x = y.
Hypothesis Hid : forall x y ox oy, live x -> live y -> nth_error P x = Some ox -> nth_error P y = Some oy -> nodeID ox = nodeID oy -> x = y.
Hypothesis Honce : forall p q op oq i j x ox, live p -> live q -> nth_error P p = Some op -> nth_error P q = Some oq ->
  nth_error (kids op) i = Some x -> nth_error (kids oq) j = Some x -> nth_error P x = Some ox -> isCh ox = true -> p = q /\ i = j.
Hypothesis Hopt : forall a n i c os gs x ox, live a -> nth_error P a = Some (PChoice n i c os gs) -> In x os -> nth_error P x = Some ox -> isCh ox = false.
Hypothesis Hkws : forall k, In k kws -> live k /\ ~ char P k.
Hypothesis Hroot : live root /\ ~ char P root.

Lemma cellsOf_map vars (l : list addr) b : (forall x, In x l -> In (V P b x) vars) -> cellsOf vars (map (V P b) l) = Some (map (fun x => cell vars (V P b x)) l).
Proof. intros H. rewrite cellsOf_all; [rewrite map_map; auto|]. intros v Hv. apply in_map_iff in Hv. destruct Hv as (x & <- & Hx). auto. Qed.

Theorem run_ok n : List.length P < n -> exists fn, program P kws root n = Ok fn /\
  forall fuel input e, exists out, call fn fuel input e = Some out /\ (forall o, nth_error P root = Some o -> sameButName (definitionName (nodeName o)) (parseInput P kws root fuel input e) out) /\
    (rootNamed P root -> out = parseInput P kws root fuel input e).
Proof.
  intros Hn. destruct (program_ok P live kws root Hobj Hkids Hname Hid Honce Hkws Hroot n Hn) as (fn & m & E1 & E2 & E3 & E4 & E5 & L & LB & HL & HB & H1 & H2 & H3).
  exists fn. split; auto. intros fuel input e. unfold call. rewrite (program_used _ _ _ _ _ E1). cbn [negb]. rewrite E2, E3, E4, E5.
  assert (HV : forall b K, holds P live b m K -> forall a, K a -> In (V P b a) (mVars m)).
  { intros b K HK a Ha. destruct (HK a Ha) as (_ & o & c & _ & Hc & _). apply cellOf_nth in Hc. eapply nth_error_In; eauto. }
  assert (HC : forall b K, holds P live b m K -> forall a, K a -> cellOf (mVars m) (V P b a) = Some (cell (mVars m) (V P b a))).
  { intros b K HK a Ha. destruct (HK a Ha) as (_ & o & c & _ & Hc & _). unfold cell. rewrite Hc. auto. }
  rewrite cellsOf_map by (intros; eapply HV; eauto). rewrite (HC false L HL root H2), (HC true LB HB root H3). assert (Ek : existsb fst (map (V P false) kws) = false) by (clear; induction kws; auto). rewrite Ek. cbn [orb V fst negb]. eexists. split; [reflexivity|].
  set (f := fun a => cell (mVars m) (V P false a)). set (g := fun a => cell (mVars m) (V P true a)).
  set (ok := fun a => L a /\ exists o, nth_error P a = Some o /\ isCh o = false /\ hasFlag (commitTypeOf o) CUserDefined = true).
  assert (AP : forall a, L a -> exists o o', nth_error P a = Some o /\ nth_error (mCells m) (f a) = Some o' /\ alikeP f o o' /\ forall x, In x (kids o) -> L x).
  { intros a Ha. destruct (HL a Ha) as (_ & o & c & X1 & X2 & X3 & X4). exists o, (entry P false (mVars m) o). split; auto. split; [|split; auto].
    - unfold f, cell. rewrite X2. auto.
    - destruct o as [nm i x cs rs|nm i cm it rs gs ac|nm i cm os gs]; unfold entry, literal, withKids, writesName; simpl; repeat split; auto.
      + intros ->. auto.
      + intros ->. auto. }
  assert (AB : forall a, LB a -> exists o o', nth_error P a = Some o /\ nth_error (mCells m) (g a) = Some o' /\ alikeB g o o' /\ forall x, In x (kids o) -> LB x).
  { intros a Ha. destruct (HB a Ha) as (_ & o & c & X1 & X2 & X3 & X4). exists o, (entry P true (mVars m) o). split; auto. split; [|split; auto].
    - unfold g, cell. rewrite X2. auto.
    - destruct o as [nm i x cs rs|nm i cm it rs gs ac|nm i cm os gs]; unfold entry, literal, withKids, writesName; simpl; repeat split; auto.
      + intros ->. auto.
      + intros ->. auto. }
  assert (Hok1 : forall a o, L a -> nth_error P a = Some o -> isCh o = false -> hasFlag (commitTypeOf o) CUserDefined = true -> ok a) by (intros; split; eauto).
  assert (Hok2 : forall a, ok a -> L a /\ exists o, nth_error P a = Some o /\ isCh o = false /\ hasFlag (commitTypeOf o) CUserDefined = true) by auto.
  assert (HoptB : forall a n i c os gs x ox ox', LB a -> nth_error P a = Some (PChoice n i c os gs) -> In x os -> nth_error P x = Some ox -> nth_error (mCells m) (g x) = Some ox' -> nodeID ox' = nodeID ox).
  { intros a n0 i c os gs x ox ox' Ha Eo Hx Ex Ex'. destruct (HB a Ha) as (Hl & _). pose proof (Hopt _ _ _ _ _ _ _ _ Hl Eo Hx Ex) as Hc.
    destruct (AB a Ha) as (o1 & o2 & F1 & _ & _ & F4). rewrite Eo in F1. inversion F1; subst o1. destruct (AB x (F4 x Hx)) as (o3 & o4 & G1 & G2 & G3 & _).
    rewrite Ex in G1. rewrite Ex' in G2. inversion G1; subst o3. inversion G2; subst o4. destruct ox, ox'; simpl in *; try discriminate; intuition. }
  assert (R : rel (fun x y => x = y \/ exists o l c o1 o2, nth_error P root = Some o1 /\ nth_error (mCells m) (f root) = Some o2 /\ x = Failed (ErrParse o l c (definitionName (nodeName o1))) /\ y = Failed (ErrParse o l c (definitionName (nodeName o2))) /\ (rootNamed P root -> definitionName (nodeName o1) = definitionName (nodeName o2)))
    (parseInput P kws root fuel input e) (parseInputPB (mCells m) (mCells m) (map f kws) (f root) (g root) fuel input e)).
  { unfold parseInput, parseInputPB. eapply rel_bind.
    { apply (parse_sim f ok P (mCells m) L AP Hok1 kws fuel H1 root (newContext input e) (newContext input e) H2). split; auto. intros p; discriminate. }
    intros c d Hc. pose proof Hc as [Hd _]. replace (cReadErr d) with (cReadErr c) by (subst d; auto). destruct (cReadErr c); [constructor; auto|].
    eapply rel_bind.
    { apply (finalize_sim f ok P (mCells m) L AP Hok2 root H2 c d Hc). }
    intros [c1 [e1|]] [d1 [e2|]] [X1 X2]; simpl in X1, X2; try contradiction.
    - constructor. destruct X2 as [[->|(o & l & cc & o1 & o2 & W1 & W2 & -> & ->)] X3]; [left; auto|]. right. exists o, l, cc, o1, o2. split; auto. split; auto. split; auto. split; auto.
      intros Hr. specialize (X3 Hr). inversion X3; auto.
    - eapply rel_bind.
      { apply (build_sim f g P (mCells m) LB AB HoptB fuel root (setResults (setOffset c1 0) (resetPending (cResults (setOffset c1 0)))) (setResults (setOffset d1 0) (resetPending (cResults (setOffset d1 0))))); auto.
        destruct X1 as [-> _]. reflexivity. }
      intros [[n1 b1] c2] [[n2 b2] d2] [Y1 Y2]. simpl in Y1, Y2. inversion Y1; subst n2 b2. destruct n1; constructor. left. rewrite Y2. auto. }
  fold f g. inversion R as [x y Hxy Q1 Q2|w Q1 Q2|Q1 Q2].
  - destruct Hxy as [->|(o & l & cc & o1 & o2 & W1 & W2 & -> & -> & Hr)]; [split; auto; left; auto|]. split; [|intros X; rewrite Hr; auto].
    intros o3 Ho3. rewrite W1 in Ho3. inversion Ho3; subst o3.
    destruct (HL root H2) as (_ & o4 & c4 & X1 & X2 & X3 & X4). rewrite W1 in X1. inversion X1; subst o4.
    assert (W3 : nth_error (mCells m) (f root) = Some (entry P false (mVars m) o1)) by (unfold f, cell; rewrite X2; auto). rewrite W2 in W3. inversion W3; subst o2. clear W3.
    assert (En : nodeName (entry P false (mVars m) o1) = nodeName o1 \/ nodeName (entry P false (mVars m) o1) = ""%string).
    { destruct o1 as [nm i x0 cs rs|nm i cm it rs gs ac|nm i cm os gs]; unfold entry, literal, withKids, writesName; simpl; auto; destruct (hasFlag cm CUserDefined); auto. }
    fold (f root) (g root). rewrite <- Q2. destruct En as [En|En]; rewrite En; [left; auto|right; exists o, l, cc; auto].
  - split; auto. left; auto.
  - split; auto. left; auto.
Qed.
End RUN.
