(** Matching computes the reference outcome of every definition whose reference outcome exists. *)
From Verif Require Import Base Utf8 IdSet Results Parser Build ListFacts ResultsFacts ReaderFacts ParseFacts
  FuelFacts TermFacts Lang Sound RunFacts NoPanic RefSpec RefFuel.

(** the graph of a parser heap *)
Definition toBounds (r : Z * Z) : nat * option nat :=
  (Z.to_nat (fst r), if Z.ltb 0 (snd r) then Some (Z.to_nat (snd r)) else None).
Definition heapLabel (name : string) (commit : commitType) : option string :=
  if hasFlag commit CAlias then None else Some name.
Definition heapGraph (P : pheap) (a : addr) : option (gobj addr) :=
  match nth_error P a with
  | None => None
  | Some (PChar _ _ cnot chars ranges) => Some (GChar cnot chars ranges)
  | Some (PSeq name _ commit items ranges _ _) =>
    Some (GSeq (heapLabel name commit) (hasFlag commit CNoKeyword) (combine items (map toBounds ranges)))
  | Some (PChoice name _ commit options _) => Some (GChoice (heapLabel name commit) options)
  end.

Lemma matchChar_classHas chars ranges cnot r : matchChar chars ranges cnot r = classHas cnot chars ranges r.
Proof.
  unfold matchChar, classHas.
  assert (H : existsb (Z.eqb r) chars = existsb (fun ci => Z.eqb ci r) chars).
  { induction chars as [|x l IH]; simpl; auto. rewrite IH, Z.eqb_sym. auto. }
  rewrite H. clear H. destruct (existsb (fun ci => Z.eqb ci r) chars); simpl; [destruct cnot; auto|].
  match goal with |- context [existsb ?f ranges] => destruct (existsb f ranges) end; destruct cnot; auto.
Qed.
Lemma toBounds_min mn mx n : (Z.leb mn (Z.of_nat n)) = (fst (toBounds (mn, mx)) <=? n).
Proof. unfold toBounds; simpl. destruct (Z.leb_spec mn (Z.of_nat n)), (Nat.leb_spec (Z.to_nat mn) n); auto; lia. Qed.
Lemma toBounds_max mn mx n : (Z.ltb 0 mx && Z.eqb (Z.of_nat n) mx)%bool =
  match snd (toBounds (mn, mx)) with Some m => n =? m | None => false end.
Proof.
  unfold toBounds; simpl. destruct (Z.ltb_spec 0 mx); auto. simpl.
  destruct (Z.eqb_spec (Z.of_nat n) mx), (Nat.eqb_spec n (Z.to_nat mx)); auto; lia.
Qed.
Lemma skipn_combine {A B} (l : list A) (m : list B) i a b : nth_error l i = Some a -> nth_error m i = Some b ->
  skipn i (combine l m) = (a, b) :: skipn (S i) (combine l m).
Proof.
  revert l m. induction i as [|i IH]; intros [|x l] [|y m] H1 H2; simpl in *; try discriminate.
  - inversion H1; inversion H2; auto.
  - apply IH; auto.
Qed.
Lemma skipn_combine_none {A B} (l : list A) (m : list B) i : nth_error l i = None -> skipn i (combine l m) = [].
Proof.
  intros H. apply nth_error_None in H. apply skipn_all2. rewrite combine_length. lia.
Qed.
Lemma between_slice : between = slice.
Proof. reflexivity. Qed.

Section REF.
Variable P : pheap.
Variable kws : list addr.
Variable K : list (list rune).
Variable input : list rune.
Hypothesis Hids : uniqueIds P.
Hypothesis Hgens : gensOk P.
Hypothesis HK1 : forall w, In w K -> exists kw, In kw kws /\ literal P kw w.
Hypothesis HK2 : forall kw, In kw kws -> exists w, In w K /\ literal P kw w.
Hypothesis Hnk : forall a name id commit options gs,
  nth_error P a = Some (PChoice name id commit options gs) -> hasFlag commit CNoKeyword = false.
Hypothesis Hvalid : ~ In runeError input.

Notation G := (heapGraph P).
Notation ev := (eval G K input).
Notation Ev := (Gives G K input).
Notation cinv := (cinv input REof GT).
Notation post := (post P input REof GT).

Definition objItems (items : list addr) (ranges : list (Z * Z)) := combine items (map toBounds ranges).

Lemma eval_char n a name id cnot chars ranges o : nth_error P a = Some (PChar name id cnot chars ranges) ->
  ev (S n) a o = match nth_error input o with
                 | Some r => if classHas cnot chars ranges r then Match (S o) [] else NoMatch
                 | None => NoMatch
                 end.
Proof. intros H. assert (HG : G a = Some (GChar cnot chars ranges)) by (unfold heapGraph; rewrite H; auto). cbn [eval]. rewrite HG. auto. Qed.
Lemma eval_seq n a name id commit items ranges gs ac o : nth_error P a = Some (PSeq name id commit items ranges gs ac) ->
  ev (S n) a o = match evalItems (ev n) n (objItems items ranges) 0 o with
                 | Match t ns => if hasFlag commit CNoKeyword && isOneOf (between input o t) K then NoMatch
                                 else labelled (heapLabel name commit) o (Match t ns)
                 | r => r
                 end.
Proof.
  intros H. assert (HG : G a = Some (GSeq (heapLabel name commit) (hasFlag commit CNoKeyword) (objItems items ranges)))
    by (unfold heapGraph; rewrite H; auto). cbn [eval]. rewrite HG. auto.
Qed.
Lemma eval_choice n a name id commit options gs o : nth_error P a = Some (PChoice name id commit options gs) ->
  ev (S n) a o = labelled (heapLabel name commit) o (evalOptions (ev n) options o NoMatch).
Proof. intros H. assert (HG : G a = Some (GChoice (heapLabel name commit) options)) by (unfold heapGraph; rewrite H; auto). cbn [eval]. rewrite HG. auto. Qed.

(** the sub-calls of a sequence *)
Inductive asks : list (addr * (nat * option nat)) -> nat -> nat -> addr -> nat -> Prop :=
| as_here x b its n o : asks ((x, b) :: its) n o x o
| as_skip x mn mx its n o y o' : Ev x o NoMatch -> mn <= n -> asks its 0 o y o' -> asks ((x, (mn, mx)) :: its) n o y o'
| as_empty x b its n o ns y o' : Ev x o (Match o ns) -> asks its 0 o y o' -> asks ((x, b) :: its) n o y o'
| as_max x mn m its n o t ns y o' : Ev x o (Match t ns) -> o < t -> S n = m -> asks its 0 t y o' ->
    asks ((x, (mn, Some m)) :: its) n o y o'
| as_more x mn mx its n o t ns y o' : Ev x o (Match t ns) -> o < t -> mx <> Some (S n) -> asks ((x, (mn, mx)) :: its) (S n) t y o' ->
    asks ((x, (mn, mx)) :: its) n o y o'.

Definition isSeqObj (o : pobj) : Prop := match o with PSeq _ _ _ _ _ _ _ => True | _ => False end.

(** what the memo table says is what the reference says *)
Record tres (r : results) : Prop := mkTres {
  ti_2 : forall b ob o t x, nth_error P b = Some ob -> nonChar ob -> stored r o (nodeID ob) t -> Ev b o x ->
         exists t' ns, x = Match t' ns /\ t <= t' /\ (isSeqObj ob -> t = t');
  ti_3 : forall b ob o x, nth_error P b = Some ob -> nonChar ob -> noMatchHas r o (nodeID ob) = true -> Ev b o x -> x = NoMatch;
  ti_4 : forall b name id commit options gs o t t' ns, nth_error P b = Some (PChoice name id commit options gs) ->
         stored r o id t -> pcount r o id = 0 -> Ev b o (Match t' ns) -> stored r o id t';
  ti_5c : forall b name id commit options gs o t x ox t' ns, nth_error P b = Some (PChoice name id commit options gs) ->
         stored r o id t -> pcount r o id = 0 -> In x options -> nth_error P x = Some ox -> nonChar ox ->
         Ev x o (Match t' ns) -> stored r o (nodeID ox) t';
  ti_5s : forall b name id commit items ranges gs o t x o' ox t' ns,
         nth_error P b = Some (PSeq name id commit items ranges gs false) -> stored r o id t ->
         asks (objItems items ranges) 0 o x o' -> nth_error P x = Some ox -> nonChar ox ->
         Ev x o' (Match t' ns) -> stored r o' (nodeID ox) t' }.
Definition tinv (c : context) : Prop := cinv c /\ tres (cResults c).

(** nothing in progress has an outcome at depth [n] *)
Definition pend (n : nat) (c : context) : Prop :=
  forall b ob o, nth_error P b = Some ob -> nonChar ob -> 0 < pcount (cResults c) o (nodeID ob) -> ev n b o = Unfinished.

Definition agrees (p : addr) (c c' : context) (r : outcome) : Prop :=
  match r with
  | Match t _ => cMatchLast c' = true /\ cOffset c' = t /\
                 forall ob, nth_error P p = Some ob -> nonChar ob -> stored (cResults c') (cOffset c) (nodeID ob) t
  | NoMatch => cMatchLast c' = false
  | Unfinished => False
  end.

Lemma Ev_fun a o r r' : Ev a o r -> Ev a o r' -> r = r'.
Proof. apply Gives_fun. Qed.
Lemma Ev_at n a o : ev n a o <> Unfinished -> Ev a o (ev n a o).
Proof. intros H. split; auto. exists n; auto. Qed.
Lemma ev_lower n a o : ev (S n) a o = Unfinished -> ev n a o = Unfinished.
Proof.
  intros H. destruct (ev n a o) eqn:E; auto; exfalso;
    assert (X : ev (S n) a o = ev n a o) by (apply eval_mono1; rewrite E; discriminate); rewrite H, E in X; discriminate.
Qed.
Lemma pend_lower n c : pend (S n) c -> pend n c.
Proof. intros H b ob o Hb Hn Hp. apply ev_lower. eapply H; eauto. Qed.
Lemma pend_same n c c' : samePending c c' -> pend n c -> pend n c'.
Proof. intros H Hp b ob o Hb Hn Hc. rewrite H in Hc. eauto. Qed.
Lemma pend_mark n c a ob : nth_error P a = Some ob -> nonChar ob -> ev n a (cOffset c) = Unfinished -> pend n c ->
  pend n (setResults c (markPending (cResults c) (cOffset c) (nodeID ob))).
Proof.
  intros Ha Hna He Hp b ob' o Hb Hn Hc. simpl in Hc. rewrite pcount_mark in Hc.
  destruct (Nat.eqb_spec (nodeID ob) (nodeID ob')) as [Hi|Hi]; simpl in Hc.
  - destruct (Nat.eqb_spec (cOffset c) o) as [<-|Ho]; simpl in Hc.
    + assert (a = b) by (eapply Hids; eauto). subst b. auto.
    + eapply Hp; eauto. lia.
  - eapply Hp; eauto. lia.
Qed.

Lemma tinv_noErr c : cinv c -> cReadErr c = None.
Proof.
  intros H. pose proof (ri_case _ _ _ (ci_r _ _ _ _ H)) as Hc. destruct (cReadErr c) as [[]|]; auto; try contradiction.
  - destruct Hc as [-> _]. exfalso. apply Hvalid. apply in_or_app. right. left. auto.
  - destruct Hc as (_ & Hc & _). discriminate.
Qed.

(** tres depends on the matches, the non-matches, and grows with the pending marks *)
Lemma tres_ext r r' : (forall o i t, stored r' o i t <-> stored r o i t) ->
  (forall o i, noMatchHas r' o i = noMatchHas r o i) ->
  (forall a name id commit options gs o, nth_error P a = Some (PChoice name id commit options gs) ->
     pcount r' o id = 0 -> pcount r o id = 0) -> tres r -> tres r'.
Proof.
  intros H1 H2 H3 [A B C D F]. split.
  - intros b ob o t x Hb Hn Hs. apply H1 in Hs. eauto.
  - intros b ob o x Hb Hn Hs. rewrite H2 in Hs. eauto.
  - intros b name id commit options gs o t t' ns Hb Hs Hp He. apply H1 in Hs. apply H1. eauto.
  - intros b name id commit options gs o t x ox t' ns Hb Hs Hp Hx Hox Hn He. apply H1 in Hs. apply H1. eauto.
  - intros b name id commit items ranges gs o t x o' ox t' ns Hb Hs Ha Hox Hn He. apply H1 in Hs. apply H1. eauto.
Qed.
Lemma tres_same r r' : rMatch r' = rMatch r -> rNoMatch r' = rNoMatch r ->
  (forall o i, pcount r' o i = pcount r o i) -> tres r -> tres r'.
Proof.
  intros H1 H2 H3. apply tres_ext.
  - apply stored_ext; auto.
  - apply noMatchHas_ext; auto.
  - intros. rewrite <- H3; auto.
Qed.

(** storing a match of a pending choice *)
Lemma tres_setChoice r a name id commit options gs o t : nth_error P a = Some (PChoice name id commit options gs) ->
  0 < pcount r o id -> (forall x, Ev a o x -> exists t' ns, x = Match t' ns /\ t <= t') ->
  tres r -> tres (setMatch r o id t).
Proof.
  intros Ha Hp He [A B C D F].
  assert (Hst : forall b ob o' t', nth_error P b = Some ob -> nonChar ob -> stored (setMatch r o id t) o' (nodeID ob) t' ->
            stored r o' (nodeID ob) t' \/ (b = a /\ o' = o /\ t' = t)).
  { intros b ob o' t' Hb Hn Hs. apply stored_setMatch in Hs. destruct Hs as [Hs|(-> & Hi & ->)]; auto.
    right. split; auto. eapply Hids; eauto. exact I. }
  split.
  - intros b ob o' t' x Hb Hn Hs Hx. destruct (Hst _ _ _ _ Hb Hn Hs) as [Hs'|(-> & -> & ->)]; [eauto|].
    destruct (He _ Hx) as (t1 & ns & -> & Hle). exists t1, ns. split; auto. split; auto.
    rewrite Ha in Hb. inversion Hb; subst. intros [].
  - intros b ob o' x Hb Hn Hs. rewrite (noMatchHas_ext _ _ (noMatch_setMatch _ _ _ _)) in Hs. eauto.
  - intros b name' id' commit' options' gs' o' t1 t' ns Hb Hs Hp' Hx. rewrite pcount_setMatch in Hp'.
    destruct (Hst _ _ _ _ Hb I Hs) as [Hs'|(-> & -> & ->)]; [apply stored_setMatch; left; simpl in Hs'; eauto|].
    rewrite Ha in Hb. inversion Hb; subst. lia.
  - intros b name' id' commit' options' gs' o' t1 x ox t' ns Hb Hs Hp' Hx Hox Hn He'. rewrite pcount_setMatch in Hp'.
    destruct (Hst _ _ _ _ Hb I Hs) as [Hs'|(-> & -> & ->)]; [apply stored_setMatch; left; simpl in Hs'; eauto|].
    rewrite Ha in Hb. inversion Hb; subst. lia.
  - intros b name' id' commit' items' ranges' gs' o' t1 x o'' ox t' ns Hb Hs Has Hox Hn He'.
    destruct (Hst _ _ _ _ Hb I Hs) as [Hs'|(-> & -> & ->)]; [apply stored_setMatch; left; simpl in Hs'; eauto|].
    rewrite Ha in Hb. discriminate.
Qed.
(** storing a match of a sequence *)
Lemma tres_setSeq r a name id commit items ranges gs ac o t : nth_error P a = Some (PSeq name id commit items ranges gs ac) ->
  (forall x, Ev a o x -> exists ns, x = Match t ns) ->
  (ac = false -> forall x o' ox t' ns, asks (objItems items ranges) 0 o x o' -> nth_error P x = Some ox -> nonChar ox ->
         Ev x o' (Match t' ns) -> stored r o' (nodeID ox) t') ->
  tres r -> tres (setMatch r o id t).
Proof.
  intros Ha He Hc [A B C D F].
  assert (Hst : forall b ob o' t', nth_error P b = Some ob -> nonChar ob -> stored (setMatch r o id t) o' (nodeID ob) t' ->
            stored r o' (nodeID ob) t' \/ (b = a /\ o' = o /\ t' = t)).
  { intros b ob o' t' Hb Hn Hs. apply stored_setMatch in Hs. destruct Hs as [Hs|(-> & Hi & ->)]; auto.
    right. split; auto. eapply Hids; eauto. exact I. }
  split.
  - intros b ob o' t' x Hb Hn Hs Hx. destruct (Hst _ _ _ _ Hb Hn Hs) as [Hs'|(-> & -> & ->)]; [eauto|].
    destruct (He _ Hx) as (ns & ->). exists t, ns. split; auto.
  - intros b ob o' x Hb Hn Hs. rewrite (noMatchHas_ext _ _ (noMatch_setMatch _ _ _ _)) in Hs. eauto.
  - intros b name' id' commit' options' gs' o' t1 t' ns Hb Hs Hp' Hx. rewrite pcount_setMatch in Hp'.
    destruct (Hst _ _ _ _ Hb I Hs) as [Hs'|(-> & -> & ->)]; [apply stored_setMatch; left; simpl in Hs'; eauto|].
    rewrite Ha in Hb. discriminate.
  - intros b name' id' commit' options' gs' o' t1 x ox t' ns Hb Hs Hp' Hx Hox Hn He'. rewrite pcount_setMatch in Hp'.
    destruct (Hst _ _ _ _ Hb I Hs) as [Hs'|(-> & -> & ->)]; [apply stored_setMatch; left; simpl in Hs'; eauto|].
    rewrite Ha in Hb. discriminate.
  - intros b name' id' commit' items' ranges' gs' o' t1 x o'' ox t' ns Hb Hs Has Hox Hn He'.
    destruct (Hst _ _ _ _ Hb I Hs) as [Hs'|(-> & -> & ->)]; [apply stored_setMatch; left; simpl in Hs'; eauto|].
    rewrite Ha in Hb. inversion Hb; subst. apply stored_setMatch; left. eapply Hc; eauto.
Qed.

(** a choice that generalizes a definition matches at least as much *)
Lemma Ev_choice a name id commit options gs o r : nth_error P a = Some (PChoice name id commit options gs) ->
  Ev a o r -> exists n, evalOptions (ev n) options o NoMatch <> Unfinished /\ r = labelled (heapLabel name commit) o (evalOptions (ev n) options o NoMatch).
Proof.
  intros Ha [Hr (n & E)]. destruct n as [|n]; [simpl in E; congruence|]. rewrite (eval_choice _ _ _ _ _ _ _ _ Ha) in E. exists n. split; auto. intros H. rewrite H in E. simpl in E. congruence.
Qed.
Lemma option_le a name id commit options gs o r op t ns : nth_error P a = Some (PChoice name id commit options gs) ->
  In op options -> Ev op o (Match t ns) -> Ev a o r -> exists t' ns', r = Match t' ns' /\ t <= t'.
Proof.
  intros Ha Hin Ho Hr. destruct (Ev_choice _ _ _ _ _ _ _ _ Ha Hr) as (n & Hn & ->).
  destruct (evalOptions_spec (ev n) o options NoMatch) as [H1 H2]; [discriminate|auto|].
  assert (Eop : ev n op o = Match t ns) by (eapply Ev_fun; [apply Ev_at; auto|exact Ho]).
  destruct (evalOptions (ev n) options o NoMatch) as [| |t' ns']; [contradiction| |].
  - destruct H2 as [_ H2]. rewrite (H2 _ Hin) in Eop. discriminate.
  - destruct H2 as (_ & H2 & _). simpl. exists t'. eexists. split; eauto.
Qed.
Lemma option_defined a name id commit options gs o r op : nth_error P a = Some (PChoice name id commit options gs) ->
  In op options -> Ev a o r -> exists r', Ev op o r'.
Proof.
  intros Ha Hin Hr. destruct (Ev_choice _ _ _ _ _ _ _ _ Ha Hr) as (n & Hn & ->).
  destruct (evalOptions_spec (ev n) o options NoMatch) as [H1 H2]; [discriminate|auto|].
  exists (ev n op o). apply Ev_at. auto.
Qed.
Lemma gen_le x a : generalizes P x a -> forall o t ns r, Ev a o (Match t ns) -> Ev x o r ->
  exists t' ns', r = Match t' ns' /\ t <= t'.
Proof.
  induction 1 as [x a name id commit options gs Hx Hin|x op a name id commit options gs Hx Hin Hg IH]; intros o t ns r Ha Hr.
  - eapply option_le; eauto.
  - destruct (option_defined _ _ _ _ _ _ _ _ _ Hx Hin Hr) as (r' & Hop).
    destruct (IH _ _ _ _ Ha Hop) as (t1 & ns1 & -> & H1).
    destruct (option_le _ _ _ _ _ _ _ _ _ _ _ Hx Hin Hop Hr) as (t2 & ns2 & -> & H2). exists t2, ns2. split; auto. lia.
Qed.
Lemma generalizes_choice x a : generalizes P x a -> exists name id commit options gs, nth_error P x = Some (PChoice name id commit options gs).
Proof. destruct 1; eauto 10. Qed.

(** the matches stored for the choices above a sequence *)
Lemma tres_gens a name id commit items ranges gs ac o t ns : nth_error P a = Some (PSeq name id commit items ranges gs ac) ->
  Ev a o (Match t ns) -> forall gs' r, incl gs' gs -> tres r -> tres (setGeneralizations o t gs' r).
Proof.
  intros Ha He. unfold setGeneralizations. induction gs' as [|g gs' IH]; intros r Hi Hr; simpl; auto.
  apply IH; [intros y Hy; apply Hi; right; auto|].
  destruct (pending r o g) eqn:Ep; auto. apply pending_pcount in Ep.
  (* either no object has this identity, or it is a choice that generalizes the sequence *)
  assert (Hdec : (exists x ox, nth_error P x = Some ox /\ nonChar ox /\ nodeID ox = g) \/
                 (forall x ox, nth_error P x = Some ox -> nonChar ox -> nodeID ox <> g)).
  { clear. induction P as [|ob P0 IHP].
    - right. intros [|x] ox H; discriminate.
    - destruct IHP as [(x & ox & H)|H]; [left; exists (S x), ox; auto|].
      destruct ob as [n0 i0 b0 c0 r0|n0 i0 c0 it0 r0 g0 a0|n0 i0 c0 op0 g0].
      + right. intros [|x] ox Hx Hn; [inversion Hx; subst; contradiction|]. apply (H x); auto.
      + destruct (Nat.eq_dec i0 g) as [<-|Hne]; [left; exists 0; eexists; split; [reflexivity|]; split; [exact I|auto]|].
        right. intros [|x] ox Hx Hn; [inversion Hx; subst; auto|]. apply (H x); auto.
      + destruct (Nat.eq_dec i0 g) as [<-|Hne]; [left; exists 0; eexists; split; [reflexivity|]; split; [exact I|auto]|].
        right. intros [|x] ox Hx Hn; [inversion Hx; subst; auto|]. apply (H x); auto. }
  destruct Hdec as [(x & ox & Hx & Hn & <-)|Hno].
  - assert (Hg : generalizes P x a) by (eapply Hgens; eauto; simpl; apply Hi; left; auto).
    destruct (generalizes_choice _ _ Hg) as (nm & i & cm & ops & gs0 & Hx'). rewrite Hx in Hx'. inversion Hx'; subst ox.
    eapply tres_setChoice; eauto. intros r0 Hr0. eapply gen_le; eauto.
  - assert (Hst : forall b ob o' t', nth_error P b = Some ob -> nonChar ob -> stored (setMatch r o g t) o' (nodeID ob) t' <-> stored r o' (nodeID ob) t').
    { intros b ob o' t' Hb Hn. rewrite stored_setMatch. split; auto. intros [|(_ & E & _)]; auto. exfalso. eapply Hno; eauto. }
    destruct Hr as [A B C D F]. split.
    + intros b ob o' t' x Hb Hn Hs. apply (Hst b ob) in Hs; auto. eauto.
    + intros b ob o' x Hb Hn Hs. rewrite (noMatchHas_ext _ _ (noMatch_setMatch _ _ _ _)) in Hs. eauto.
    + intros b nm i cm ops g0 o' t1 t' ns' Hb Hs Hp Hx. rewrite pcount_setMatch in Hp.
      apply (Hst b _ o' t1 Hb I) in Hs. apply (Hst b _ o' t' Hb I). simpl in *. eauto.
    + intros b nm i cm ops g0 o' t1 x ox t' ns' Hb Hs Hp Hx Hox Hn He'. rewrite pcount_setMatch in Hp.
      apply (Hst b _ o' t1 Hb I) in Hs. apply stored_setMatch. left. simpl in Hs. eauto.
    + intros b nm i cm its rg g0 o' t1 x o'' ox t' ns' Hb Hs Has Hox Hn He'.
      apply (Hst b _ o' t1 Hb I) in Hs. apply stored_setMatch. left. simpl in Hs. eauto.
Qed.

(** ** literals *)
Lemma seqRun_lit (items : list addr) ranges : forall lit ii o t,
  Forall2 (fun a r => exists n i, nth_error P a = Some (PChar n i false [r] [])) (skipn ii items) lit ->
  (forall i, i < List.length items -> nth_error ranges i = Some (1, 1)%Z) -> t <= List.length input ->
  seqRun P input GT items ranges ii 0 o t -> slice input o t = lit /\ o <= t.
Proof.
  induction lit as [|r lit IH]; intros ii o t HF Hr Ht H.
  - inversion HF as [Hn|]; subst. assert (Hge : List.length items <= ii).
    { destruct (Nat.le_gt_cases (List.length items) ii); auto.
      assert (List.length (skipn ii items) = 0) by (rewrite <- Hn; auto). rewrite skipn_length in H1. lia. }
    assert (Hnone : nth_error items ii = None) by (apply nth_error_None; auto).
    inversion H; subst; try congruence. split; auto. apply slice_nil.
  - destruct (nth_error items ii) as [a|] eqn:Ea.
    2:{ rewrite (nth_skipn_none _ _ Ea) in HF. inversion HF. }
    rewrite (nth_skipn _ _ _ Ea) in HF. inversion HF as [|a' r' l1 l2 (nm & i & Ha) HF' E1 E2]; subst.
    assert (Hii : ii < List.length items) by (apply nth_error_Some; congruence).
    assert (HIG : forall o', IG P input GT a o o' -> o' = S o /\ nth_error input o = Some r).
    { intros o'. unfold IG. rewrite Ha. intros (-> & r0 & Hr0 & Hm). split; auto.
      unfold matchChar in Hm. simpl in Hm. destruct (Z.eqb_spec r r0); [congruence|discriminate]. }
    pose proof (Hr ii Hii) as Hri.
    inversion H as [ii0 n0 o0 Hn|ii0 n0 o0 t0 mn mx item Hi0 Hr0 Hle H0|ii0 n0 o0 t0 mn mx item Hi0 Hr0 HG H0
      |ii0 n0 o0 o' t0 mn mx item Hi0 Hr0 HG Hlt Hmx H0|ii0 n0 o0 o' t0 mn mx item Hi0 Hr0 HG Hlt Hm0 Hmx H0]; subst;
      try (rewrite Hri in Hr0; inversion Hr0; subst); try (rewrite Ea in Hi0; inversion Hi0; subst).
    + congruence.
    + simpl in Hle. lia.
    + apply HIG in HG. destruct HG; lia.
    + exfalso. apply Hmx. split; lia.
    + apply HIG in HG. destruct HG as [-> Hc]. destruct (IH (S ii) (S o) t HF' Hr Ht H0) as [S1 S2]. split; [|lia].
      rewrite <- (slice_app input o (S o) t) by lia. rewrite (slice_one _ _ _ Hc), S1. auto.
Qed.

Lemma evalItems_lit n (items : list addr) (bs : list (nat * option nat)) : forall lit o k,
  Forall2 (fun (a : addr) r => exists n i, nth_error P a = Some (PChar n i false [r] [])) items lit ->
  Forall2 (fun (a : addr) b => b = (1, Some 1)) items bs ->
  List.length items < k -> 0 < n ->
  evalItems (ev n) k (combine items bs) 0 o <> Unfinished /\
  (slice input o (o + List.length lit) = lit -> o + List.length lit <= List.length input ->
   evalItems (ev n) k (combine items bs) 0 o = Match (o + List.length lit) []) /\
  (forall t ns, evalItems (ev n) k (combine items bs) 0 o = Match t ns -> slice input o t = lit /\ t <= List.length input \/ lit = [] /\ t = o).
Proof.
  revert bs. induction items as [|a items IH]; intros bs lit o k HF HB Hk Hn.
  - inversion HF; subst. destruct k; [simpl in Hk; lia|]. cbn [combine evalItems]. split; [discriminate|].
    rewrite Nat.add_0_r. split; auto. intros t ns E. inversion E; subst. right. auto.
  - inversion HF as [|a' r l1 l2 (nm & i & Ha) HF']; subst. inversion HB as [|a'' b l3 l4 Eb HB']; subst.
    destruct k as [|k]; [simpl in Hk; lia|]. simpl in Hk. cbn [combine evalItems].
    destruct n as [|n]; [lia|]. assert (Ex : ev (S n) a o = match nth_error input o with Some r0 => if Z.eqb r0 r then Match (S o) [] else NoMatch | None => NoMatch end).
    { rewrite (eval_char _ _ _ _ _ _ _ _ Ha). destruct (nth_error input o) as [r0|]; auto.
      unfold classHas. simpl. rewrite orb_false_r, orb_false_r. destruct (Z.eqb r0 r); auto. }
    rewrite Ex. clear Ex. destruct (nth_error input o) as [r0|] eqn:En.
    + destruct (Z.eqb_spec r0 r) as [->|Hne].
      * destruct (Nat.ltb_spec o (S o)); [|lia]. cbn [Nat.eqb].
        destruct (IH l4 l2 (S o) k HF' HB' ltac:(lia) Hn) as (I1 & I2 & I3). split; [|split].
        -- destruct (evalItems (ev (S n)) k (combine items l4) 0 (S o)); simpl; auto; discriminate.
        -- intros Hs Hle. cbn [List.length] in Hs, Hle |- *. replace (o + S (List.length l2)) with (S o + List.length l2) in * by lia.
           rewrite <- (slice_app input o (S o)) in Hs by lia. rewrite (slice_one _ _ _ En) in Hs. inversion Hs as [Hs']. rewrite Hs'.
           rewrite (I2 Hs' Hle). auto.
        -- intros t ns E. destruct (evalItems (ev (S n)) k (combine items l4) 0 (S o)) as [| |t1 ns1] eqn:E1; simpl in E; try discriminate.
           inversion E; subst t1. left.
           assert (Hlo : o < List.length input) by (apply nth_error_Some; congruence).
           destruct (I3 _ _ eq_refl) as [[S1 S2]|[-> ->]].
           ++ split; auto. apply evalItems_ge in E1; [|intros; eapply eval_ge; eauto].
              rewrite <- (slice_app input o (S o) t) by lia. rewrite (slice_one _ _ _ En), S1. auto.
           ++ rewrite (slice_one _ _ _ En). split; auto.
      * cbn [Nat.leb]. split; [discriminate|]. split; [|discriminate]. intros Hs Hle. exfalso.
        assert (E : nth_error (slice input o (o + List.length (r :: l2))) 0 = Some r) by (rewrite Hs; auto).
        rewrite slice_nth in E by (simpl; lia). rewrite Nat.add_0_r in E. congruence.
    + cbn [Nat.leb]. split; [discriminate|]. split; [|discriminate]. intros Hs Hle. exfalso. apply nth_error_None in En. simpl in Hle. lia.
Qed.
Lemma lit_bounds (items : list addr) (ranges : list (Z * Z)) : (forall i, i < List.length items -> nth_error ranges i = Some (1, 1)%Z) ->
  exists bs, Forall2 (fun (a : addr) b => b = (1, Some 1)) items bs /\ combine items (map toBounds ranges) = combine items bs.
Proof.
  revert ranges. induction items as [|a items IH]; intros ranges H; [exists []; split; constructor|].
  destruct ranges as [|r ranges]; [specialize (H 0 ltac:(simpl; lia)); discriminate|].
  destruct (IH ranges) as (bs & H1 & H2).
  { intros i Hi. apply (H (S i)). simpl. lia. }
  pose proof (H 0 ltac:(simpl; lia)) as H0. simpl in H0. inversion H0; subst.
  exists ((1, Some 1) :: bs). split; [constructor; auto|]. simpl. rewrite H2. auto.
Qed.
Lemma Ev_literal kw lit o : literal P kw lit -> exists r, Ev kw o r /\
  (forall t, o <= t -> slice input o t = lit -> t <= List.length input -> exists ns, r = Match t ns) /\
  (forall t ns, r = Match t ns -> slice input o t = lit).
Proof.
  intros (name & id & commit & items & ranges & gs & Hkw & Hnokw & HF & Hr).
  destruct (lit_bounds items ranges Hr) as (bs & HB & Ec).
  set (n := S (List.length items)).
  destruct (evalItems_lit n items bs lit o n HF HB) as (I1 & I2 & I3); [apply Nat.lt_succ_diag_r|apply Nat.lt_0_succ|].
  assert (E : ev (S n) kw o = match evalItems (ev n) n (combine items bs) 0 o with Match t ns => labelled (heapLabel name commit) o (Match t ns) | r => r end).
  { rewrite (eval_seq _ _ _ _ _ _ _ _ _ _ Hkw). unfold objItems. rewrite Hnokw, Ec. cbn [andb]. auto. }
  exists (ev (S n) kw o). split; [|split].
  - apply Ev_at. rewrite E. destruct (evalItems _ _ _ _ _); simpl; congruence.
  - intros t Hot Hs Ht. assert (Hlen : List.length lit = t - o) by (rewrite <- Hs, slice_length; auto).
    rewrite E, I2; [| |lia].
    + simpl. replace (o + List.length lit) with t by lia. eauto.
    + replace (o + List.length lit) with t by lia. auto.
  - intros t ns Et. rewrite E in Et. destruct (evalItems (ev n) n (combine items bs) 0 o) as [| |t1 ns1]; simpl in Et; try discriminate.
    inversion Et; subst. destruct (I3 _ _ eq_refl) as [[S1 S2]|[-> ->]]; auto. apply slice_nil.
Qed.

(** sequences of characters leave the memo table alone until they are done *)
Lemma seqLoop_chars n p id commit (items : list addr) ranges from k :
  (forall a : addr, In a items -> exists nm i b ch rs, nth_error P a = Some (PChar nm i b ch rs)) ->
  forall to ii cnt c out, cinv c -> cOffset c = to -> from <= to ->
  seqLoop (parse P kws n) k p id commit items ranges true from to ii cnt c = Ok out ->
  cResults (match out with SLoop _ c' => c' | SReturn c' => c' end) = cResults c.
Proof.
  intros Hch. induction k as [|k IH]; intros to ii cnt c out H Ho Hft Hk; [discriminate|].
  cbn [seqLoop] in Hk. destruct (nth_error items ii) as [item|] eqn:Ei; [|inversion Hk; auto].
  binv Hk. destruct (Hch item (nth_error_In _ _ Ei)) as (nm & i & b & ch & rs & Hit).
  destruct n as [|n]; [discriminate|]. cbn [parse] in E. rewrite Hit in E.
  destruct (charParse_spec P input REof GT _ _ _ _ _ _ _ _ Hit H E) as [(P1 & P2 & P3 & P4) P5].
  destruct (nth_error ranges ii) as [[mn mx]|]; [|discriminate].
  destruct (cMatchLast x) eqn:Em; cbn [negb] in Hk.
  - destruct P4 as [P4 _].
    destruct (negb (to <? cOffset x) || _)%bool; apply IH in Hk; auto; try lia; congruence.
  - destruct (Z.leb mn _); [apply IH in Hk; auto; try lia; congruence|].
    destruct (fromResults (setOffset x from) id) as [c1|] eqn:Ef.
    + simpl in Hk. inversion Hk; subst.
      assert (H1 : cinv (setOffset x from)) by (apply cinv_offset; auto; apply step_len in P2; pose proof (ci_off _ _ _ _ H); lia).
      destruct (fromResults_spec _ _ _ _ _ _ H1 Ef) as (_ & F2 & _).
      pose proof (sameTR_trans _ _ _ F2 (sameTR_clearFail (cOffset c) c1)) as (_ & F3 & _). rewrite F3. auto.
    + simpl in Hk. inversion Hk; subst. simpl. destruct (sameTR_blame p commit (setOffset x from)) as (_ & -> & _). auto.
Qed.

Lemma literal_chars kw lit : literal P kw lit ->
  exists name id commit items ranges gs, nth_error P kw = Some (PSeq name id commit items ranges gs true) /\
    hasFlag commit CNoKeyword = false /\
    (forall a : addr, In a items -> exists nm i b ch rs, nth_error P a = Some (PChar nm i b ch rs)).
Proof.
  intros (name & id & commit & items & ranges & gs & Hkw & Hnokw & HF & Hr).
  exists name, id, commit, items, ranges, gs. split; auto. split; auto. clear -HF.
  induction HF as [|a r items lit (n & i & H) HF IH]; [intros a []|]. intros b [<-|Hb]; eauto 10.
Qed.

(** a literal keyword, under any limit *)
Lemma literal_tinv n kw lit c c' : literal P kw lit -> tinv c -> parse P kws n kw c = Ok c' ->
  tinv c' /\ (cMatchLast c' = true -> stored (cResults c') (cOffset c) (match nth_error P kw with Some ob => nodeID ob | None => 0 end) (cOffset c')).
Proof.
  intros Hl [H Ht] Hk.
  assert (Hps : post kw c c' /\ (cMatchLast c' = true -> stored (cResults c') (cOffset c) (match nth_error P kw with Some ob => nodeID ob | None => 0 end) (cOffset c'))).
  { destruct (parse_spec P kws input REof GT) with (n := n) (p := kw) (c := c) (c' := c') as [X Y]; auto.
    - intros. split; [exact I|]. intros; exact I.
    - intros. exact I.
    - split; auto. destruct Hl as (nm & id & cm & its & rg & gs & Hkw & _). rewrite Hkw in *. auto. }
  destruct Hps as [Hpost Hst]. split; auto. split; [apply Hpost|].
  pose proof Hl as (name & id & commit & items & ranges & gs & Hkw & Hnokw & HF & Hr).
  destruct (literal_chars _ _ Hl) as (name' & id' & commit' & items' & ranges' & gs' & Hkw' & _ & Hch).
  rewrite Hkw in Hkw'. inversion Hkw'; subst name' id' commit' items' ranges' gs'. clear Hkw'.
  destruct n as [|n]; [discriminate|]. cbn [parse] in Hk. rewrite Hkw in Hk. unfold seqParse in Hk.
  cbn [negb andb] in Hk. binv Hk.
  pose proof (seqLoop_chars _ _ _ _ _ _ _ _ Hch _ _ _ _ _ H eq_refl (Nat.le_refl _) E) as Hres.
  apply (seqLoop_spec P input REof GT) in E; auto; [|intros; eapply post_of; eauto].
  destruct x as [to c1|c1].
  2:{ inversion Hk; subst. rewrite Hres. auto. }
  destruct E as (Q1 & Q2 & Q3 & Q4 & Q5 & Q6). rewrite Hnokw in Hk. cbn [bind] in Hk. simpl in Hk. inversion Hk; subst c'. clear Hk.
  assert (Hto : to <= List.length input) by (rewrite <- Q4; pose proof (ci_off _ _ _ _ Q1); apply cinv_len in Q1; lia).
  destruct (seqRun_lit items ranges lit 0 _ _ HF Hr Hto Q6) as [S1 S2].
  destruct (Ev_literal kw lit (cOffset c) Hl) as (r & Er & E1 & E2).
  destruct (E1 to S2 S1 Hto) as (ns & ->).
  assert (Hc4 : cResults (clearFail to (setResults c1 (setGeneralizations (cOffset c) to gs (cResults c1)))) = setGeneralizations (cOffset c) to gs (cResults c1)).
  { destruct (sameTR_clearFail to (setResults c1 (setGeneralizations (cOffset c) to gs (cResults c1)))) as (_ & -> & _). auto. }
  simpl. rewrite Hc4. eapply tres_setSeq; [exact Hkw| |discriminate|].
  - intros x Hx. exists ns. eapply Ev_fun; eauto.
  - eapply tres_gens; eauto; [apply incl_refl|]. rewrite Hres. auto.
Qed.

(** keywords are recognized exactly *)
Lemma keywordLoop_tinv n l : (forall kw, In kw l -> In kw kws) -> forall from to c c' b,
  tinv c -> from <= to -> to <= List.length (cTokens c) ->
  keywordLoop (parse P kws n) l from to c = Ok (c', b) -> tinv c' /\ (b = true -> In (slice input from to) K).
Proof.
  induction l as [|kw l IH]; intros Hl from to c c' b H Hft Ht Hk; cbn [keywordLoop] in Hk.
  - inversion Hk; subst. split; auto. discriminate.
  - binv Hk. destruct (HK2 kw (Hl kw (or_introl eq_refl))) as (w & Hw & Hlit).
    assert (H0 : tinv (setOffset c from)) by (split; [apply cinv_offset; [lia|apply H]|apply H]).
    destruct (literal_tinv _ _ _ _ _ Hlit H0 E) as [T1 T2].
    pose proof (post_of P kws input REof _ _ _ _ (proj1 H0) E) as (_ & Hst & _). apply step_len in Hst. simpl in Hst.
    destruct (cMatchLast x && (cOffset x =? to))%bool eqn:Eb.
    + inversion Hk; subst. split; auto. intros _. apply andb_true_iff in Eb. destruct Eb as [Eb1 Eb2]. apply Nat.eqb_eq in Eb2.
      specialize (T2 Eb1). simpl in T2. pose proof Hlit as (nm & id & cm & its & rg & gs & Hkw & _). rewrite Hkw in T2. simpl in T2.
      destruct (Ev_literal kw w from Hlit) as (r & Er & _ & E2).
      destruct (ti_2 _ (proj2 T1) kw _ from to r Hkw I ltac:(simpl; rewrite <- Eb2; exact T2) Er) as (t' & ns & -> & _ & Ht').
      rewrite (Ht' I). rewrite (E2 _ _ eq_refl). auto.
    + apply IH in Hk; auto; [intros; apply Hl; right; auto|lia].
Qed.
Lemma isKeyword_tinv n from to c c' b : tinv c -> from <= to -> to <= List.length (cTokens c) ->
  isKeyword (parse P kws n) kws from to c = Ok (c', b) -> tinv c' /\ b = isOneOf (slice input from to) K.
Proof.
  intros H Hft Ht Hk. unfold isKeyword in Hk. binv Hk. destruct x as [c1 b1]. simpl in Hk.
  assert (Hkw : isKeyword (parse P kws n) kws from to c = Ok (c', b)).
  { unfold isKeyword. rewrite E. exact Hk. }
  apply (isKeyword_spec P kws input REof GT) in Hkw; auto.
  2:{ intros; eapply post_of; eauto. }
  2:{ intros; eapply parse_literal; eauto. }
  2:{ apply H. }
  destruct Hkw as (_ & _ & _ & Hnot). inversion Hk; subst.
  apply keywordLoop_tinv in E; auto.
  2:{ split; [apply cinv_limit; apply H|apply H]. }
  destruct E as [[T1 T2] T3]. split; [split; [apply cinv_limit; auto|auto]|].
  destruct b.
  - symmetry. unfold isOneOf. apply existsb_exists. exists (slice input from to). split; auto. destruct (list_eq_dec _ _ _); auto.
  - destruct (isOneOf (slice input from to) K) eqn:Ex; auto. unfold isOneOf in Ex. apply existsb_exists in Ex. destruct Ex as (k & Hk1 & Hk2).
    destruct (list_eq_dec Z.eq_dec (slice input from to) k) as [Es|]; [|discriminate].
    destruct (HK1 k Hk1) as (kw & Hin & Hlit). exfalso. eapply Hnot; eauto.
Qed.

(** ** the recursive step *)
Section REC.
Variable n : nat.
Variable m : nat.
Notation rec := (parse P kws m).
Hypothesis Hrec : forall p c c', tinv c -> cOffsetLimit c = None -> pend n c -> ev n p (cOffset c) <> Unfinished ->
  rec p c = Ok c' -> tinv c' /\ agrees p c c' (ev n p (cOffset c)).

Lemma seqLoop_ref p name id commit items ranges gs ac from k : nth_error P p = Some (PSeq name id commit items ranges gs ac) ->
  forall j to ii cnt c out,
  tinv c -> cOffsetLimit c = None -> pend n c -> cOffset c = to -> from <= to ->
  evalItems (ev n) j (skipn ii (objItems items ranges)) cnt to <> Unfinished ->
  seqLoop rec k p id commit items ranges ac from to ii cnt c = Ok out ->
  match evalItems (ev n) j (skipn ii (objItems items ranges)) cnt to with
  | Match t _ => exists c', out = SLoop t c' /\ tinv c' /\
      (forall x o' ox t' ns, asks (skipn ii (objItems items ranges)) cnt to x o' -> nth_error P x = Some ox -> nonChar ox ->
         Ev x o' (Match t' ns) -> stored (cResults c') o' (nodeID ox) t')
  | NoMatch => exists c', out = SReturn c' /\ tinv c' /\ (Ev p from NoMatch -> cMatchLast c' = false)
  | Unfinished => False
  end.
Proof.
  intros Hp. induction k as [|k IH]; intros j to ii cnt c out H Hl Hpd Ho Hft Hd Hk; [discriminate|].
  cbn [seqLoop] in Hk. destruct j as [|j]; [exfalso; apply Hd; auto|].
  unfold objItems in *. destruct (nth_error items ii) as [item|] eqn:Ei.
  2:{ rewrite (skipn_combine_none _ _ _ Ei) in *. cbn [evalItems] in *. inversion Hk; subst.
      exists c. split; auto. split; auto. intros x o' ox t' ns Ha. inversion Ha. }
  binv Hk. destruct (nth_error ranges ii) as [[mn mx]|] eqn:Er; [|discriminate].
  assert (Er' : nth_error (map toBounds ranges) ii = Some (toBounds (mn, mx))) by (rewrite nth_error_map, Er; auto).
  rewrite (skipn_combine _ _ _ _ _ Ei Er') in *. set (rest := skipn (S ii) (combine items (map toBounds ranges))) in *.
  destruct (toBounds (mn, mx)) as [bmn bmx] eqn:Eb.
  assert (Hmin : forall q, Z.leb mn (Z.of_nat q) = (bmn <=? q)) by (intros q; rewrite (toBounds_min mn mx q), Eb; auto).
  assert (Hmax : forall q, (Z.ltb 0 mx && Z.eqb (Z.of_nat q) mx)%bool = match bmx with Some m => q =? m | None => false end)
    by (intros q; rewrite (toBounds_max mn mx q), Eb; auto).
  cbn [evalItems] in Hd |- *.
  assert (Hx : ev n item to <> Unfinished) by (intros E'; rewrite E' in Hd; auto).
  pose proof (post_of P kws input REof _ _ _ _ (proj1 H) E) as (P1 & P2 & P3 & P4).
  destruct (Hrec item c x H Hl Hpd ltac:(rewrite Ho; exact Hx) E) as [T1 T2]. rewrite Ho in T2.
  pose proof (Ev_at _ _ _ Hx) as HEv.
  assert (Hlx : cOffsetLimit x = None) by (rewrite (st_limit _ _ P2); auto).
  pose proof (pend_same _ _ _ P3 Hpd) as Hpx.
  destruct (ev n item to) as [| |t ns] eqn:Ex; [contradiction| |]; cbn [agrees] in T2.
  - rewrite T2 in *. cbn [negb] in Hk. rewrite Hmin in Hk. destruct (bmn <=? cnt) eqn:Emn.
    + apply Nat.leb_le in Emn.
      apply (IH j) in Hk; auto; try lia. fold rest in Hk.
      destruct (evalItems (ev n) j rest 0 to) as [| |t1 ns1] eqn:E1; auto.
      destruct Hk as (c' & -> & Hc1 & Hc2). exists c'. split; auto. split; auto.
      intros y o' oy t' ns' Ha Hy Hny Hey. inversion Ha as [x0 b0 its0 n0 o0|x0 mn0 mx0 its0 n0 o0 y0 o0' He0 Hm0 Ha0|x0 b0 its0 n0 o0 ns0 y0 o0' He0 Ha0
        |x0 mn0 m0 its0 n0 o0 t0 ns0 y0 o0' He0 Hlt0 Hm0 Ha0|x0 mn0 mx0 its0 n0 o0 t0 ns0 y0 o0' He0 Hlt0 Hm0 Ha0]; subst.
      * pose proof (Ev_fun _ _ _ _ HEv Hey). discriminate.
      * eapply Hc2; eauto.
      * pose proof (Ev_fun _ _ _ _ HEv He0). discriminate.
      * pose proof (Ev_fun _ _ _ _ HEv He0). discriminate.
      * pose proof (Ev_fun _ _ _ _ HEv He0). discriminate.
    + assert (H1 : cinv (setOffset x from)).
      { apply cinv_offset; [|apply T1]. apply step_len in P2. pose proof (ci_off _ _ _ _ (proj1 H)). lia. }
      destruct (fromResults (setOffset x from) id) as [c1|] eqn:Ef.
      * destruct (fromResults_spec _ _ _ _ _ _ H1 Ef) as (F1 & F2 & F3). simpl in F3.
        assert (Em1 : Ev p from NoMatch -> cMatchLast c1 = false).
        { intros Hno. destruct (cMatchLast c1) eqn:Em1; auto. exfalso. destruct F3 as (_ & F3 & _).
          destruct (ti_2 _ (proj2 T1) p _ from _ _ Hp I F3 Hno) as (t' & ns' & Hc & _). discriminate. }
        binv Hk. inversion Hk; subst; clear Hk.
        pose proof (sameTR_trans _ _ _ F2 (sameTR_clearFail (cOffset c) c1)) as (F4 & F5 & F6). simpl in F5.
        pose proof E0 as E0'. apply (unmarkUnless_spec input REof GT) in E0; [|apply cinv_clearFail; auto].
        destruct E0 as (U1 & U2 & U3 & U4 & U5 & U6). eexists. split; eauto. split; [|rewrite U5, matchLast_clearFail; auto].
        split; auto. eapply tres_ext; [| | |exact (proj2 T1)].
        -- intros o i t. rewrite (stored_ext _ _ U6). rewrite F5. tauto.
        -- intros o i. clear -E0' F5. unfold unmarkUnless, mapResults in E0'. destruct ac; [inversion E0'; subst; now rewrite F5|].
           binv E0'. inversion E0'; subst. simpl. destruct (unmark_match _ _ _ _ E) as [_ M]. rewrite (noMatchHas_ext _ _ M), F5. auto.
        -- intros a nm0 id0 cm0 ops0 gs0 o Ha Hz. rewrite U3, F5 in Hz. destruct ac; [lia|].
           destruct (Nat.eqb_spec id id0) as [->|Hne]; [|simpl in Hz; lia]. exfalso.
           assert (a = p) by (eapply Hids; [exact Ha|exact Hp| | |]; auto; exact I). subst a. congruence.
      * binv Hk. inversion Hk; subst; clear Hk.
        assert (H2 : cinv (blame p commit (setOffset x from))) by (apply cinv_blame; auto).
        destruct (sameTR_blame p commit (setOffset x from)) as (B1 & B2 & B3). simpl in B1, B2, B3.
        pose proof E0 as E0'. apply (unmarkUnless_spec input REof GT) in E0.
        2:{ apply cinv_fail; auto. rewrite B1. apply step_len in P2. pose proof (ci_off _ _ _ _ (proj1 H)). lia. }
        destruct E0 as (U1 & U2 & U3 & U4 & U5 & U6). simpl in U6. eexists. split; eauto. split; [|rewrite U5; auto].
        split; auto. eapply tres_ext; [| | |exact (proj2 T1)].
        -- intros o i t. rewrite (stored_ext _ _ U6). rewrite B2. tauto.
        -- intros o i. clear -E0' B2. unfold unmarkUnless, mapResults in E0'. destruct ac; [inversion E0'; subst; simpl; now rewrite B2|].
           binv E0'. inversion E0'; subst. simpl in *. destruct (unmark_match _ _ _ _ E) as [_ M]. rewrite (noMatchHas_ext _ _ M), B2. auto.
        -- intros a nm0 id0 cm0 ops0 gs0 o Ha Hz. rewrite U3 in Hz. simpl in Hz. rewrite B2 in Hz. destruct ac; [lia|].
           destruct (Nat.eqb_spec id id0) as [->|Hne]; [|simpl in Hz; lia]. exfalso.
           assert (a = p) by (eapply Hids; [exact Ha|exact Hp| | |]; auto; exact I). subst a. congruence.
  - destruct T2 as (T2 & T3 & T4). rewrite T2 in *. cbn [negb orb] in Hk. destruct P4 as [P4 _]. rewrite Ho, T3 in P4.
    rewrite T3 in Hk. rewrite Ho in T4.
    assert (Hhere : forall c' ox t' ns', step x c' -> nth_error P item = Some ox -> nonChar ox -> Ev item to (Match t' ns') ->
              stored (cResults c') to (nodeID ox) t').
    { intros c' ox t' ns' Hst Hox Hn He. pose proof (Ev_fun _ _ _ _ HEv He) as Hq. inversion Hq; subst. apply (st_stored _ _ Hst). auto. }
    assert (Hstep : forall k0 ii0 cnt0 to' out', seqLoop rec k0 p id commit items ranges ac from t ii0 cnt0 x = Ok out' ->
              forall c', out' = SLoop to' c' -> step x c').
    { intros k0 ii0 cnt0 to' out' Hs c' ->. apply (seqLoop_spec P input REof GT) in Hs; auto; [apply Hs|intros; eapply post_of; eauto|lia]. }
    destruct (to <? t) eqn:Elt; cbn [negb orb] in Hk.
    + apply Nat.ltb_lt in Elt. rewrite Hmax in Hk.
      destruct (match bmx with Some m0 => S cnt =? m0 | None => false end) eqn:Em.
      * assert (Hbmx : bmx = Some (S cnt)) by (destruct bmx as [m0|]; [apply Nat.eqb_eq in Em; congruence|discriminate]).
        pose proof (Hstep _ _ _ (match evalItems (ev n) j rest 0 t with Match t1 _ => t1 | _ => 0 end) _ Hk) as Hst.
        apply (IH j) in Hk; auto; try lia.
        2:{ intros E'. fold rest in E'. rewrite E' in Hd. auto. }
        fold rest in Hk. destruct (evalItems (ev n) j rest 0 t) as [| |t1 ns1] eqn:E1; auto. cbn [after].
        destruct Hk as (c' & -> & Hc1 & Hc2). exists c'. split; auto. split; auto.
        intros y o' oy t' ns' Ha Hy Hny Hey. inversion Ha as [x0 b0 its0 n0 o0|x0 mn0 mx0 its0 n0 o0 y0 o0' He0 Hm0 Ha0|x0 b0 its0 n0 o0 ns0 y0 o0' He0 Ha0
          |x0 mn0 m0 its0 n0 o0 t0 ns0 y0 o0' He0 Hlt0 Hm0 Ha0|x0 mn0 mx0 its0 n0 o0 t0 ns0 y0 o0' He0 Hlt0 Hm0 Ha0]; subst.
        -- eapply Hhere; eauto.
        -- pose proof (Ev_fun _ _ _ _ HEv He0). discriminate.
        -- pose proof (Ev_fun _ _ _ _ HEv He0) as Hq. inversion Hq; lia.
        -- pose proof (Ev_fun _ _ _ _ HEv He0) as Hq. inversion Hq; subst. eapply Hc2; eauto.
        -- exfalso. auto.
      * assert (Hbmx : bmx <> Some (S cnt)) by (intros ->; rewrite Nat.eqb_refl in Em; discriminate).
        pose proof (Hstep _ _ _ (match evalItems (ev n) j ((item, (bmn, bmx)) :: rest) (S cnt) t with Match t1 _ => t1 | _ => 0 end) _ Hk) as Hst.
        apply (IH j) in Hk; auto; try lia; rewrite (skipn_combine _ _ _ _ _ Ei Er'), ?Eb in *; fold rest in Hk || fold rest.
        2:{ intros E'. rewrite E' in Hd. auto. }
        destruct (evalItems (ev n) j ((item, (bmn, bmx)) :: rest) (S cnt) t) as [| |t1 ns1] eqn:E1; auto. cbn [after].
        destruct Hk as (c' & -> & Hc1 & Hc2). exists c'. split; auto. split; auto.
        intros y o' oy t' ns' Ha Hy Hny Hey. inversion Ha as [x0 b0 its0 n0 o0|x0 mn0 mx0 its0 n0 o0 y0 o0' He0 Hm0 Ha0|x0 b0 its0 n0 o0 ns0 y0 o0' He0 Ha0
          |x0 mn0 m0 its0 n0 o0 t0 ns0 y0 o0' He0 Hlt0 Hm0 Ha0|x0 mn0 mx0 its0 n0 o0 t0 ns0 y0 o0' He0 Hlt0 Hm0 Ha0]; subst.
        -- eapply Hhere; eauto.
        -- pose proof (Ev_fun _ _ _ _ HEv He0). discriminate.
        -- pose proof (Ev_fun _ _ _ _ HEv He0) as Hq. inversion Hq; lia.
        -- exfalso. auto.
        -- pose proof (Ev_fun _ _ _ _ HEv He0) as Hq. inversion Hq; subst. eapply Hc2; eauto.
    + apply Nat.ltb_ge in Elt. assert (Hto : cOffset x = to) by lia. assert (t = to) by lia. clear T3. subst t.
      pose proof (Hstep _ _ _ (match evalItems (ev n) j rest 0 to with Match t1 _ => t1 | _ => 0 end) _ Hk) as Hst.
      apply (IH j) in Hk; auto; try lia.
      2:{ intros E'. fold rest in E'. rewrite E' in Hd. auto. }
      fold rest in Hk. destruct (evalItems (ev n) j rest 0 to) as [| |t1 ns1] eqn:E1; auto. cbn [after].
      destruct Hk as (c' & -> & Hc1 & Hc2). exists c'. split; auto. split; auto.
      intros y o' oy t' ns' Ha Hy Hny Hey. inversion Ha as [x0 b0 its0 n0 o0|x0 mn0 mx0 its0 n0 o0 y0 o0' He0 Hm0 Ha0|x0 b0 its0 n0 o0 ns0 y0 o0' He0 Ha0
        |x0 mn0 m0 its0 n0 o0 t0 ns0 y0 o0' He0 Hlt0 Hm0 Ha0|x0 mn0 mx0 its0 n0 o0 t0 ns0 y0 o0' He0 Hlt0 Hm0 Ha0]; subst.
      * eapply Hhere; eauto.
      * pose proof (Ev_fun _ _ _ _ HEv He0). discriminate.
      * eapply Hc2; eauto.
      * pose proof (Ev_fun _ _ _ _ HEv He0) as Hq. inversion Hq; lia.
      * pose proof (Ev_fun _ _ _ _ HEv He0) as Hq. inversion Hq; lia.
Qed.

Lemma tres_unmark ac from id a ob c c' : nth_error P a = Some ob -> nonChar ob -> nodeID ob = id ->
  unmarkUnless ac from id c = Ok c' ->
  (forall name cm ops gs, ob = PChoice name id cm ops gs -> forall t, stored (cResults c) from id t ->
     (forall t' ns, Ev a from (Match t' ns) -> stored (cResults c) from id t') /\
     (forall x ox t' ns, In x ops -> nth_error P x = Some ox -> nonChar ox -> Ev x from (Match t' ns) -> stored (cResults c) from (nodeID ox) t')) ->
  tres (cResults c) -> tres (cResults c').
Proof.
  intros Ha Hn Hi Hu Hch Ht. unfold unmarkUnless, mapResults in Hu. destruct ac; [inversion Hu; subst; auto|].
  binv Hu. inversion Hu; subst c'; clear Hu. simpl. destruct (unmark_match _ _ _ _ E) as [M1 M2].
  pose proof (stored_ext _ _ M1) as M3. pose proof (noMatchHas_ext _ _ M2) as M4. pose proof (pcount_unmark _ _ _ _ E) as M5.
  destruct Ht as [A B C D F]. split.
  - intros b ob' o t x0 Hb Hnb Hs. apply M3 in Hs. eauto.
  - intros b ob' o x0 Hb Hnb Hs. rewrite M4 in Hs. eauto.
  - intros b nm i cm ops gs o t t' ns Hb Hs Hp He. apply M3 in Hs. apply M3. rewrite M5 in Hp.
    destruct (Nat.eqb_spec id i) as [Hii|Hii]; simpl in Hp; [|eapply C; eauto; lia].
    destruct (Nat.eqb_spec from o) as [Hoo|Hoo]; [|eapply C; eauto; lia]. subst i o.
    assert (a = b) by (eapply Hids; eauto; exact I). subst b. rewrite Ha in Hb. inversion Hb; subst ob.
    destruct (Hch _ _ _ _ eq_refl t Hs) as [X _]. eauto.
  - intros b nm i cm ops gs o t y oy t' ns Hb Hs Hp Hy Hoy Hny He. apply M3 in Hs. apply M3. rewrite M5 in Hp.
    destruct (Nat.eqb_spec id i) as [Hii|Hii]; simpl in Hp; [|eapply D; eauto; lia].
    destruct (Nat.eqb_spec from o) as [Hoo|Hoo]; [|eapply D; eauto; lia]. subst i o.
    assert (a = b) by (eapply Hids; eauto; exact I). subst b. rewrite Ha in Hb. inversion Hb; subst ob.
    destruct (Hch _ _ _ _ eq_refl t Hs) as [_ X]. eauto.
  - intros b nm i cm its rg gs o t y o' oy t' ns Hb Hs Has Hoy Hny He. apply M3 in Hs. apply M3. eauto.
Qed.

Lemma seqParse_ref p name id commit items ranges gs ac c c' : nth_error P p = Some (PSeq name id commit items ranges gs ac) ->
  tinv c -> cOffsetLimit c = None -> pend n c -> ev n p (cOffset c) = Unfinished ->
  pcount (cResults c) (cOffset c) id = 0 -> ev (S n) p (cOffset c) <> Unfinished ->
  seqParse rec m kws p id commit items ranges gs ac c = Ok c' -> tinv c' /\ agrees p c c' (ev (S n) p (cOffset c)).
Proof.
  intros Hp H Hl Hpd Hun Hp0 Hd Hk.
  assert (Hc' : cinv c').
  { eapply (post_of P kws input REof (S m) p c c' (proj1 H)). cbn [parse]. rewrite Hp. exact Hk. }
  pose proof (Ev_at _ _ _ Hd) as HEv. rewrite (eval_seq n p _ _ _ _ _ _ _ (cOffset c) Hp) in *.
  set (from := cOffset c) in *. unfold seqParse in Hk.
  assert (Hpf : pending (cResults c) from id = false) by (apply pending_false; auto).
  fold from in Hk. rewrite Hpf, andb_false_r in Hk.
  set (c0 := if ac then c else _) in *.
  assert (H0 : tinv c0).
  { unfold c0. destruct ac; auto. split; [apply cinv_mark; apply H|]. simpl. eapply tres_ext; [| | |exact (proj2 H)].
    - apply stored_ext. apply mark_match.
    - intros. rewrite (noMatchHas_ext _ _ (proj2 (mark_match _ _ _))). auto.
    - intros a nm i cm ops g o Ha. rewrite pcount_mark. intros. lia. }
  assert (Hpd0 : pend n c0).
  { unfold c0. destruct ac; auto. apply (pend_mark n c p _ Hp I Hun Hpd). }
  assert (Hl0 : cOffsetLimit c0 = None) by (unfold c0; destruct ac; auto).
  assert (Ho0 : cOffset c0 = from) by (unfold c0; destruct ac; auto).
  set (e := evalItems (ev n) n (objItems items ranges) 0 from) in *.
  assert (Hd' : e <> Unfinished) by (intros E'; rewrite E' in Hd; auto).
  binv Hk. pose proof E as Es. apply (seqLoop_ref p name id commit items ranges gs ac from m Hp n) in E; auto.
  change (skipn 0 (objItems items ranges)) with (objItems items ranges) in E. fold e in E.
  apply (seqLoop_spec P input REof GT) in Es; auto; [|intros; eapply post_of; eauto|apply H0].
  destruct e as [| |t ns] eqn:Ee; [contradiction| |].
  - destruct E as (c1 & -> & T1 & T2). inversion Hk; subst c'. split; auto. exact (T2 HEv).
  - destruct E as (c1 & -> & T1 & Tc). destruct Es as (Q1 & Q2 & Q3 & Q4 & Q5 & Q6).
    assert (Hto : t <= List.length (cTokens c1)) by (rewrite <- Q4; apply Q1).
    binv Hk. destruct x as [c2 b].
    assert (Hkw : tinv c2 /\ step c1 c2 /\ samePending c1 c2 /\ b = (hasFlag commit CNoKeyword && isOneOf (slice input from t) K)%bool).
    { destruct (hasFlag commit CNoKeyword).
      - pose proof E as E'. apply isKeyword_tinv in E; auto.
        apply (isKeyword_spec P kws input REof GT) in E'; auto.
        2:{ intros; eapply post_of; eauto. }
        2:{ intros; eapply parse_literal; eauto. }
        destruct E' as (_ & X1 & X2 & _). destruct E as [X3 X4]. auto.
      - inversion E; subst. split; auto. split; [apply step_refl|]. split; [intros ? ?; auto|auto]. }
    destruct Hkw as (R1 & R2 & R3 & R4). clear E. rewrite between_slice in *. rewrite <- R4 in *.
    pose proof (step_len _ _ R2) as Hlen2.
    destruct b.
    + destruct (sameTR_blame p commit c2) as (B1 & B2 & B3).
      assert (Hfin : cMatchLast c' = false).
      { clear -Hk. unfold unmarkUnless, mapResults in Hk. destruct ac; [inversion Hk; subst; auto|]. binv Hk. inversion Hk; subst. auto. }
      split; [|exact Hfin]. split; auto.
      eapply tres_unmark; [exact Hp|exact I|reflexivity|exact Hk|discriminate|]. simpl. rewrite B2. apply R1.
    + set (c3 := setResults c2 (setGeneralizations from t gs (cResults c2))) in *.
      destruct (sameTR_clearFail t c3) as (B1 & B2 & B3). set (c4 := clearFail t c3) in *.
      set (c5 := setResults c4 (setMatch (cResults c4) from id t)) in *.
      assert (Hr5 : tres (cResults c5)).
      { unfold c5. simpl. rewrite B2. simpl. eapply tres_setSeq; [exact Hp| | |].
        - intros x Hx. eexists. eapply Ev_fun; [exact Hx|exact HEv].
        - intros -> x o' ox t' ns' Has Hx Hnx Hex. apply setGens_stored. left. apply (st_stored _ _ R2). eauto.
        - eapply tres_gens; [exact Hp|exact HEv|apply incl_refl|]. apply R1. }
      assert (Hfin : rMatch (cResults c') = rMatch (cResults c5) /\ cMatchLast c' = true /\ cOffset c' = t).
      { clear -Hk. unfold unmarkUnless, mapResults in Hk. destruct ac; [inversion Hk; subst; auto|]. binv Hk. inversion Hk; subst. simpl.
        destruct (unmark_match _ _ _ _ E) as [M _]. rewrite M. auto. }
      destruct Hfin as (U6 & U5 & U4). split.
      * split; auto. eapply tres_unmark; [exact Hp|exact I|reflexivity|exact Hk|discriminate|exact Hr5].
      * cbn [labelled agrees]. split; auto. split; auto. intros ob Hob Hnob. rewrite Hp in Hob. inversion Hob; subst ob. simpl.
        apply (stored_ext _ _ U6). unfold c5. simpl. apply stored_setMatch. auto.
Qed.

Lemma choicePass_ref p name id commit options0 gs from T nsT : nth_error P p = Some (PChoice name id commit options0 gs) ->
  (forall x, In x options0 -> ev n x from <> Unfinished) ->
  (T = NoMatch \/ exists t, T = Match t nsT) -> Ev p from T ->
  forall options s c s' c', incl options options0 ->
  tinv c -> cOffsetLimit c = None -> pend n c -> cOffset c = from -> 0 < pcount (cResults c) from id ->
  (chMatch s = true -> exists x ns, In x options0 /\ ev n x from = Match (chTo s) ns) ->
  choicePass rec id from options s c = Ok (s', c') ->
  tinv c' /\ step c c' /\ samePending c c' /\ cOffset c' = from /\
  (chMatch s' = true -> exists x ns, In x options0 /\ ev n x from = Match (chTo s') ns) /\
  (chMatch s = true -> chMatch s' = true /\ chTo s <= chTo s') /\
  (chMatch s' = true -> chMatch s = true \/ stored (cResults c') from id (chTo s')) /\
  (chMatch s' = true -> chMatch s = true /\ chTo s' = chTo s \/ stored (cResults c') from id (chTo s')) /\
  (forall x t ns, In x options -> ev n x from = Match t ns -> chMatch s' = true /\ t <= chTo s' /\
     forall ox, nth_error P x = Some ox -> nonChar ox -> stored (cResults c') from (nodeID ox) t).
Proof.
  intros Hp Hdef HT HEv. induction options as [|op options IH]; intros s c s' c' Hin H Hl Hpd Ho Hpc Hs Hk; cbn [choicePass] in Hk.
  - inversion Hk; subst. split; auto. split; [apply step_refl|]. split; [intros ? ?; auto|]. split; auto. split; auto.
    split; auto. split; auto. split; auto. intros x t ns [].
  - binv Hk. assert (Hop : In op options0) by (apply Hin; left; auto).
    assert (Hin' : incl options options0) by (intros y Hy; apply Hin; right; auto).
    pose proof (post_of P kws input REof _ _ _ _ (proj1 H) E) as (P1 & P2 & P3 & P4).
    pose proof (Hdef op Hop) as Hx.
    destruct (Hrec op c x H Hl Hpd ltac:(rewrite Ho; exact Hx) E) as [T1 T2]. rewrite Ho in T2.
    set (s1 := if (negb (cMatchLast x) && (chFailOffset s <? cFailOffset x)%Z)%bool then _ else s) in *.
    assert (Hs1 : chTo s1 = chTo s /\ chMatch s1 = chMatch s) by (unfold s1; destruct (_ && _)%bool; auto).
    destruct Hs1 as [Ht1 Hm1]. clearbody s1.
    pose proof (step_len _ _ P2) as Hlen. pose proof (ci_off _ _ _ _ (proj1 H)) as Hoff. rewrite Ho in Hoff.
    assert (H2 : tinv (setOffset x from)) by (split; [apply cinv_offset; [lia|apply T1]|apply T1]).
    assert (S2 : step c (setOffset x from)) by (destruct P2; split; auto).
    assert (Hl2 : cOffsetLimit (setOffset x from) = None) by (simpl; rewrite (st_limit _ _ P2); auto).
    assert (Hpd2 : pend n (setOffset x from)) by (apply (pend_same _ c); auto).
    assert (Hpc2 : 0 < pcount (cResults (setOffset x from)) from id) by (simpl; rewrite P3; auto).
    destruct (ev n op from) as [| |t ns] eqn:Ex; [contradiction| |]; cbn [agrees] in T2.
    + rewrite T2 in *. cbn [negb orb] in Hk. apply IH in Hk; auto; [|rewrite Hm1, Ht1; auto].
      destruct Hk as (Q1 & Q2 & Q3 & Q4 & Q5 & Q6 & Q7 & Q8 & Q9). rewrite Hm1, Ht1 in *. split; auto. split; [eapply step_trans; eauto|].
      split; [intros o i; rewrite Q3; apply P3|]. split; auto. split; auto. split; auto. split; auto. split; auto.
      intros y t ns [<-|Hy] Hey; [congruence|]. eauto.
    + destruct T2 as (T2 & T3 & T4). rewrite T2, T3 in *. rewrite Ho in T4. cbn [negb orb] in Hk. destruct P4 as [P4 _]. rewrite Ho, ?T3 in P4.
      rewrite Hm1, Ht1 in Hk.
      assert (Hhere : forall c'' ox, step x c'' -> nth_error P op = Some ox -> nonChar ox -> stored (cResults c'') from (nodeID ox) t).
      { intros c'' ox Hst Hox Hn. apply (st_stored _ _ Hst). auto. }
      destruct (chMatch s && (t <=? chTo s))%bool eqn:Eb.
      * apply andb_true_iff in Eb. destruct Eb as [Eb1 Eb2]. apply Nat.leb_le in Eb2.
        apply IH in Hk; auto; [|rewrite Hm1, Ht1; auto].
        destruct Hk as (Q1 & Q2 & Q3 & Q4 & Q5 & Q6 & Q7 & Q8 & Q9). rewrite Hm1, Ht1 in *. split; auto. split; [eapply step_trans; eauto|].
        split; [intros o i; rewrite Q3; apply P3|]. split; auto. split; auto. split; auto. split; auto. split; auto.
        destruct (Q6 Eb1) as [Q6a Q6b].
        intros y t0 ns0 [<-|Hy] Hey; [|eauto]. rewrite Ex in Hey. inversion Hey; subst t0 ns0. split; auto. split; [lia|].
        intros ox Hox Hn. apply (Hhere c'); auto. eapply step_trans; [|exact Q2]. split; auto. exists []. now rewrite app_nil_r.
      * set (cm := setResults (setOffset x from) _) in *.
        assert (Hle : t <= List.length (cTokens x)) by (rewrite <- T3; apply P1).
        assert (Hcm : tinv cm).
        { split; [exact (cinv_setMatch input REof GT (setOffset x from) from id t P4 Hle I (proj1 H2))|].
          unfold cm. simpl. eapply tres_setChoice; [exact Hp| | |apply T1].
          - rewrite P3. auto.
          - intros r Hr. eapply option_le; eauto. rewrite <- Ex. apply Ev_at. rewrite Ex. discriminate. }
        assert (Scm : step (setOffset x from) cm).
        { split; simpl; auto.
          - exists []. now rewrite app_nil_r.
          - intros o i t0 Hs0. apply stored_setMatch. auto.
          - intros o i. rewrite (noMatchHas_ext _ _ (noMatch_setMatch _ _ _ _)). auto. }
        assert (Pcm : samePending (setOffset x from) cm) by (intros o i; simpl; apply pcount_setMatch).
        apply IH in Hk; auto.
        2:{ apply (pend_same _ (setOffset x from)); auto. }
        2:{ rewrite Pcm. auto. }
        2:{ intros _. simpl. eauto. }
        destruct Hk as (Q1 & Q2 & Q3 & Q4 & Q5 & Q6 & Q7 & Q8 & Q9). simpl in Q6, Q7, Q8.
        destruct (Q6 eq_refl) as [Q6a Q6b].
        assert (Hst' : stored (cResults c') from id (chTo s')).
        { destruct (Q8 Q6a) as [[_ ->]|X]; auto. apply (st_stored _ _ Q2). unfold cm. simpl. apply stored_setMatch. auto. }
        split; auto. split; [eapply step_trans; [exact S2|]; eapply step_trans; [exact Scm|exact Q2]|].
        split; [intros o i; rewrite Q3, Pcm; apply P3|]. split; auto. split; auto.
        split.
        { intros Hms. split; auto. rewrite Hms in Eb. simpl in Eb. apply Nat.leb_gt in Eb. lia. }
        split; auto. split; auto.
        intros y t0 ns0 [<-|Hy] Hey; [|eauto]. rewrite Ex in Hey. inversion Hey; subst t0 ns0. split; auto. split; [lia|].
        intros ox Hox Hn. apply (Hhere c'); auto. eapply step_trans; [|exact Q2]. eapply step_trans; [|exact Scm]. split; auto. exists []. now rewrite app_nil_r.
Qed.

Lemma choiceLoop_ref p name id commit options gs from T nsT : nth_error P p = Some (PChoice name id commit options gs) ->
  (forall x, In x options -> ev n x from <> Unfinished) ->
  (T = NoMatch \/ exists t, T = Match t nsT) -> Ev p from T ->
  forall k s c s' c',
  tinv c -> cOffsetLimit c = None -> pend n c -> cOffset c = from -> 0 < pcount (cResults c) from id ->
  (chMatch s = true -> exists x ns, In x options /\ ev n x from = Match (chTo s) ns) ->
  (chMatch s = true -> stored (cResults c) from id (chTo s)) ->
  choiceLoop rec k id from options s c = Ok (s', c') ->
  tinv c' /\ step c c' /\ samePending c c' /\ cOffset c' = from /\
  (chMatch s' = true -> exists x ns, In x options /\ ev n x from = Match (chTo s') ns) /\
  (chMatch s' = true -> stored (cResults c') from id (chTo s')) /\
  (forall x t ns, In x options -> ev n x from = Match t ns -> chMatch s' = true /\ t <= chTo s' /\
     forall ox, nth_error P x = Some ox -> nonChar ox -> stored (cResults c') from (nodeID ox) t).
Proof.
  intros Hp Hdef HT HEv. induction k as [|k IH]; intros s c s' c' H Hl Hpd Ho Hpc Hs Hst Hk; [discriminate|].
  cbn [choiceLoop] in Hk. binv Hk. destruct x as [s1 c1].
  eapply choicePass_ref in E; eauto; [|apply incl_refl].
  destruct E as (Q1 & Q2 & Q3 & Q4 & Q5 & Q6 & Q7 & Q8 & Q9). simpl in Q6, Q7, Q8.
  assert (Hst1 : chMatch s1 = true -> stored (cResults c1) from id (chTo s1)).
  { intros Hm. destruct (Q8 Hm) as [[X ->]|X]; auto. apply (st_stored _ _ Q2). auto. }
  destruct (chFound s1).
  - apply IH in Hk; auto.
    + destruct Hk as (R1 & R2 & R3 & R4 & R5 & R6 & R7). split; auto. split; [eapply step_trans; eauto|].
      split; [intros o i; rewrite R3; apply Q3|]. auto.
    + rewrite (st_limit _ _ Q2). auto.
    + eapply pend_same; eauto.
    + rewrite Q3. auto.
  - inversion Hk; subst. repeat (split; auto).
Qed.

Lemma choiceParse_ref p name id commit options gs c c' : nth_error P p = Some (PChoice name id commit options gs) ->
  tinv c -> cOffsetLimit c = None -> pend n c -> ev n p (cOffset c) = Unfinished ->
  pcount (cResults c) (cOffset c) id = 0 -> ev (S n) p (cOffset c) <> Unfinished ->
  choiceParse rec m kws p id commit options c = Ok c' -> tinv c' /\ agrees p c c' (ev (S n) p (cOffset c)).
Proof.
  intros Hp H Hl Hpd Hun Hp0 Hd Hk.
  assert (Hc' : cinv c').
  { eapply (post_of P kws input REof (S m) p c c' (proj1 H)). cbn [parse]. rewrite Hp. exact Hk. }
  pose proof (Ev_at _ _ _ Hd) as HEv. rewrite (eval_choice n p _ _ _ _ _ (cOffset c) Hp) in *.
  set (from := cOffset c) in *. unfold choiceParse in Hk.
  destruct (fromResults c id) as [c0|] eqn:Ef.
  { inversion Hk; subst. destruct (fromResults_spec _ _ _ _ _ _ (proj1 H) Ef) as (F1 & F2 & F3).
    assert (Hres : cResults c' = cResults c) by apply F2.
    split; [split; [auto|rewrite Hres; apply H]|]. fold from in F3. destruct (cMatchLast c') eqn:Em.
    - destruct F3 as (F3 & F4 & F5 & F6).
      destruct (ti_2 _ (proj2 H) p _ from _ _ Hp I F4 HEv) as (t' & ns & Er & Hle & _). rewrite Er in *. cbn [agrees].
      pose proof (ti_4 _ (proj2 H) p _ _ _ _ _ from _ _ _ Hp F4 Hp0 HEv) as Hs.
      apply longestMatch_some in F6. destruct F6 as [_ F6]. specialize (F6 _ Hs).
      assert (cOffset c' = t') by lia. split; auto. split; auto. intros ob Hob _. rewrite Hp in Hob. inversion Hob; subst. rewrite Hres. auto.
    - destruct F3 as [F3 F4]. rewrite (ti_3 _ (proj2 H) p _ from _ Hp I F4 HEv). exact Em. }
  assert (Hpf : pending (cResults c) from id = false) by (apply pending_false; auto).
  fold from in Hk. rewrite Hpf in Hk.
  set (c0 := setResults c _) in *.
  assert (H0 : tinv c0).
  { split; [apply cinv_mark; apply H|]. simpl. eapply tres_ext; [| | |exact (proj2 H)].
    - apply stored_ext. apply mark_match.
    - intros. rewrite (noMatchHas_ext _ _ (proj2 (mark_match _ _ _))). auto.
    - intros a nm i cm ops g o Ha. rewrite pcount_mark. intros. lia. }
  assert (Hpd0 : pend n c0) by apply (pend_mark n c p _ Hp I Hun Hpd).
  assert (Hpc0 : 0 < pcount (cResults c0) from id) by (simpl; rewrite pcount_mark, !Nat.eqb_refl; simpl; lia).
  assert (Hdo : evalOptions (ev n) options from NoMatch <> Unfinished) by (intros E'; rewrite E' in Hd; auto).
  destruct (evalOptions_spec (ev n) from options NoMatch) as [Hdef Hsp]; [discriminate|auto|].
  binv Hk. destruct x as [s c1].
  assert (HT : exists nsT, labelled (heapLabel name commit) from (evalOptions (ev n) options from NoMatch) = NoMatch \/
               exists t, labelled (heapLabel name commit) from (evalOptions (ev n) options from NoMatch) = Match t nsT).
  { destruct (evalOptions (ev n) options from NoMatch) as [| |t0 ns0]; [contradiction|exists []; auto|]. simpl. eexists. right. eauto. }
  destruct HT as [nsT HT].
  eapply (choiceLoop_ref p name id commit options gs from _ nsT Hp Hdef HT HEv) in E; auto; try (simpl; discriminate).
  destruct E as (Q1 & Q2 & Q3 & Q4 & Q5 & Q6 & Q7).
  pose proof (step_len _ _ Q2) as Hlen1. pose proof (ci_off _ _ _ _ (proj1 H0)) as Hoff0. simpl in Hoff0, Hlen1. fold from in Hoff0.
  destruct (chMatch s) eqn:Em.
  - rewrite (Hnk _ _ _ _ _ _ Hp) in Hk. cbn [bind] in Hk.
    destruct (Q5 eq_refl) as (x & ns & Hx & Hex).
    destruct (evalOptions (ev n) options from NoMatch) as [| |t ns0] eqn:Eo; [contradiction|destruct Hsp as [_ Hsp]; rewrite (Hsp _ Hx) in Hex; discriminate|].
    destruct Hsp as (_ & Hsp1 & [Hsp2|(y & Hy & Hey)]); [discriminate|].
    assert (Ht : chTo s = t).
    { apply Nat.le_antisymm; [exact (Hsp1 _ _ _ Hx Hex)|]. destruct (Q7 _ _ _ Hy Hey) as (_ & X & _). exact X. }
    set (c3 := if Z.ltb _ _ then setFail c1 (chFailOffset s) _ else _) in *.
    assert (B0 : cTokens c3 = cTokens c1 /\ cResults c3 = cResults c1).
    { unfold c3. destruct (_ <? _)%Z; [|destruct (_ <? _)%Z]; auto. }
    destruct B0 as (B1 & B2).
    assert (Hk' : unmarkUnless false from id (success c3 (chTo s)) = Ok c') by exact Hk.
    assert (Hfin : rMatch (cResults c') = rMatch (cResults c1) /\ cMatchLast c' = true /\ cOffset c' = chTo s).
    { clear -Hk' B2. unfold unmarkUnless, mapResults in Hk'. binv Hk'. inversion Hk'; subst. simpl.
      destruct (unmark_match _ _ _ _ E) as [M _]. rewrite M. simpl. rewrite B2. auto. }
    destruct Hfin as (Hf1 & Hf2 & Hf3).
    split; [split; auto|].
    + eapply tres_unmark; [exact Hp|exact I|reflexivity|exact Hk'| |simpl; rewrite B2; apply Q1].
      intros nm cm ops gs' Hob t0 Hs0. inversion Hob; subst. simpl. rewrite B2. split.
      * intros t' ns' He'. pose proof (Ev_fun _ _ _ _ HEv He') as Hq. simpl in Hq. inversion Hq; subst. auto.
      * intros z oz t' ns' Hz Hoz Hnz Hez.
        assert (Hez' : ev n z from = Match t' ns') by (eapply Ev_fun; [apply Ev_at; apply Hdef; auto|exact Hez]).
        destruct (Q7 _ _ _ Hz Hez') as (_ & _ & X). apply X; auto.
    + cbn [labelled agrees]. rewrite Hf2, Hf3, Ht. split; auto. split; auto. intros ob Hob _. rewrite Hp in Hob. inversion Hob; subst. simpl.
      apply (stored_ext _ _ Hf1). auto.
  - set (c2 := if Z.ltb _ _ then blame p commit _ else c1) in *.
    assert (B0 : cTokens c2 = cTokens c1 /\ cResults c2 = cResults c1).
    { unfold c2. destruct (_ <? _)%Z; auto. destruct (sameTR_blame p commit (setFail c1 (chFailOffset s) (chFailing s))) as (-> & -> & _). auto. }
    destruct B0 as (B1 & B2). clearbody c2.
    assert (Hall : evalOptions (ev n) options from NoMatch = NoMatch).
    { destruct (evalOptions (ev n) options from NoMatch) as [| |t ns0]; [contradiction|auto|]. exfalso.
      destruct Hsp as (_ & _ & [Hsp2|(y & Hy & Hey)]); [discriminate|]. destruct (Q7 _ _ _ Hy Hey). discriminate. }
    rewrite Hall in *. cbn [labelled agrees] in *.
    change (cOffset c0) with from in Hk. set (c3 := fail (setResults c2 (setNoMatch (cResults c2) from id)) from) in *.
    assert (Hk' : unmarkUnless false from id c3 = Ok c') by exact Hk.
    assert (Hfin : cMatchLast c' = false).
    { clear -Hk'. unfold unmarkUnless, mapResults in Hk'. binv Hk'. inversion Hk'; subst. auto. }
    split; [|exact Hfin]. split; auto.
    assert (Hno : forall t, ~ stored (cResults c1) from id t).
    { intros t Hs. destruct (ti_2 _ (proj2 Q1) p _ from t _ Hp I Hs HEv) as (t' & ns' & X & _). discriminate. }
    eapply tres_unmark; [exact Hp|exact I|reflexivity|exact Hk'| |].
    + intros nm cm ops gs' _ t Hs. exfalso. unfold c3 in Hs. simpl in Hs. rewrite stored_setNoMatch, B2 in Hs. eapply Hno; eauto.
    + unfold c3. simpl. rewrite B2. destruct (proj2 Q1) as [A B C D F]. split.
      * intros b ob o t x Hb Hn Hs. rewrite stored_setNoMatch in Hs. eauto.
      * intros b ob o x Hb Hn Hs Hx. apply noMatchHas_setNoMatch in Hs. destruct Hs as [Hs|(-> & Hi & _)]; [eauto|].
        assert (b = p) by (eapply Hids; eauto; exact I). subst b. eapply Ev_fun; eauto.
      * intros b nm i cm ops g o t t' ns Hb Hs Hpc Hx. rewrite stored_setNoMatch in *. rewrite pcount_setNoMatch in Hpc. eauto.
      * intros b nm i cm ops g o t x ox t' ns Hb Hs Hpc Hx Hox Hn He. rewrite stored_setNoMatch in *. rewrite pcount_setNoMatch in Hpc. eauto.
      * intros b nm i cm its rg g o t x o' ox t' ns Hb Hs Has Hox Hn He. rewrite stored_setNoMatch in *. eauto.
Qed.
End REC.

(** a call of [parse] on a definition that has a reference outcome finds this outcome *)
Theorem parse_ref n : forall m p c c', tinv c -> cOffsetLimit c = None -> pend n c -> ev n p (cOffset c) <> Unfinished ->
  parse P kws m p c = Ok c' -> tinv c' /\ agrees p c c' (ev n p (cOffset c)).
Proof.
  induction n as [|n IH]; intros m p c c' H Hl Hpd Hd Hk; [exfalso; apply Hd; auto|].
  destruct (ev n p (cOffset c)) eqn:Eu.
  2,3: rewrite (eval_mono1 G K input n p (cOffset c)) by (rewrite Eu; discriminate); eapply IH; eauto; [apply pend_lower; auto|rewrite Eu; discriminate].
  destruct m as [|m]; [discriminate|]. cbn [parse] in Hk.
  destruct (nth_error P p) as [ob|] eqn:Hp; [|discriminate].
  assert (Hpc : nonChar ob -> pcount (cResults c) (cOffset c) (nodeID ob) = 0).
  { intros Hn. destruct (pcount (cResults c) (cOffset c) (nodeID ob)) eqn:Ec; auto. exfalso. apply Hd. eapply Hpd; eauto. lia. }
  pose proof (pend_lower _ _ Hpd) as Hpd'.
  destruct ob as [nm i cnot chars ranges|nm i cm its rg gs ac|nm i cm ops gs].
  - destruct (charParse_spec P input REof GT _ _ _ _ _ _ _ _ Hp (proj1 H) Hk) as [(P1 & P2 & P3 & P4) P5].
    split; [split; [auto|rewrite P5; apply H]|].
    rewrite (eval_char n p _ _ _ _ _ _ Hp). unfold charParse in Hk. binv Hk. destruct x as [c1 tok].
    destruct (token_spec _ _ _ _ _ (ci_r _ _ _ _ (proj1 H)) (ci_off _ _ _ _ (proj1 H)) E) as (T1 & T2 & [ext T3] & T4).
    destruct T2 as (S1 & S2 & S3 & S4 & S5 & S6 & S7).
    destruct tok as [r|].
    + destruct T4 as [T4 _]. apply (rinv_nth _ _ _ _ _ T1) in T4. rewrite T4. rewrite <- matchChar_classHas.
      destruct (matchChar chars ranges cnot r).
      * inversion Hk; subst. cbn [agrees]. split; auto. simpl. rewrite S1. split; auto. intros ob Hob Hn. rewrite Hp in Hob. inversion Hob; subst. contradiction.
      * inversion Hk; subst. simpl. auto.
    + assert (En : nth_error input (cOffset c) = None).
      { apply nth_error_None. destruct T4 as (_ & [T4|[T4|(T4 & _)]]); [congruence| |lia]. exfalso. apply T4.
rewrite <- (tinv_noErr _ P1). inversion Hk. simpl. destruct (_ <? _)%Z; auto. }
      rewrite En. inversion Hk; subst. simpl. auto.
  - eapply seqParse_ref; eauto. exact (Hpc I).
  - eapply choiceParse_ref; eauto. exact (Hpc I).
Qed.

Lemma tinv_new : tinv (newContext input REof).
Proof.
  split; [apply cinv_new|]. simpl.
  assert (H : forall o i t, ~ stored emptyResults o i t) by (intros o i t Hs; unfold stored, matchRow in Hs; simpl in Hs; destruct o; contradiction).
  split.
  - intros b ob o t x _ _ Hs. exfalso. eapply H; eauto.
  - intros b ob o x _ _ Hs. unfold noMatchHas in Hs. simpl in Hs. destruct o; discriminate.
  - intros b nm i cm ops gs o t t' ns _ Hs. exfalso. eapply H; eauto.
  - intros b nm i cm ops gs o t x ox t' ns _ Hs. exfalso. eapply H; eauto.
  - intros b nm i cm its rg gs o t x o' ox t' ns _ Hs. exfalso. eapply H; eauto.
Qed.
Theorem root_ref m root c' r : Ev root 0 r -> parse P kws m root (newContext input REof) = Ok c' ->
  tinv c' /\ agrees root (newContext input REof) c' r.
Proof.
  intros [Hr (n & E)] Hk. subst r. apply (parse_ref n m root (newContext input REof) c'); auto.
  - apply tinv_new.
  - intros b ob o _ _ Hc. unfold pcount in Hc. simpl in Hc. destruct (nodeID ob); simpl in Hc; lia.
Qed.
End REF.
