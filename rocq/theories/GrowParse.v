(** The memo table and the reference outcomes with extensions: what the entries say, and how they may be added. *)
From Verif Require Import Base Utf8 IdSet Results Parser Build ListFacts ResultsFacts ReaderFacts ParseFacts
  FuelFacts TermFacts Lang Sound RunFacts NoPanic RefSpec RefFuel RefParse LeftSpec LeftFrame GrowSpec GrowFuel.

Section GROWP.
Variable P : pheap.
Variable kws : list addr.
Variable K : list (list rune).
Variable input : list rune.
Hypothesis Hids : uniqueIds P.
Hypothesis Hgens : gensOk P.
Hypothesis HK1 : forall w, In w K -> exists kw, In kw kws /\ literal P kw w.
Hypothesis HK2 : forall kw, In kw kws -> exists w, In w K /\ literal P kw w.
Hypothesis Hnk : forall a name id commit options gs,
  nth_error P a = Some (PChoice name id commit options gs) -> hasFlag commit CNoKeyword = false.
Hypothesis Hvalid : ~ In runeError input.
Hypothesis Hac : allCharsOk P.

Notation G := (heapGraph P).
Notation ev := (evalL Nat.eqb G K input).
Notation Ev := (GivesL Nat.eqb G K input).
Notation cinv := (cinv input REof GT).
Notation post := (post P input REof GT).
Notation isExt := (isExtension Nat.eqb G).
Notation extn := (extending Nat.eqb G).
Notation exts := (extensionsOf Nat.eqb G).
Notation basesOf := (basesOf Nat.eqb G).

(** ** extensions *)
Lemma toBounds_one r : toBounds r = (1, Some 1) -> r = (1, 1)%Z.
Proof.
  destruct r as [a b]. unfold toBounds. simpl. intros H. destruct (Z.ltb_spec 0 b); inversion H. f_equal; lia.
Qed.
Lemma ext_obj e x : isExt e x = true -> exists n id ct items ranges gs ac,
  nth_error P x = Some (PSeq n id ct (e :: items) ((1, 1)%Z :: ranges) gs ac) /\ hasFlag ct CNoKeyword = false.
Proof.
  unfold isExtension, heapGraph. destruct (nth_error P x) as [[n id cn ch rs|n id ct items ranges gs ac|n id ct ops gs]|]; try discriminate.
  destruct (hasFlag ct CNoKeyword) eqn:Ek; [discriminate|].
  destruct items as [|y items]; [discriminate|]. destruct ranges as [|r ranges]; [discriminate|]. cbn [map combine].
  destruct (toBounds r) as [bmn bmx] eqn:Eb. destruct bmn as [|[|bmn]]; try discriminate. destruct bmx as [[|[|bmx]]|]; try discriminate.
  intros H. apply Nat.eqb_eq in H. subst y. apply toBounds_one in Eb. subst r. eauto 12.
Qed.
Lemma ext_seq e x n id ct ops gs : nth_error P e = Some (PChoice n id ct ops gs) -> isExt e x = true -> exists nx idx cx items ranges gx,
  nth_error P x = Some (PSeq nx idx cx (e :: items) ((1, 1)%Z :: ranges) gx false) /\ hasFlag cx CNoKeyword = false.
Proof.
  intros He Hx. destruct (ext_obj e x Hx) as (nx & idx & cx & items & ranges & gx & ac & Hp & Hf).
  destruct ac; [|eauto 10]. pose proof (Hac _ _ _ _ _ _ _ Hp e (or_introl eq_refl)) as H. rewrite He in H. contradiction.
Qed.
Lemma ext_inj e e' x : isExt e x = true -> isExt e' x = true -> e = e'.
Proof.
  intros H H'. destruct (ext_obj _ _ H) as (? & ? & ? & ? & ? & ? & ? & E & _). destruct (ext_obj _ _ H') as (? & ? & ? & ? & ? & ? & ? & E' & _).
  congruence.
Qed.
Lemma isExt_intro e x n id ct items ranges gs ac : nth_error P x = Some (PSeq n id ct (e :: items) ((1, 1)%Z :: ranges) gs ac) ->
  hasFlag ct CNoKeyword = false -> isExt e x = true.
Proof. intros Hp Hf. unfold isExtension, heapGraph. rewrite Hp, Hf. simpl. apply Nat.eqb_refl. Qed.
Lemma ext_extn e x n id ct ops gs : nth_error P e = Some (PChoice n id ct ops gs) -> In x ops -> isExt e x = true -> extn x = true.
Proof.
  intros He Hin Hx. destruct (ext_obj e x Hx) as (nx & idx & cx & items & ranges & gx & ac & Hp & Hf).
  unfold extending. unfold heapGraph at 1. rewrite Hp, Hf. cbn [map combine]. change (toBounds (1, 1)%Z) with (1, Some 1). cbn iota.
  unfold heapGraph. rewrite He. apply existsb_exists. exists x. split; auto. apply Nat.eqb_refl.
Qed.
Lemma extn_ext x : extn x = true -> exists e n id ct ops gs, nth_error P e = Some (PChoice n id ct ops gs) /\ In x ops /\ isExt e x = true.
Proof.
  unfold extending. destruct (G x) as [[|l [] [|[e [[|[|mn]] [[|[|mx]]|]]] rest]|]|] eqn:EG; try discriminate.
  unfold heapGraph at 1. destruct (nth_error P e) as [[|n id ct ops gs ac|n id ct ops gs]|] eqn:He; try discriminate.
  intros H. apply existsb_exists in H. destruct H as (y & Hy & Exy). apply Nat.eqb_eq in Exy. subst y.
  exists e, n, id, ct, ops, gs. split; auto. split; auto. unfold isExtension. rewrite EG. apply Nat.eqb_refl.
Qed.
Lemma ev_extn n x o : extn x = true -> ev n x o = Unfinished.
Proof.
  intros H. destruct n as [|n]; auto. cbn [evalL]. unfold extending in H. destruct (G x) as [[|l nk its|]|] eqn:EG; try discriminate.
  unfold extending. rewrite EG, H. auto.
Qed.
Lemma Ev_extn x o r : extn x = true -> ~ Ev x o r.
Proof. intros H [H1 (n & H2)]. rewrite ev_extn in H2; auto. Qed.
Lemma bases_in e ops x : In x ops -> isExt e x = false -> In x (basesOf e ops).
Proof. intros H1 H2. unfold GrowSpec.basesOf. apply filter_In. rewrite H2. auto. Qed.
Lemma bases_incl e ops x : In x (basesOf e ops) -> In x ops.
Proof. unfold GrowSpec.basesOf. intros H. apply filter_In in H. tauto. Qed.
Lemma exts_in e ops x : In x (exts e ops) <-> In x ops /\ isExt e x = true.
Proof. unfold extensionsOf. apply filter_In. Qed.
Lemma noExts_bases e ops : exts e ops = [] -> basesOf e ops = ops.
Proof.
  unfold extensionsOf, GrowSpec.basesOf. induction ops as [|x ops IH]; simpl; auto. destruct (isExt e x) eqn:E; [discriminate|]. simpl. intros H. f_equal; auto.
Qed.
Lemma choice_notExt e x n id ct ops gs : nth_error P x = Some (PChoice n id ct ops gs) -> isExt e x = false.
Proof. intros H. unfold isExtension, heapGraph. rewrite H. auto. Qed.

(** ** the reference semantics over the heap *)
Lemma eval_char n a name id cnot chars ranges o : nth_error P a = Some (PChar name id cnot chars ranges) ->
  ev (S n) a o = match nth_error input o with
                 | Some r => if classHas cnot chars ranges r then Match (S o) [] else NoMatch
                 | None => NoMatch
                 end.
Proof. intros H. assert (HG : G a = Some (GChar cnot chars ranges)) by (unfold heapGraph; rewrite H; auto). cbn [evalL]. rewrite HG. auto. Qed.
Lemma eval_seq n a name id commit items ranges gs ac o : nth_error P a = Some (PSeq name id commit items ranges gs ac) -> extn a = false ->
  ev (S n) a o = match evalItems (ev n) n (objItems items ranges) 0 o with
                 | Match t ns => if hasFlag commit CNoKeyword && isOneOf (between input o t) K then NoMatch
                                 else labelled (heapLabel name commit) o (Match t ns)
                 | r => r
                 end.
Proof.
  intros H Hx. assert (HG : G a = Some (GSeq (heapLabel name commit) (hasFlag commit CNoKeyword) (objItems items ranges)))
    by (unfold heapGraph; rewrite H; auto). cbn [evalL]. rewrite HG, Hx. auto.
Qed.
Lemma eval_choice n a name id commit options gs o : nth_error P a = Some (PChoice name id commit options gs) ->
  ev (S n) a o = match exts a options with
      | [] => labelled (heapLabel name commit) o (evalOptions (ev n) options o NoMatch)
      | extensions =>
        if inBlocks Nat.eqb G a options then
          match evalOptions (ev n) (basesOf a options) o NoMatch with
          | Match t ns =>
            if o <? t then evalGrow G (ev n) n (heapLabel name commit) o n extensions t (named (heapLabel name commit) o t ns) else Unfinished
          | r => r
          end
        else Unfinished
      end.
Proof. intros H. assert (HG : G a = Some (GChoice (heapLabel name commit) options)) by (unfold heapGraph; rewrite H; auto). cbn [evalL]. rewrite HG. auto. Qed.

(** the sub-calls of a sequence *)
Inductive asks : list (addr * (nat * option nat)) -> nat -> nat -> addr -> nat -> Prop :=
| as_here x b its n o : asks ((x, b) :: its) n o x o
| as_skip x mn mx its n o y o' : Ev x o NoMatch -> mn <= n -> asks its 0 o y o' -> asks ((x, (mn, mx)) :: its) n o y o'
| as_empty x b its n o ns y o' : Ev x o (Match o ns) -> asks its 0 o y o' -> asks ((x, b) :: its) n o y o'
| as_max x mn m its n o t ns y o' : Ev x o (Match t ns) -> o < t -> S n = m -> asks its 0 t y o' ->
    asks ((x, (mn, Some m)) :: its) n o y o'
| as_more x mn mx its n o t ns y o' : Ev x o (Match t ns) -> o < t -> mx <> Some (S n) -> asks ((x, (mn, mx)) :: its) (S n) t y o' ->
    asks ((x, (mn, mx)) :: its) n o y o'.

Lemma Ev_fun a o r r' : Ev a o r -> Ev a o r' -> r = r'.
Proof. apply GivesL_fun. Qed.
Lemma Ev_at n a o : ev n a o <> Unfinished -> Ev a o (ev n a o).
Proof. intros H. split; auto. exists n; auto. Qed.
Lemma ev_lower n a o : ev (S n) a o = Unfinished -> ev n a o = Unfinished.
Proof.
  intros H. destruct (ev n a o) eqn:E; auto; exfalso;
    assert (X : ev (S n) a o = ev n a o) by (apply evalL_mono1; rewrite E; discriminate); rewrite H, E in X; discriminate.
Qed.

(** the bases of a choice, and what comes behind the first item of an extension *)
Definition Begins (bs : list addr) (from : nat) (r : outcome) : Prop :=
  r <> Unfinished /\ exists n, evalOptions (ev n) bs from NoMatch = r.
Definition Continues (x : addr) (l : option string) (t : nat) (r : outcome) : Prop :=
  r <> Unfinished /\ exists nk first rest n k, G x = Some (GSeq l nk (first :: rest)) /\ evalItems (ev n) k rest 0 t = r.
Lemma Begins_fun bs from r r' : Begins bs from r -> Begins bs from r' -> r = r'.
Proof.
  intros [H1 (n & E1)] [H2 (m & E2)]. subst.
  assert (X : forall a b, a <= b -> evalOptions (ev a) bs from NoMatch <> Unfinished ->
            evalOptions (ev b) bs from NoMatch = evalOptions (ev a) bs from NoMatch).
  { intros a b Hab Hu. apply evalOptions_mono; auto. intros x o Hx. apply evalL_mono; auto. }
  destruct (Nat.le_ge_cases n m) as [L|L]; [symmetry|]; apply X; auto.
Qed.

(** ** chains: matches of a choice, each one extending the one before; (t', x, t): x extends t to t' *)
Section CHAIN.
Variables (lab : option string) (from : nat) (recs bs : list addr).
Inductive chain : list (nat * addr * nat) -> nat -> list node -> Prop :=
| ch_base t ns : Begins bs from (Match t ns) -> from < t -> chain [] t (named lab from t ns)
| ch_more L t ns x l t' ns' : chain L t ns -> In x recs -> Continues x l t (Match t' ns') -> t < t' ->
    chain ((t', x, t) :: L) t' (named lab from t' (named l from t' (ns ++ ns'))).
Lemma chain_le T0 nb L t ns : Begins bs from (Match T0 nb) -> chain L t ns ->
  from < T0 /\ T0 <= t /\ (forall v x u, In (v, x, u) L -> T0 < v /\ v <= t /\ T0 <= u /\ u < v /\ In x recs).
Proof.
  intros HT H. induction H as [t ns Hb Hlt|L t ns x l t' ns' H IH Hx Hc Hlt].
  - pose proof (Begins_fun _ _ _ _ HT Hb) as E. inversion E; subst. split; auto. split; auto. intros ? ? ? [].
  - destruct IH as (I1 & I2 & I3).
    split; auto. split; [lia|]. intros v y u [Hin|Hin]; [inversion Hin; subst; split; [lia|]; split; auto; split; auto|].
    destruct (I3 _ _ _ Hin) as (J1 & J2 & J3 & J4 & J5). split; auto. split; [lia|auto].
Qed.
End CHAIN.

Definition idOf (x : addr) : nat := match nth_error P x with Some o => nodeID o | None => 0 end.
(** what the memo table holds of a chain of the choice [e] at [from] *)
Record grow (e ide from T0 : nat) (recs : list addr) (L : list (nat * addr * nat)) (t : nat) (r : results) : Prop := mkGrow {
  g_e : forall v, stored r from ide v -> v <= T0 \/ exists x u, In (v, x, u) L;
  g_top : stored r from ide t;
  g_T0 : stored r from ide T0;
  g_eS : forall v x u, In (v, x, u) L -> stored r from ide v /\ stored r from ide u /\ stored r from (idOf x) v;
  g_r : forall x v, In x recs -> stored r from (idOf x) v -> exists u, In (v, x, u) L;
  g_asks : forall v x u n id ct items ranges gs, In (v, x, u) L ->
    nth_error P x = Some (PSeq n id ct (e :: items) ((1, 1)%Z :: ranges) gs false) ->
    forall y o' oy t' ns', asks (objItems items ranges) 0 u y o' -> nth_error P y = Some oy -> nonChar oy -> Ev y o' (Match t' ns') ->
    stored r o' (nodeID oy) t' }.

(** what the memo table says is what the reference says *)
Record tres (r : results) : Prop := mkTres {
  ti_2 : forall b ob o t x, nth_error P b = Some ob -> nonChar ob -> stored r o (nodeID ob) t -> Ev b o x ->
         exists t' ns, x = Match t' ns /\ t <= t' /\ (isSeqObj ob -> t = t');
  ti_3 : forall b ob o x, nth_error P b = Some ob -> nonChar ob -> noMatchHas r o (nodeID ob) = true -> Ev b o x -> x = NoMatch;
  ti_4 : forall b name id commit options gs o t t' ns, nth_error P b = Some (PChoice name id commit options gs) ->
         stored r o id t -> pcount r o id = 0 -> Ev b o (Match t' ns) -> stored r o id t';
  ti_5c : forall b name id commit options gs o t x ox t' ns, nth_error P b = Some (PChoice name id commit options gs) ->
         stored r o id t -> pcount r o id = 0 -> In x options -> nth_error P x = Some ox -> nonChar ox ->
         Ev x o (Match t' ns) -> stored r o (nodeID ox) t';
  ti_5s : forall b name id commit items ranges gs o t x o' ox t' ns,
         nth_error P b = Some (PSeq name id commit items ranges gs false) -> extn b = false -> stored r o id t ->
         asks (objItems items ranges) 0 o x o' -> nth_error P x = Some ox -> nonChar ox ->
         Ev x o' (Match t' ns) -> stored r o' (nodeID ox) t';
  ti_6 : forall b name id commit options gs o v t ns, nth_error P b = Some (PChoice name id commit options gs) -> exts b options <> [] ->
         stored r o id v -> pcount r o id = 0 -> Ev b o (Match t ns) ->
         exists L T0 nb, chain (heapLabel name commit) o (exts b options) (basesOf b options) L t ns /\
           Begins (basesOf b options) o (Match T0 nb) /\ grow b id o T0 (exts b options) L t r;
  ti_7 : forall b name id commit options gs x ox o v, nth_error P b = Some (PChoice name id commit options gs) ->
         In x options -> isExt b x = true -> nth_error P x = Some ox -> stored r o (nodeID ox) v -> exists w, stored r o id w }.
Definition tinv (c : context) : Prop := cinv c /\ tres (cResults c).

(** nothing in progress has an outcome at depth [n]; extensions are in progress only within their choice *)
Definition pend (n : nat) (c : context) : Prop :=
  (forall b ob o, nth_error P b = Some ob -> nonChar ob -> 0 < pcount (cResults c) o (nodeID ob) -> ev n b o = Unfinished) /\
  (forall b name id commit options gs x ox o, nth_error P b = Some (PChoice name id commit options gs) ->
     In x options -> isExt b x = true -> nth_error P x = Some ox -> 0 < pcount (cResults c) o (nodeID ox) -> 0 < pcount (cResults c) o id).

(** what is added to the matches of choices in progress, and of their extensions *)
Definition keeps (R r r' : results) : Prop :=
  forall e name id commit options gs o, nth_error P e = Some (PChoice name id commit options gs) -> 0 < pcount R o id ->
  (forall x ox v, In x options -> isExt e x = true -> nth_error P x = Some ox -> stored r' o (nodeID ox) v -> stored r o (nodeID ox) v) /\
  (forall v, stored r' o id v -> stored r o id v \/
     exists b, In b (basesOf e options) /\ forall rb, Ev b o rb -> exists t ns, rb = Match t ns /\ v <= t).

Definition agrees (p : addr) (c c' : context) (r : outcome) : Prop :=
  match r with
  | Match t _ => cMatchLast c' = true /\ cOffset c' = t /\
                 forall ob, nth_error P p = Some ob -> nonChar ob -> stored (cResults c') (cOffset c) (nodeID ob) t
  | NoMatch => cMatchLast c' = false
  | Unfinished => False
  end.

Lemma pend_lower n c : pend (S n) c -> pend n c.
Proof. intros [H H2]. split; auto. intros b ob o Hb Hn Hp. apply ev_lower. eapply H; eauto. Qed.
Lemma pend_same n c c' : samePending c c' -> pend n c -> pend n c'.
Proof. intros H [Hp Hq]. split; [intros b ob o Hb Hn Hc; rewrite H in Hc; eauto|]. intros b nm i cm os gs x ox o H1 H2 H3 H4. rewrite !H. eauto. Qed.
Lemma pend_mark n c a ob : nth_error P a = Some ob -> nonChar ob -> ev n a (cOffset c) = Unfinished ->
  (forall b name id commit options gs, nth_error P b = Some (PChoice name id commit options gs) -> In a options -> isExt b a = true -> 0 < pcount (cResults c) (cOffset c) id) ->
  pend n c -> pend n (setResults c (markPending (cResults c) (cOffset c) (nodeID ob))).
Proof.
  intros Ha Hna He Hx [Hp Hq].
  assert (Hone : forall b ob' o, nth_error P b = Some ob' -> nonChar ob' ->
            0 < pcount (markPending (cResults c) (cOffset c) (nodeID ob)) o (nodeID ob') -> 0 < pcount (cResults c) o (nodeID ob') \/ (a = b /\ o = cOffset c)).
  { intros b ob' o Hb Hn Hc. rewrite pcount_mark in Hc. destruct (Nat.eqb_spec (nodeID ob) (nodeID ob')) as [Hi|Hi]; simpl in Hc; [|left; lia].
    destruct (Nat.eqb_spec (cOffset c) o) as [Ho|Ho]; simpl in Hc; [|left; lia]. right. split; auto. eapply Hids; eauto. }
  assert (Hge : forall o i, pcount (cResults c) o i <= pcount (markPending (cResults c) (cOffset c) (nodeID ob)) o i) by (intros; rewrite pcount_mark; lia).
  split; simpl.
  - intros b ob' o Hb Hn Hc. destruct (Hone _ _ _ Hb Hn Hc) as [H|[<- ->]]; eauto.
  - intros b nm i cm os gs x ox o Hb Hin Hext Hox Hc.
    assert (Hnx : nonChar ox) by (destruct (ext_obj _ _ Hext) as (? & ? & ? & ? & ? & ? & ? & E & _); rewrite Hox in E; inversion E; exact I).
    eapply Nat.lt_le_trans; [|apply Hge]. destruct (Hone _ _ _ Hox Hnx Hc) as [H|[<- ->]]; eauto.
Qed.

Lemma tinv_noErr c : cinv c -> cReadErr c = None.
Proof.
  intros H. pose proof (ri_case _ _ _ (ci_r _ _ _ _ H)) as Hc. destruct (cReadErr c) as [[]|]; auto; try contradiction.
  - destruct Hc as [-> _]. exfalso. apply Hvalid. apply in_or_app. right. left. auto.
  - destruct Hc as (_ & Hc & _). discriminate.
Qed.

(** ** the elementary changes of the memo table *)
Lemma grow_up e ide from T0 recs L t r r' : (forall o i v, stored r o i v -> stored r' o i v) ->
  (forall v, stored r' from ide v -> stored r from ide v) -> (forall x v, In x recs -> stored r' from (idOf x) v -> stored r from (idOf x) v) ->
  grow e ide from T0 recs L t r -> grow e ide from T0 recs L t r'.
Proof.
  intros H1 H2 H3 [A1 A2 A3 A4 A5 A6]. split; auto.
  - intros v x u Hin. destruct (A4 _ _ _ Hin) as (B1 & B2 & B3). auto.
  - intros. apply H1. eapply A6; eauto.
Qed.
Lemma tres_ext r r' : (forall o i t, stored r' o i t <-> stored r o i t) ->
  (forall o i, noMatchHas r' o i = noMatchHas r o i) ->
  (forall a name id commit options gs o, nth_error P a = Some (PChoice name id commit options gs) ->
     pcount r' o id = 0 -> pcount r o id = 0) -> tres r -> tres r'.
Proof.
  intros H1 H2 H3 [A B C D F U V]. split.
  - intros b ob o t x Hb Hn Hs. apply H1 in Hs. eauto.
  - intros b ob o x Hb Hn Hs. rewrite H2 in Hs. eauto.
  - intros b name id commit options gs o t t' ns Hb Hs Hp He. apply H1 in Hs. apply H1. eauto.
  - intros b name id commit options gs o t x ox t' ns Hb Hs Hp Hx Hox Hn He. apply H1 in Hs. apply H1. eauto.
  - intros b name id commit items ranges gs o t x o' ox t' ns Hb Hxn Hs Ha Hox Hn He. apply H1 in Hs. apply H1. eauto.
  - intros b name id commit options gs o v t ns Hb Hne Hs Hp He. apply H1 in Hs.
    destruct (U _ _ _ _ _ _ _ _ _ _ Hb Hne Hs (H3 _ _ _ _ _ _ _ Hb Hp) He) as (L & T0 & nb & U1 & U2 & U3). exists L, T0, nb. split; auto. split; auto.
    eapply grow_up; [| | |exact U3]; intros; apply H1; auto.
  - intros b name id commit options gs x ox o v Hb Hin Hx Hox Hs. apply H1 in Hs. destruct (V _ _ _ _ _ _ _ _ _ _ Hb Hin Hx Hox Hs) as (w & Hw). exists w. apply H1. auto.
Qed.
Lemma tres_same r r' : rMatch r' = rMatch r -> rNoMatch r' = rNoMatch r ->
  (forall o i, pcount r' o i = pcount r o i) -> tres r -> tres r'.
Proof.
  intros H1 H2 H3. apply tres_ext.
  - apply stored_ext; auto.
  - apply noMatchHas_ext; auto.
  - intros. rewrite <- H3; auto.
Qed.
Lemma idOf_at x ox : nth_error P x = Some ox -> idOf x = nodeID ox.
Proof. intros H. unfold idOf. rewrite H. auto. Qed.

(** one more match *)
Lemma tres_add r o i v :
  (forall a oa, nth_error P a = Some oa -> nonChar oa -> nodeID oa = i ->
     (forall x, Ev a o x -> exists t' ns, x = Match t' ns /\ v <= t' /\ (isSeqObj oa -> v = t')) /\
     match oa with
     | PChoice _ _ _ _ _ => 0 < pcount r o i
     | PSeq _ _ _ items ranges _ ac =>
       (extn a = false -> ac = false -> forall x o' ox t' ns, asks (objItems items ranges) 0 o x o' -> nth_error P x = Some ox -> nonChar ox ->
          Ev x o' (Match t' ns) -> stored r o' (nodeID ox) t') /\
       (forall e nm id ct ops gs, nth_error P e = Some (PChoice nm id ct ops gs) -> In a ops -> isExt e a = true ->
          0 < pcount r o id /\ exists w, stored r o id w)
     | PChar _ _ _ _ _ => True
     end) ->
  tres r -> tres (setMatch r o i v).
Proof.
  intros Hone [A B C D F U V].
  assert (Hst : forall b ob o' t', nth_error P b = Some ob -> nonChar ob -> stored (setMatch r o i v) o' (nodeID ob) t' ->
            stored r o' (nodeID ob) t' \/ (nodeID ob = i /\ o' = o /\ t' = v)).
  { intros b ob o' t' Hb Hn Hs. apply stored_setMatch in Hs. destruct Hs as [Hs|(-> & Hi & ->)]; auto. }
  assert (Hup : forall o' j w, stored r o' j w -> stored (setMatch r o i v) o' j w) by (intros; apply stored_setMatch; auto).
  split.
  - intros b ob o' t' x Hb Hn Hs Hx. destruct (Hst _ _ _ _ Hb Hn Hs) as [Hs'|(E1 & -> & ->)]; [eauto|].
    destruct (Hone b ob Hb Hn E1) as [X _]. auto.
  - intros b ob o' x Hb Hn Hs. rewrite (noMatchHas_ext _ _ (noMatch_setMatch _ _ _ _)) in Hs. eauto.
  - intros b name' id' commit' options' gs' o' t1 t' ns Hb Hs Hp' Hx. rewrite pcount_setMatch in Hp'.
    destruct (Hst _ _ _ _ Hb I Hs) as [Hs'|(E1 & -> & ->)]; [apply Hup; simpl in Hs'; eauto|].
    destruct (Hone b _ Hb I E1) as [_ X]. simpl in X, E1. subst id'. lia.
  - intros b name' id' commit' options' gs' o' t1 x ox t' ns Hb Hs Hp' Hx Hox Hn He'. rewrite pcount_setMatch in Hp'.
    destruct (Hst _ _ _ _ Hb I Hs) as [Hs'|(E1 & -> & ->)]; [apply Hup; simpl in Hs'; eauto|].
    destruct (Hone b _ Hb I E1) as [_ X]. simpl in X, E1. subst id'. lia.
  - intros b name' id' commit' items' ranges' gs' o' t1 x o'' ox t' ns Hb Hxn Hs Has Hox Hn He'. apply Hup.
    destruct (Hst _ _ _ _ Hb I Hs) as [Hs'|(E1 & -> & ->)]; [simpl in Hs'; eauto|].
    destruct (Hone b _ Hb I E1) as [_ [X _]]. eauto.
  - intros b name id commit options gs o' w t ns Hb Hne Hs Hp He. rewrite pcount_setMatch in Hp.
    destruct (Hst _ _ _ _ Hb I Hs) as [Hs'|(E1 & -> & ->)].
    2:{ destruct (Hone b _ Hb I E1) as [_ X]. simpl in X, E1. subst id. lia. }
    simpl in Hs'. destruct (U _ _ _ _ _ _ _ _ _ _ Hb Hne Hs' Hp He) as (L & T0 & nb & U1 & U2 & U3). exists L, T0, nb. split; auto. split; auto.
    eapply grow_up; [exact Hup| | |exact U3].
    + intros u Hu. destruct (Hst _ _ _ _ Hb I Hu) as [|(E1 & -> & ->)]; auto. destruct (Hone b _ Hb I E1) as [_ X]. simpl in X, E1. subst id. lia.
    + intros x u Hx Hu. apply exts_in in Hx. destruct Hx as [Hin Hx]. destruct (ext_seq _ _ _ _ _ _ _ Hb Hx) as (nx & idx & cx & its & rg & gx & Hp' & _).
      rewrite (idOf_at _ _ Hp') in *. destruct (Hst _ _ _ _ Hp' I Hu) as [|(E1 & -> & ->)]; auto.
      destruct (Hone x _ Hp' I E1) as [_ [_ X]]. destruct (X _ _ _ _ _ _ Hb Hin Hx). lia.
  - intros b name id commit options gs x ox o' w Hb Hin Hx Hox Hs.
    assert (Hnx : nonChar ox) by (destruct (ext_obj _ _ Hx) as (? & ? & ? & ? & ? & ? & ? & E & _); rewrite Hox in E; inversion E; exact I).
    destruct (Hst _ _ _ _ Hox Hnx Hs) as [Hs'|(E1 & -> & ->)]; [destruct (V _ _ _ _ _ _ _ _ _ _ Hb Hin Hx Hox Hs') as (w' & Hw); eauto|].
    destruct (Hone x _ Hox Hnx E1) as [_ X]. destruct (ext_seq _ _ _ _ _ _ _ Hb Hx) as (nx & idx & cx & its & rg & gx & Hp' & _).
    rewrite Hox in Hp'. inversion Hp'; subst ox. destruct X as [_ X]. destruct (X _ _ _ _ _ _ Hb Hin Hx) as [_ (w' & Hw)]. eauto.
Qed.

(** storing a match of a choice in progress *)
Lemma tres_setChoice r a name id commit options gs o t : nth_error P a = Some (PChoice name id commit options gs) ->
  0 < pcount r o id -> (forall x, Ev a o x -> exists t' ns, x = Match t' ns /\ t <= t') ->
  tres r -> tres (setMatch r o id t).
Proof.
  intros Ha Hp He. apply tres_add. intros b ob Hb Hn Hi. assert (b = a) by (eapply Hids; eauto; exact I). subst b. rewrite Ha in Hb. inversion Hb; subst ob.
  split; auto. intros x Hx. destruct (He x Hx) as (t' & ns & -> & Hle). exists t', ns. split; auto. split; auto. intros [].
Qed.
(** storing a match of a sequence *)
Lemma tres_setSeq r a name id commit items ranges gs ac o t : nth_error P a = Some (PSeq name id commit items ranges gs ac) -> extn a = false ->
  (forall x, Ev a o x -> exists ns, x = Match t ns) ->
  (ac = false -> forall x o' ox t' ns, asks (objItems items ranges) 0 o x o' -> nth_error P x = Some ox -> nonChar ox ->
         Ev x o' (Match t' ns) -> stored r o' (nodeID ox) t') ->
  tres r -> tres (setMatch r o id t).
Proof.
  intros Ha Hxn He Hc. apply tres_add. intros b ob Hb Hn Hi. assert (b = a) by (eapply Hids; eauto; exact I). subst b. rewrite Ha in Hb. inversion Hb; subst ob.
  split; [|split; auto].
  - intros x Hx. destruct (He x Hx) as (ns & ->). exists t, ns. split; auto.
  - intros e nm ie ct ops gse He' Hin Hx. rewrite (ext_extn _ _ _ _ _ _ _ He' Hin Hx) in Hxn. discriminate.
Qed.
(** storing a match of an extension *)
Lemma tres_setExt r a name id commit items ranges gs ac o t : nth_error P a = Some (PSeq name id commit items ranges gs ac) -> extn a = true ->
  (forall e nm id ct ops gs, nth_error P e = Some (PChoice nm id ct ops gs) -> In a ops -> isExt e a = true ->
          0 < pcount r o id /\ exists w, stored r o id w) ->
  tres r -> tres (setMatch r o id t).
Proof.
  intros Ha Hxn He. apply tres_add. intros b ob Hb Hn Hi. assert (b = a) by (eapply Hids; eauto; exact I). subst b. rewrite Ha in Hb. inversion Hb; subst ob.
  split; [|split; auto; intros; congruence].
  intros x Hx. destruct (Ev_extn _ _ _ Hxn Hx).
Qed.

(** ** a choice matches at least as much as its bases *)
Lemma Ev_bases a name id commit options gs o r : nth_error P a = Some (PChoice name id commit options gs) -> Ev a o r ->
  exists n rb, evalOptions (ev n) (basesOf a options) o NoMatch = rb /\ rb <> Unfinished /\
    match rb with Match t ns => exists t' ns', r = Match t' ns' /\ t <= t' | _ => r = NoMatch end.
Proof.
  intros Ha [Hr (n & E)]. destruct n as [|n]; [simpl in E; congruence|]. rewrite (eval_choice _ _ _ _ _ _ _ _ Ha) in E.
  exists n. eexists. split; [reflexivity|]. destruct (exts a options) as [|x xs] eqn:Ex.
  - rewrite (noExts_bases _ _ Ex). destruct (evalOptions (ev n) options o NoMatch) as [| |t ns]; cbn [labelled] in E; subst r; [congruence| |].
    + split; [discriminate|auto].
    + split; [discriminate|]. simpl. eauto.
  - destruct (inBlocks Nat.eqb G a options); [|congruence].
    destruct (evalOptions (ev n) (basesOf a options) o NoMatch) as [| |t ns]; [congruence|split; [discriminate|auto]|].
    split; [discriminate|]. destruct (o <? t); [|congruence].
    destruct r as [| |t' ns']; [congruence|destruct (evalGrow_some _ _ _ _ _ _ _ _ _ E)|]. apply evalGrow_ge in E. eauto.
Qed.
Lemma option_le a name id commit options gs o r op t ns : nth_error P a = Some (PChoice name id commit options gs) ->
  In op (basesOf a options) -> Ev op o (Match t ns) -> Ev a o r -> exists t' ns', r = Match t' ns' /\ t <= t'.
Proof.
  intros Ha Hin Ho Hr. destruct (Ev_bases _ _ _ _ _ _ _ _ Ha Hr) as (n & rb & Hrb & Hn & Hc).
  destruct (evalOptions_spec (ev n) o (basesOf a options) NoMatch) as [H1 H2]; [discriminate|congruence|]. rewrite Hrb in H2.
  assert (Eop : ev n op o = Match t ns) by (eapply Ev_fun; [apply Ev_at; auto|exact Ho]).
  destruct rb as [| |t' ns']; [contradiction| |].
  - destruct H2 as [_ H2]. rewrite (H2 _ Hin) in Eop. discriminate.
  - destruct H2 as (_ & H2 & _). destruct Hc as (t2 & ns2 & -> & Hle). exists t2, ns2. split; auto. specialize (H2 _ _ _ Hin Eop). lia.
Qed.
Lemma option_defined a name id commit options gs o r op : nth_error P a = Some (PChoice name id commit options gs) ->
  In op (basesOf a options) -> Ev a o r -> exists r', Ev op o r'.
Proof.
  intros Ha Hin Hr. destruct (Ev_bases _ _ _ _ _ _ _ _ Ha Hr) as (n & rb & Hrb & Hn & Hc).
  destruct (evalOptions_spec (ev n) o (basesOf a options) NoMatch) as [H1 H2]; [discriminate|congruence|].
  exists (ev n op o). apply Ev_at. auto.
Qed.
Lemma generalizes_base x op name id commit options gs a : nth_error P x = Some (PChoice name id commit options gs) -> In op options -> generalizes P op a ->
  In op (basesOf x options).
Proof.
  intros Hx Hin Hg. apply bases_in; auto. destruct (generalizes_choice _ _ _ Hg) as (? & ? & ? & ? & ? & E). eapply choice_notExt; eauto.
Qed.
Lemma defined_base x op name id commit options gs o r : nth_error P x = Some (PChoice name id commit options gs) -> In op options -> Ev op o r ->
  In op (basesOf x options).
Proof.
  intros Hx Hin Hr. apply bases_in; auto. destruct (isExt x op) eqn:E; auto. exfalso. eapply Ev_extn; [eapply ext_extn; eauto|exact Hr].
Qed.
Lemma gen_le x a : generalizes P x a -> forall o t ns r, Ev a o (Match t ns) -> Ev x o r ->
  exists t' ns', r = Match t' ns' /\ t <= t'.
Proof.
  induction 1 as [x a name id commit options gs Hx Hin|x op a name id commit options gs Hx Hin Hg IH]; intros o t ns r Ha Hr.
  - eapply option_le; eauto. eapply defined_base; eauto.
  - pose proof (generalizes_base _ _ _ _ _ _ _ _ Hx Hin Hg) as Hb.
    destruct (option_defined _ _ _ _ _ _ _ _ _ Hx Hb Hr) as (r' & Hop).
    destruct (IH _ _ _ _ Ha Hop) as (t1 & ns1 & -> & H1).
    destruct (option_le _ _ _ _ _ _ _ _ _ _ _ Hx Hb Hop Hr) as (t2 & ns2 & -> & H2). exists t2, ns2. split; auto. lia.
Qed.
(** what generalizes an extension and has an outcome, generalizes the choice or is it *)
Lemma gen_ext g x : generalizes P g x -> forall e n id ct ops gs o T nsT v r, nth_error P e = Some (PChoice n id ct ops gs) -> In x ops -> isExt e x = true ->
  Ev e o (Match T nsT) -> v <= T -> Ev g o r -> exists t' ns', r = Match t' ns' /\ v <= t'.
Proof.
  induction 1 as [g x name id commit options gs Hg Hin|g op x name id commit options gs Hg Hin Hop IH];
    intros e n ide ct ops gse o T nsT v r He Hinx Hx HeT Hv Hr.
  - destruct (isExt g x) eqn:Eg.
    + assert (g = e) by (eapply ext_inj; eauto). subst g. pose proof (Ev_fun _ _ _ _ Hr HeT). subst r. eauto.
    + pose proof (bases_in _ _ _ Hin Eg) as Hb. destruct (option_defined _ _ _ _ _ _ _ _ _ Hg Hb Hr) as (r' & Hr').
      destruct (Ev_extn x o r'); auto. eapply ext_extn; eauto.
  - pose proof (generalizes_base _ _ _ _ _ _ _ _ Hg Hin Hop) as Hb.
    destruct (option_defined _ _ _ _ _ _ _ _ _ Hg Hb Hr) as (r' & Hr').
    destruct (IH _ _ _ _ _ _ _ _ _ _ _ He Hinx Hx HeT Hv Hr') as (t1 & ns1 & -> & H1).
    destruct (option_le _ _ _ _ _ _ _ _ _ _ _ Hg Hb Hr' Hr) as (t2 & ns2 & -> & H2). exists t2, ns2. split; auto. lia.
Qed.

(** ** matches passed on to choices in progress *)
Lemma tres_setGens o t gs' : forall r,
  (forall g x ox, In g gs' -> nth_error P x = Some ox -> nonChar ox -> nodeID ox = g -> exists n c os gs, ox = PChoice n g c os gs /\
     forall rx, Ev x o rx -> exists t' ns, rx = Match t' ns /\ t <= t') ->
  tres r -> tres (setGeneralizations o t gs' r).
Proof.
  unfold setGeneralizations. induction gs' as [|g gs' IH]; intros r Hi Hr; simpl; auto.
  apply IH; [intros g' x ox Hg'; apply Hi; right; auto|].
  destruct (pending r o g) eqn:Ep; auto. apply pending_pcount in Ep.
  apply tres_add; auto. intros a oa Ha Hn Hg. destruct (Hi g a oa (or_introl eq_refl) Ha Hn Hg) as (n & c & os & gs & -> & Hx).
  split; auto. intros x Hx'. destruct (Hx x Hx') as (t' & ns & -> & Hle). exists t', ns. split; auto. split; auto. intros [].
Qed.
Lemma tres_gens a name id commit items ranges gs ac o t ns r : nth_error P a = Some (PSeq name id commit items ranges gs ac) ->
  Ev a o (Match t ns) -> tres r -> tres (setGeneralizations o t gs r).
Proof.
  intros Ha He. apply tres_setGens. intros g x ox Hg Hx Hn Hi.
  assert (Hgen : generalizes P x a) by (apply (Hgens a _ x ox Ha Hx Hn); rewrite Hi; exact Hg).
  destruct (generalizes_choice _ _ _ Hgen) as (nm & i & cm & ops & gs0 & Hx'). rewrite Hx in Hx'. inversion Hx'; subst ox. simpl in Hi. subst i.
  exists nm, cm, ops, gs0. split; auto. intros rx Hrx. eapply gen_le; eauto.
Qed.
Lemma tres_gensExt e n ide ct ops gse T nsT x name id commit items ranges gs ac o t r : nth_error P e = Some (PChoice n ide ct ops gse) -> In x ops ->
  isExt e x = true -> Ev e o (Match T nsT) -> t <= T -> nth_error P x = Some (PSeq name id commit items ranges gs ac) ->
  tres r -> tres (setGeneralizations o t gs r).
Proof.
  intros He Hin Hx HeT Ht Ha. apply tres_setGens. intros g y oy Hg Hy Hn Hi.
  assert (Hgen : generalizes P y x) by (apply (Hgens x _ y oy Ha Hy Hn); rewrite Hi; exact Hg).
  destruct (generalizes_choice _ _ _ Hgen) as (nm & i & cm & os & gs0 & Hy'). rewrite Hy in Hy'. inversion Hy'; subst oy. simpl in Hi. subst i.
  exists nm, cm, os, gs0. split; auto. intros rx Hrx. exact (gen_ext y x Hgen _ _ _ _ _ _ _ _ _ _ _ He Hin Hx HeT Ht Hrx).
Qed.

(** ** what choices in progress keep *)
Lemma keeps_refl R r : keeps R r r.
Proof. intros e nm id cm os gs o He Hp. split; auto. Qed.
Lemma keeps_trans R a b c : keeps R a b -> keeps R b c -> keeps R a c.
Proof.
  intros H1 H2 e nm id cm os gs o He Hp. destruct (H1 _ _ _ _ _ _ _ He Hp) as [A1 A2]. destruct (H2 _ _ _ _ _ _ _ He Hp) as [B1 B2]. split.
  - intros x ox v Hin Hx Hox Hs. eauto.
  - intros v Hv. destruct (B2 v Hv) as [Hv'|]; auto.
Qed.
Lemma keeps_less R R' a b : (forall o i, 0 < pcount R o i -> 0 < pcount R' o i) -> keeps R' a b -> keeps R a b.
Proof. intros H1 H2 e nm id cm os gs o He Hp. eapply H2; eauto. Qed.
Lemma keeps_eq R r r' : (forall o i v, stored r' o i v -> stored r o i v) -> keeps R r r'.
Proof. intros H e nm id cm os gs o He Hp. split; auto. Qed.
(** a match of a definition that is no choice in progress and no extension of one *)
Lemma keeps_set R r o i v : (forall a oa, nth_error P a = Some oa -> nonChar oa -> nodeID oa = i ->
    match oa with
    | PChoice _ _ _ os _ => pcount R o i = 0 \/ exists b, In b (basesOf a os) /\ forall rb, Ev b o rb -> exists t ns, rb = Match t ns /\ v <= t
    | _ => forall e nm id ct ops gs, nth_error P e = Some (PChoice nm id ct ops gs) -> In a ops -> isExt e a = true -> pcount R o id = 0
    end) -> keeps R r (setMatch r o i v).
Proof.
  intros H e nm id cm os gs o' He Hp. split.
  - intros x ox w Hin Hx Hox Hs. apply stored_setMatch in Hs. destruct Hs as [Hs|(-> & Hi & ->)]; auto.
    destruct (ext_seq _ _ _ _ _ _ _ He Hx) as (nx & idx & cx & its & rg & gx & Hp' & _). rewrite Hox in Hp'. inversion Hp'; subst ox.
    specialize (H x _ Hox I Hi). simpl in H. specialize (H _ _ _ _ _ _ He Hin Hx). lia.
  - intros w Hw. apply stored_setMatch in Hw. destruct Hw as [Hw|(-> & Hi & ->)]; auto.
    specialize (H e _ He I Hi). simpl in H. destruct H as [H|H]; auto. subst. lia.
Qed.
Lemma keeps_gens R o t gs' : (forall g x n c os gs, In g gs' -> nth_error P x = Some (PChoice n g c os gs) ->
    pcount R o g = 0 \/ exists b, In b (basesOf x os) /\ forall rb, Ev b o rb -> exists t' ns, rb = Match t' ns /\ t <= t') ->
  (forall g x ox, In g gs' -> nth_error P x = Some ox -> nonChar ox -> nodeID ox = g -> exists n c os gs, ox = PChoice n g c os gs) ->
  forall r, keeps R r (setGeneralizations o t gs' r).
Proof.
  unfold setGeneralizations. induction gs' as [|g gs' IH]; intros Hi Hch r; simpl; [apply keeps_refl|].
  eapply keeps_trans; [|apply IH; [intros g' x n c os gs Hg'; apply Hi; right; auto|intros g' x ox Hg'; apply Hch; right; auto]].
  destruct (pending r o g); [|apply keeps_refl]. apply keeps_set. intros a oa Ha Hn Hg.
  destruct (Hch g a oa (or_introl eq_refl) Ha Hn Hg) as (n & c & os & gs & ->). eapply Hi; [left; reflexivity|exact Ha].
Qed.
Lemma gens_choices a oa : nth_error P a = Some oa -> forall g x ox, In g (gensOf oa) -> nth_error P x = Some ox -> nonChar ox -> nodeID ox = g ->
  exists n c os gs, ox = PChoice n g c os gs.
Proof.
  intros Ha g x ox Hg Hx Hn Hi. assert (Hgen : generalizes P x a) by (apply (Hgens a _ x ox Ha Hx Hn); rewrite Hi; exact Hg).
  destruct (generalizes_choice _ _ _ Hgen) as (nm & i & cm & ops & gs0 & Hx'). rewrite Hx in Hx'. inversion Hx'; subst ox. simpl in Hi. subst i. eauto.
Qed.
Lemma keeps_seqGens R a name id commit items ranges gs ac o t ns r : nth_error P a = Some (PSeq name id commit items ranges gs ac) ->
  Ev a o (Match t ns) -> keeps R r (setGeneralizations o t gs r).
Proof.
  intros Ha He. apply keeps_gens; [|exact (gens_choices a _ Ha)]. intros g x n c os gs0 Hg Hx. right.
  assert (Hgen : generalizes P x a) by (eapply (Hgens a _ x _ Ha Hx I); simpl; auto).
  inversion Hgen as [x0 a0 n0 i0 c0 os0 g0 Hx0 Hin|x0 op a0 n0 i0 c0 os0 g0 Hx0 Hin Hop]; subst;
    (assert (os0 = os) by congruence; subst os0).
  - exists a. split; [eapply defined_base; eauto|]. intros rb Hrb. pose proof (Ev_fun _ _ _ _ He Hrb). subst rb. eauto.
  - exists op. split; [eapply generalizes_base; eauto|]. intros rb Hrb. eapply gen_le; eauto.
Qed.
Lemma keeps_extGens R e n ide ct ops gse T nsT x name id commit items ranges gs ac o t r : nth_error P e = Some (PChoice n ide ct ops gse) -> In x ops ->
  isExt e x = true -> Ev e o (Match T nsT) -> t <= T -> pcount R o ide = 0 -> nth_error P x = Some (PSeq name id commit items ranges gs ac) ->
  keeps R r (setGeneralizations o t gs r).
Proof.
  intros He Hin Hx HeT Ht Hp Ha. apply keeps_gens; [|exact (gens_choices x _ Ha)]. intros g y n' c os gs0 Hg Hy.
  destruct (Nat.eq_dec y e) as [->|Hne].
  { left. rewrite He in Hy. inversion Hy; subst. auto. }
  right.
  assert (Hgen : generalizes P y x) by (eapply (Hgens x _ y _ Ha Hy I); simpl; auto).
  inversion Hgen as [x0 a0 n0 i0 c0 os0 g0 Hx0 Hin0|x0 op a0 n0 i0 c0 os0 g0 Hx0 Hin0 Hop]; subst;
    (assert (os0 = os) by congruence; subst os0).
  - exists x. split.
    + apply bases_in; auto. destruct (isExt y x) eqn:E; auto. exfalso. apply Hne. eapply ext_inj; eauto.
    + intros rb Hrb. destruct (Ev_extn x o rb (ext_extn e x _ _ _ _ _ He Hin Hx) Hrb).
  - exists op. split; [eapply generalizes_base; eauto|]. intros rb Hrb. exact (gen_ext op x Hop _ _ _ _ _ _ _ _ _ _ _ He Hin Hx HeT Ht Hrb).
Qed.

(** ** literals *)
Lemma evalItems_lit n (items : list addr) (bs : list (nat * option nat)) : forall lit o k,
  Forall2 (fun (a : addr) r => exists n i, nth_error P a = Some (PChar n i false [r] [])) items lit ->
  Forall2 (fun (a : addr) b => b = (1, Some 1)) items bs ->
  List.length items < k -> 0 < n ->
  evalItems (ev n) k (combine items bs) 0 o <> Unfinished /\
  (slice input o (o + List.length lit) = lit -> o + List.length lit <= List.length input ->
   evalItems (ev n) k (combine items bs) 0 o = Match (o + List.length lit) []) /\
  (forall t ns, evalItems (ev n) k (combine items bs) 0 o = Match t ns -> slice input o t = lit /\ t <= List.length input \/ lit = [] /\ t = o).
Proof.
  revert bs. induction items as [|a items IH]; intros bs lit o k HF HB Hk Hn.
  - inversion HF; subst. destruct k; [simpl in Hk; lia|]. cbn [combine evalItems]. split; [discriminate|].
    rewrite Nat.add_0_r. split; auto. intros t ns E. inversion E; subst. right. auto.
  - inversion HF as [|a' r l1 l2 (nm & i & Ha) HF']; subst. inversion HB as [|a'' b l3 l4 Eb HB']; subst.
    destruct k as [|k]; [simpl in Hk; lia|]. simpl in Hk. cbn [combine evalItems].
    destruct n as [|n]; [lia|]. assert (Ex : ev (S n) a o = match nth_error input o with Some r0 => if Z.eqb r0 r then Match (S o) [] else NoMatch | None => NoMatch end).
    { rewrite (eval_char _ _ _ _ _ _ _ _ Ha). destruct (nth_error input o) as [r0|]; auto.
      unfold classHas. simpl. rewrite orb_false_r, orb_false_r. destruct (Z.eqb r0 r); auto. }
    rewrite Ex. clear Ex. destruct (nth_error input o) as [r0|] eqn:En.
    + destruct (Z.eqb_spec r0 r) as [->|Hne].
      * destruct (Nat.ltb_spec o (S o)); [|lia]. cbn [Nat.eqb].
        destruct (IH l4 l2 (S o) k HF' HB' ltac:(lia) Hn) as (I1 & I2 & I3). split; [|split].
        -- destruct (evalItems (ev (S n)) k (combine items l4) 0 (S o)); simpl; auto; discriminate.
        -- intros Hs Hle. cbn [List.length] in Hs, Hle |- *. replace (o + S (List.length l2)) with (S o + List.length l2) in * by lia.
           rewrite <- (slice_app input o (S o)) in Hs by lia. rewrite (slice_one _ _ _ En) in Hs. inversion Hs as [Hs']. rewrite Hs'.
           rewrite (I2 Hs' Hle). auto.
        -- intros t ns E. destruct (evalItems (ev (S n)) k (combine items l4) 0 (S o)) as [| |t1 ns1] eqn:E1; simpl in E; try discriminate.
           inversion E; subst t1. left.
           assert (Hlo : o < List.length input) by (apply nth_error_Some; congruence).
           destruct (I3 _ _ eq_refl) as [[S1 S2]|[-> ->]].
           ++ split; auto. apply evalItems_ge in E1; [|intros; eapply evalL_ge; eauto].
              rewrite <- (slice_app input o (S o) t) by lia. rewrite (slice_one _ _ _ En), S1. auto.
           ++ rewrite (slice_one _ _ _ En). split; auto.
      * cbn [Nat.leb]. split; [discriminate|]. split; [|discriminate]. intros Hs Hle. exfalso.
        assert (E : nth_error (slice input o (o + List.length (r :: l2))) 0 = Some r) by (rewrite Hs; auto).
        rewrite slice_nth in E by (simpl; lia). rewrite Nat.add_0_r in E. congruence.
    + cbn [Nat.leb]. split; [discriminate|]. split; [|discriminate]. intros Hs Hle. exfalso. apply nth_error_None in En. simpl in Hle. lia.
Qed.
Lemma literal_notExt kw lit : literal P kw lit -> extn kw = false.
Proof.
  intros Hl. destruct (extn kw) eqn:E; auto. destruct (extn_ext _ E) as (e & n & id & ct & ops & gs & He & Hin & Hx).
  destruct (ext_seq _ _ _ _ _ _ _ He Hx) as (nx & idx & cx & items & ranges & gx & Hp & _).
  destruct Hl as (name & id' & commit & items' & ranges' & gs' & Hkw & _). congruence.
Qed.
Lemma Ev_literal kw lit o : literal P kw lit -> exists r, Ev kw o r /\
  (forall t, o <= t -> slice input o t = lit -> t <= List.length input -> exists ns, r = Match t ns) /\
  (forall t ns, r = Match t ns -> slice input o t = lit).
Proof.
  intros Hlit. pose proof Hlit as (name & id & commit & items & ranges & gs & Hkw & Hnokw & HF & Hr).
  destruct (lit_bounds items ranges Hr) as (bs & HB & Ec).
  set (n := S (List.length items)).
  destruct (evalItems_lit n items bs lit o n HF HB) as (I1 & I2 & I3); [apply Nat.lt_succ_diag_r|apply Nat.lt_0_succ|].
  assert (E : ev (S n) kw o = match evalItems (ev n) n (combine items bs) 0 o with Match t ns => labelled (heapLabel name commit) o (Match t ns) | r => r end).
  { rewrite (eval_seq _ _ _ _ _ _ _ _ _ _ Hkw (literal_notExt _ _ Hlit)). unfold objItems. rewrite Hnokw, Ec. cbn [andb]. auto. }
  exists (ev (S n) kw o). split; [|split].
  - apply Ev_at. rewrite E. destruct (evalItems _ _ _ _ _); simpl; congruence.
  - intros t Hot Hs Ht. assert (Hlen : List.length lit = t - o) by (rewrite <- Hs, slice_length; auto).
    rewrite E, I2; [| |lia].
    + simpl. replace (o + List.length lit) with t by lia. eauto.
    + replace (o + List.length lit) with t by lia. auto.
  - intros t ns Et. rewrite E in Et. destruct (evalItems (ev n) n (combine items bs) 0 o) as [| |t1 ns1]; simpl in Et; try discriminate.
    inversion Et; subst. destruct (I3 _ _ eq_refl) as [[S1 S2]|[-> ->]]; auto. apply slice_nil.
Qed.

(** a literal keyword, under any limit *)
Lemma literal_tinv n kw lit c c' : literal P kw lit -> tinv c -> parse P kws n kw c = Ok c' ->
  tinv c' /\ (cMatchLast c' = true -> stored (cResults c') (cOffset c) (match nth_error P kw with Some ob => nodeID ob | None => 0 end) (cOffset c')) /\
  forall R, keeps R (cResults c) (cResults c').
Proof.
  intros Hl [H Ht] Hk.
  assert (Hps : post kw c c' /\ (cMatchLast c' = true -> stored (cResults c') (cOffset c) (match nth_error P kw with Some ob => nodeID ob | None => 0 end) (cOffset c'))).
  { destruct (parse_spec P kws input REof GT) with (n := n) (p := kw) (c := c) (c' := c') as [X Y]; auto.
    - intros. split; [exact I|]. intros; exact I.
    - intros. exact I.
    - split; auto. destruct Hl as (nm & id & cm & its & rg & gs & Hkw & _). rewrite Hkw in *. auto. }
  destruct Hps as [Hpost Hst].
  assert (Hmain : tres (cResults c') /\ forall R, keeps R (cResults c) (cResults c')); [|destruct Hmain as [M1 M2]; split; [split; [apply Hpost|auto]|auto]].
  clear Hst.
  pose proof Hl as (name & id & commit & items & ranges & gs & Hkw & Hnokw & HF & Hr).
  destruct (literal_chars P _ _ Hl) as (name' & id' & commit' & items' & ranges' & gs' & Hkw' & _ & Hch).
  rewrite Hkw in Hkw'. inversion Hkw'; subst name' id' commit' items' ranges' gs'. clear Hkw'.
  destruct n as [|n]; [discriminate|]. cbn [parse] in Hk. rewrite Hkw in Hk. unfold seqParse in Hk.
  cbn [negb andb] in Hk. binv Hk.
  pose proof (seqLoop_chars P kws input _ _ _ _ _ _ _ _ Hch _ _ _ _ _ H eq_refl (Nat.le_refl _) E) as Hres.
  apply (seqLoop_spec P input REof GT) in E; auto; [|intros; eapply post_of; eauto].
  destruct x as [to c1|c1].
  2:{ inversion Hk; subst. rewrite Hres. split; auto. intros R. apply keeps_refl. }
  destruct E as (Q1 & Q2 & Q3 & Q4 & Q5 & Q6). rewrite Hnokw in Hk. cbn [bind] in Hk. simpl in Hk. inversion Hk; subst c'. clear Hk.
  assert (Hto : to <= List.length input) by (rewrite <- Q4; pose proof (ci_off _ _ _ _ Q1); apply cinv_len in Q1; lia).
  destruct (seqRun_lit P input items ranges lit 0 _ _ HF Hr Hto Q6) as [S1 S2].
  destruct (Ev_literal kw lit (cOffset c) Hl) as (r & Er & E1 & E2).
  destruct (E1 to S2 S1 Hto) as (ns & ->).
  assert (Hc4 : cResults (clearFail to (setResults c1 (setGeneralizations (cOffset c) to gs (cResults c1)))) = setGeneralizations (cOffset c) to gs (cResults c1)).
  { destruct (sameTR_clearFail to (setResults c1 (setGeneralizations (cOffset c) to gs (cResults c1)))) as (_ & -> & _). auto. }
  simpl. rewrite Hc4. split.
  - eapply tres_setSeq; [exact Hkw|eapply literal_notExt; eauto| |discriminate|].
    + intros x Hx. exists ns. eapply Ev_fun; eauto.
    + eapply tres_gens; eauto. rewrite Hres. auto.
  - intros R. simpl in Hres. rewrite <- Hres. eapply keeps_trans; [eapply keeps_seqGens; eauto|].
    apply keeps_set. intros a oa Ha Hn Hi. assert (a = kw) by (eapply (Hids a kw); eauto; exact I). subst a. rewrite Hkw in Ha. inversion Ha; subst oa.
    intros e nm ie ct ops gse He Hin Hx. pose proof (ext_extn _ _ _ _ _ _ _ He Hin Hx) as X. rewrite (literal_notExt _ _ Hl) in X. discriminate.
Qed.

(** keywords are recognized exactly *)
Lemma keywordLoop_tinv n l : (forall kw, In kw l -> In kw kws) -> forall from to c c' b,
  tinv c -> from <= to -> to <= List.length (cTokens c) ->
  keywordLoop (parse P kws n) l from to c = Ok (c', b) -> tinv c' /\ (b = true -> In (slice input from to) K) /\ forall R, keeps R (cResults c) (cResults c').
Proof.
  induction l as [|kw l IH]; intros Hl from to c c' b H Hft Ht Hk; cbn [keywordLoop] in Hk.
  - inversion Hk; subst. split; auto. split; [discriminate|]. intros R. apply keeps_refl.
  - binv Hk. destruct (HK2 kw (Hl kw (or_introl eq_refl))) as (w & Hw & Hlit).
    assert (H0 : tinv (setOffset c from)) by (split; [apply cinv_offset; [lia|apply H]|apply H]).
    destruct (literal_tinv _ _ _ _ _ Hlit H0 E) as (T1 & T2 & T3).
    pose proof (post_of P kws input REof _ _ _ _ (proj1 H0) E) as (_ & Hst & _). apply step_len in Hst. simpl in Hst.
    destruct (cMatchLast x && (cOffset x =? to))%bool eqn:Eb.
    + inversion Hk; subst. split; auto. split; auto. intros _. apply andb_true_iff in Eb. destruct Eb as [Eb1 Eb2]. apply Nat.eqb_eq in Eb2.
      specialize (T2 Eb1). simpl in T2. pose proof Hlit as (nm & id & cm & its & rg & gs & Hkw & _). rewrite Hkw in T2. simpl in T2.
      destruct (Ev_literal kw w from Hlit) as (r & Er & _ & E2).
      destruct (ti_2 _ (proj2 T1) kw _ from to r Hkw I ltac:(simpl; rewrite <- Eb2; exact T2) Er) as (t' & ns & -> & _ & Ht').
      rewrite (Ht' I). rewrite (E2 _ _ eq_refl). auto.
    + apply IH in Hk; auto; [|intros; apply Hl; right; auto|lia]. destruct Hk as (K1 & K2 & K3). split; auto. split; auto.
      intros R. eapply keeps_trans; [exact (T3 R)|exact (K3 R)].
Qed.
Lemma isKeyword_tinv n from to c c' b : tinv c -> from <= to -> to <= List.length (cTokens c) ->
  isKeyword (parse P kws n) kws from to c = Ok (c', b) -> tinv c' /\ b = isOneOf (slice input from to) K /\ forall R, keeps R (cResults c) (cResults c').
Proof.
  intros H Hft Ht Hk. unfold isKeyword in Hk. binv Hk. destruct x as [c1 b1]. simpl in Hk.
  assert (Hkw : isKeyword (parse P kws n) kws from to c = Ok (c', b)).
  { unfold isKeyword. rewrite E. exact Hk. }
  apply (isKeyword_spec P kws input REof GT) in Hkw; auto.
  2:{ intros; eapply post_of; eauto. }
  2:{ intros; eapply parse_literal; eauto. }
  2:{ apply H. }
  destruct Hkw as (_ & _ & _ & Hnot). inversion Hk; subst.
  apply keywordLoop_tinv in E; auto.
  2:{ split; [apply cinv_limit; apply H|apply H]. }
  destruct E as ([T1 T2] & T3 & T4). split; [split; [apply cinv_limit; auto|auto]|]. split; [|exact T4].
  destruct b.
  - symmetry. unfold isOneOf. apply existsb_exists. exists (slice input from to). split; auto. destruct (list_eq_dec _ _ _); auto.
  - destruct (isOneOf (slice input from to) K) eqn:Ex; auto. unfold isOneOf in Ex. apply existsb_exists in Ex. destruct Ex as (k & Hk1 & Hk2).
    destruct (list_eq_dec Z.eq_dec (slice input from to) k) as [Es|]; [|discriminate].
    destruct (HK1 k Hk1) as (kw & Hin & Hlit). exfalso. eapply Hnot; eauto.
Qed.

(** ** the recursive step *)
Definition less (R r : results) : Prop := forall o i, 0 < pcount R o i -> 0 < pcount r o i.
Lemma less_same R c c' : samePending c c' -> less R (cResults c) -> less R (cResults c').
Proof. intros H HR o i Hp. rewrite H. auto. Qed.
Lemma less_none R r o i : less R r -> pcount r o i = 0 -> pcount R o i = 0.
Proof. intros H H0. destruct (pcount R o i) eqn:E; auto. specialize (H o i). lia. Qed.
Lemma keeps_stored R r r' : rMatch r' = rMatch r -> keeps R r r'.
Proof. intros H. apply keeps_eq. intros o i v. apply (stored_ext _ _ H). Qed.
Section REC.
Variable n : nat.
Variable m : nat.
Notation rec := (parse P kws m).
Hypothesis Hrec : forall p c c', tinv c -> cOffsetLimit c = None -> pend n c -> ev n p (cOffset c) <> Unfinished ->
  rec p c = Ok c' -> tinv c' /\ agrees p c c' (ev n p (cOffset c)) /\ forall R, less R (cResults c) -> keeps R (cResults c) (cResults c').

Lemma seqLoop_ref p name id commit items ranges gs ac from k : nth_error P p = Some (PSeq name id commit items ranges gs ac) ->
  forall j to ii cnt c out,
  tinv c -> cOffsetLimit c = None -> pend n c -> cOffset c = to -> from <= to ->
  evalItems (ev n) j (skipn ii (objItems items ranges)) cnt to <> Unfinished ->
  seqLoop rec k p id commit items ranges ac from to ii cnt c = Ok out ->
  match evalItems (ev n) j (skipn ii (objItems items ranges)) cnt to with
  | Match t _ => exists c', out = SLoop t c' /\ tinv c' /\ (forall R, less R (cResults c) -> keeps R (cResults c) (cResults c')) /\
      (forall x o' ox t' ns, asks (skipn ii (objItems items ranges)) cnt to x o' -> nth_error P x = Some ox -> nonChar ox ->
         Ev x o' (Match t' ns) -> stored (cResults c') o' (nodeID ox) t')
  | NoMatch => exists c', out = SReturn c' /\ tinv c' /\ (forall R, less R (cResults c) -> keeps R (cResults c) (cResults c')) /\ (Ev p from NoMatch -> cMatchLast c' = false)
  | Unfinished => False
  end.
Proof.
  intros Hp. induction k as [|k IH]; intros j to ii cnt c out H Hl Hpd Ho Hft Hd Hk; [discriminate|].
  cbn [seqLoop] in Hk. destruct j as [|j]; [exfalso; apply Hd; auto|].
  unfold objItems in *. destruct (nth_error items ii) as [item|] eqn:Ei.
  2:{ rewrite (skipn_combine_none _ _ _ Ei) in *. cbn [evalItems] in *. inversion Hk; subst.
      exists c. split; auto. split; auto. split; [intros; apply keeps_refl|]. intros x o' ox t' ns Ha. inversion Ha. }
  binv Hk. destruct (nth_error ranges ii) as [[mn mx]|] eqn:Er; [|discriminate].
  assert (Er' : nth_error (map toBounds ranges) ii = Some (toBounds (mn, mx))) by (rewrite nth_error_map, Er; auto).
  rewrite (skipn_combine _ _ _ _ _ Ei Er') in *. set (rest := skipn (S ii) (combine items (map toBounds ranges))) in *.
  destruct (toBounds (mn, mx)) as [bmn bmx] eqn:Eb.
  assert (Hmin : forall q, Z.leb mn (Z.of_nat q) = (bmn <=? q)) by (intros q; rewrite (toBounds_min mn mx q), Eb; auto).
  assert (Hmax : forall q, (Z.ltb 0 mx && Z.eqb (Z.of_nat q) mx)%bool = match bmx with Some m => q =? m | None => false end)
    by (intros q; rewrite (toBounds_max mn mx q), Eb; auto).
  cbn [evalItems] in Hd |- *.
  assert (Hx : ev n item to <> Unfinished) by (intros E'; rewrite E' in Hd; auto).
  pose proof (post_of P kws input REof _ _ _ _ (proj1 H) E) as (P1 & P2 & P3 & P4).
  destruct (Hrec item c x H Hl Hpd ltac:(rewrite Ho; exact Hx) E) as (T1 & T2 & TK). rewrite Ho in T2.
  pose proof (Ev_at _ _ _ Hx) as HEv.
  assert (TK2 : forall r, (forall R, less R (cResults x) -> keeps R (cResults x) r) -> forall R, less R (cResults c) -> keeps R (cResults c) r).
  { intros r Hr R HR. eapply keeps_trans; [apply TK; auto|]. apply Hr. eapply less_same; eauto. }
  assert (Hlx : cOffsetLimit x = None) by (rewrite (st_limit _ _ P2); auto).
  pose proof (pend_same _ _ _ P3 Hpd) as Hpx.
  destruct (ev n item to) as [| |t ns] eqn:Ex; [contradiction| |]; cbn [agrees] in T2.
  - rewrite T2 in *. cbn [negb] in Hk. rewrite Hmin in Hk. destruct (bmn <=? cnt) eqn:Emn.
    + apply Nat.leb_le in Emn.
      apply (IH j) in Hk; auto; try lia. fold rest in Hk.
      destruct (evalItems (ev n) j rest 0 to) as [| |t1 ns1] eqn:E1; [contradiction|destruct Hk as (c' & -> & Hc1 & HcK & Hc2); exists c'; auto 8|].
      destruct Hk as (c' & -> & Hc1 & HcK & Hc2). exists c'. split; auto. split; auto. split; [apply TK2; exact HcK|].
      intros y o' oy t' ns' Ha Hy Hny Hey. inversion Ha as [x0 b0 its0 n0 o0|x0 mn0 mx0 its0 n0 o0 y0 o0' He0 Hm0 Ha0|x0 b0 its0 n0 o0 ns0 y0 o0' He0 Ha0
        |x0 mn0 m0 its0 n0 o0 t0 ns0 y0 o0' He0 Hlt0 Hm0 Ha0|x0 mn0 mx0 its0 n0 o0 t0 ns0 y0 o0' He0 Hlt0 Hm0 Ha0]; subst.
      * pose proof (Ev_fun _ _ _ _ HEv Hey). discriminate.
      * eapply Hc2; eauto.
      * pose proof (Ev_fun _ _ _ _ HEv He0). discriminate.
      * pose proof (Ev_fun _ _ _ _ HEv He0). discriminate.
      * pose proof (Ev_fun _ _ _ _ HEv He0). discriminate.
    + assert (H1 : cinv (setOffset x from)).
      { apply cinv_offset; [|apply T1]. apply step_len in P2. pose proof (ci_off _ _ _ _ (proj1 H)). lia. }
      destruct (fromResults (setOffset x from) id) as [c1|] eqn:Ef.
      * destruct (fromResults_spec _ _ _ _ _ _ H1 Ef) as (F1 & F2 & F3). simpl in F3.
        assert (Em1 : Ev p from NoMatch -> cMatchLast c1 = false).
        { intros Hno. destruct (cMatchLast c1) eqn:Em1; auto. exfalso. destruct F3 as (_ & F3 & _).
          destruct (ti_2 _ (proj2 T1) p _ from _ _ Hp I F3 Hno) as (t' & ns' & Hc & _). discriminate. }
        binv Hk. inversion Hk; subst; clear Hk.
        pose proof (sameTR_trans _ _ _ F2 (sameTR_clearFail (cOffset c) c1)) as (F4 & F5 & F6). simpl in F5.
        pose proof E0 as E0'. apply (unmarkUnless_spec input REof GT) in E0; [|apply cinv_clearFail; auto].
        destruct E0 as (U1 & U2 & U3 & U4 & U5 & U6). eexists. split; eauto. split; [|split; [apply TK2; intros R _; apply keeps_stored; rewrite U6, F5; auto|rewrite U5, matchLast_clearFail; auto]].
        split; auto. eapply tres_ext; [| | |exact (proj2 T1)].
        -- intros o i t. rewrite (stored_ext _ _ U6). rewrite F5. tauto.
        -- intros o i. clear -E0' F5. unfold unmarkUnless, mapResults in E0'. destruct ac; [inversion E0'; subst; now rewrite F5|].
           binv E0'. inversion E0'; subst. simpl. destruct (unmark_match _ _ _ _ E) as [_ M]. rewrite (noMatchHas_ext _ _ M), F5. auto.
        -- intros a nm0 id0 cm0 ops0 gs0 o Ha Hz. rewrite U3, F5 in Hz. destruct ac; [lia|].
           destruct (Nat.eqb_spec id id0) as [->|Hne]; [|simpl in Hz; lia]. exfalso.
           assert (a = p) by (eapply Hids; [exact Ha|exact Hp| | |]; auto; exact I). subst a. congruence.
      * binv Hk. inversion Hk; subst; clear Hk.
        assert (H2 : cinv (blame p commit (setOffset x from))) by (apply cinv_blame; auto).
        destruct (sameTR_blame p commit (setOffset x from)) as (B1 & B2 & B3). simpl in B1, B2, B3.
        pose proof E0 as E0'. apply (unmarkUnless_spec input REof GT) in E0.
        2:{ apply cinv_fail; auto. rewrite B1. apply step_len in P2. pose proof (ci_off _ _ _ _ (proj1 H)). lia. }
        destruct E0 as (U1 & U2 & U3 & U4 & U5 & U6). simpl in U6. eexists. split; eauto. split; [|split; [apply TK2; intros R _; apply keeps_stored; rewrite U6, B2; auto|rewrite U5; auto]].
        split; auto. eapply tres_ext; [| | |exact (proj2 T1)].
        -- intros o i t. rewrite (stored_ext _ _ U6). rewrite B2. tauto.
        -- intros o i. clear -E0' B2. unfold unmarkUnless, mapResults in E0'. destruct ac; [inversion E0'; subst; simpl; now rewrite B2|].
           binv E0'. inversion E0'; subst. simpl in *. destruct (unmark_match _ _ _ _ E) as [_ M]. rewrite (noMatchHas_ext _ _ M), B2. auto.
        -- intros a nm0 id0 cm0 ops0 gs0 o Ha Hz. rewrite U3 in Hz. simpl in Hz. rewrite B2 in Hz. destruct ac; [lia|].
           destruct (Nat.eqb_spec id id0) as [->|Hne]; [|simpl in Hz; lia]. exfalso.
           assert (a = p) by (eapply Hids; [exact Ha|exact Hp| | |]; auto; exact I). subst a. congruence.
  - destruct T2 as (T2 & T3 & T4). rewrite T2 in *. cbn [negb orb] in Hk. destruct P4 as [P4 _]. rewrite Ho, T3 in P4.
    rewrite T3 in Hk. rewrite Ho in T4.
    assert (Hhere : forall c' ox t' ns', step x c' -> nth_error P item = Some ox -> nonChar ox -> Ev item to (Match t' ns') ->
              stored (cResults c') to (nodeID ox) t').
    { intros c' ox t' ns' Hst Hox Hn He. pose proof (Ev_fun _ _ _ _ HEv He) as Hq. inversion Hq; subst. apply (st_stored _ _ Hst). auto. }
    assert (Hstep : forall k0 ii0 cnt0 to' out', seqLoop rec k0 p id commit items ranges ac from t ii0 cnt0 x = Ok out' ->
              forall c', out' = SLoop to' c' -> step x c').
    { intros k0 ii0 cnt0 to' out' Hs c' ->. apply (seqLoop_spec P input REof GT) in Hs; auto; [apply Hs|intros; eapply post_of; eauto|lia]. }
    destruct (to <? t) eqn:Elt; cbn [negb orb] in Hk.
    + apply Nat.ltb_lt in Elt. rewrite Hmax in Hk.
      destruct (match bmx with Some m0 => S cnt =? m0 | None => false end) eqn:Em.
      * assert (Hbmx : bmx = Some (S cnt)) by (destruct bmx as [m0|]; [apply Nat.eqb_eq in Em; congruence|discriminate]).
        pose proof (Hstep _ _ _ (match evalItems (ev n) j rest 0 t with Match t1 _ => t1 | _ => 0 end) _ Hk) as Hst.
        apply (IH j) in Hk; auto; try lia.
        2:{ intros E'. fold rest in E'. rewrite E' in Hd. auto. }
        fold rest in Hk. destruct (evalItems (ev n) j rest 0 t) as [| |t1 ns1] eqn:E1; [contradiction|destruct Hk as (c' & -> & Hc1 & HcK & Hc2); exists c'; auto 8|]. cbn [after].
        destruct Hk as (c' & -> & Hc1 & HcK & Hc2). exists c'. split; auto. split; auto. split; [apply TK2; exact HcK|].
        intros y o' oy t' ns' Ha Hy Hny Hey. inversion Ha as [x0 b0 its0 n0 o0|x0 mn0 mx0 its0 n0 o0 y0 o0' He0 Hm0 Ha0|x0 b0 its0 n0 o0 ns0 y0 o0' He0 Ha0
          |x0 mn0 m0 its0 n0 o0 t0 ns0 y0 o0' He0 Hlt0 Hm0 Ha0|x0 mn0 mx0 its0 n0 o0 t0 ns0 y0 o0' He0 Hlt0 Hm0 Ha0]; subst.
        -- eapply Hhere; eauto.
        -- pose proof (Ev_fun _ _ _ _ HEv He0). discriminate.
        -- pose proof (Ev_fun _ _ _ _ HEv He0) as Hq. inversion Hq; lia.
        -- pose proof (Ev_fun _ _ _ _ HEv He0) as Hq. inversion Hq; subst. eapply Hc2; eauto.
        -- exfalso. auto.
      * assert (Hbmx : bmx <> Some (S cnt)) by (intros ->; rewrite Nat.eqb_refl in Em; discriminate).
        pose proof (Hstep _ _ _ (match evalItems (ev n) j ((item, (bmn, bmx)) :: rest) (S cnt) t with Match t1 _ => t1 | _ => 0 end) _ Hk) as Hst.
        apply (IH j) in Hk; auto; try lia; rewrite (skipn_combine _ _ _ _ _ Ei Er'), ?Eb in *; fold rest in Hk || fold rest.
        2:{ intros E'. rewrite E' in Hd. auto. }
        destruct (evalItems (ev n) j ((item, (bmn, bmx)) :: rest) (S cnt) t) as [| |t1 ns1] eqn:E1; [contradiction|destruct Hk as (c' & -> & Hc1 & HcK & Hc2); exists c'; auto 8|]. cbn [after].
        destruct Hk as (c' & -> & Hc1 & HcK & Hc2). exists c'. split; auto. split; auto. split; [apply TK2; exact HcK|].
        intros y o' oy t' ns' Ha Hy Hny Hey. inversion Ha as [x0 b0 its0 n0 o0|x0 mn0 mx0 its0 n0 o0 y0 o0' He0 Hm0 Ha0|x0 b0 its0 n0 o0 ns0 y0 o0' He0 Ha0
          |x0 mn0 m0 its0 n0 o0 t0 ns0 y0 o0' He0 Hlt0 Hm0 Ha0|x0 mn0 mx0 its0 n0 o0 t0 ns0 y0 o0' He0 Hlt0 Hm0 Ha0]; subst.
        -- eapply Hhere; eauto.
        -- pose proof (Ev_fun _ _ _ _ HEv He0). discriminate.
        -- pose proof (Ev_fun _ _ _ _ HEv He0) as Hq. inversion Hq; lia.
        -- exfalso. auto.
        -- pose proof (Ev_fun _ _ _ _ HEv He0) as Hq. inversion Hq; subst. eapply Hc2; eauto.
    + apply Nat.ltb_ge in Elt. assert (Hto : cOffset x = to) by lia. assert (t = to) by lia. clear T3. subst t.
      pose proof (Hstep _ _ _ (match evalItems (ev n) j rest 0 to with Match t1 _ => t1 | _ => 0 end) _ Hk) as Hst.
      apply (IH j) in Hk; auto; try lia.
      2:{ intros E'. fold rest in E'. rewrite E' in Hd. auto. }
      fold rest in Hk. destruct (evalItems (ev n) j rest 0 to) as [| |t1 ns1] eqn:E1; [contradiction|destruct Hk as (c' & -> & Hc1 & HcK & Hc2); exists c'; auto 8|]. cbn [after].
      destruct Hk as (c' & -> & Hc1 & HcK & Hc2). exists c'. split; auto. split; auto. split; [apply TK2; exact HcK|].
      intros y o' oy t' ns' Ha Hy Hny Hey. inversion Ha as [x0 b0 its0 n0 o0|x0 mn0 mx0 its0 n0 o0 y0 o0' He0 Hm0 Ha0|x0 b0 its0 n0 o0 ns0 y0 o0' He0 Ha0
        |x0 mn0 m0 its0 n0 o0 t0 ns0 y0 o0' He0 Hlt0 Hm0 Ha0|x0 mn0 mx0 its0 n0 o0 t0 ns0 y0 o0' He0 Hlt0 Hm0 Ha0]; subst.
      * eapply Hhere; eauto.
      * pose proof (Ev_fun _ _ _ _ HEv He0). discriminate.
      * eapply Hc2; eauto.
      * pose proof (Ev_fun _ _ _ _ HEv He0) as Hq. inversion Hq; lia.
      * pose proof (Ev_fun _ _ _ _ HEv He0) as Hq. inversion Hq; lia.
Qed.

Lemma tres_unmark ac from id a ob c c' : nth_error P a = Some ob -> nonChar ob -> nodeID ob = id ->
  unmarkUnless ac from id c = Ok c' ->
  (forall name cm ops gs, ob = PChoice name id cm ops gs -> forall t, stored (cResults c) from id t ->
     (forall t' ns, Ev a from (Match t' ns) -> stored (cResults c) from id t') /\
     (forall x ox t' ns, In x ops -> nth_error P x = Some ox -> nonChar ox -> Ev x from (Match t' ns) -> stored (cResults c) from (nodeID ox) t') /\
     (exts a ops <> [] -> forall t' ns, Ev a from (Match t' ns) -> exists L T0 nb, chain (heapLabel name cm) from (exts a ops) (basesOf a ops) L t' ns /\
        Begins (basesOf a ops) from (Match T0 nb) /\ grow a id from T0 (exts a ops) L t' (cResults c))) ->
  tres (cResults c) -> tres (cResults c').
Proof.
  intros Ha Hn Hi Hu Hch Ht. unfold unmarkUnless, mapResults in Hu. destruct ac; [inversion Hu; subst; auto|].
  binv Hu. inversion Hu; subst c'; clear Hu. simpl. destruct (unmark_match _ _ _ _ E) as [M1 M2].
  pose proof (stored_ext _ _ M1) as M3. pose proof (noMatchHas_ext _ _ M2) as M4. pose proof (pcount_unmark _ _ _ _ E) as M5.
  destruct Ht as [A B C D F U V]. split.
  - intros b ob' o t x0 Hb Hnb Hs. apply M3 in Hs. eauto.
  - intros b ob' o x0 Hb Hnb Hs. rewrite M4 in Hs. eauto.
  - intros b nm i cm ops gs o t t' ns Hb Hs Hp He. apply M3 in Hs. apply M3. rewrite M5 in Hp.
    destruct (Nat.eqb_spec id i) as [Hii|Hii]; simpl in Hp; [|eapply C; eauto; lia].
    destruct (Nat.eqb_spec from o) as [Hoo|Hoo]; [|eapply C; eauto; lia]. subst i o.
    assert (a = b) by (eapply Hids; eauto; exact I). subst b. rewrite Ha in Hb. inversion Hb; subst ob.
    destruct (Hch _ _ _ _ eq_refl t Hs) as [X _]. eauto.
  - intros b nm i cm ops gs o t y oy t' ns Hb Hs Hp Hy Hoy Hny He. apply M3 in Hs. apply M3. rewrite M5 in Hp.
    destruct (Nat.eqb_spec id i) as [Hii|Hii]; simpl in Hp; [|eapply D; eauto; lia].
    destruct (Nat.eqb_spec from o) as [Hoo|Hoo]; [|eapply D; eauto; lia]. subst i o.
    assert (a = b) by (eapply Hids; eauto; exact I). subst b. rewrite Ha in Hb. inversion Hb; subst ob.
    destruct (Hch _ _ _ _ eq_refl t Hs) as (_ & X & _). eauto.
  - intros b nm i cm its rg gs o t y o' oy t' ns Hb Hxn Hs Has Hoy Hny He. apply M3 in Hs. apply M3. eauto.
  - intros b nm i cm ops gs o v t ns Hb Hne Hs Hp He. apply M3 in Hs. rewrite M5 in Hp.
    assert (X : exists L T0 nb, chain (heapLabel nm cm) o (exts b ops) (basesOf b ops) L t ns /\
        Begins (basesOf b ops) o (Match T0 nb) /\ grow b i o T0 (exts b ops) L t (cResults c)).
    { destruct (Nat.eqb_spec id i) as [Hii|Hii]; simpl in Hp; [|eapply U; eauto; lia].
      destruct (Nat.eqb_spec from o) as [Hoo|Hoo]; [|eapply U; eauto; lia]. subst i o.
      assert (a = b) by (eapply Hids; eauto; exact I). subst b. rewrite Ha in Hb. inversion Hb; subst ob.
      destruct (Hch _ _ _ _ eq_refl v Hs) as (_ & _ & X). eauto. }
    destruct X as (L & T0 & nb & X1 & X2 & X3). exists L, T0, nb. split; auto. split; auto.
    eapply grow_up; [| | |exact X3]; intros; apply M3; auto.
  - intros b nm i cm ops gs y oy o v Hb Hin Hx Hoy Hs. apply M3 in Hs. destruct (V _ _ _ _ _ _ _ _ _ _ Hb Hin Hx Hoy Hs) as (w & Hw). exists w. apply M3. auto.
Qed.

Lemma seqParse_ref p name id commit items ranges gs ac c c' : nth_error P p = Some (PSeq name id commit items ranges gs ac) ->
  tinv c -> cOffsetLimit c = None -> pend n c -> ev n p (cOffset c) = Unfinished ->
  pcount (cResults c) (cOffset c) id = 0 -> ev (S n) p (cOffset c) <> Unfinished ->
  seqParse rec m kws p id commit items ranges gs ac c = Ok c' -> tinv c' /\ agrees p c c' (ev (S n) p (cOffset c)) /\
  forall R, less R (cResults c) -> keeps R (cResults c) (cResults c').
Proof.
  intros Hp H Hl Hpd Hun Hp0 Hd Hk.
  assert (Hc' : cinv c').
  { eapply (post_of P kws input REof (S m) p c c' (proj1 H)). cbn [parse]. rewrite Hp. exact Hk. }
  pose proof (Ev_at _ _ _ Hd) as HEv.
  assert (Hxn : extn p = false) by (destruct (extn p) eqn:Ex; auto; destruct (Ev_extn _ _ _ Ex HEv)).
  rewrite (eval_seq n p _ _ _ _ _ _ _ (cOffset c) Hp Hxn) in *.
  set (from := cOffset c) in *. unfold seqParse in Hk.
  assert (Hpf : pending (cResults c) from id = false) by (apply pending_false; auto).
  fold from in Hk. rewrite Hpf, andb_false_r in Hk.
  set (c0 := if ac then c else _) in *.
  assert (H0 : tinv c0).
  { unfold c0. destruct ac; auto. split; [apply cinv_mark; apply H|]. simpl. eapply tres_ext; [| | |exact (proj2 H)].
    - apply stored_ext. apply mark_match.
    - intros. rewrite (noMatchHas_ext _ _ (proj2 (mark_match _ _ _))). auto.
    - intros a nm i cm ops g o Ha. rewrite pcount_mark. intros. lia. }
  assert (Hpd0 : pend n c0).
  { unfold c0. destruct ac; auto. apply (pend_mark n c p _ Hp I Hun); auto.
    intros b nm i cm ops gs0 Hb Hin Hx. rewrite (ext_extn _ _ _ _ _ _ _ Hb Hin Hx) in Hxn. discriminate. }
  assert (Hk0 : forall R, less R (cResults c) -> less R (cResults c0) /\ keeps R (cResults c) (cResults c0)).
  { intros R HR. unfold c0. destruct ac; [split; auto; apply keeps_refl|]. split.
    - intros o i Hpp. simpl. rewrite pcount_mark. specialize (HR _ _ Hpp). lia.
    - apply keeps_stored. apply mark_match. }
  assert (Hset : forall R r v, keeps R r (setMatch r from id v)).
  { intros R r v. apply keeps_set. intros a oa Ha Hn Hi. assert (a = p) by (eapply (Hids a p); eauto; exact I). subst a. rewrite Hp in Ha. inversion Ha; subst oa.
    intros b nm i cm ops gs0 Hb Hin Hx. rewrite (ext_extn _ _ _ _ _ _ _ Hb Hin Hx) in Hxn. discriminate. }
  assert (Hl0 : cOffsetLimit c0 = None) by (unfold c0; destruct ac; auto).
  assert (Ho0 : cOffset c0 = from) by (unfold c0; destruct ac; auto).
  set (e := evalItems (ev n) n (objItems items ranges) 0 from) in *.
  assert (Hd' : e <> Unfinished) by (intros E'; rewrite E' in Hd; auto).
  binv Hk. pose proof E as Es. apply (seqLoop_ref p name id commit items ranges gs ac from m Hp n) in E; auto.
  change (skipn 0 (objItems items ranges)) with (objItems items ranges) in E. fold e in E.
  apply (seqLoop_spec P input REof GT) in Es; auto; [|intros; eapply post_of; eauto|apply H0].
  destruct e as [| |t ns] eqn:Ee; [contradiction| |].
  - destruct E as (c1 & -> & T1 & TK & T2). inversion Hk; subst c'. split; auto. split; [exact (T2 HEv)|].
    intros R HR. destruct (Hk0 R HR). eapply keeps_trans; eauto.
  - destruct E as (c1 & -> & T1 & TK & Tc). destruct Es as (Q1 & Q2 & Q3 & Q4 & Q5 & Q6).
    assert (Hto : t <= List.length (cTokens c1)) by (rewrite <- Q4; apply Q1).
    binv Hk. destruct x as [c2 b].
    assert (Hkw : tinv c2 /\ step c1 c2 /\ samePending c1 c2 /\ b = (hasFlag commit CNoKeyword && isOneOf (slice input from t) K)%bool /\
              forall R, keeps R (cResults c1) (cResults c2)).
    { destruct (hasFlag commit CNoKeyword).
      - pose proof E as E'. apply isKeyword_tinv in E; auto.
        apply (isKeyword_spec P kws input REof GT) in E'; auto.
        2:{ intros; eapply post_of; eauto. }
        2:{ intros; eapply parse_literal; eauto. }
        destruct E' as (_ & X1 & X2 & _). destruct E as (X3 & X4 & X5). auto.
      - inversion E; subst. split; auto. split; [apply step_refl|]. split; [intros ? ?; auto|]. split; auto. intros R. apply keeps_refl. }
    destruct Hkw as (R1 & R2 & R3 & R4 & R5). clear E. rewrite between_slice in *. rewrite <- R4 in *.
    pose proof (step_len _ _ R2) as Hlen2.
    assert (HK : forall R, less R (cResults c) -> keeps R (cResults c) (cResults c2)).
    { intros R HR. destruct (Hk0 R HR). eapply keeps_trans; [eassumption|]. eapply keeps_trans; [apply TK; auto|auto]. }
    destruct b.
    + destruct (sameTR_blame p commit c2) as (B1 & B2 & B3).
      assert (Hfin : cMatchLast c' = false).
      { clear -Hk. unfold unmarkUnless, mapResults in Hk. destruct ac; [inversion Hk; subst; auto|]. binv Hk. inversion Hk; subst. auto. }
      split; [|split; [exact Hfin|intros R HR; eapply keeps_trans; [apply HK; auto|]; apply keeps_stored; destruct (unmark_same _ _ _ _ _ Hk) as [X _]; rewrite X; simpl; rewrite B2; auto]]. split; auto.
      eapply tres_unmark; [exact Hp|exact I|reflexivity|exact Hk|discriminate|]. simpl. rewrite B2. apply R1.
    + set (c3 := setResults c2 (setGeneralizations from t gs (cResults c2))) in *.
      destruct (sameTR_clearFail t c3) as (B1 & B2 & B3). set (c4 := clearFail t c3) in *.
      set (c5 := setResults c4 (setMatch (cResults c4) from id t)) in *.
      assert (Hr5 : tres (cResults c5)).
      { unfold c5. simpl. rewrite B2. simpl. eapply tres_setSeq; [exact Hp|exact Hxn| | |].
        - intros x Hx. eexists. eapply Ev_fun; [exact Hx|exact HEv].
        - intros -> x o' ox t' ns' Has Hx Hnx Hex. apply setGens_stored. left. apply (st_stored _ _ R2). eauto.
        - eapply tres_gens; [exact Hp|exact HEv|]. apply R1. }
      assert (Hfin : rMatch (cResults c') = rMatch (cResults c5) /\ cMatchLast c' = true /\ cOffset c' = t).
      { clear -Hk. unfold unmarkUnless, mapResults in Hk. destruct ac; [inversion Hk; subst; auto|]. binv Hk. inversion Hk; subst. simpl.
        destruct (unmark_match _ _ _ _ E) as [M _]. rewrite M. auto. }
      destruct Hfin as (U6 & U5 & U4). split.
      * split; auto. eapply tres_unmark; [exact Hp|exact I|reflexivity|exact Hk|discriminate|exact Hr5].
      * split.
        { cbn [labelled agrees]. split; auto. split; auto. intros ob Hob Hnob. rewrite Hp in Hob. inversion Hob; subst ob. simpl.
          apply (stored_ext _ _ U6). unfold c5. simpl. apply stored_setMatch. auto. }
        intros R HR. eapply keeps_trans; [apply HK; auto|]. eapply keeps_trans; [|apply keeps_stored; exact U6].
        unfold c5. simpl. rewrite B2. simpl. eapply keeps_trans; [|apply Hset]. eapply keeps_seqGens; [exact Hp|exact HEv].
Qed.

Lemma choicePass_ref p name id commit options0 gs from T nsT R : nth_error P p = Some (PChoice name id commit options0 gs) -> exts p options0 = [] -> pcount R from id = 0 ->
  (forall x, In x options0 -> ev n x from <> Unfinished) ->
  (T = NoMatch \/ exists t, T = Match t nsT) -> Ev p from T ->
  forall options s c s' c', incl options options0 ->
  tinv c -> cOffsetLimit c = None -> pend n c -> cOffset c = from -> 0 < pcount (cResults c) from id -> less R (cResults c) ->
  (chMatch s = true -> exists x ns, In x options0 /\ ev n x from = Match (chTo s) ns) ->
  choicePass rec id from options s c = Ok (s', c') ->
  tinv c' /\ step c c' /\ samePending c c' /\ cOffset c' = from /\ keeps R (cResults c) (cResults c') /\
  (chMatch s' = true -> exists x ns, In x options0 /\ ev n x from = Match (chTo s') ns) /\
  (chMatch s = true -> chMatch s' = true /\ chTo s <= chTo s') /\
  (chMatch s' = true -> chMatch s = true \/ stored (cResults c') from id (chTo s')) /\
  (chMatch s' = true -> chMatch s = true /\ chTo s' = chTo s \/ stored (cResults c') from id (chTo s')) /\
  (forall x t ns, In x options -> ev n x from = Match t ns -> chMatch s' = true /\ t <= chTo s' /\
     forall ox, nth_error P x = Some ox -> nonChar ox -> stored (cResults c') from (nodeID ox) t).
Proof.
  intros Hp Hne HR0 Hdef HT HEv. induction options as [|op options IH]; intros s c s' c' Hin H Hl Hpd Ho Hpc HR Hs Hk; cbn [choicePass] in Hk.
  - inversion Hk; subst. split; auto. split; [apply step_refl|]. split; [intros ? ?; auto|]. split; auto. split; [apply keeps_refl|]. split; auto.
    split; auto. split; auto. split; auto. intros x t ns [].
  - binv Hk. assert (Hop : In op options0) by (apply Hin; left; auto).
    assert (Hin' : incl options options0) by (intros y Hy; apply Hin; right; auto).
    pose proof (post_of P kws input REof _ _ _ _ (proj1 H) E) as (P1 & P2 & P3 & P4).
    pose proof (Hdef op Hop) as Hx.
    destruct (Hrec op c x H Hl Hpd ltac:(rewrite Ho; exact Hx) E) as (T1 & T2 & TK). rewrite Ho in T2.
    specialize (TK R HR). pose proof (less_same _ _ _ P3 HR) as HR1.
    set (s1 := if (negb (cMatchLast x) && (chFailOffset s <? cFailOffset x)%Z)%bool then _ else s) in *.
    assert (Hs1 : chTo s1 = chTo s /\ chMatch s1 = chMatch s) by (unfold s1; destruct (_ && _)%bool; auto).
    destruct Hs1 as [Ht1 Hm1]. clearbody s1.
    pose proof (step_len _ _ P2) as Hlen. pose proof (ci_off _ _ _ _ (proj1 H)) as Hoff. rewrite Ho in Hoff.
    assert (H2 : tinv (setOffset x from)) by (split; [apply cinv_offset; [lia|apply T1]|apply T1]).
    assert (S2 : step c (setOffset x from)) by (destruct P2; split; auto).
    assert (Hl2 : cOffsetLimit (setOffset x from) = None) by (simpl; rewrite (st_limit _ _ P2); auto).
    assert (Hpd2 : pend n (setOffset x from)) by (apply (pend_same _ c); auto).
    assert (Hpc2 : 0 < pcount (cResults (setOffset x from)) from id) by (simpl; rewrite P3; auto).
    destruct (ev n op from) as [| |t ns] eqn:Ex; [contradiction| |]; cbn [agrees] in T2.
    + rewrite T2 in *. cbn [negb orb] in Hk. apply IH in Hk; auto; [|rewrite Hm1, Ht1; auto].
      destruct Hk as (Q1 & Q2 & Q3 & Q4 & QK & Q5 & Q6 & Q7 & Q8 & Q9). rewrite Hm1, Ht1 in *. split; auto. split; [eapply step_trans; eauto|].
      split; [intros o i; rewrite Q3; apply P3|]. split; auto. split; [eapply keeps_trans; [exact TK|exact QK]|]. split; auto. split; auto. split; auto. split; auto.
      intros y t ns [<-|Hy] Hey; [congruence|]. eauto.
    + destruct T2 as (T2 & T3 & T4). rewrite T2, T3 in *. rewrite Ho in T4. cbn [negb orb] in Hk. destruct P4 as [P4 _]. rewrite Ho, ?T3 in P4.
      rewrite Hm1, Ht1 in Hk.
      assert (Hhere : forall c'' ox, step x c'' -> nth_error P op = Some ox -> nonChar ox -> stored (cResults c'') from (nodeID ox) t).
      { intros c'' ox Hst Hox Hn. apply (st_stored _ _ Hst). auto. }
      destruct (chMatch s && (t <=? chTo s))%bool eqn:Eb.
      * apply andb_true_iff in Eb. destruct Eb as [Eb1 Eb2]. apply Nat.leb_le in Eb2.
        apply IH in Hk; auto; [|rewrite Hm1, Ht1; auto].
        destruct Hk as (Q1 & Q2 & Q3 & Q4 & QK & Q5 & Q6 & Q7 & Q8 & Q9). rewrite Hm1, Ht1 in *. split; auto. split; [eapply step_trans; eauto|].
        split; [intros o i; rewrite Q3; apply P3|]. split; auto. split; [eapply keeps_trans; [exact TK|exact QK]|]. split; auto. split; auto. split; auto. split; auto.
        destruct (Q6 Eb1) as [Q6a Q6b].
        intros y t0 ns0 [<-|Hy] Hey; [|eauto]. rewrite Ex in Hey. inversion Hey; subst t0 ns0. split; auto. split; [lia|].
        intros ox Hox Hn. apply (Hhere c'); auto. eapply step_trans; [|exact Q2]. split; auto. exists []. now rewrite app_nil_r.
      * set (cm := setResults (setOffset x from) _) in *.
        assert (Hle : t <= List.length (cTokens x)) by (rewrite <- T3; apply P1).
        assert (Hcm : tinv cm).
        { split; [exact (cinv_setMatch input REof GT (setOffset x from) from id t P4 Hle I (proj1 H2))|].
          unfold cm. simpl. eapply tres_setChoice; [exact Hp| | |apply T1].
          - rewrite P3. auto.
          - intros r Hr. eapply option_le; eauto; [rewrite (noExts_bases _ _ Hne); exact Hop|]. rewrite <- Ex. apply Ev_at. rewrite Ex. discriminate. }
        assert (Scm : step (setOffset x from) cm).
        { split; simpl; auto.
          - exists []. now rewrite app_nil_r.
          - intros o i t0 Hs0. apply stored_setMatch. auto.
          - intros o i. rewrite (noMatchHas_ext _ _ (noMatch_setMatch _ _ _ _)). auto. }
        assert (Pcm : samePending (setOffset x from) cm) by (intros o i; simpl; apply pcount_setMatch).
        apply IH in Hk; auto.
        2:{ apply (pend_same _ (setOffset x from)); auto. }
        2:{ rewrite Pcm. auto. }
        2:{ eapply less_same; [exact Pcm|exact HR1]. }
        2:{ intros _. simpl. eauto. }
        destruct Hk as (Q1 & Q2 & Q3 & Q4 & QK & Q5 & Q6 & Q7 & Q8 & Q9). simpl in Q6, Q7, Q8.
        destruct (Q6 eq_refl) as [Q6a Q6b].
        assert (Hst' : stored (cResults c') from id (chTo s')).
        { destruct (Q8 Q6a) as [[_ ->]|X]; auto. apply (st_stored _ _ Q2). unfold cm. simpl. apply stored_setMatch. auto. }
        split; auto. split; [eapply step_trans; [exact S2|]; eapply step_trans; [exact Scm|exact Q2]|].
        split; [intros o i; rewrite Q3, Pcm; apply P3|]. split; auto.
        split.
        { eapply keeps_trans; [exact TK|]. eapply keeps_trans; [|exact QK]. unfold cm. simpl. apply keeps_set.
          intros a oa Ha Hn Hi. assert (a = p) by (eapply (Hids a p); eauto; exact I). subst a. rewrite Hp in Ha. inversion Ha; subst oa. left. exact HR0. }
        split; auto.
        split.
        { intros Hms. split; auto. rewrite Hms in Eb. simpl in Eb. apply Nat.leb_gt in Eb. lia. }
        split; auto. split; auto.
        intros y t0 ns0 [<-|Hy] Hey; [|eauto]. rewrite Ex in Hey. inversion Hey; subst t0 ns0. split; auto. split; [lia|].
        intros ox Hox Hn. apply (Hhere c'); auto. eapply step_trans; [|exact Q2]. eapply step_trans; [|exact Scm]. split; auto. exists []. now rewrite app_nil_r.
Qed.

Lemma choiceLoop_ref p name id commit options gs from T nsT R : nth_error P p = Some (PChoice name id commit options gs) -> exts p options = [] -> pcount R from id = 0 ->
  (forall x, In x options -> ev n x from <> Unfinished) ->
  (T = NoMatch \/ exists t, T = Match t nsT) -> Ev p from T ->
  forall k s c s' c',
  tinv c -> cOffsetLimit c = None -> pend n c -> cOffset c = from -> 0 < pcount (cResults c) from id -> less R (cResults c) ->
  (chMatch s = true -> exists x ns, In x options /\ ev n x from = Match (chTo s) ns) ->
  (chMatch s = true -> stored (cResults c) from id (chTo s)) ->
  choiceLoop rec k id from options s c = Ok (s', c') ->
  tinv c' /\ step c c' /\ samePending c c' /\ cOffset c' = from /\ keeps R (cResults c) (cResults c') /\
  (chMatch s' = true -> exists x ns, In x options /\ ev n x from = Match (chTo s') ns) /\
  (chMatch s' = true -> stored (cResults c') from id (chTo s')) /\
  (forall x t ns, In x options -> ev n x from = Match t ns -> chMatch s' = true /\ t <= chTo s' /\
     forall ox, nth_error P x = Some ox -> nonChar ox -> stored (cResults c') from (nodeID ox) t).
Proof.
  intros Hp Hne HR0 Hdef HT HEv. induction k as [|k IH]; intros s c s' c' H Hl Hpd Ho Hpc HR Hs Hst Hk; [discriminate|].
  cbn [choiceLoop] in Hk. binv Hk. destruct x as [s1 c1].
  eapply choicePass_ref in E; eauto; [|apply incl_refl].
  destruct E as (Q1 & Q2 & Q3 & Q4 & QK & Q5 & Q6 & Q7 & Q8 & Q9). simpl in Q6, Q7, Q8.
  assert (Hst1 : chMatch s1 = true -> stored (cResults c1) from id (chTo s1)).
  { intros Hm. destruct (Q8 Hm) as [[X ->]|X]; auto. apply (st_stored _ _ Q2). auto. }
  destruct (chFound s1).
  - apply IH in Hk; auto.
    + destruct Hk as (R1 & R2 & R3 & R4 & RK & R5 & R6 & R7). split; auto. split; [eapply step_trans; eauto|].
      split; [intros o i; rewrite R3; apply Q3|]. split; auto. split; [eapply keeps_trans; eauto|]. auto.
    + rewrite (st_limit _ _ Q2). auto.
    + eapply pend_same; eauto.
    + rewrite Q3. auto.
    + eapply less_same; eauto.
  - inversion Hk; subst. repeat (split; auto).
Qed.

Lemma choiceHit p name id commit options gs c c' r : nth_error P p = Some (PChoice name id commit options gs) ->
  tinv c -> pcount (cResults c) (cOffset c) id = 0 -> Ev p (cOffset c) r -> fromResults c id = Some c' ->
  tinv c' /\ agrees p c c' r /\ forall R, less R (cResults c) -> keeps R (cResults c) (cResults c').
Proof.
  intros Hp H Hp0 HEv Ef. set (from := cOffset c) in *.
  destruct (fromResults_spec _ _ _ _ _ _ (proj1 H) Ef) as (F1 & F2 & F3).
  assert (Hres : cResults c' = cResults c) by apply F2.
  split; [split; [auto|rewrite Hres; apply H]|]. split; [|intros R _; rewrite Hres; apply keeps_refl]. fold from in F3. destruct (cMatchLast c') eqn:Em.
  - destruct F3 as (F3 & F4 & F5 & F6).
    destruct (ti_2 _ (proj2 H) p _ from _ _ Hp I F4 HEv) as (t' & ns & Er & Hle & _). rewrite Er in *. cbn [agrees].
    pose proof (ti_4 _ (proj2 H) p _ _ _ _ _ from _ _ _ Hp F4 Hp0 HEv) as Hs.
    apply longestMatch_some in F6. destruct F6 as [_ F6]. specialize (F6 _ Hs).
    assert (cOffset c' = t') by lia. split; auto. split; auto. intros ob Hob _. rewrite Hp in Hob. inversion Hob; subst. rewrite Hres. auto.
  - destruct F3 as [F3 F4]. rewrite (ti_3 _ (proj2 H) p _ from _ Hp I F4 HEv). exact Em.
Qed.
Lemma tres_setNone r p name id commit options gs o : nth_error P p = Some (PChoice name id commit options gs) -> Ev p o NoMatch ->
  tres r -> tres (setNoMatch r o id).
Proof.
  intros Hp HEv [A B C D F U V]. split.
  - intros b ob o' t x Hb Hn Hs. rewrite stored_setNoMatch in Hs. eauto.
  - intros b ob o' x Hb Hn Hs Hx. apply noMatchHas_setNoMatch in Hs. destruct Hs as [Hs|(-> & Hi & _)]; [eauto|].
    assert (b = p) by (eapply Hids; eauto; exact I). subst b. eapply Ev_fun; eauto.
  - intros b nm i cm ops g o' t t' ns Hb Hs Hpc Hx. rewrite stored_setNoMatch in *. rewrite pcount_setNoMatch in Hpc. eauto.
  - intros b nm i cm ops g o' t x ox t' ns Hb Hs Hpc Hx Hox Hn He. rewrite stored_setNoMatch in *. rewrite pcount_setNoMatch in Hpc. eauto.
  - intros b nm i cm its rg g o' t x o'' ox t' ns Hb Hxn Hs Has Hox Hn He. rewrite stored_setNoMatch in *. eauto.
  - intros b nm i cm ops g o' v t ns Hb Hne Hs Hpc He. rewrite stored_setNoMatch in Hs. rewrite pcount_setNoMatch in Hpc.
    destruct (U _ _ _ _ _ _ _ _ _ _ Hb Hne Hs Hpc He) as (L & T0 & nb & U1 & U2 & U3). exists L, T0, nb. split; auto. split; auto.
    eapply grow_up; [| | |exact U3]; intros; apply stored_setNoMatch || (eapply stored_setNoMatch; eauto); auto.
  - intros b nm i cm ops g x ox o' v Hb Hin Hx Hox Hs. rewrite stored_setNoMatch in Hs. destruct (V _ _ _ _ _ _ _ _ _ _ Hb Hin Hx Hox Hs) as (w & Hw).
    exists w. apply stored_setNoMatch. auto.
Qed.
Lemma tres_mark r o id : tres r -> tres (markPending r o id).
Proof.
  apply tres_ext.
  - apply stored_ext. apply mark_match.
  - intros. rewrite (noMatchHas_ext _ _ (proj2 (mark_match _ _ _))). auto.
  - intros a nm i cm ops g o' Ha. rewrite pcount_mark. intros. lia.
Qed.
Lemma choice_noExt a name id commit options gs : nth_error P a = Some (PChoice name id commit options gs) ->
  forall b nm i cm ops g, nth_error P b = Some (PChoice nm i cm ops g) -> In a ops -> isExt b a = true -> forall c : context, 0 < pcount (cResults c) (cOffset c) i.
Proof. intros Ha b nm i cm ops g Hb Hin Hx. rewrite (choice_notExt _ _ _ _ _ _ _ Ha) in Hx. discriminate. Qed.

(** what is left to do behind the loop of a choice that matches nothing *)
Lemma choiceNone p name id commit options gs (c c1 c2 c' : context) from : nth_error P p = Some (PChoice name id commit options gs) ->
  Ev p from NoMatch -> tres (cResults c1) -> cResults c2 = cResults c1 ->
  unmarkUnless false from id (fail (setResults c2 (setNoMatch (cResults c2) from id)) from) = Ok c' ->
  cMatchLast c' = false /\ tres (cResults c') /\ rMatch (cResults c') = rMatch (cResults (setResults c1 (setNoMatch (cResults c1) from id))).
Proof.
  intros Hp HEv Ht B2 Hk'.
  split; [clear -Hk'; unfold unmarkUnless, mapResults in Hk'; binv Hk'; inversion Hk'; subst; auto|]. split.
  - assert (Hno : forall t, ~ stored (cResults c1) from id t).
    { intros t Hs. destruct (ti_2 _ Ht p _ from t _ Hp I Hs HEv) as (t' & ns' & X & _). discriminate. }
    eapply tres_unmark; [exact Hp|exact I|reflexivity|exact Hk'| |].
    + intros nm cm ops gs' _ t Hs. exfalso. simpl in Hs. rewrite stored_setNoMatch, B2 in Hs. eapply Hno; eauto.
    + simpl. rewrite B2. eapply tres_setNone; eauto.
  - destruct (unmark_same _ _ _ _ _ Hk') as [X _]. rewrite X. simpl. rewrite B2. auto.
Qed.

Lemma choiceParse_plain p name id commit options gs c c' : nth_error P p = Some (PChoice name id commit options gs) -> exts p options = [] ->
  tinv c -> cOffsetLimit c = None -> pend n c -> ev n p (cOffset c) = Unfinished ->
  pcount (cResults c) (cOffset c) id = 0 -> ev (S n) p (cOffset c) <> Unfinished ->
  choiceParse rec m kws p id commit options c = Ok c' -> tinv c' /\ agrees p c c' (ev (S n) p (cOffset c)) /\
  forall R, less R (cResults c) -> keeps R (cResults c) (cResults c').
Proof.
  intros Hp Hne H Hl Hpd Hun Hp0 Hd Hk.
  assert (Hc' : cinv c').
  { eapply (post_of P kws input REof (S m) p c c' (proj1 H)). cbn [parse]. rewrite Hp. exact Hk. }
  pose proof (Ev_at _ _ _ Hd) as HEv. unfold choiceParse in Hk.
  destruct (fromResults c id) as [c0|] eqn:Ef.
  { inversion Hk; subst. eapply choiceHit; eauto. }
  rewrite (eval_choice n p _ _ _ _ _ (cOffset c) Hp), Hne in *.
  set (from := cOffset c) in *.
  assert (Hpf : pending (cResults c) from id = false) by (apply pending_false; auto).
  fold from in Hk. rewrite Hpf in Hk.
  set (c0 := setResults c _) in *.
  assert (H0 : tinv c0) by (split; [apply cinv_mark; apply H|simpl; apply tres_mark; apply H]).
  assert (Hpd0 : pend n c0).
  { apply (pend_mark n c p _ Hp I Hun); auto. intros b nm i cm ops g Hb Hin Hx. exact (choice_noExt _ _ _ _ _ _ Hp _ _ _ _ _ _ Hb Hin Hx c). }
  assert (Hpc0 : 0 < pcount (cResults c0) from id) by (simpl; rewrite pcount_mark, !Nat.eqb_refl; simpl; lia).
  assert (Hdo : evalOptions (ev n) options from NoMatch <> Unfinished) by (intros E'; rewrite E' in Hd; auto).
  destruct (evalOptions_spec (ev n) from options NoMatch) as [Hdef Hsp]; [discriminate|auto|].
  binv Hk. destruct x as [s c1].
  assert (HT : exists nsT, labelled (heapLabel name commit) from (evalOptions (ev n) options from NoMatch) = NoMatch \/
               exists t, labelled (heapLabel name commit) from (evalOptions (ev n) options from NoMatch) = Match t nsT).
  { destruct (evalOptions (ev n) options from NoMatch) as [| |t0 ns0]; [contradiction|exists []; auto|]. simpl. eexists. right. eauto. }
  destruct HT as [nsT HT].
  assert (Hloop : forall R, less R (cResults c) -> keeps R (cResults c) (cResults c1)).
  { intros R HR. eapply keeps_trans; [apply keeps_stored; exact (proj1 (mark_match (cResults c) from id))|].
    eapply (choiceLoop_ref p name id commit options gs from _ nsT R Hp Hne (less_none _ _ _ _ HR Hp0) Hdef HT HEv) in E; auto; try (simpl; discriminate).
    - apply E.
    - intros o i Hpp. simpl. rewrite pcount_mark. specialize (HR _ _ Hpp). lia. }
  assert (Hre : forall o i, pcount emptyResults o i = 0) by (intros o i; unfold pcount; destruct i; reflexivity).
  eapply (choiceLoop_ref p name id commit options gs from _ nsT emptyResults Hp Hne (Hre from id) Hdef HT HEv) in E; auto; try (simpl; discriminate).
  2:{ intros o i Hpp. rewrite Hre in Hpp. lia. }
  destruct E as (Q1 & Q2 & Q3 & Q4 & _ & Q5 & Q6 & Q7).
  pose proof (step_len _ _ Q2) as Hlen1. pose proof (ci_off _ _ _ _ (proj1 H0)) as Hoff0. simpl in Hoff0, Hlen1. fold from in Hoff0.
  destruct (chMatch s) eqn:Em.
  - rewrite (Hnk _ _ _ _ _ _ Hp) in Hk. cbn [bind] in Hk.
    destruct (Q5 eq_refl) as (x & ns & Hx & Hex).
    destruct (evalOptions (ev n) options from NoMatch) as [| |t ns0] eqn:Eo; [contradiction|destruct Hsp as [_ Hsp]; rewrite (Hsp _ Hx) in Hex; discriminate|].
    destruct Hsp as (_ & Hsp1 & [Hsp2|(y & Hy & Hey)]); [discriminate|].
    assert (Ht : chTo s = t).
    { apply Nat.le_antisymm; [exact (Hsp1 _ _ _ Hx Hex)|]. destruct (Q7 _ _ _ Hy Hey) as (_ & X & _). exact X. }
    set (c3 := if Z.ltb _ _ then setFail c1 (chFailOffset s) _ else _) in *.
    assert (B0 : cTokens c3 = cTokens c1 /\ cResults c3 = cResults c1).
    { unfold c3. destruct (_ <? _)%Z; [|destruct (_ <? _)%Z]; auto. }
    destruct B0 as (B1 & B2).
    assert (Hk' : unmarkUnless false from id (success c3 (chTo s)) = Ok c') by exact Hk.
    assert (Hfin : rMatch (cResults c') = rMatch (cResults c1) /\ cMatchLast c' = true /\ cOffset c' = chTo s).
    { clear -Hk' B2. unfold unmarkUnless, mapResults in Hk'. binv Hk'. inversion Hk'; subst. simpl.
      destruct (unmark_match _ _ _ _ E) as [M _]. rewrite M. simpl. rewrite B2. auto. }
    destruct Hfin as (Hf1 & Hf2 & Hf3).
    split; [split; auto|split].
    + eapply tres_unmark; [exact Hp|exact I|reflexivity|exact Hk'| |simpl; rewrite B2; apply Q1].
      intros nm cm ops gs' Hob t0 Hs0. inversion Hob; subst. simpl. rewrite B2. split; [|split].
      * intros t' ns' He'. pose proof (Ev_fun _ _ _ _ HEv He') as Hq. simpl in Hq. inversion Hq; subst. auto.
      * intros z oz t' ns' Hz Hoz Hnz Hez.
        assert (Hez' : ev n z from = Match t' ns') by (eapply Ev_fun; [apply Ev_at; apply Hdef; auto|exact Hez]).
        destruct (Q7 _ _ _ Hz Hez') as (_ & _ & X). apply X; auto.
      * congruence.
    + cbn [labelled agrees]. rewrite Hf2, Hf3, Ht. split; auto. split; auto. intros ob Hob _. rewrite Hp in Hob. inversion Hob; subst. simpl.
      apply (stored_ext _ _ Hf1). auto.
    + intros R HR. eapply keeps_trans; [apply Hloop; auto|]. apply keeps_stored. auto.
  - set (c2 := if Z.ltb _ _ then blame p commit _ else c1) in *.
    assert (B0 : cTokens c2 = cTokens c1 /\ cResults c2 = cResults c1).
    { unfold c2. destruct (_ <? _)%Z; auto. destruct (sameTR_blame p commit (setFail c1 (chFailOffset s) (chFailing s))) as (-> & -> & _). auto. }
    destruct B0 as (B1 & B2). clearbody c2.
    assert (Hall : evalOptions (ev n) options from NoMatch = NoMatch).
    { destruct (evalOptions (ev n) options from NoMatch) as [| |t ns0]; [contradiction|auto|]. exfalso.
      destruct Hsp as (_ & _ & [Hsp2|(y & Hy & Hey)]); [discriminate|]. destruct (Q7 _ _ _ Hy Hey). discriminate. }
    rewrite Hall in *. cbn [labelled agrees] in *.
    change (cOffset c0) with from in Hk.
    destruct (choiceNone p name id commit options gs c c1 c2 c' from Hp HEv (proj2 Q1) B2 Hk) as (N1 & N2 & N3).
    split; [split; auto|]. split; auto. intros R HR. eapply keeps_trans; [apply Hloop; auto|]. apply keeps_eq. intros o i v Hv.
    apply (stored_ext _ _ N3) in Hv. simpl in Hv. apply stored_setNoMatch in Hv. auto.
Qed.
End REC.

(** ** choices with extensions *)
Lemma choicePass_app rec id o l1 l2 : forall s c, choicePass rec id o (l1 ++ l2) s c =
  (sc <- choicePass rec id o l1 s c ;; let (s1, c1) := sc in choicePass rec id o l2 s1 c1).
Proof.
  induction l1 as [|x l1 IH]; intros s c; [reflexivity|]. cbn [app choicePass]. destruct (rec x c) as [c1| |]; cbn [bind]; auto.
  match goal with |- context [if ?b then _ else _] => destruct b end; apply IH.
Qed.

Section EXT.
Variable n : nat.
Hypothesis HrecA : forall m p c c', tinv c -> cOffsetLimit c = None -> pend n c -> ev n p (cOffset c) <> Unfinished ->
  parse P kws m p c = Ok c' -> tinv c' /\ agrees p c c' (ev n p (cOffset c)) /\ forall R, less R (cResults c) -> keeps R (cResults c) (cResults c').
Variables (e : addr) (nm : string) (ide : nat) (cte : commitType) (opts : list addr) (gse : list nat).
Hypothesis He : nth_error P e = Some (PChoice nm ide cte opts gse).
Notation recs := (exts e opts).
Notation bases := (basesOf e opts).
Notation lab := (heapLabel nm cte).
Hypothesis Hblocks : opts = recs ++ bases \/ opts = bases ++ recs.
Variable from : nat.
Variable rE : outcome.
Hypothesis HE : Ev e from rE.
Variable rb : outcome.
Hypothesis Hrb : evalOptions (ev n) bases from NoMatch = rb.
Hypothesis Hru : rb <> Unfinished.
Variable R : results.
Hypothesis HR0 : pcount R from ide = 0.
Notation grow := (fun T0 L t r => grow e ide from T0 recs L t r).
Notation chain := (chain lab from recs bases).

Lemma below v : (exists t ns, rb = Match t ns /\ v <= t) -> exists T nsT, rE = Match T nsT /\ v <= T.
Proof.
  intros (t & ns & E & Hv). destruct (Ev_bases _ _ _ _ _ _ _ _ He HE) as (k & rb' & H1 & H2 & H3).
  assert (H : rb' = rb) by (eapply (Begins_fun bases from); split; auto; eauto). rewrite H, E in H3.
  destruct H3 as (t' & ns' & -> & Hle). exists t', ns'. split; auto. lia.
Qed.
Lemma rec_obj x : In x recs -> exists nx cx items ranges gx,
  nth_error P x = Some (PSeq nx (idOf x) cx (e :: items) ((1, 1)%Z :: ranges) gx false) /\ hasFlag cx CNoKeyword = false /\
  G x = Some (GSeq (heapLabel nx cx) false ((e, (1, Some 1)) :: objItems items ranges)).
Proof.
  intros Hx. apply exts_in in Hx. destruct Hx as [_ Hx]. destruct (ext_seq _ _ _ _ _ _ _ He Hx) as (nx & idx & cx & its & rg & gx & Hp & Hf).
  exists nx, cx, its, rg, gx. rewrite (idOf_at _ _ Hp). simpl. split; auto. split; auto. unfold heapGraph. rewrite Hp, Hf. reflexivity.
Qed.
Lemma rec_only x b name id commit options gs : In x recs -> nth_error P b = Some (PChoice name id commit options gs) -> isExt b x = true ->
  b = e /\ id = ide /\ options = opts.
Proof.
  intros Hx Hb Hx'. apply exts_in in Hx. destruct Hx as [_ Hx]. assert (b = e) by (eapply ext_inj; eauto). subst b.
  rewrite He in Hb. inversion Hb; subst. auto.
Qed.
Lemma rec_extn x : In x recs -> extn x = true.
Proof. intros Hx. apply exts_in in Hx. destruct Hx as [Hin Hx]. exact (ext_extn _ _ _ _ _ _ _ He Hin Hx). Qed.
Lemma id_e_rec x : In x recs -> idOf x <> ide.
Proof.
  intros Hx Hi. destruct (rec_obj x Hx) as (nx & cx & its & rg & gx & Hp & _). assert (x = e) by (eapply (Hids x e); eauto; exact I).
  subst x. rewrite He in Hp. discriminate.
Qed.
Lemma id_rec_rec x y : In x recs -> In y recs -> idOf x = idOf y -> x = y.
Proof.
  intros Hx Hy Hi. destruct (rec_obj x Hx) as (nx & cx & its & rg & gx & Hp & _). destruct (rec_obj y Hy) as (ny & cy & ity & rgy & gy & Hpy & _).
  eapply (Hids x y); eauto; exact I.
Qed.
Lemma gens_rec x y oy : In x recs -> nth_error P y = Some oy -> ~ In (idOf x) (gensOf oy).
Proof.
  intros Hx Hy Hg. destruct (rec_obj x Hx) as (nx & cx & its & rg & gx & Hp & _).
  destruct (gens_choices y oy Hy (idOf x) x _ Hg Hp I eq_refl) as (a & b & c & d & E). discriminate.
Qed.

Record ctx (c : context) : Prop := mkCtx {
  cx_t : tinv c;
  cx_l : cOffsetLimit c = None;
  cx_p : pend n c;
  cx_o : cOffset c = from;
  cx_e : 0 < pcount (cResults c) from ide;
  cx_r : forall x, In x recs -> pcount (cResults c) from (idOf x) = 0;
  cx_R : less R (cResults c) }.
Lemma ctx_next c c' : ctx c -> tinv c' -> step c c' -> samePending c c' -> ctx (setOffset c' from).
Proof.
  intros [A1 A2 A3 A4 A5 A6 A7] Ht Hs Hp. pose proof (step_len _ _ Hs) as Hlen. pose proof (ci_off _ _ _ _ (proj1 A1)) as Hoff.
  split; simpl.
  - split; [apply cinv_offset; [lia|apply Ht]|apply Ht].
  - rewrite (st_limit _ _ Hs). auto.
  - apply (pend_same n c); auto.
  - auto.
  - rewrite Hp. auto.
  - intros x Hx. rewrite Hp. auto.
  - eapply less_same; eauto.
Qed.
Lemma ctx_setE c v : ctx c -> (exists T nsT, rE = Match T nsT /\ v <= T) -> from <= v -> v <= List.length (cTokens c) ->
  ctx (setResults c (setMatch (cResults c) from ide v)).
Proof.
  intros [A1 A2 A3 A4 A5 A6 A7] (T & nsT & ET & HvT) H1 H2. split; simpl; auto.
  - split; [apply cinv_setMatch; auto; [exact I|apply A1]|]. simpl. eapply tres_setChoice; [exact He|auto| |apply A1].
    intros x Hx. exists T, nsT. split; auto. rewrite <- ET. eapply Ev_fun; eauto.
  - apply (pend_same n c); auto. intros o i. simpl. apply pcount_setMatch.
  - rewrite pcount_setMatch. auto.
  - intros x Hx. rewrite pcount_setMatch. auto.
  - intros o i Hp. rewrite pcount_setMatch. auto.
Qed.
Lemma keeps_setE r v : keeps R r (setMatch r from ide v).
Proof.
  apply keeps_set. intros a oa Ha Hn Hi. assert (a = e) by (eapply (Hids a e); eauto; exact I). subst a. rewrite He in Ha. inversion Ha; subst oa. auto.
Qed.
Lemma keeps_setX r x v : In x recs -> keeps R r (setMatch r from (idOf x) v).
Proof.
  intros Hx. apply keeps_set. destruct (rec_obj x Hx) as (nx & cx & its & rg & gx & Hp & _).
  intros a oa Ha Hn Hi. assert (a = x) by (eapply (Hids a x); eauto; exact I). subst a. rewrite Hp in Ha. inversion Ha; subst oa.
  intros b name id ct ops gs Hb Hin Hxb. destruct (rec_only x b _ _ _ _ _ Hx Hb Hxb) as (-> & -> & ->). auto.
Qed.

(** a call on the choice finds the longest match so far *)
Lemma call_e k c t : cOffset c = from -> noMatchHas (cResults c) from ide = false -> stored (cResults c) from ide t ->
  (forall v, stored (cResults c) from ide v -> v <= t) -> parse P kws (S k) e c = Ok (success c t) /\ fromResults c ide = Some (success c t).
Proof.
  intros Ho Hn Hs Hm. cbn [parse]. rewrite He. unfold choiceParse.
  assert (E : fromResults c ide = Some (success c t)).
  { unfold fromResults, longestResult. rewrite Ho, Hn. assert (L : longestMatch (cResults c) from ide = Some t) by (apply longestMatch_some; auto). rewrite L. auto. }
  rewrite E. auto.
Qed.
Lemma call_e_none k c : cOffset c = from -> (forall v, ~ stored (cResults c) from ide v) ->
  0 < pcount (cResults c) from ide -> exists c', parse P kws (S k) e c = Ok c' /\ cMatchLast c' = false /\ cResults c' = cResults c.
Proof.
  intros Ho Hs Hp. cbn [parse]. rewrite He. unfold choiceParse.
  destruct (fromResults c ide) as [c1|] eqn:E.
  - exists c1. split; auto. split; [|eapply fromResults_same; eauto]. unfold fromResults in E. rewrite Ho in E.
    destruct (longestResult (cResults c) from ide) as [| |] eqn:El; inversion E; subst; auto. exfalso. unfold longestResult in El. destruct (noMatchHas _ _ _); [discriminate|].
    destruct (longestMatch _ _ _) as [v'|] eqn:Elm; [|discriminate]. apply longestMatch_some in Elm. destruct Elm as [Elm _]. eapply Hs; eauto.
  - rewrite Ho. assert (Ep : pending (cResults c) from ide = true) by (apply pending_pcount; auto). rewrite Ep. exists (fail c from). auto.
Qed.

Definition empty (r : results) : Prop := forall v, ~ stored r from ide v.
Lemma empty_rec r x v : tres r -> empty r -> In x recs -> ~ stored r from (idOf x) v.
Proof.
  intros Ht Hem Hx Hs. destruct (rec_obj x Hx) as (nx & cx & its & rg & gx & Hp & _). apply exts_in in Hx. destruct Hx as [Hin Hx].
  destruct (ti_7 _ Ht e _ _ _ _ _ x _ from v He Hin Hx Hp Hs) as (w & Hw). eapply Hem; eauto.
Qed.
Lemma rec_fails m x c c1 : In x recs -> ctx c -> empty (cResults c) -> parse P kws m x c = Ok c1 ->
  cMatchLast c1 = false /\ tinv c1 /\ rMatch (cResults c1) = rMatch (cResults c).
Proof.
  intros Hx Hc Hem Hk. destruct (rec_obj x Hx) as (n1 & ct & items & ranges & gs & Hp & Hf & _).
  pose proof (post_of P kws input REof _ _ _ _ (proj1 (cx_t _ Hc)) Hk) as (P1 & P2 & P3 & P4).
  pose proof (fun v => empty_rec _ x v (proj2 (cx_t _ Hc)) Hem Hx) as Hemr.
  assert (Hmain : cMatchLast c1 = false /\ rMatch (cResults c1) = rMatch (cResults c) /\ rNoMatch (cResults c1) = rNoMatch (cResults c)).
  { destruct m as [|m]; [discriminate|]. cbn [parse] in Hk. rewrite Hp in Hk. unfold seqParse in Hk. rewrite (cx_o _ Hc) in Hk.
    assert (Ep : pending (cResults c) from (idOf x) = false) by (apply pending_false; apply (cx_r _ Hc); auto).
    rewrite Ep in Hk. cbn [negb andb] in Hk. set (c0 := setResults c _) in *.
    destruct (mark_match (cResults c) from (idOf x)) as [M1 M2].
    binv Hk. destruct m as [|m]; [discriminate|]. remember (S m) as m1 eqn:Em1. rewrite Em1 in E at 2. cbn [seqLoop nth_error] in E. rewrite Em1 in E.
    destruct (call_e_none m c0) as (ce & Ce1 & Ce2 & Ce3).
    { apply (cx_o _ Hc). }
    { intros v Hv. simpl in Hv. apply (stored_ext _ _ M1) in Hv. eapply Hem; eauto. }
    { simpl. rewrite pcount_mark. pose proof (cx_e _ Hc). lia. }
    rewrite Ce1 in E. cbn [bind] in E. rewrite Ce2 in E. cbn [negb] in E. change (Z.leb 1 (Z.of_nat 0)) with false in E. cbn iota in E.
    destruct (fromResults (setOffset ce from) (idOf x)) as [c2|] eqn:Ef.
    - binv E. inversion E; subst x0. inversion Hk; subst c1. clear E Hk.
      assert (Hm2 : cMatchLast c2 = false).
      { unfold fromResults in Ef. simpl in Ef. rewrite Ce3 in Ef. simpl in Ef.
        destruct (longestResult (markPending (cResults c) from (idOf x)) from (idOf x)) eqn:El; inversion Ef; subst; auto.
        exfalso. unfold longestResult in El. destruct (noMatchHas _ _ _); [discriminate|].
        destruct (longestMatch _ _ _) as [v|] eqn:Elm; [|discriminate]. apply longestMatch_some in Elm. destruct Elm as [Elm _].
        apply (stored_ext _ _ M1) in Elm. eapply Hemr; eauto. }
      destruct (unmark_same false _ _ _ _ E0) as [U1 U2]. rewrite clearFail_same, (fromResults_same _ _ _ Ef) in U1, U2. simpl in U1, U2.
      rewrite Ce3 in U1, U2. simpl in U1, U2. split; [|split; congruence].
      clear -E0 Hm2. unfold unmarkUnless, mapResults in E0. binv E0. inversion E0; subst. simpl. unfold clearFail. destruct (_ <? _)%Z; auto.
    - binv E. inversion E; subst x0. inversion Hk; subst c1. clear E Hk.
      destruct (unmark_same false _ _ _ _ E0) as [U1 U2]. simpl in U1, U2. rewrite blame_same in U1, U2. simpl in U1, U2. rewrite Ce3 in U1, U2. simpl in U1, U2.
      split; [|split; congruence].
      clear -E0. unfold unmarkUnless, mapResults in E0. binv E0. inversion E0; subst. auto. }
  destruct Hmain as (H1 & H2 & H3). split; auto. split; auto.
  split; auto. eapply tres_same; eauto. apply (cx_t _ Hc).
Qed.

Definition basesIn (r : results) : Prop := forall b ob t ns, In b bases -> nth_error P b = Some ob -> nonChar ob ->
  Ev b from (Match t ns) -> stored r from (nodeID ob) t.
Lemma basesIn_more r r' : (forall o i v, stored r o i v -> stored r' o i v) -> basesIn r -> basesIn r'.
Proof. intros H HB b ob t ns H1 H2 H3 H4. apply H. eauto. Qed.
Lemma recs_pre m : forall rs s c s' c', incl rs recs -> ctx c -> empty (cResults c) -> choicePass (parse P kws m) ide from rs s c = Ok (s', c') ->
  ctx c' /\ rMatch (cResults c') = rMatch (cResults c) /\
  chMatch s' = chMatch s /\ chTo s' = chTo s /\ chFound s' = chFound s.
Proof.
  induction rs as [|x rs IH]; intros s c s' c' Hi Hc Hem Hk; cbn [choicePass] in Hk; [inversion Hk; subst; auto 8|].
  binv Hk. assert (Hx : In x recs) by (apply Hi; left; auto).
  pose proof (post_of P kws input REof _ _ _ _ (proj1 (cx_t _ Hc)) E) as (P1 & P2 & P3 & P4).
  destruct (rec_fails m x c x0 Hx Hc Hem E) as (F1 & F2 & F3). rewrite F1 in Hk. cbn [negb orb andb] in Hk.
  set (s1 := if (chFailOffset s <? cFailOffset x0)%Z then _ else s) in *.
  assert (Hs1 : chTo s1 = chTo s /\ chMatch s1 = chMatch s /\ chFound s1 = chFound s) by (unfold s1; destruct (_ <? _)%Z; auto).
  destruct Hs1 as (E1 & E2 & E3). clearbody s1.
  apply IH in Hk; [|intros y Hy; apply Hi; right; auto|eapply ctx_next; eauto|].
  - destruct Hk as (K1 & K2 & K4 & K5 & K6). simpl in K2. split; auto. split; [congruence|].
    split; [congruence|]. split; congruence.
  - intros v Hv. simpl in Hv. apply (stored_ext _ _ F3) in Hv. eapply Hem; eauto.
Qed.
Lemma bases_pass m : forall bs s c s' c', incl bs bases -> ctx c -> choicePass (parse P kws m) ide from bs s c = Ok (s', c') ->
  ctx c' /\
  (forall v, stored (cResults c') from ide v -> stored (cResults c) from ide v \/ exists t ns, rb = Match t ns /\ v <= t) /\
  (forall x v, In x recs -> stored (cResults c') from (idOf x) v -> stored (cResults c) from (idOf x) v) /\
  (forall o i v, stored (cResults c) o i v -> stored (cResults c') o i v) /\
  keeps R (cResults c) (cResults c') /\
  ((chMatch s' = chMatch s /\ chTo s' = chTo s /\ chFound s' = chFound s) \/
   (chFound s' = true /\ chMatch s' = true /\ (chMatch s = true -> chTo s < chTo s') /\ stored (cResults c') from ide (chTo s') /\
    exists b ns, In b bs /\ ev n b from = Match (chTo s') ns)) /\
  (forall b t ns, In b bs -> ev n b from = Match t ns -> chMatch s' = true /\ t <= chTo s' /\
     forall ob, nth_error P b = Some ob -> nonChar ob -> stored (cResults c') from (nodeID ob) t).
Proof.
  destruct (evalOptions_spec (ev n) from bases NoMatch) as [Hdef Hsp]; [discriminate|congruence|]. rewrite Hrb in Hsp.
  induction bs as [|b bs IH]; intros s c s' c' Hi Hc Hk; cbn [choicePass] in Hk.
  { inversion Hk; subst. split; auto. split; auto. split; auto. split; auto. split; [apply keeps_refl|]. split; auto. intros b t ns []. }
  binv Hk. assert (Hb : In b bases) by (apply Hi; left; auto). assert (Hi' : incl bs bases) by (intros y Hy; apply Hi; right; auto).
  pose proof (post_of P kws input REof _ _ _ _ (proj1 (cx_t _ Hc)) E) as (P1 & P2 & P3 & P4).
  assert (Hev : ev n b (cOffset c) <> Unfinished) by (rewrite (cx_o _ Hc); auto).
  destruct (HrecA m b c x (cx_t _ Hc) (cx_l _ Hc) (cx_p _ Hc) Hev E) as (T1 & T2 & TK).
  rewrite (cx_o _ Hc) in T2, P4.
  pose proof (ctx_next _ _ Hc T1 P2 P3) as Hc1.
  pose proof (TK R (cx_R _ Hc)) as TKR.
  destruct (TK (cResults c) (fun _ _ H => H) _ _ _ _ _ _ _ He (cx_e _ Hc)) as [TE1 TE2]. clear TK.
  assert (Fr : forall y v, In y recs -> stored (cResults x) from (idOf y) v -> stored (cResults c) from (idOf y) v).
  { intros y v Hy Hv. destruct (rec_obj y Hy) as (nx & cx & its & rg & gx & Hp & _). apply exts_in in Hy. destruct Hy as [Hin Hy].
    exact (TE1 y _ v Hin Hy Hp Hv). }
  assert (Hbl : forall v, stored (cResults x) from ide v -> stored (cResults c) from ide v \/ exists t ns, rb = Match t ns /\ v <= t).
  { intros v Hv. destruct (TE2 v Hv) as [|(b0 & Hb0 & Hle)]; auto. right.
    destruct (Hle _ (Ev_at _ _ _ (Hdef b0 Hb0))) as (t & ns & Et & Hvt).
    destruct rb as [| |tr nr]; [contradiction|destruct Hsp as [_ Hsp]; rewrite (Hsp b0 Hb0) in Et; discriminate|].
    destruct Hsp as (_ & Hsp & _). exists tr, nr. split; auto. pose proof (Hsp _ _ _ Hb0 Et). lia. }
  set (s1 := if (negb (cMatchLast x) && (chFailOffset s <? cFailOffset x)%Z)%bool then _ else s) in *.
  assert (Hs1 : chTo s1 = chTo s /\ chMatch s1 = chMatch s /\ chFound s1 = chFound s) by (unfold s1; destruct (_ && _)%bool; auto).
  destruct Hs1 as (E1 & E2 & E3). clearbody s1.
  assert (Hskip : forall t1 ns1, (ev n b from = NoMatch \/ (ev n b from = Match t1 ns1 /\ chMatch s = true /\ t1 <= chTo s /\
      forall ob, nth_error P b = Some ob -> nonChar ob -> stored (cResults x) from (nodeID ob) t1)) ->
    choicePass (parse P kws m) ide from bs s1 (setOffset x from) = Ok (s', c') ->
    ctx c' /\
    (forall v, stored (cResults c') from ide v -> stored (cResults c) from ide v \/ exists t ns, rb = Match t ns /\ v <= t) /\
    (forall x v, In x recs -> stored (cResults c') from (idOf x) v -> stored (cResults c) from (idOf x) v) /\
    (forall o i v, stored (cResults c) o i v -> stored (cResults c') o i v) /\
    keeps R (cResults c) (cResults c') /\
    ((chMatch s' = chMatch s /\ chTo s' = chTo s /\ chFound s' = chFound s) \/
     (chFound s' = true /\ chMatch s' = true /\ (chMatch s = true -> chTo s < chTo s') /\ stored (cResults c') from ide (chTo s') /\
      exists b0 ns, In b0 (b :: bs) /\ ev n b0 from = Match (chTo s') ns)) /\
    (forall b0 t ns, In b0 (b :: bs) -> ev n b0 from = Match t ns -> chMatch s' = true /\ t <= chTo s' /\
       forall ob, nth_error P b0 = Some ob -> nonChar ob -> stored (cResults c') from (nodeID ob) t)).
  { intros t1 ns1 Hcase Hk'. apply IH in Hk'; auto. destruct Hk' as (K1 & K2 & K3 & K4 & K5 & K6 & K7). simpl in K2, K3, K4, K5.
    split; auto. split.
    { intros v Hv. destruct (K2 v Hv) as [Hv'|]; auto. }
    split.
    { intros y v Hy Hv. eauto. }
    split; [intros o i v Hv; apply K4; apply (st_stored _ _ P2); auto|].
    split; [eapply keeps_trans; eauto|].
    rewrite E1, E2, E3 in K6. split.
    { destruct K6 as [K6|(K6a & K6b & K6c & K6d & b0 & nb & K6e & K6f)]; auto. right. split; auto. split; auto. split; auto. split; auto. exists b0, nb. split; auto. right; auto. }
    intros b0 t nb [<-|Hb0] Heb; [|eauto].
    destruct Hcase as [Hcase|(H1 & H2 & H3 & H4)]; [congruence|]. rewrite H1 in Heb. inversion Heb; subst t1 ns1.
    assert (X : chMatch s' = true /\ chTo s <= chTo s').
    { destruct K6 as [(K6a & K6b & _)|(_ & K6b & K6c & _)]; [split; [congruence|lia]|]. specialize (K6c H2). split; auto. lia. }
    split; [apply X|]. split; [lia|]. intros ob Hob Hn. apply K4. simpl. auto. }
  destruct (ev n b from) as [| |t1 ns1] eqn:Ex; [exfalso; apply (Hdef b Hb); auto| |]; cbn [agrees] in T2.
  - rewrite T2 in Hk. cbn [negb orb] in Hk. eapply (Hskip 0 []); eauto.
  - destruct T2 as (T2 & T3 & T4). rewrite (cx_o _ Hc) in T4. rewrite T2, T3, E1, E2 in Hk. cbn [negb orb] in Hk.
    destruct (chMatch s && (t1 <=? chTo s))%bool eqn:Eb.
    + apply andb_true_iff in Eb. destruct Eb as [Eb1 Eb2]. apply Nat.leb_le in Eb2. eapply (Hskip t1 ns1); eauto.
    + clear Hskip. rewrite T2 in P4. destruct P4 as [P4 _]. rewrite T3 in P4.
      assert (Hle : exists t ns, rb = Match t ns /\ t1 <= t).
      { destruct rb as [| |tr nr]; [contradiction|destruct Hsp as [_ Hsp]; rewrite (Hsp b Hb) in Ex; discriminate|].
        destruct Hsp as (_ & Hsp & _). exists tr, nr. split; auto. eapply Hsp; eauto. }
      assert (Hc2 : ctx (setResults (setOffset x from) (setMatch (cResults (setOffset x from)) from ide t1))).
      { apply ctx_setE; auto; [apply below; auto|]. simpl. rewrite <- T3. apply (ci_off _ _ _ _ P1). }
      apply IH in Hk; auto. destruct Hk as (K1 & K2 & K3 & K4 & K5 & K6 & K7). simpl in K2, K3, K4, K5, K6.
      assert (Hup : forall o i v, stored (cResults x) o i v -> stored (cResults c') o i v) by (intros o i v Hv; apply K4; apply stored_setMatch; auto).
      split; auto. split.
      { intros v Hv. destruct (K2 v Hv) as [Hv'|]; auto. apply stored_setMatch in Hv'. destruct Hv' as [Hv'|(_ & _ & ->)]; auto. }
      split.
      { intros y v Hy Hv. apply Fr; auto. apply (K3 _ _ Hy) in Hv. apply stored_setMatch in Hv.
        destruct Hv as [Hv|(_ & Hid & _)]; auto. destruct (id_e_rec y Hy Hid). }
      split; [intros o i v Hv; apply Hup; apply (st_stored _ _ P2); auto|].
      split; [eapply keeps_trans; [exact TKR|]; eapply keeps_trans; [|exact K5]; apply keeps_setE|].
      assert (Hnew : chMatch s = true -> chTo s < t1).
      { intros Hms. rewrite Hms in Eb. simpl in Eb. apply Nat.leb_gt in Eb. auto. }
      split.
      { right. destruct K6 as [(K6a & K6b & K6c)|(K6a & K6b & K6c & K6d & b0 & nb & K6e & K6f)].
        - split; auto. split; auto. rewrite K6b. split; auto. split; [apply K4; apply stored_setMatch; auto|]. exists b, ns1. split; auto. left; auto.
        - split; auto. split; auto. specialize (K6c eq_refl). split; [intros Hms; specialize (Hnew Hms); lia|]. split; auto. exists b0, nb. split; auto. right; auto. }
      intros b0 t nb [<-|Hb0] Heb; [|eauto]. assert (Ht1 : t1 = t) by congruence.
      assert (X : chMatch s' = true /\ t <= chTo s').
      { destruct K6 as [(K6a & K6b & _)|(_ & K6b & K6c & _)]; [split; [auto|lia]|]. specialize (K6c eq_refl). split; auto. lia. }
      split; [apply X|]. split; [apply X|]. intros ob Hob Hn. apply Hup. rewrite <- Ht1. auto.
Qed.
(** nothing matches *)
Lemma bases_none m s c s' c' : rb = NoMatch -> ctx c -> empty (cResults c) -> choicePass (parse P kws m) ide from bases s c = Ok (s', c') ->
  ctx c' /\ empty (cResults c') /\ keeps R (cResults c) (cResults c') /\ chMatch s' = chMatch s /\ chFound s' = chFound s.
Proof.
  intros Hnb Hc Hem Hk. destruct (evalOptions_spec (ev n) from bases NoMatch) as [Hdef Hsp]; [discriminate|congruence|]. rewrite Hrb, Hnb in Hsp.
  destruct (bases_pass m bases s c s' c' (incl_refl _) Hc Hk) as (K1 & K2 & K3 & K4 & K5 & K6 & K7). rewrite Hnb in K2. destruct Hsp as [_ Hsp].
  split; auto. split; [intros v Hv; destruct (K2 v Hv) as [Hv'|(t1 & ns1 & E & Hle)]; [eapply Hem; eauto|discriminate]|]. split; auto.
  destruct K6 as [(K6a & K6b & K6c)|(K6a & K6b & K6c & K6d & b0 & nb0 & K6e & K6f)]; [split; congruence|].
  rewrite (Hsp _ K6e) in K6f. discriminate.
Qed.
Lemma loop_none m k s c s' c' : rb = NoMatch -> ctx c -> empty (cResults c) -> chMatch s = false ->
  choiceLoop (parse P kws m) k ide from opts s c = Ok (s', c') ->
  ctx c' /\ empty (cResults c') /\ keeps R (cResults c) (cResults c') /\ chMatch s' = false.
Proof.
  intros Hnb Hc Hem Hm Hk. destruct k as [|k]; [discriminate|]. cbn [choiceLoop] in Hk. binv Hk. destruct x as [s1 c1].
  set (s0 := mkChState (chMatch s) false (chTo s) (chFailOffset s) (chFailing s)) in *.
  assert (Eo : exists l1 l2, opts = l1 ++ l2 /\ ((l1 = recs /\ l2 = bases) \/ (l1 = bases /\ l2 = recs))).
  { destruct Hblocks as [Ho|Ho]; [exists recs, bases|exists bases, recs]; auto. }
  destruct Eo as (l1 & l2 & Eo & Hl). rewrite Eo in E at 1. rewrite choicePass_app in E. binv E. destruct x as [s2 c2].
  assert (Hst : forall a b : context, rMatch (cResults b) = rMatch (cResults a) -> empty (cResults a) -> empty (cResults b)).
  { intros a b Hr Ha v Hv. apply (stored_ext _ _ Hr) in Hv. eapply Ha; eauto. }
  destruct Hl as [[-> ->]|[-> ->]].
  - destruct (recs_pre m recs s0 c s2 c2 (incl_refl _) Hc Hem E0) as (R1 & R2 & R4 & R5 & R6).
    destruct (bases_none m s2 c2 s1 c1 Hnb R1 (Hst _ _ R2 Hem) E) as (Q1 & Q2 & Q3 & Q4 & Q5).
    rewrite Q5, R6 in Hk. simpl in Hk. inversion Hk; subst. split; auto. split; auto. split; [|rewrite Q4, R4; auto].
    eapply keeps_trans; [apply keeps_stored; exact R2|auto].
  - destruct (bases_none m s0 c s2 c2 Hnb Hc Hem E0) as (Q1 & Q2 & Q3 & Q4 & Q5).
    destruct (recs_pre m recs s2 c2 s1 c1 (incl_refl _) Q1 Q2 E) as (R1 & R2 & R4 & R5 & R6).
    rewrite R6, Q5 in Hk. simpl in Hk. inversion Hk; subst. split; auto. split; [eapply Hst; eauto|]. split; [|rewrite R4, Q4; auto].
    eapply keeps_trans; [exact Q3|apply keeps_stored; exact R2].
Qed.

Section GROWS.
Variables (T : nat) (nsT : list node) (T0 : nat) (nb : list node).
Hypothesis HrE : rE = Match T nsT.
Hypothesis HrT : rb = Match T0 nb.
Hypothesis HT0 : from < T0.
Lemma HBg : Begins bases from (Match T0 nb).
Proof. split; [discriminate|]. exists n. rewrite Hrb. auto. Qed.
Lemma noNone r : tres r -> noMatchHas r from ide = false.
Proof.
  intros Ht. destruct (noMatchHas r from ide) eqn:E; auto. pose proof (ti_3 _ Ht e _ from _ He I E HE) as H. rewrite HrE in H. discriminate.
Qed.
Lemma grow_max L t ns r v : chain L t ns -> grow T0 L t r -> stored r from ide v -> v <= t.
Proof.
  intros Hch Hg Hv. destruct (chain_le _ _ _ _ _ _ _ _ _ HBg Hch) as (_ & H1 & H2).
  destruct (g_e _ _ _ _ _ _ _ _ Hg v Hv) as [|(x & u & Hin)]; [lia|]. destruct (H2 _ _ _ Hin) as (_ & ? & _). auto.
Qed.
Lemma grow_more L t ns r x t' gs R' : chain L t ns -> In x recs ->
  nth_error P x <> None -> (forall ox, nth_error P x = Some ox -> gensOf ox = gs) ->
  grow T0 L t r ->
  (forall n id ct items ranges gs, nth_error P x = Some (PSeq n id ct (e :: items) ((1, 1)%Z :: ranges) gs false) ->
    forall y o' oy t1 ns1, asks (objItems items ranges) 0 t y o' -> nth_error P y = Some oy -> nonChar oy -> Ev y o' (Match t1 ns1) ->
    stored r o' (nodeID oy) t1) ->
  (forall o i v, stored R' o i v <-> stored (setMatch (setMatch (setGeneralizations from t' gs r) from (idOf x) t') from ide t') o i v) ->
  grow T0 ((t', x, t) :: L) t' R'.
Proof.
  intros Hch Hx Hnn Hgs Hg Has HR.
  destruct (nth_error P x) as [ox|] eqn:Hox; [|congruence]. specialize (Hgs _ eq_refl).
  assert (Hup : forall o i v, stored r o i v -> stored R' o i v).
  { intros o i v Hv. apply HR. apply stored_setMatch. left. apply stored_setMatch. left. apply setGens_stored. auto. }
  assert (Hdn : forall o i v, stored R' o i v -> stored r o i v \/ (o = from /\ v = t' /\ (i = ide \/ i = idOf x \/ In i gs))).
  { intros o i v Hv. apply HR in Hv. apply stored_setMatch in Hv. destruct Hv as [Hv|(-> & -> & ->)]; auto 8.
    apply stored_setMatch in Hv. destruct Hv as [Hv|(-> & -> & ->)]; auto 8.
    apply setGens_stored in Hv. destruct Hv as [Hv|(-> & -> & Hj & _)]; auto 8. }
  assert (Htop : stored R' from ide t') by (apply HR; apply stored_setMatch; auto).
  assert (Hrt : stored R' from (idOf x) t') by (apply HR; apply stored_setMatch; left; apply stored_setMatch; auto).
  destruct Hg as [A1 A2 A3 A4 A5 A6]. split; auto.
  - intros v Hv. apply Hdn in Hv. destruct Hv as [Hv|(_ & -> & _)].
    + destruct (A1 v Hv) as [|(y & u & Hin)]; auto. right. exists y, u. right. auto.
    + right. exists x, t. left. auto.
  - intros v y u [Hin|Hin].
    + inversion Hin; subst. split; [|split]; auto.
    + destruct (A4 _ _ _ Hin) as (B1 & B2 & B3). split; [|split]; apply Hup; auto.
  - intros y v Hy Hv. apply Hdn in Hv. destruct Hv as [Hv|(_ & -> & [Hi|[Hi|Hi]])].
    + destruct (A5 y v Hy Hv) as (u & Hin). exists u. right. auto.
    + destruct (id_e_rec y Hy Hi).
    + assert (y = x) by (apply id_rec_rec; auto). subst y. exists t. left. auto.
    + exfalso. apply (gens_rec y x ox Hy Hox). rewrite Hgs. auto.
  - intros v y u n0 id ct items ranges gs0 [Hin|Hin] Hy z o' oz t1 ns1 H1 H2 H3 H4; apply Hup.
    + inversion Hin; subst. rewrite Hox in Hy. eapply Has; eauto.
    + eapply A6; eauto.
Qed.
(** what is matched behind [from] leaves the chain as it is *)
Lemma grow_frame lo L t r r' : from < lo -> frame P (fun _ => True) lo r r' -> grow T0 L t r -> grow T0 L t r'.
Proof.
  intros Hlo [F1 F2 F3] Hg. eapply grow_up; [exact F3| | |exact Hg].
  - intros v Hv. destruct (F1 _ _ _ Hv) as [|[X _]]; auto. lia.
  - intros x v Hx Hv. destruct (F1 _ _ _ Hv) as [|[X _]]; auto. lia.
Qed.
Lemma rec_step m x c c1 L t ns l rest r : In x recs -> chain L t ns -> ctx c -> grow T0 L t (cResults c) ->
  G x = Some (GSeq l false ((e, (1, Some 1)) :: rest)) -> evalItems (ev n) n rest 0 t = r -> r <> Unfinished ->
  (forall t' ns', r = Match t' ns' -> t < t' /\ t' <= T) -> parse P kws m x c = Ok c1 ->
  tinv c1 /\ keeps R (cResults c) (cResults c1) /\
  match r with
  | Match t' ns' => cMatchLast c1 = true /\ cOffset c1 = t' /\ grow T0 ((t', x, t) :: L) t' (setMatch (cResults c1) from ide t')
  | _ => (cMatchLast c1 = false \/ cOffset c1 <= t) /\ grow T0 L t (cResults c1)
  end.
Proof.
  intros Hx Hch Hc Hg HG HN Hr Hbd Hk. destruct (rec_obj x Hx) as (n1 & ct & items & ranges & gs & Hp & Hf & HG').
  rewrite HG in HG'. inversion HG'; subst l rest. clear HG'.
  destruct (chain_le _ _ _ _ _ _ _ _ _ HBg Hch) as (L1 & L2 & L3).
  pose proof (post_of P kws input REof _ _ _ _ (proj1 (cx_t _ Hc)) Hk) as (P1 & P2 & P3 & P4).
  destruct m as [|m]; [discriminate|]. cbn [parse] in Hk. rewrite Hp in Hk. unfold seqParse in Hk. rewrite (cx_o _ Hc) in Hk.
  assert (Ep : pending (cResults c) from (idOf x) = false) by (apply pending_false; apply (cx_r _ Hc); auto).
  rewrite Ep in Hk. cbn [negb andb] in Hk. set (c0 := setResults c _) in *.
  destruct (mark_match (cResults c) from (idOf x)) as [M1 M2].
  assert (H0 : tinv c0) by (split; [apply cinv_mark; apply (cx_t _ Hc)|simpl; apply tres_mark; apply (cx_t _ Hc)]).
  assert (Hpd0 : pend n c0).
  { pose proof (pend_mark n c x _ Hp I) as Q. rewrite (cx_o _ Hc) in Q. apply Q; [apply ev_extn; apply rec_extn; auto| |apply (cx_p _ Hc)].
    intros b name id commit options gsb Hb Hin Hxb. destruct (rec_only x b _ _ _ _ _ Hx Hb Hxb) as (-> & -> & ->). apply (cx_e _ Hc). }
  destruct (call_e (Nat.pred m) c0 t) as [Ce1 Ce2].
  { apply (cx_o _ Hc). }
  { simpl. rewrite (noMatchHas_ext _ _ M2). apply noNone. apply (cx_t _ Hc). }
  { simpl. apply (stored_ext _ _ M1). apply Hg. }
  { intros v Hv. simpl in Hv. apply (stored_ext _ _ M1) in Hv. exact (grow_max _ _ _ _ _ Hch Hg Hv). }
  set (x0 := success c0 t) in *.
  assert (Hx0 : tinv x0).
  { destruct (fromResults_spec _ _ _ _ _ _ (proj1 H0) Ce2) as (F1 & _). split; [exact F1|exact (proj2 H0)]. }
  binv Hk. destruct m as [|m]; [discriminate|]. simpl Nat.pred in Ce1.
  remember (S m) as m1 eqn:Em1. rewrite Em1 in E at 2. cbn [seqLoop nth_error] in E. rewrite Ce1 in E. cbn [bind] in E.
  assert (Elt : (from <? cOffset x0) = true) by (apply Nat.ltb_lt; unfold x0; simpl; lia).
  rewrite Elt in E. cbn [negb orb] in E. change (cMatchLast x0) with true in E. cbn [negb] in E.
  change (Z.ltb 0 1 && Z.eqb (Z.of_nat 1) 1)%bool with true in E. cbn iota in E. change (cOffset x0) with t in E.
  assert (Hres0 : cResults x0 = markPending (cResults c) from (idOf x)) by reflexivity.
  assert (Hfr : frame P (fun _ => True) t (cResults x0) (cResults (outCtx x1))).
  { eapply (seqLoop_frame P kws input (fun _ => True) m1 (fun p c c' H1 H2 H3 => parse_frame P kws input (fun _ => True) (fun _ _ _ _ _ _ _ _ _ _ _ _ => I)
      (fun _ _ _ _ _ _ _ _ _ _ => I) (fun _ _ => I) m1 p c c' H1 H2 H3)); [apply Hx0|reflexivity|apply Nat.le_refl|intros; exact I|exact E]. }
  assert (Hg0 : grow T0 L t (cResults x0)).
  { eapply grow_up; [| | |exact Hg]; rewrite Hres0; intros; apply (stored_ext _ _ M1); auto. }
  assert (HRx : less R (cResults x0)).
  { intros o i Hpp. rewrite Hres0, pcount_mark. pose proof (cx_R _ Hc _ _ Hpp). lia. }
  pose proof E as Es.
  eapply (seqLoop_ref n m1 (HrecA m1)) with (j := n) in E;
    [|exact Hp|exact Hx0|apply (cx_l _ Hc)|exact Hpd0|reflexivity|lia|].
  2:{ cbn [objItems map combine skipn]. fold (objItems items ranges). rewrite HN. auto. }
  cbn [objItems map combine skipn] in E. fold (objItems items ranges) in E. rewrite HN in E.
  apply (seqLoop_spec P input REof GT) in Es; auto; [|intros; eapply post_of; eauto|apply Hx0|lia].
  assert (K0 : keeps R (cResults c) (cResults x0)) by (apply keeps_stored; rewrite Hres0; auto).
  destruct r as [| |t' ns']; [contradiction| |].
  - destruct E as (c2 & -> & T1 & TK & T2). inversion Hk; subst c2. clear Hk. simpl in Hfr. split; auto.
    split; [eapply keeps_trans; [exact K0|]; auto|].
    assert (Hg1 : grow T0 L t (cResults c1)) by (eapply grow_frame; [|exact Hfr|exact Hg0]; lia).
    split; auto. destruct Es as (_ & _ & _ & Es). destruct (cMatchLast c1); auto. right. destruct Es as [_ Es].
    destruct (g_r _ _ _ _ _ _ _ _ Hg1 x _ Hx Es) as (u & Hin). destruct (L3 _ _ _ Hin) as (_ & X & _). auto.
  - destruct E as (c2 & -> & T1 & TK & Tc). destruct Es as (Q1 & Q2 & Q3 & Q4 & Q5 & Q6). simpl in Hfr.
    destruct (Hbd _ _ eq_refl) as [Hlt HtT].
    rewrite Hf in Hk. cbn [bind] in Hk.
    set (c3 := setResults c2 (setGeneralizations from t' gs (cResults c2))) in *.
    destruct (sameTR_clearFail t' c3) as (B1 & B2 & B3). set (c4 := clearFail t' c3) in *.
    set (c5 := setResults c4 (setMatch (cResults c4) from (idOf x) t')) in *.
    assert (Hg2 : grow T0 L t (cResults c2)) by (eapply grow_frame; [|exact Hfr|exact Hg0]; lia).
    pose proof Hx as Hx'. apply exts_in in Hx'. destruct Hx' as [Hin Hxe].
    pose proof HE as HE'. rewrite HrE in HE'.
    assert (Hr5 : tres (cResults c5)).
    { unfold c5. simpl. rewrite B2. simpl. eapply tres_setExt; [exact Hp|apply rec_extn; auto| |].
      - intros b name id commit options gsb Hb Hinb Hxb. destruct (rec_only x b _ _ _ _ _ Hx Hb Hxb) as (-> & -> & ->). split.
        + rewrite setGens_pcount. rewrite Q3. rewrite Hres0, pcount_mark. pose proof (cx_e _ Hc). lia.
        + exists t. apply setGens_stored. left. apply Hg2.
      - eapply tres_gensExt; [exact He|exact Hin|exact Hxe|exact HE'|exact HtT|exact Hp|]. apply T1. }
    assert (Hfin : rMatch (cResults c1) = rMatch (cResults c5) /\ cMatchLast c1 = true /\ cOffset c1 = t').
    { clear -Hk. unfold unmarkUnless, mapResults in Hk. binv Hk. inversion Hk; subst. simpl.
      destruct (unmark_match _ _ _ _ E) as [M _]. rewrite M. auto. }
    destruct Hfin as (U6 & U5 & U4).
    assert (Hr1 : tres (cResults c1)).
    { eapply (tres_unmark false); [exact Hp|exact I|reflexivity|exact Hk|discriminate|exact Hr5]. }
    split; [split; auto|]. split.
    { eapply keeps_trans; [exact K0|]. eapply keeps_trans; [apply TK; auto|]. eapply keeps_trans; [|apply keeps_stored; exact U6].
      unfold c5. simpl. rewrite B2. simpl. eapply keeps_trans; [|apply keeps_setX; auto].
      eapply keeps_extGens; [exact He|exact Hin|exact Hxe|exact HE'|exact HtT|exact HR0|exact Hp]. }
    split; auto. split; auto.
    eapply (grow_more L t ns (cResults c2) x t' gs); eauto.
    + congruence.
    + intros ox Hox. rewrite Hp in Hox. inversion Hox. auto.
    + intros n0 id ct0 its rg gs0 Hp'. rewrite Hp in Hp'. inversion Hp'; subst. exact Tc.
    + intros o i v. rewrite !stored_setMatch. rewrite (stored_ext _ _ U6). unfold c5. simpl. rewrite B2. simpl. rewrite !stored_setMatch. reflexivity.
Qed.

Lemma recs_pass m : forall rs s c s' c' L t ns t' ns', incl rs recs -> chain L t ns -> ctx c -> grow T0 L t (cResults c) ->
  chMatch s = true -> chTo s = t -> evalRound G (ev n) n lab from rs t ns = Match t' ns' -> t' <= T ->
  choicePass (parse P kws m) ide from rs s c = Ok (s', c') ->
  exists L', chain L' t' ns' /\ ctx c' /\ grow T0 L' t' (cResults c') /\ (forall o i v, stored (cResults c) o i v -> stored (cResults c') o i v) /\
    keeps R (cResults c) (cResults c') /\ chMatch s' = true /\ chTo s' = t' /\
    (chFound s' = true \/ (chFound s' = chFound s /\ t' = t)).
Proof.
  induction rs as [|x rs IH]; intros s c s' c' L t ns t' ns' Hi Hch Hc Hg Hm Ht Hev HtT Hk; cbn [choicePass] in Hk; cbn [evalRound] in Hev.
  { inversion Hev; subst t' ns'. inversion Hk; subst s' c'. exists L. split; auto. split; auto. split; auto. split; auto. split; [apply keeps_refl|]. split; auto. }
  binv Hk. assert (Hx : In x recs) by (apply Hi; left; auto). assert (Hi' : incl rs recs) by (intros y Hy; apply Hi; right; auto).
  destruct (chain_le _ _ _ _ _ _ _ _ _ HBg Hch) as (L1 & L2 & L3).
  pose proof (post_of P kws input REof _ _ _ _ (proj1 (cx_t _ Hc)) E) as (P1 & P2 & P3 & P4).
  destruct (rec_obj x Hx) as (n1 & ct & items & ranges & gs & Hp & Hf & HG). rewrite HG in Hev. cbn iota in Hev.
  match type of Hev with context [@evalItems ?A ?a ?b ?l 0 t] => remember (@evalItems A a b l 0 t) as r eqn:Er0 in Hev end.
  assert (Hr : r <> Unfinished) by (intros E'; rewrite E' in Hev; discriminate).
  assert (Hbd : forall t1 ns1, r = Match t1 ns1 -> t < t1 /\ t1 <= T).
  { intros t1 ns1 E'. rewrite E' in Hev. destruct (Nat.ltb_spec t t1); [|discriminate]. split; auto. apply evalRound_ge in Hev. lia. }
  destruct (rec_step m x c x0 L t ns _ _ r Hx Hch Hc Hg HG (eq_sym Er0) Hr Hbd E) as (F1 & FK & F2).
  pose proof (ctx_next _ _ Hc F1 P2 P3) as Hc1.
  set (s1 := if (negb (cMatchLast x0) && (chFailOffset s <? cFailOffset x0)%Z)%bool then _ else s) in *.
  assert (Hs1 : chTo s1 = chTo s /\ chMatch s1 = chMatch s /\ chFound s1 = chFound s) by (unfold s1; destruct (_ && _)%bool; auto).
  destruct Hs1 as (E1 & E2 & E3). clearbody s1.
  destruct r as [| |t1 ns1]; [contradiction| |].
  - destruct F2 as [Hor Hg1].
    assert (Eb : (negb (cMatchLast x0) || chMatch s1 && (cOffset x0 <=? chTo s1))%bool = true).
    { destruct (cMatchLast x0); [|reflexivity]. destruct Hor as [Hor|Hor]; [discriminate|]. rewrite E2, Hm, E1, Ht. simpl. apply Nat.leb_le. auto. }
    rewrite Eb in Hk.
    apply (IH _ _ _ _ L t ns t' ns' Hi' Hch Hc1) in Hk; [|exact Hg1|congruence|congruence|auto|auto].
    destruct Hk as (L' & K1 & K2 & K3 & K4 & K5 & K6 & K7 & K8). simpl in K4, K5. exists L'.
    split; auto. split; auto. split; auto. split; [intros o i v Hv; apply K4; apply (st_stored _ _ P2); auto|].
    split; [eapply keeps_trans; eauto|]. split; auto. split; auto. destruct K8 as [K8|[K8 K9]]; auto. right. split; congruence.
  - destruct F2 as (Hm1 & Ho1 & Hg1). destruct (Hbd _ _ eq_refl) as [Hlt Ht1T].
    destruct (Nat.ltb_spec t t1); [|lia].
    rewrite Hm1, E2, Hm in Hk. cbn [negb orb andb] in Hk.
    assert (El : (cOffset x0 <=? chTo s1) = false) by (apply Nat.leb_gt; lia). rewrite El in Hk.
    assert (Hc2 : ctx (setResults (setOffset x0 from) (setMatch (cResults (setOffset x0 from)) from ide (cOffset x0)))).
    { apply ctx_setE; auto; [exists T, nsT; split; auto; lia|lia|]. simpl. apply (ci_off _ _ _ _ P1). }
    assert (Hct : Continues x (heapLabel n1 ct) t (Match t1 ns1)).
    { split; [discriminate|]. exists false, (e, (1, Some 1)), (objItems items ranges), n, n. auto. }
    apply (IH _ _ _ _ ((t1, x, t) :: L) t1 _ t' ns' Hi' (ch_more _ _ _ _ L t ns x _ t1 ns1 Hch Hx Hct Hlt) Hc2) in Hk;
      [|simpl; rewrite Ho1; exact Hg1|reflexivity|simpl; auto|auto|auto].
    destruct Hk as (L' & K1 & K2 & K3 & K4 & K5 & K6 & K7 & K8). simpl in K4, K5. exists L'.
    split; auto. split; auto. split; auto. split.
    { intros o i v Hv. apply K4. apply stored_setMatch. left. apply (st_stored _ _ P2); auto. }
    split; [eapply keeps_trans; [exact FK|]; eapply keeps_trans; [|exact K5]; apply keeps_setE|].
    split; auto. split; auto. left. destruct K8 as [K8|[K8 _]]; auto.
Qed.

(** a pass over the bases does not disturb the chain *)
Lemma grow_bases m L t ns s c s' c' : chain L t ns -> ctx c -> grow T0 L t (cResults c) ->
  chMatch s = true -> chTo s = t -> choicePass (parse P kws m) ide from bases s c = Ok (s', c') ->
  ctx c' /\ grow T0 L t (cResults c') /\ basesIn (cResults c') /\ keeps R (cResults c) (cResults c') /\ chMatch s' = true /\ chTo s' = t /\ chFound s' = chFound s.
Proof.
  intros Hch Hc Hg Hm Ht Hk.
  destruct (chain_le _ _ _ _ _ _ _ _ _ HBg Hch) as (L1 & L2 & L3).
  destruct (evalOptions_spec (ev n) from bases NoMatch) as [Hdef Hsp]; [discriminate|congruence|]. rewrite Hrb, HrT in Hsp. destruct Hsp as (_ & Hsp & _).
  destruct (bases_pass m bases s c s' c' (incl_refl _) Hc Hk) as (K1 & K2 & K3 & K4 & K5 & K6 & K7).
  split; auto. split.
  { destruct Hg as [A1 A2 A3 A4 A5 A6]. split; auto.
    - intros v Hv. destruct (K2 v Hv) as [Hv'|(t1 & ns1 & E & Hle)]; auto. rewrite HrT in E. inversion E; subst. auto.
    - intros v x u Hin. destruct (A4 _ _ _ Hin) as (B1 & B2 & B3). auto.
    - intros. apply K4. eapply A6; eauto. }
  split.
  { intros b ob t1 ns1 Hb Hob Hn Hev.
    assert (Heb : ev n b from = Match t1 ns1) by (eapply Ev_fun; [apply Ev_at; auto|exact Hev]).
    destruct (K7 _ _ _ Hb Heb) as (_ & _ & X). auto. }
  split; auto.
  destruct K6 as [(K6a & K6b & K6c)|(K6a & K6b & K6c & K6d & b0 & nb0 & K6e & K6f)]; [split; [congruence|]; split; [congruence|auto]|].
  exfalso. specialize (K6c Hm). pose proof (Hsp _ _ _ K6e K6f). lia.
Qed.
(** the first pass over the bases *)
Lemma first_bases m s c s' c' : ctx c -> empty (cResults c) ->
  chMatch s = false -> choicePass (parse P kws m) ide from bases s c = Ok (s', c') ->
  ctx c' /\ keeps R (cResults c) (cResults c') /\ grow T0 [] T0 (cResults c') /\ basesIn (cResults c') /\ chMatch s' = true /\ chTo s' = T0 /\ chFound s' = true.
Proof.
  intros Hc Hem Hm Hk.
  destruct (evalOptions_spec (ev n) from bases NoMatch) as [Hdef Hsp]; [discriminate|congruence|]. rewrite Hrb, HrT in Hsp.
  destruct (bases_pass m bases s c s' c' (incl_refl _) Hc Hk) as (K1 & K2 & K3 & K4 & K5 & K6 & K7).
  split; auto. split; auto. rewrite HrT in K2.
  destruct Hsp as (_ & Hsp & [Hx|(b & Hb & Heb)]); [discriminate|].
  destruct (K7 _ _ _ Hb Heb) as (X1 & X2 & _).
  destruct K6 as [(K6a & _)|(K6a & K6b & K6c & K6d & b0 & nb0 & K6e & K6f)]; [congruence|].
  assert (Ht : chTo s' = T0) by (pose proof (Hsp _ _ _ K6e K6f); lia). rewrite Ht in *.
  split.
  { split; auto.
    - intros v Hv. destruct (K2 v Hv) as [Hv'|(t1 & ns1 & E & Hle)]; [destruct (Hem _ Hv')|]. inversion E; subst. auto.
    - intros v x u [].
    - intros x v Hx Hv. destruct (empty_rec _ x v (proj2 (cx_t _ Hc)) Hem Hx). auto.
    - intros v x u n0 id ct items ranges gs []. }
  split; auto. intros b1 ob t1 ns1 Hb1 Hob Hn Hev.
  assert (Heb1 : ev n b1 from = Match t1 ns1) by (eapply Ev_fun; [apply Ev_at; auto|exact Hev]).
  destruct (K7 _ _ _ Hb1 Heb1) as (_ & _ & X). auto.
Qed.

Definition growsTo (t : nat) (ns : list node) : Prop := exists j, evalGrow G (ev n) n lab from j recs t ns = Match T nsT.
Lemma growsTo_round t ns : growsTo t ns -> exists t' ns', evalRound G (ev n) n lab from recs t ns = Match t' ns' /\ t <= t' /\ t' <= T /\ growsTo t' ns' /\
  (t' = t -> t = T /\ ns' = nsT).
Proof.
  intros (j & Hj). destruct j as [|j]; [discriminate|]. pose proof Hj as Hj'. cbn [evalGrow] in Hj.
  destruct (evalRound G (ev n) n lab from recs t ns) as [| |t' ns'] eqn:Er; [discriminate|discriminate|].
  pose proof (evalRound_ge _ _ _ _ _ _ _ _ _ _ Er) as Hge. exists t', ns'. split; auto. split; auto. destruct (Nat.ltb_spec t t') as [Hlt|Hlt].
  - pose proof (evalGrow_ge _ _ _ _ _ _ _ _ _ _ _ Hj). split; auto. split; [exists j; auto|]. lia.
  - assert (t' = t) by lia. subst t'. assert (X : t = T /\ ns = nsT) by (inversion Hj; auto). assert (ns' = ns) by (eapply evalRound_stay; eauto). subst ns'.
    destruct X as [X1 X2]. split; [lia|]. split; [exists (S j); exact Hj'|]. auto.
Qed.
Lemma loop_grow m : forall k s c s' c' L t ns, chain L t ns -> ctx c -> grow T0 L t (cResults c) -> growsTo t ns ->
  chMatch s = true -> chTo s = t -> choiceLoop (parse P kws m) k ide from opts s c = Ok (s', c') ->
  exists L', chain L' T nsT /\ ctx c' /\ grow T0 L' T (cResults c') /\ basesIn (cResults c') /\ keeps R (cResults c) (cResults c') /\ chMatch s' = true /\ chTo s' = T.
Proof.
  induction k as [|k IH]; intros s c s' c' L t ns Hch Hc Hg Hgr Hm Ht Hk; [discriminate|]. cbn [choiceLoop] in Hk. binv Hk. destruct x as [s1 c1].
  set (s0 := mkChState (chMatch s) false (chTo s) (chFailOffset s) (chFailing s)) in *.
  destruct (growsTo_round t ns Hgr) as (t' & ns' & Hround & Hle & HtT & Hgr' & Hlast).
  assert (Hpass : exists L', chain L' t' ns' /\ ctx c1 /\ grow T0 L' t' (cResults c1) /\ basesIn (cResults c1) /\ keeps R (cResults c) (cResults c1) /\ chMatch s1 = true /\ chTo s1 = t' /\
            (chFound s1 = true \/ (chFound s1 = false /\ t' = t))).
  { assert (Eo : exists l1 l2, opts = l1 ++ l2 /\ ((l1 = recs /\ l2 = bases) \/ (l1 = bases /\ l2 = recs))).
    { destruct Hblocks as [Ho|Ho]; [exists recs, bases|exists bases, recs]; auto. }
    destruct Eo as (l1 & l2 & Eo & Hl). rewrite Eo in E at 1. rewrite choicePass_app in E. binv E. destruct x as [s2 c2].
    destruct Hl as [[-> ->]|[-> ->]].
    - destruct (recs_pass m recs s0 c s2 c2 L t ns t' ns' (incl_refl _) Hch Hc Hg Hm Ht Hround HtT E0) as (L' & R1 & R2 & R3 & R4 & RK & R5 & R6 & R7).
      destruct (grow_bases m L' t' ns' s2 c2 s1 c1 R1 R2 R3 R5 R6 E) as (Q1 & Q2 & Q3 & QK & Q4 & Q5 & Q6).
      exists L'. split; auto. split; auto. split; auto. split; auto. split; [eapply keeps_trans; eauto|]. split; auto. split; auto. rewrite Q6.
      destruct R7 as [R7|[R7 ->]]; auto.
    - destruct (grow_bases m L t ns s0 c s2 c2 Hch Hc Hg Hm Ht E0) as (Q1 & Q2 & Q3 & QK & Q4 & Q5 & Q6).
      destruct (recs_pass m recs s2 c2 s1 c1 L t ns t' ns' (incl_refl _) Hch Q1 Q2 Q4 Q5 Hround HtT E) as (L' & R1 & R2 & R3 & R4 & RK & R5 & R6 & R7).
      exists L'. split; auto. split; auto. split; auto. split; [eapply basesIn_more; eauto|]. split; [eapply keeps_trans; eauto|]. split; auto. split; auto.
      destruct R7 as [R7|[R7 ->]]; auto. right. split; auto. rewrite R7, Q6. reflexivity. }
  destruct Hpass as (L' & R1 & R2 & R3 & R4 & RK & R5 & R6 & R7).
  destruct R7 as [R7|[R7 R8]]; rewrite R7 in Hk.
  - destruct (IH _ _ _ _ _ _ _ R1 R2 R3 Hgr' R5 R6 Hk) as (L2 & Q1 & Q2 & Q3 & Q4 & Q5 & Q6 & Q7). exists L2.
    split; auto. split; auto. split; auto. split; auto. split; [eapply keeps_trans; eauto|]. auto.
  - inversion Hk; subst s' c'. destruct (Hlast R8) as [X1 X2]. exists L'. assert (X3 : t' = T) by lia. rewrite X2, X3 in R1. rewrite X3 in R3, R6.
    split; [exact R1|]. split; [exact R2|]. split; [exact R3|]. split; [exact R4|]. split; [exact RK|]. split; [exact R5|exact R6].
Qed.
Lemma loop_first m k s c s' c' : ctx c -> empty (cResults c) -> growsTo T0 (named lab from T0 nb) ->
  chMatch s = false -> choiceLoop (parse P kws m) k ide from opts s c = Ok (s', c') ->
  exists L', chain L' T nsT /\ ctx c' /\ grow T0 L' T (cResults c') /\ basesIn (cResults c') /\ keeps R (cResults c) (cResults c') /\ chMatch s' = true /\ chTo s' = T.
Proof.
  intros Hc Hem Hgr Hm Hk. destruct k as [|k]; [discriminate|]. cbn [choiceLoop] in Hk. binv Hk. destruct x as [s1 c1].
  set (s0 := mkChState (chMatch s) false (chTo s) (chFailOffset s) (chFailing s)) in *.
  assert (Eo : exists l1 l2, opts = l1 ++ l2 /\ ((l1 = recs /\ l2 = bases) \/ (l1 = bases /\ l2 = recs))).
  { destruct Hblocks as [Ho|Ho]; [exists recs, bases|exists bases, recs]; auto. }
  pose proof (ch_base lab from recs bases T0 nb HBg HT0) as Hch0.
  destruct Eo as (l1 & l2 & Eo & Hl). rewrite Eo in E at 1. rewrite choicePass_app in E. binv E. destruct x as [s2 c2].
  destruct Hl as [[-> ->]|[-> ->]].
  - destruct (recs_pre m recs s0 c s2 c2 (incl_refl _) Hc Hem E0) as (R1 & R2 & R4 & R5 & R6).
    assert (Hem2 : empty (cResults c2)) by (intros v Hv; apply (stored_ext _ _ R2) in Hv; eapply Hem; eauto).
    destruct (first_bases m s2 c2 s1 c1 R1 Hem2 ltac:(rewrite R4; exact Hm) E) as (Q1 & QK & Q3 & Q4 & Q5 & Q6 & Q7).
    rewrite Q7 in Hk. destruct (loop_grow m k s1 c1 s' c' [] T0 _ Hch0 Q1 Q3 Hgr Q5 Q6 Hk) as (L' & X1 & X2 & X3 & X4 & X5 & X6 & X7).
    exists L'. split; auto. split; auto. split; auto. split; auto. split; auto. eapply keeps_trans; [apply keeps_stored; exact R2|]. eapply keeps_trans; eauto.
  - destruct (first_bases m s0 c s2 c2 Hc Hem Hm E0) as (Q1 & QK & Q3 & Q4 & Q5 & Q6 & Q7).
    destruct (growsTo_round _ _ Hgr) as (t' & ns' & Hround & Hle & HtT & Hgr' & Hlast).
    destruct (recs_pass m recs s2 c2 s1 c1 [] T0 _ t' ns' (incl_refl _) Hch0 Q1 Q3 Q5 Q6 Hround HtT E) as (L' & R1 & R2 & R3 & R4 & RK & R5 & R6 & R7).
    assert (Hf : chFound s1 = true) by (destruct R7 as [R7|(R7 & _)]; congruence). rewrite Hf in Hk.
    destruct (loop_grow m k s1 c1 s' c' L' t' ns' R1 R2 R3 Hgr' R5 R6 Hk) as (L2 & X1 & X2 & X3 & X4 & X5 & X6 & X7).
    exists L2. split; auto. split; auto. split; auto. split; auto. split; auto. eapply keeps_trans; [exact QK|]. eapply keeps_trans; eauto.
Qed.
End GROWS.

(** the context at the start *)
Lemma ctx_start c : tinv c -> cOffsetLimit c = None -> pend n c -> ev n e from = Unfinished -> cOffset c = from ->
  pcount (cResults c) from ide = 0 -> less R (cResults c) -> fromResults c ide = None ->
  ctx (setResults c (markPending (cResults c) from ide)) /\ empty (markPending (cResults c) from ide).
Proof.
  intros Ht Hl Hpd Hun Ho Hpe HR Ef. destruct (mark_match (cResults c) from ide) as [M1 M2].
  assert (Hem : empty (cResults c)).
  { intros v Hv. unfold fromResults, longestResult in Ef. rewrite Ho in Ef. destruct (noMatchHas (cResults c) from ide); [discriminate|].
    destruct (longestMatch (cResults c) from ide) eqn:El; [discriminate|]. eapply (proj1 (longestMatch_none _ _ _) El); eauto. }
  split; [|intros v Hv; apply (stored_ext _ _ M1) in Hv; eapply Hem; eauto].
  assert (Hpr : forall x, In x recs -> pcount (cResults c) from (idOf x) = 0).
  { intros x Hx. destruct (rec_obj x Hx) as (nx & cx & its & rg & gx & Hp & _). apply exts_in in Hx. destruct Hx as [Hin Hx].
    destruct (pcount (cResults c) from (idOf x)) eqn:E; auto. exfalso.
    pose proof (proj2 Hpd e _ _ _ _ _ x _ from He Hin Hx Hp) as X. simpl in X. rewrite E in X. specialize (X (Nat.lt_0_succ _)). lia. }
  split; auto.
  - split; [rewrite <- Ho; apply cinv_mark; apply Ht|]. simpl. apply tres_mark. apply Ht.
  - pose proof (pend_mark n c e _ He I) as Q. rewrite Ho in Q. apply Q; auto.
    intros b name id commit options gs Hb Hin Hx. rewrite (choice_notExt _ _ _ _ _ _ _ He) in Hx. discriminate.
  - simpl. rewrite pcount_mark, !Nat.eqb_refl. simpl. lia.
  - intros x Hx. simpl. rewrite pcount_mark, (Hpr x Hx). destruct (Nat.eqb_spec ide (idOf x)) as [E|E]; auto. destruct (id_e_rec x Hx); auto.
  - intros o i Hp. simpl. rewrite pcount_mark. specialize (HR _ _ Hp). lia.
Qed.
End EXT.

Lemma choiceParse_grow n m p name id commit options gs c c' :
  (forall m p c c', tinv c -> cOffsetLimit c = None -> pend n c -> ev n p (cOffset c) <> Unfinished ->
     parse P kws m p c = Ok c' -> tinv c' /\ agrees p c c' (ev n p (cOffset c)) /\ forall R, less R (cResults c) -> keeps R (cResults c) (cResults c')) ->
  nth_error P p = Some (PChoice name id commit options gs) -> exts p options <> [] ->
  tinv c -> cOffsetLimit c = None -> pend n c -> ev n p (cOffset c) = Unfinished ->
  pcount (cResults c) (cOffset c) id = 0 -> ev (S n) p (cOffset c) <> Unfinished ->
  choiceParse (parse P kws m) m kws p id commit options c = Ok c' -> tinv c' /\ agrees p c c' (ev (S n) p (cOffset c)) /\
  forall R, less R (cResults c) -> keeps R (cResults c) (cResults c').
Proof.
  intros HrecA Hp Hne H Hl Hpd Hun Hp0 Hd Hk.
  assert (Hc' : cinv c').
  { eapply (post_of P kws input REof (S m) p c c' (proj1 H)). cbn [parse]. rewrite Hp. exact Hk. }
  pose proof (Ev_at _ _ _ Hd) as HEv. unfold choiceParse in Hk.
  destruct (fromResults c id) as [c0|] eqn:Ef.
  { inversion Hk; subst. eapply choiceHit; eauto. }
  assert (Hval : exists rb, evalOptions (ev n) (basesOf p options) (cOffset c) NoMatch = rb /\ rb <> Unfinished /\ inBlocks Nat.eqb G p options = true /\
    match rb with
    | Match t ns => cOffset c < t /\ exists T nsT, ev (S n) p (cOffset c) = Match T nsT /\
        evalGrow G (ev n) n (heapLabel name commit) (cOffset c) n (exts p options) t (named (heapLabel name commit) (cOffset c) t ns) = Match T nsT
    | _ => ev (S n) p (cOffset c) = NoMatch
    end).
  { clear -Hp Hne Hd. rewrite (eval_choice n p _ _ _ _ _ (cOffset c) Hp) in *. destruct (exts p options) as [|x0 xs0] eqn:Exs; [congruence|].
    destruct (inBlocks Nat.eqb G p options); [|congruence]. eexists. split; [reflexivity|].
    destruct (evalOptions (ev n) (basesOf p options) (cOffset c) NoMatch) as [| |t ns]; [congruence|split; [discriminate|auto]|].
    split; [discriminate|]. split; auto. destruct (Nat.ltb_spec (cOffset c) t); [|congruence]. split; auto.
    destruct (evalGrow G (ev n) n (heapLabel name commit) (cOffset c) n (x0 :: xs0) t (named (heapLabel name commit) (cOffset c) t ns)) as [| |T nsT] eqn:Eg;
      [congruence|destruct (evalGrow_some _ _ _ _ _ _ _ _ _ Eg)|eauto]. }
  destruct Hval as (rb & Hrb & Hru & Hbl & Hval). apply inBlocks_split in Hbl.
  set (from := cOffset c) in *. set (rE := ev (S n) p from) in *. clearbody rE.
  assert (Hpf : pending (cResults c) from id = false) by (apply pending_false; auto).
  rewrite Hpf in Hk. binv Hk. destruct x as [s c1].
  assert (Hre : forall o i, pcount emptyResults o i = 0) by (intros o i; unfold pcount; destruct i; reflexivity).
  assert (Hle : less emptyResults (cResults c)) by (intros o i Hpp; rewrite Hre in Hpp; lia).
  pose proof (fun R (HR : less R (cResults c)) => ctx_start n p name id commit options gs Hp from R (less_none _ _ _ _ HR Hp0) c H Hl Hpd Hun eq_refl Hp0 HR Ef) as Hstart.
  destruct (mark_match (cResults c) from id) as [M1 M2].
  destruct rb as [| |T0 nb] eqn:Erb; [contradiction| |].
  - (* the bases match nothing *)
    match type of E with choiceLoop _ _ _ _ _ ?s0 ?c0 = _ =>
      pose proof (fun R (HR : less R (cResults c)) => loop_none n HrecA p name id commit options gs Hp Hbl from rE HEv NoMatch Hrb ltac:(discriminate) R (less_none _ _ _ _ HR Hp0) m m s0 c0 s c1 eq_refl
      (proj1 (Hstart R HR)) (proj2 (Hstart R HR)) eq_refl E) as Hloop end.
    destruct (Hloop _ Hle) as (Q1 & Q2 & _ & Q4). rewrite Q4 in Hk. rewrite Hval in *. cbn [agrees].
    set (c2 := if Z.ltb _ _ then blame p commit _ else c1) in *.
    assert (B2 : cResults c2 = cResults c1).
    { unfold c2. destruct (_ <? _)%Z; auto. rewrite blame_same. auto. }
    clearbody c2.
    destruct (choiceNone p name id commit options gs c c1 c2 c' from Hp HEv (proj2 (cx_t _ _ _ _ _ _ _ Q1)) B2 Hk) as (N1 & N2 & N3).
    split; [split; auto|]. split; auto. intros R HR. destruct (Hloop R HR) as (_ & _ & QK & _).
    eapply keeps_trans; [apply keeps_stored; exact M1|]. eapply keeps_trans; [exact QK|]. apply keeps_eq. intros o i v Hv.
    apply (stored_ext _ _ N3) in Hv. simpl in Hv. apply stored_setNoMatch in Hv. auto.
  - destruct Hval as (HT0 & T & nsT & ErE & Hgr).
    assert (Hgt : growsTo n p name commit options from T nsT T0 (named (heapLabel name commit) from T0 nb)) by (exists n; exact Hgr).
    match type of E with choiceLoop _ _ _ _ _ ?s0 ?c0 = _ =>
      pose proof (fun R (HR : less R (cResults c)) => loop_first n HrecA p name id commit options gs Hp Hbl from rE HEv (Match T0 nb) Hrb ltac:(discriminate) R (less_none _ _ _ _ HR Hp0) T nsT T0 nb ErE eq_refl HT0 m m s0 c0 s c1
      (proj1 (Hstart R HR)) (proj2 (Hstart R HR)) Hgt eq_refl E) as Hloop end.
    destruct (Hloop _ Hle) as (L & Q1 & Q2 & Q3 & Q4 & _ & Q5 & Q6).
    rewrite Q5, (Hnk _ _ _ _ _ _ Hp) in Hk. cbn [bind] in Hk.
    set (c3 := if Z.ltb _ _ then setFail c1 (chFailOffset s) _ else _) in *.
    assert (B2 : cResults c3 = cResults c1).
    { unfold c3. destruct (_ <? _)%Z; [|destruct (_ <? _)%Z]; auto. }
    assert (Hk' : unmarkUnless false from id (success c3 (chTo s)) = Ok c') by exact Hk.
    assert (Hfin : cMatchLast c' = true /\ cOffset c' = chTo s).
    { clear -Hk'. unfold unmarkUnless, mapResults in Hk'. binv Hk'. inversion Hk'; subst. auto. }
    destruct Hfin as (Hf2 & Hf3). destruct (unmark_same _ _ _ _ _ Hk') as [U1 U2]. simpl in U1, U2. rewrite B2 in U1, U2.
    rewrite ErE in *. split; [split; auto|split].
    + eapply (tres_unmark false); [exact Hp|exact I|reflexivity|exact Hk'| |simpl; rewrite B2; apply (cx_t _ _ _ _ _ _ _ Q2)].
      intros nm' cm ops gs' Hob t1 Hs1. inversion Hob; subst nm' cm ops gs'. simpl. rewrite B2. split; [|split].
      * intros t2 ns2 He'. pose proof (Ev_fun _ _ _ _ HEv He') as Hq. inversion Hq; subst. apply Q3.
      * intros z oz t2 ns2 Hz Hoz Hnz Hez. eapply Q4; eauto. eapply defined_base; eauto.
      * intros _ t2 ns2 He'. pose proof (Ev_fun _ _ _ _ HEv He') as Hq. inversion Hq; subst t2 ns2. exists L, T0, nb. split; auto. split; auto.
        split; [discriminate|]. exists n. auto.
    + cbn [agrees]. rewrite Hf2, Hf3. split; auto. split; auto. intros ob Hob _. rewrite Hp in Hob. inversion Hob; subst ob. simpl.
      apply (stored_ext _ _ U1). apply Q3.
    + intros R HR. destruct (Hloop R HR) as (_ & _ & _ & _ & _ & QK & _).
      eapply keeps_trans; [apply keeps_stored; exact M1|]. eapply keeps_trans; [exact QK|]. apply keeps_stored. auto.
Qed.

(** a call of [parse] on a definition that has a reference outcome finds this outcome *)
Theorem parse_ref n : forall m p c c', tinv c -> cOffsetLimit c = None -> pend n c -> ev n p (cOffset c) <> Unfinished ->
  parse P kws m p c = Ok c' -> tinv c' /\ agrees p c c' (ev n p (cOffset c)) /\ forall R, less R (cResults c) -> keeps R (cResults c) (cResults c').
Proof.
  induction n as [|n IH]; intros m p c c' H Hl Hpd Hd Hk; [exfalso; apply Hd; auto|].
  destruct (ev n p (cOffset c)) eqn:Eu.
  2,3: rewrite (evalL_mono1 Nat.eqb G K input n p (cOffset c)) by (rewrite Eu; discriminate); eapply IH; eauto; [apply pend_lower; auto|rewrite Eu; discriminate].
  destruct m as [|m]; [discriminate|]. cbn [parse] in Hk.
  destruct (nth_error P p) as [ob|] eqn:Hp; [|discriminate].
  assert (Hpc : nonChar ob -> pcount (cResults c) (cOffset c) (nodeID ob) = 0).
  { intros Hn. destruct (pcount (cResults c) (cOffset c) (nodeID ob)) eqn:Ec; auto. exfalso. apply Hd. eapply (proj1 Hpd); eauto. lia. }
  pose proof (pend_lower _ _ Hpd) as Hpd'.
  destruct ob as [nm i cnot chars ranges|nm i cm its rg gs ac|nm i cm ops gs].
  - destruct (charParse_spec P input REof GT _ _ _ _ _ _ _ _ Hp (proj1 H) Hk) as [(P1 & P2 & P3 & P4) P5].
    split; [split; [auto|rewrite P5; apply H]|]. split; [|intros R _; rewrite P5; apply keeps_refl].
    rewrite (eval_char n p _ _ _ _ _ _ Hp). unfold charParse in Hk. binv Hk. destruct x as [c1 tok].
    destruct (token_spec _ _ _ _ _ (ci_r _ _ _ _ (proj1 H)) (ci_off _ _ _ _ (proj1 H)) E) as (T1 & T2 & [ext T3] & T4).
    destruct T2 as (S1 & S2 & S3 & S4 & S5 & S6 & S7).
    destruct tok as [r|].
    + destruct T4 as [T4 _]. apply (rinv_nth _ _ _ _ _ T1) in T4. rewrite T4. rewrite <- matchChar_classHas.
      destruct (matchChar chars ranges cnot r).
      * inversion Hk; subst. cbn [agrees]. split; auto. simpl. rewrite S1. split; auto. intros ob Hob Hn. rewrite Hp in Hob. inversion Hob; subst. contradiction.
      * inversion Hk; subst. simpl. auto.
    + assert (En : nth_error input (cOffset c) = None).
      { apply nth_error_None. destruct T4 as (_ & [T4|[T4|(T4 & _)]]); [congruence| |lia]. exfalso. apply T4.
        rewrite <- (tinv_noErr _ P1). inversion Hk. simpl. destruct (_ <? _)%Z; auto. }
      rewrite En. inversion Hk; subst. simpl. auto.
  - eapply (seqParse_ref n m); eauto. exact (Hpc I).
  - destruct (exts p ops) as [|x0 xs0] eqn:Exs.
    + eapply (choiceParse_plain n m); eauto. exact (Hpc I).
    + eapply (choiceParse_grow n m); eauto; [rewrite Exs; discriminate|exact (Hpc I)].
Qed.

Lemma tinv_new : tinv (newContext input REof).
Proof.
  split; [apply cinv_new|]. simpl.
  assert (H : forall o i t, ~ stored emptyResults o i t) by (intros o i t Hs; unfold stored, matchRow in Hs; simpl in Hs; destruct o; contradiction).
  split.
  - intros b ob o t x _ _ Hs. exfalso. eapply H; eauto.
  - intros b ob o x _ _ Hs. unfold noMatchHas in Hs. simpl in Hs. destruct o; discriminate.
  - intros b nm i cm ops gs o t t' ns _ Hs. exfalso. eapply H; eauto.
  - intros b nm i cm ops gs o t x ox t' ns _ Hs. exfalso. eapply H; eauto.
  - intros b nm i cm its rg gs o t x o' ox t' ns _ _ Hs. exfalso. eapply H; eauto.
  - intros b nm i cm ops gs o v t ns _ _ Hs. exfalso. eapply H; eauto.
  - intros b nm i cm ops gs x ox o v _ _ _ _ Hs. exfalso. eapply H; eauto.
Qed.
Theorem root_ref m root c' r : Ev root 0 r -> parse P kws m root (newContext input REof) = Ok c' ->
  tinv c' /\ agrees root (newContext input REof) c' r.
Proof.
  intros [Hr (n & E)] Hk. subst r.
  assert (X : forall o i, pcount emptyResults o i = 0) by (intros o i; unfold pcount; destruct i; reflexivity).
  destruct (parse_ref n m root (newContext input REof) c') as (H1 & H2 & _); auto.
  - apply tinv_new.
  - split.
    + intros b ob o _ _ Hc. simpl in Hc. rewrite X in Hc. lia.
    + intros b nm i cm ops gs x ox o _ _ _ _ Hc. simpl in Hc. rewrite X in Hc. lia.
Qed.
End GROWP.
