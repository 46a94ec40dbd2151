(** Matching a choice that starts with itself: the memo table holds a chain of matches, each one
    extending the one before. *)
From Verif Require Import Base Utf8 IdSet Results Parser Build ListFacts ResultsFacts ReaderFacts ParseFacts
  FuelFacts TermFacts BuildFacts Lang Sound RunFacts NoPanic StoreFacts RefSpec RefFuel RefParse RefBuild LeftSpec LeftFrame OnceFacts.

Section LEFT.
Variable P : pheap.
Variable kws : list addr.
Variable K : list (list rune).
Variable input : list rune.
Hypothesis Hids : uniqueIds P.
Hypothesis Hgens : gensOk P.
Hypothesis HK1 : forall w, In w K -> exists kw, In kw kws /\ literal P kw w.
Hypothesis HK2 : forall kw, In kw kws -> exists w, In w K /\ literal P kw w.
Hypothesis Hnk : forall a name id commit options gs,
  nth_error P a = Some (PChoice name id commit options gs) -> hasFlag commit CNoKeyword = false.
Hypothesis Hvalid : ~ In runeError input.
Hypothesis Hranges : forall a name id commit items ranges gs ac, nth_error P a = Some (PSeq name id commit items ranges gs ac) ->
  List.length items <= List.length ranges.

Notation G := (heapGraph P).
Notation ev := (eval G K input).
Notation Ev := (Gives G K input).
Notation cinv := (cinv input REof GT).
Notation post := (post P input REof GT).
Notation tres := (tres P K input).
Notation tinv := (tinv P K input).
Notation asks := (asks P K input).

(** the choice and its options *)
Variables (e : addr) (nm : string) (ide : nat) (cte : commitType) (opts : list addr) (gse : list nat).
Hypothesis He : nth_error P e = Some (PChoice nm ide cte opts gse).
Variables recs bases : list addr.
Hypothesis Hopts : opts = recs ++ bases \/ opts = bases ++ recs.
Hypothesis Hsome : recs <> [].
Definition Dt (a : addr) : Prop := ~ reaches G e a.
Hypothesis Hbases : forall b, In b bases -> Dt b.
Hypothesis Hrecs : forall x, In x recs -> exists n id ct items ranges gs,
  nth_error P x = Some (PSeq n id ct (e :: items) ((1, 1)%Z :: ranges) gs false) /\ hasFlag ct CNoKeyword = false /\
  forall y, In y items -> Dt y.
Variable from : nat.
Notation lab := (heapLabel nm cte).
Hypothesis Hgrow : growing G K input lab recs bases from.

(** ** the choice and the extensions never have an outcome of their own *)
Lemma in_opts x : In x opts <-> In x recs \/ In x bases.
Proof. destruct Hopts as [-> | ->]; rewrite in_app_iff; tauto. Qed.
Lemma never n : forall o, ev n e o = Unfinished /\ forall x, In x recs -> ev n x o = Unfinished.
Proof.
  induction n as [|n IH]; intros o; [split; auto|]. destruct (IH o) as [IH1 IH2]. split.
  - rewrite (eval_choice P K input n _ _ _ _ _ _ _ He).
    destruct recs as [|x l] eqn:Er; [congruence|]. rewrite <- Er in *.
    assert (Hx : In x opts) by (apply in_opts; left; rewrite Er; left; auto).
    destruct (evalOptions (ev n) opts o NoMatch) eqn:E; auto; exfalso;
      (destruct (evalOptions_spec (ev n) o opts NoMatch) as [H1 _]; [discriminate|congruence|];
       apply (H1 x Hx); apply IH2; rewrite Er; left; auto).
  - intros x Hx. destruct (Hrecs x Hx) as (n1 & id & ct & items & ranges & gs & Hp & _ & _).
    rewrite (eval_seq P K input n _ _ _ _ _ _ _ _ _ Hp).
    assert (E : evalItems (ev n) n (objItems (e :: items) ((1, 1)%Z :: ranges)) 0 o = Unfinished).
    { destruct n as [|k]; auto. cbn [objItems combine map evalItems]. unfold toBounds at 1. simpl fst. simpl snd. rewrite IH1. auto. }
    rewrite E. auto.
Qed.
Lemma noEv_e o r : ~ Ev e o r.
Proof. intros [H1 (n & H2)]. rewrite (proj1 (never n o)) in H2. auto. Qed.
Lemma noEv_rec x o r : In x recs -> ~ Ev x o r.
Proof. intros Hx [H1 (n & H2)]. rewrite (proj2 (never n o) x Hx) in H2. auto. Qed.
Definition neverAt (a : addr) : Prop := forall n o, ev n a o = Unfinished.
Lemma neverAt_ev a o r : neverAt a -> ~ Ev a o r.
Proof. intros H [H1 (n & H2)]. rewrite H in H2. auto. Qed.

(** ** definitions that do not refer to the choice *)
Lemma Dt_items a name id commit items ranges gs ac : Dt a -> nth_error P a = Some (PSeq name id commit items ranges gs ac) ->
  forall x : addr, In x items -> Dt x.
Proof.
  intros Ha Hp x Hx Hr. apply Ha. apply In_nth_error in Hx. destruct Hx as (i & Hi).
  assert (Hlt : i < List.length (map toBounds ranges)).
  { rewrite map_length. eapply Nat.lt_le_trans; [|eapply Hranges; eauto]. apply nth_error_Some. congruence. }
  destruct (nth_error (map toBounds ranges) i) as [bd|] eqn:Eb; [|apply nth_error_None in Eb; lia].
  eapply (re_item G e a _ _ (combine items (map toBounds ranges)) x bd); [unfold heapGraph; rewrite Hp; reflexivity| |exact Hr].
  apply (nth_error_In _ i).
  pose proof (skipn_combine _ _ _ _ _ Hi Eb) as Hsk. clear -Hsk. revert Hsk. generalize (combine items (map toBounds ranges)). revert x bd.
  induction i as [|i IH]; intros x bd [|y l] H; simpl in H; try discriminate; [inversion H; auto|]. simpl. apply IH. exact H.
Qed.
Lemma Dt_options a name id commit options gs : Dt a -> nth_error P a = Some (PChoice name id commit options gs) ->
  forall x : addr, In x options -> Dt x.
Proof. intros Ha Hp x Hx Hr. apply Ha. eapply re_option; [unfold heapGraph; rewrite Hp; reflexivity|exact Hx|exact Hr]. Qed.
Lemma Dt_kws a : In a kws -> Dt a.
Proof.
  intros Ha Hr. destruct (HK2 a Ha) as (w & _ & Hl). unfold literal in Hl.
  inversion Hr as [E|a' l nk its x bd HG Hin Hrx|a' l ops x HG Hin Hrx]; subst.
  - rewrite He in Hl. decompose [ex and] Hl; discriminate.
  - unfold heapGraph in HG. destruct Hl as (name & id & commit & items & ranges & gs & Hp & _ & Hf & _).
    rewrite Hp in HG. inversion HG; subst. apply in_combine_l in Hin.
    assert (Hc : exists n0 i0 r0, nth_error P x = Some (PChar n0 i0 false [r0] [])).
    { clear -Hf Hin. induction Hf as [|y r l1 l2 (n0 & i0 & Hy) Hf IH]; [contradiction|]. destruct Hin as [<-|Hin]; eauto. }
    destruct Hc as (n0 & i0 & r0 & Hx). inversion Hrx as [E|? ? ? ? ? ? HG'|? ? ? ? HG']; subst.
    + congruence.
    + unfold heapGraph in HG'. rewrite Hx in HG'. discriminate.
    + unfold heapGraph in HG'. rewrite Hx in HG'. discriminate.
  - unfold heapGraph in HG. decompose [ex and] Hl. match goal with H : nth_error P a = _ |- _ => rewrite H in HG end. discriminate.
Qed.
Lemma Dt_e : ~ Dt e.
Proof. intros H. apply H. apply re_self. Qed.
Lemma Dt_rec x : In x recs -> ~ Dt x.
Proof.
  intros Hx H. destruct (Hrecs x Hx) as (n1 & id & ct & items & ranges & gs & Hp & _ & _). apply H.
  eapply (re_item G e x _ _ _ e); [unfold heapGraph; rewrite Hp; reflexivity|left; reflexivity|apply re_self].
Qed.
Notation idD := (idD P Dt).
Notation frame := (frame P Dt).
Lemma idD_e : ~ idD ide.
Proof. intros (x & ox & HD & Hx & Hn & Hi). assert (x = e) by (eapply Hids; eauto; exact I). subst. exact (Dt_e HD). Qed.
Definition idOf (x : addr) : nat := match nth_error P x with Some o => nodeID o | None => 0 end.
Lemma rec_obj x : In x recs -> exists n ct items ranges gs,
  nth_error P x = Some (PSeq n (idOf x) ct (e :: items) ((1, 1)%Z :: ranges) gs false) /\ hasFlag ct CNoKeyword = false /\
  forall y, In y items -> Dt y.
Proof.
  intros Hx. destruct (Hrecs x Hx) as (n1 & id & ct & items & ranges & gs & Hp & Hf & Hd).
  exists n1, ct, items, ranges, gs. unfold idOf. rewrite Hp. auto.
Qed.
Lemma idD_rec x : In x recs -> ~ idD (idOf x).
Proof.
  intros Hx (y & oy & HD & Hy & Hn & Hi). destruct (rec_obj x Hx) as (n1 & ct & items & ranges & gs & Hp & _).
  assert (y = x) by (eapply Hids; eauto; exact I). subst. exact (Dt_rec x Hx HD).
Qed.
(** the identity of an extension is not among the generalizations of any definition *)
Lemma gens_rec x y oy : In x recs -> nth_error P y = Some oy -> ~ In (idOf x) (gensOf oy).
Proof.
  intros Hx Hy Hi. destruct (rec_obj x Hx) as (n1 & ct & items & ranges & gs & Hp & _).
  assert (Hg : generalizes P x y) by (exact (Hgens y oy x _ Hy Hp I Hi)).
  destruct (generalizes_choice _ _ _ Hg) as (? & ? & ? & ? & ? & Hx'). rewrite Hp in Hx'. discriminate.
Qed.
Lemma id_e_rec x : In x recs -> idOf x <> ide.
Proof.
  intros Hx Hi. destruct (rec_obj x Hx) as (n1 & ct & items & ranges & gs & Hp & _).
  assert (x = e) by (eapply (Hids x e); [exact Hp|exact He|exact I|exact I|exact Hi]). subst. congruence.
Qed.
Lemma id_rec_rec x y : In x recs -> In y recs -> idOf x = idOf y -> x = y.
Proof.
  intros Hx Hy Hi. destruct (rec_obj x Hx) as (n1 & ct & items & ranges & gs & Hp & _).
  destruct (rec_obj y Hy) as (n2 & ct2 & items2 & ranges2 & gs2 & Hp2 & _).
  eapply (Hids x y); [exact Hp|exact Hp2|exact I|exact I|exact Hi].
Qed.

(** ** the chain of matches *)
Notation Bg := (Begins G K input bases from).
Notation Ct := (Continues G K input).
Inductive chain : list (nat * addr * nat) -> nat -> list node -> Prop :=
| ch_base t ns : Bg (Match t ns) -> chain [] t (named lab from t ns)
| ch_more S t ns x l t' ns' : chain S t ns -> In x recs -> Ct x l t (Match t' ns') ->
    chain ((t', x, t) :: S) t' (named lab from t' (named l from t' (ns ++ ns'))).
Lemma chain_grown S t ns : chain S t ns -> grown G K input lab recs bases from t ns.
Proof. induction 1; [apply gr_base; auto|eapply gr_more; eauto]. Qed.
Lemma Begins_fun r r' : Bg r -> Bg r' -> r = r'.
Proof.
  intros [H1 (n & E1)] [H2 (m & E2)]. subst.
  assert (X : forall a b, a <= b -> evalOptions (ev a) bases from NoMatch <> Unfinished ->
            evalOptions (ev b) bases from NoMatch = evalOptions (ev a) bases from NoMatch).
  { intros a b Hab Hu. apply evalOptions_mono; auto. intros x o Hx. apply eval_mono; auto. }
  destruct (Nat.le_ge_cases n m) as [L|L]; [symmetry|]; apply X; auto.
Qed.
Variable T0 : nat.
Definition based : Prop := exists ns, Bg (Match T0 ns).
Lemma chain_le S t ns : based -> chain S t ns -> from < T0 /\ T0 <= t /\ (forall v x u, In (v, x, u) S -> T0 < v /\ v <= t /\ T0 <= u /\ u < v /\ In x recs).
Proof.
  intros (nb & HT) H. induction H as [t ns Hb|S t ns x l t' ns' H IH Hx Hc].
  - pose proof (Begins_fun _ _ HT Hb) as E. inversion E; subst. split; [eapply (gw_base _ _ _ _ _ _ _ Hgrow); eauto|]. split; auto. intros ? ? ? [].
  - destruct IH as (I1 & I2 & I3). assert (Hlt : t < t') by (eapply (gw_more _ _ _ _ _ _ _ Hgrow); eauto using chain_grown).
    split; auto. split; [lia|]. intros v y u [Hin|Hin]; [inversion Hin; subst; split; [lia|]; split; auto; split; auto|].
    destruct (I3 _ _ _ Hin) as (J1 & J2 & J3 & J4 & J5). split; auto. split; [lia|auto].
Qed.

(** ** what the memo table holds at the offset *)
Record grow (S : list (nat * addr * nat)) (t : nat) (r : results) : Prop := mkGrow {
  g_e : forall v, stored r from ide v -> v <= T0 \/ exists x u, In (v, x, u) S;
  g_top : stored r from ide t;
  g_T0 : stored r from ide T0;
  g_eS : forall v x u, In (v, x, u) S -> stored r from ide v /\ stored r from ide u /\ stored r from (idOf x) v;
  g_r : forall x v, In x recs -> stored r from (idOf x) v -> exists u, In (v, x, u) S;
  g_asks : forall v x u n id ct items ranges gs, In (v, x, u) S ->
    nth_error P x = Some (PSeq n id ct (e :: items) ((1, 1)%Z :: ranges) gs false) ->
    forall y o' oy t' ns', asks (objItems items ranges) 0 u y o' -> nth_error P y = Some oy -> nonChar oy -> Ev y o' (Match t' ns') ->
    stored r o' (nodeID oy) t';
  g_none : noMatchHas r from ide = false }.
Record empty (r : results) : Prop := mkEmpty {
  em_e : forall v, ~ stored r from ide v;
  em_r : forall x v, In x recs -> ~ stored r from (idOf x) v;
  em_none : noMatchHas r from ide = false }.
Definition basesIn (r : results) : Prop := forall b ob t ns, In b bases -> nth_error P b = Some ob -> nonChar ob ->
  Ev b from (Match t ns) -> stored r from (nodeID ob) t.

Lemma gen_defined b x o : generalizes P b x -> forall r, Ev b o r -> exists rx, Ev x o rx.
Proof.
  induction 1 as [x a name id commit options gs Hx Hin|x op a name id commit options gs Hx Hin Hg IH]; intros r H.
  - exact (option_defined P K input _ _ _ _ _ _ _ _ _ Hx Hin H).
  - destruct (option_defined P K input _ _ _ _ _ _ _ _ _ Hx Hin H) as (r' & Hop). eapply IH; eauto.
Qed.
(** matches that come from below a base are not longer than the longest base *)
Lemma base_below lo r r' rb : Bg rb -> tres r' -> frame lo r r' -> forall v, stored r' from ide v ->
  stored r from ide v \/ exists t ns, rb = Match t ns /\ v <= t.
Proof.
  intros HB Hr F v Hv. destruct (fr_stored _ _ _ _ _ F _ _ _ Hv) as [|(_ & [Hi|(x & ox & HD & Hx & Hn & Hg & Hs)])]; auto; [destruct (idD_e Hi)|].
  right. assert (Hge : generalizes P e x) by (exact (Hgens x ox e _ Hx He I Hg)).
  assert (Hop : exists b, In b bases /\ (x = b \/ generalizes P b x)).
  { inversion Hge as [x0 a n0 i0 c0 os0 g0 Hx0 Hin|x0 op a n0 i0 c0 os0 g0 Hx0 Hin Hgo]; subst.
    - assert (os0 = opts) by congruence. subst os0. apply in_opts in Hin. destruct Hin as [Hin|Hin]; [destruct (Dt_rec _ Hin HD)|eauto].
    - assert (os0 = opts) by congruence. subst os0. apply in_opts in Hin. destruct Hin as [Hin|Hin]; [|eauto].
      destruct (Hrecs op Hin) as (n1 & id & ct & items & ranges & gs & Hp & _ & _).
      destruct (generalizes_choice _ _ _ Hgo) as (? & ? & ? & ? & ? & Hx'). rewrite Hp in Hx'. discriminate. }
  destruct Hop as (b & Hb & Hbx). destruct HB as [HB1 (n & HB2)].
  destruct (evalOptions_spec (ev n) from bases NoMatch) as [Hdef Hsp]; [discriminate|congruence|].
  pose proof (Ev_at P K input n b from (Hdef b Hb)) as HEb.
  assert (HEx : exists rx, Ev x from rx).
  { destruct Hbx as [<-|Hbx]; [eauto|]. eapply gen_defined; eauto. }
  destruct HEx as (rx & HEx).
  destruct (ti_2 _ _ _ _ Hr x ox from v rx Hx Hn Hs HEx) as (tx & nsx & -> & Hle & _).
  assert (HEb' : exists tb nsb, ev n b from = Match tb nsb /\ tx <= tb).
  { destruct Hbx as [<-|Hbx].
    - pose proof (Ev_fun P K input _ _ _ _ HEb HEx) as E. rewrite E. eauto.
    - eapply (gen_le P K input b x Hbx); eauto. }
  destruct HEb' as (tb & nsb & Eb & Htb). rewrite HB2 in Hsp. destruct rb as [| |tr nr]; [contradiction| |].
  - destruct Hsp as [_ Hsp]. rewrite (Hsp b Hb) in Eb. discriminate.
  - destruct Hsp as (_ & Hsp & _). exists tr, nr. split; auto. specialize (Hsp _ _ _ Hb Eb). lia.
Qed.
Lemma frame_rec lo r r' x v : In x recs -> frame lo r r' -> stored r' from (idOf x) v -> stored r from (idOf x) v.
Proof.
  intros Hx F Hv. destruct (fr_stored _ _ _ _ _ F _ _ _ Hv) as [|(_ & [Hi|(y & oy & HD & Hy & Hn & Hg & Hs)])]; auto.
  - destruct (idD_rec x Hx Hi).
  - destruct (gens_rec x y oy Hx Hy Hg).
Qed.
Lemma frame_none lo r r' : frame lo r r' -> noMatchHas r from ide = false -> noMatchHas r' from ide = false.
Proof.
  intros F H. destruct (noMatchHas r' from ide) eqn:E; auto. destruct (fr_none _ _ _ _ _ F _ _ E) as [X|X]; [congruence|destruct (idD_e X)].
Qed.
Lemma grow_frame S t lo r r' : based -> tres r' -> frame lo r r' -> grow S t r -> grow S t r'.
Proof.
  intros (nb & HT) Hr F [A1 A2 A3 A4 A5 A6 A7]. split; try (apply (fr_more _ _ _ _ _ F); auto; fail).
  - intros v Hv. destruct (base_below lo r r' _ HT Hr F v Hv) as [Hv'|(t1 & ns1 & E & Hle)]; auto. inversion E; subst. auto.
  - intros v x u Hin. destruct (A4 _ _ _ Hin) as (B1 & B2 & B3). split; [|split]; apply (fr_more _ _ _ _ _ F); auto.
  - intros x v Hx Hv. eapply A5; eauto. eapply frame_rec; eauto.
  - intros. apply (fr_more _ _ _ _ _ F). eapply A6; eauto.
  - eapply frame_none; eauto.
Qed.
Lemma grow_ext S t r r' : (forall o i v, stored r' o i v <-> stored r o i v) -> (forall o i, noMatchHas r' o i = noMatchHas r o i) -> grow S t r -> grow S t r'.
Proof.
  intros H1 H2 [A1 A2 A3 A4 A5 A6 A7]. split; try (apply H1; auto; fail).
  - intros v Hv. apply H1 in Hv. auto.
  - intros v x u Hin. destruct (A4 _ _ _ Hin) as (B1 & B2 & B3). split; [|split]; apply H1; auto.
  - intros x v Hx Hv. apply H1 in Hv. eauto.
  - intros. apply H1. eapply A6; eauto.
  - rewrite H2. auto.
Qed.
Lemma empty_ext r r' : (forall o i v, stored r' o i v -> stored r o i v) -> (forall o i, noMatchHas r' o i = noMatchHas r o i) -> empty r -> empty r'.
Proof.
  intros H1 H2 [A1 A2 A3]. split.
  - intros v Hv. apply H1 in Hv. eapply A1; eauto.
  - intros x v Hx Hv. apply H1 in Hv. eapply A2; eauto.
  - rewrite H2. auto.
Qed.

(** ** storing matches of definitions without an outcome *)
Lemma tres_vac r o i v :
  (forall x ox, nth_error P x = Some ox -> nonChar ox -> nodeID ox = i -> neverAt x /\ isSeqObj ox) \/
  (forall x ox, nth_error P x = Some ox -> nonChar ox -> nodeID ox = i -> neverAt x /\ 0 < pcount r o i) ->
  (forall x name commit items ranges gs, nth_error P x = Some (PSeq name i commit items ranges gs false) ->
     exists n0 items', neverAt n0 /\ objItems items ranges = (n0, (1, Some 1)) :: items') ->
  tres r -> tres (setMatch r o i v).
Proof.
  intros Hv Hseq [A B C D F].
  assert (Hnev : forall x ox, nth_error P x = Some ox -> nonChar ox -> nodeID ox = i -> neverAt x).
  { intros x ox H1 H2 H3. destruct Hv as [Hv|Hv]; eapply Hv; eauto. }
  assert (Hst : forall b ob o' t', nth_error P b = Some ob -> nonChar ob -> stored (setMatch r o i v) o' (nodeID ob) t' ->
            stored r o' (nodeID ob) t' \/ (nodeID ob = i /\ o' = o /\ t' = v)).
  { intros b ob o' t' Hb Hn Hs. apply stored_setMatch in Hs. destruct Hs as [Hs|(-> & Hi & ->)]; auto. }
  split.
  - intros b ob o' t' x Hb Hn Hs Hx. destruct (Hst _ _ _ _ Hb Hn Hs) as [Hs'|(E1 & -> & ->)]; [eauto|].
    exfalso. eapply neverAt_ev; [eapply Hnev; eauto|exact Hx].
  - intros b ob o' x Hb Hn Hs. rewrite (noMatchHas_ext _ _ (noMatch_setMatch _ _ _ _)) in Hs. eauto.
  - intros b name' id' commit' options' gs' o' t1 t' ns Hb Hs Hp' Hx. rewrite pcount_setMatch in Hp'.
    destruct (Hst _ _ _ _ Hb I Hs) as [Hs'|(E1 & -> & ->)]; [apply stored_setMatch; left; simpl in Hs'; eauto|].
    exfalso. eapply neverAt_ev; [eapply Hnev; [exact Hb|exact I|exact E1]|exact Hx].
  - intros b name' id' commit' options' gs' o' t1 x ox t' ns Hb Hs Hp' Hx Hox Hn He'. rewrite pcount_setMatch in Hp'.
    destruct (Hst _ _ _ _ Hb I Hs) as [Hs'|(E1 & -> & ->)]; [apply stored_setMatch; left; simpl in Hs'; eauto|].
    exfalso. simpl in E1. subst id'. destruct Hv as [Hv|Hv]; destruct (Hv b _ Hb I eq_refl) as [_ X]; [exact X|lia].
  - intros b name' id' commit' items' ranges' gs' o' t1 x o'' ox t' ns Hb Hs Has Hox Hn He'.
    destruct (Hst _ _ _ _ Hb I Hs) as [Hs'|(E1 & -> & ->)]; [apply stored_setMatch; left; simpl in Hs'; eauto|].
    simpl in E1. subst id'. destruct (Hseq _ _ _ _ _ _ Hb) as (n0 & its & Hn0 & Eo). rewrite Eo in Has.
    exfalso. inversion Has; subst; try (eapply neverAt_ev; eauto; fail).
Qed.
Lemma never_e : neverAt e.
Proof. intros n o. exact (proj1 (never n o)). Qed.
Lemma never_rec x : In x recs -> neverAt x.
Proof. intros Hx n o. exact (proj2 (never n o) x Hx). Qed.
Lemma never_gen x a : generalizes P x a -> neverAt a -> neverAt x.
Proof. intros Hg Ha n o. eapply gen_unf; eauto. Qed.
Lemma tres_vacGens x ox t : In x recs -> nth_error P x = Some ox -> forall gs' r, incl gs' (gensOf ox) -> tres r -> tres (setGeneralizations from t gs' r).
Proof.
  intros Hx Hox. unfold setGeneralizations. induction gs' as [|g gs' IH]; intros r Hi Hr; simpl; auto.
  apply IH; [intros y Hy; apply Hi; right; auto|].
  destruct (pending r from g) eqn:Ep; auto. apply pending_pcount in Ep.
  assert (Hg : forall y oy, nth_error P y = Some oy -> nonChar oy -> nodeID oy = g -> generalizes P y x).
  { intros y oy Hy Hn <-. eapply Hgens; eauto. apply Hi. left. auto. }
  apply tres_vac; auto.
  - right. intros y oy Hy Hn Hg'. split; auto. eapply never_gen; [eapply Hg; eauto|apply never_rec; auto].
  - intros y name commit items ranges gs Hy. exfalso. destruct (generalizes_choice _ _ _ (Hg y _ Hy I eq_refl)) as (? & ? & ? & ? & ? & Hy').
    rewrite Hy in Hy'. discriminate.
Qed.
Lemma tres_vacRec x r v : In x recs -> tres r -> tres (setMatch r from (idOf x) v).
Proof.
  intros Hx. destruct (rec_obj x Hx) as (n1 & ct & items & ranges & gs & Hp & _).
  assert (Hu : forall y oy, nth_error P y = Some oy -> nonChar oy -> nodeID oy = idOf x -> y = x).
  { intros y oy Hy Hn Hi. eapply (Hids y x); eauto. exact I. }
  apply tres_vac.
  - left. intros y oy Hy Hn Hi. assert (y = x) by eauto. subst y. split; [apply never_rec; auto|]. rewrite Hp in Hy. inversion Hy. exact I.
  - intros y name commit its rg gs' Hy. assert (y = x) by (eapply Hu; [exact Hy|exact I|reflexivity]). subst y.
    rewrite Hp in Hy. inversion Hy; subst. exists e, (objItems items ranges). split; [exact never_e|reflexivity].
Qed.
Lemma tres_vacE r v : 0 < pcount r from ide -> tres r -> tres (setMatch r from ide v).
Proof.
  intros Hp. apply tres_vac.
  - right. intros y oy Hy Hn Hi. assert (y = e) by (eapply (Hids y e); eauto; exact I). subst y. split; [exact never_e|auto].
  - intros y name commit its rg gs' Hy. assert (y = e) by (eapply (Hids y e); [exact Hy|exact He|exact I|exact I|reflexivity]). subst y. congruence.
Qed.

(** ** one call on an extension *)
Record ctx (c : context) : Prop := mkCtx {
  cx_t : tinv c;
  cx_l : cOffsetLimit c = None;
  cx_p : forall n, pend P K input n c;
  cx_o : cOffset c = from;
  cx_e : 0 < pcount (cResults c) from ide;
  cx_r : forall x, In x recs -> pcount (cResults c) from (idOf x) = 0 }.
Lemma ctx_next c c' : ctx c -> tinv c' -> step c c' -> samePending c c' -> ctx (setOffset c' from).
Proof.
  intros [A1 A2 A3 A4 A5 A6] Ht Hs Hp. pose proof (step_len _ _ Hs) as Hlen. pose proof (ci_off _ _ _ _ (proj1 A1)) as Hoff.
  split; simpl.
  - split; [apply cinv_offset; [lia|apply Ht]|apply Ht].
  - rewrite (st_limit _ _ Hs). auto.
  - intros n. apply (pend_same P K input n c); auto.
  - auto.
  - rewrite Hp. auto.
  - intros x Hx. rewrite Hp. auto.
Qed.
Lemma ctx_setE c v : ctx c -> from <= v -> v <= List.length (cTokens c) -> ctx (setResults c (setMatch (cResults c) from ide v)).
Proof.
  intros [A1 A2 A3 A4 A5 A6] H1 H2. split; simpl; auto.
  - split; [apply cinv_setMatch; auto; [exact I|apply A1]|]. simpl. apply tres_vacE; auto. apply A1.
  - intros n. apply (pend_same P K input n c); auto. intros o i. simpl. apply pcount_setMatch.
  - rewrite pcount_setMatch. auto.
  - intros x Hx. rewrite pcount_setMatch. auto.
Qed.
(** a call on the choice finds the longest match so far *)
Lemma call_e k c t : cOffset c = from -> noMatchHas (cResults c) from ide = false -> stored (cResults c) from ide t ->
  (forall v, stored (cResults c) from ide v -> v <= t) -> parse P kws (S k) e c = Ok (success c t) /\ fromResults c ide = Some (success c t).
Proof.
  intros Ho Hn Hs Hm. cbn [parse]. rewrite He. unfold choiceParse.
  assert (E : fromResults c ide = Some (success c t)).
  { unfold fromResults, longestResult. rewrite Ho, Hn. assert (L : longestMatch (cResults c) from ide = Some t) by (apply longestMatch_some; auto). rewrite L. auto. }
  rewrite E. auto.
Qed.
Lemma call_e_none k c : cOffset c = from -> noMatchHas (cResults c) from ide = false -> (forall v, ~ stored (cResults c) from ide v) ->
  0 < pcount (cResults c) from ide -> parse P kws (S k) e c = Ok (fail c from).
Proof.
  intros Ho Hn Hs Hp. cbn [parse]. rewrite He. unfold choiceParse.
  assert (E : fromResults c ide = None).
  { unfold fromResults, longestResult. rewrite Ho, Hn. assert (L : longestMatch (cResults c) from ide = None) by (apply longestMatch_none; auto). rewrite L. auto. }
  rewrite E, Ho. assert (Ep : pending (cResults c) from ide = true) by (apply pending_pcount; auto). rewrite Ep. auto.
Qed.

Lemma rec_fails m x c c1 : In x recs -> ctx c -> empty (cResults c) -> parse P kws m x c = Ok c1 ->
  cMatchLast c1 = false /\ tinv c1 /\ empty (cResults c1).
Proof.
  intros Hx Hc Hem Hk. destruct (rec_obj x Hx) as (n1 & ct & items & ranges & gs & Hp & Hf & Hd).
  pose proof (post_of P kws input REof _ _ _ _ (proj1 (cx_t _ Hc)) Hk) as (P1 & P2 & P3 & P4).
  assert (Hmain : cMatchLast c1 = false /\ rMatch (cResults c1) = rMatch (cResults c) /\ rNoMatch (cResults c1) = rNoMatch (cResults c)).
  { destruct m as [|m]; [discriminate|]. cbn [parse] in Hk. rewrite Hp in Hk. unfold seqParse in Hk. rewrite (cx_o _ Hc) in Hk.
    assert (Ep : pending (cResults c) from (idOf x) = false) by (apply pending_false; apply (cx_r _ Hc); auto).
    rewrite Ep in Hk. cbn [negb andb] in Hk. set (c0 := setResults c _) in *.
    destruct (mark_match (cResults c) from (idOf x)) as [M1 M2].
    binv Hk. destruct m as [|m]; [discriminate|]. remember (S m) as m1 eqn:Em1. rewrite Em1 in E at 2. cbn [seqLoop nth_error] in E. rewrite Em1 in E.
    rewrite (call_e_none m c0) in E.
    2:{ apply (cx_o _ Hc). }
    2:{ simpl. rewrite (noMatchHas_ext _ _ M2). apply Hem. }
    2:{ intros v Hv. simpl in Hv. apply (stored_ext _ _ M1) in Hv. eapply (em_e _ Hem); eauto. }
    2:{ simpl. rewrite pcount_mark. pose proof (cx_e _ Hc). lia. }
    cbn [bind] in E. simpl in E.
    destruct (fromResults (setOffset (fail c0 from) from) (idOf x)) as [c2|] eqn:Ef.
    - binv E. inversion E; subst x0. inversion Hk; subst c1. clear E Hk.
      assert (Hm2 : cMatchLast c2 = false).
      { unfold fromResults in Ef. simpl in Ef. destruct (longestResult (markPending (cResults c) from (idOf x)) from (idOf x)) eqn:El; inversion Ef; subst; auto.
        exfalso. unfold longestResult in El. destruct (noMatchHas _ _ _); [discriminate|].
        destruct (longestMatch _ _ _) as [v|] eqn:Elm; [|discriminate]. apply longestMatch_some in Elm. destruct Elm as [Elm _].
        apply (stored_ext _ _ M1) in Elm. eapply (em_r _ Hem); eauto. }
      destruct (unmark_same false _ _ _ _ E0) as [U1 U2]. rewrite clearFail_same, (fromResults_same _ _ _ Ef) in U1, U2. simpl in U1, U2. split; [|split; congruence].
      clear -E0 Hm2. unfold mapResults in E0. binv E0. inversion E0; subst. simpl. unfold clearFail. destruct (_ <? _)%Z; auto.
    - binv E. inversion E; subst x0. inversion Hk; subst c1. clear E Hk.
      destruct (unmark_same false _ _ _ _ E0) as [U1 U2]. simpl in U1, U2. rewrite blame_same in U1, U2. simpl in U1, U2. split; [|split; congruence].
      clear -E0. unfold mapResults in E0. binv E0. inversion E0; subst. auto. }
  destruct Hmain as (H1 & H2 & H3). split; auto. split.
  - split; auto. eapply tres_same; eauto. apply (cx_t _ Hc).
  - apply (empty_ext (cResults c)); auto; [intros o i v; apply (stored_ext _ _ H2)|apply (noMatchHas_ext _ _ H3)].
Qed.

Lemma grow_max S t ns r v : based -> chain S t ns -> grow S t r -> stored r from ide v -> v <= t.
Proof.
  intros Hb Hch Hg Hv. destruct (chain_le _ _ _ Hb Hch) as (_ & H1 & H2).
  destruct (g_e _ _ _ Hg v Hv) as [|(x & u & Hin)]; [lia|]. destruct (H2 _ _ _ Hin) as (_ & ? & _). auto.
Qed.
Lemma grow_more S t ns r x l t' ns' gs R : based -> chain S t ns -> In x recs -> Ct x l t (Match t' ns') ->
  nth_error P x <> None -> (forall ox, nth_error P x = Some ox -> gensOf ox = gs) ->
  grow S t r ->
  (forall n id ct items ranges gs, nth_error P x = Some (PSeq n id ct (e :: items) ((1, 1)%Z :: ranges) gs false) ->
    forall y o' oy t1 ns1, asks (objItems items ranges) 0 t y o' -> nth_error P y = Some oy -> nonChar oy -> Ev y o' (Match t1 ns1) ->
    stored r o' (nodeID oy) t1) ->
  (forall o i v, stored R o i v <-> stored (setMatch (setMatch (setGeneralizations from t' gs r) from (idOf x) t') from ide t') o i v) ->
  (forall o i, noMatchHas R o i = noMatchHas r o i) ->
  grow ((t', x, t) :: S) t' R.
Proof.
  intros Hb Hch Hx Hct Hnn Hgs Hg Has HR HN.
  destruct (nth_error P x) as [ox|] eqn:Hox; [|congruence]. specialize (Hgs _ eq_refl).
  assert (Hup : forall o i v, stored r o i v -> stored R o i v).
  { intros o i v Hv. apply HR. apply stored_setMatch. left. apply stored_setMatch. left. apply setGens_stored. auto. }
  assert (Hdn : forall o i v, stored R o i v -> stored r o i v \/ (o = from /\ v = t' /\ (i = ide \/ i = idOf x \/ In i gs))).
  { intros o i v Hv. apply HR in Hv. apply stored_setMatch in Hv. destruct Hv as [Hv|(-> & -> & ->)]; auto 8.
    apply stored_setMatch in Hv. destruct Hv as [Hv|(-> & -> & ->)]; auto 8.
    apply setGens_stored in Hv. destruct Hv as [Hv|(-> & -> & Hj & _)]; auto 8. }
  assert (Htop : stored R from ide t') by (apply HR; apply stored_setMatch; auto).
  assert (Hrt : stored R from (idOf x) t') by (apply HR; apply stored_setMatch; left; apply stored_setMatch; auto).
  destruct Hg as [A1 A2 A3 A4 A5 A6 A7]. split; auto.
  - intros v Hv. apply Hdn in Hv. destruct Hv as [Hv|(_ & -> & _)].
    + destruct (A1 v Hv) as [|(y & u & Hin)]; auto. right. exists y, u. right. auto.
    + right. exists x, t. left. auto.
  - intros v y u [Hin|Hin].
    + inversion Hin; subst. split; [|split]; auto.
    + destruct (A4 _ _ _ Hin) as (B1 & B2 & B3). split; [|split]; apply Hup; auto.
  - intros y v Hy Hv. apply Hdn in Hv. destruct Hv as [Hv|(_ & -> & [Hi|[Hi|Hi]])].
    + destruct (A5 y v Hy Hv) as (u & Hin). exists u. right. auto.
    + destruct (id_e_rec y Hy Hi).
    + assert (y = x) by (apply id_rec_rec; auto). subst y. exists t. left. auto.
    + exfalso. apply (gens_rec y x ox Hy Hox). rewrite Hgs. auto.
  - intros v y u n id ct items ranges gs0 [Hin|Hin] Hy z o' oz t1 ns1 H1 H2 H3 H4; apply Hup.
    + inversion Hin; subst. rewrite Hox in Hy. eapply Has; eauto.
    + eapply A6; eauto.
  - rewrite HN. auto.
Qed.

Lemma rec_step m x c c1 S t ns : based -> In x recs -> chain S t ns -> ctx c -> grow S t (cResults c) -> parse P kws m x c = Ok c1 ->
  tinv c1 /\
  ((exists l t' ns', Ct x l t (Match t' ns') /\ cMatchLast c1 = true /\ cOffset c1 = t' /\ grow ((t', x, t) :: S) t' (setMatch (cResults c1) from ide t')) \/
   (exists l, Ct x l t NoMatch /\ (cMatchLast c1 = false \/ cOffset c1 <= t) /\ grow S t (cResults c1))).
Proof.
  intros Hba Hx Hch Hc Hg Hk. destruct (rec_obj x Hx) as (n1 & ct & items & ranges & gs & Hp & Hf & Hd).
  destruct (chain_le _ _ _ Hba Hch) as (L1 & L2 & L3).
  pose proof (post_of P kws input REof _ _ _ _ (proj1 (cx_t _ Hc)) Hk) as (P1 & P2 & P3 & P4).
  destruct (gw_continues _ _ _ _ _ _ _ Hgrow t ns x (chain_grown _ _ _ Hch) Hx) as (l & r & Hct).
  assert (HN : exists N, evalItems (ev N) N (objItems items ranges) 0 t = r /\ r <> Unfinished).
  { destruct Hct as [Hr (first & rest & N & HG & HN)]. exists N. split; auto. unfold heapGraph in HG. rewrite Hp in HG. inversion HG; subst. auto. }
  destruct HN as (N & HN & Hru).
  destruct m as [|m]; [discriminate|]. cbn [parse] in Hk. rewrite Hp in Hk. unfold seqParse in Hk. rewrite (cx_o _ Hc) in Hk.
  assert (Ep : pending (cResults c) from (idOf x) = false) by (apply pending_false; apply (cx_r _ Hc); auto).
  rewrite Ep in Hk. cbn [negb andb] in Hk. set (c0 := setResults c _) in *.
  destruct (mark_match (cResults c) from (idOf x)) as [M1 M2].
  assert (H0 : tinv c0).
  { split; [apply cinv_mark; apply (cx_t _ Hc)|]. simpl. eapply tres_ext; [| | |exact (proj2 (cx_t _ Hc))].
    - apply stored_ext. auto.
    - intros. rewrite (noMatchHas_ext _ _ M2). auto.
    - intros a nm' i cm ops g o Ha. rewrite pcount_mark. intros. lia. }
  assert (Hpd0 : forall n, pend P K input n c0).
  { intros n. pose proof (pend_mark P K input Hids n c x _ Hp I) as Q. rewrite (cx_o _ Hc) in Q. apply Q; [apply never_rec; auto|apply (cx_p _ Hc)]. }
  destruct (call_e (Nat.pred m) c0 t) as [Ce1 Ce2].
  { apply (cx_o _ Hc). }
  { simpl. rewrite (noMatchHas_ext _ _ M2). apply Hg. }
  { simpl. apply (stored_ext _ _ M1). apply Hg. }
  { intros v Hv. simpl in Hv. apply (stored_ext _ _ M1) in Hv. eapply grow_max; eauto. }
  set (x0 := success c0 t) in *.
  assert (Hx0 : tinv x0).
  { destruct (fromResults_spec _ _ _ _ _ _ (proj1 H0) Ce2) as (F1 & _). split; [exact F1|exact (proj2 H0)]. }
  binv Hk. destruct m as [|m]; [discriminate|]. simpl Nat.pred in Ce1.
  remember (Datatypes.S m) as m1 eqn:Em1. rewrite Em1 in E at 2. cbn [seqLoop nth_error] in E. rewrite Ce1 in E. cbn [bind] in E.
  assert (Elt : (from <? cOffset x0) = true) by (apply Nat.ltb_lt; unfold x0; simpl; lia).
  rewrite Elt in E. cbn [negb orb] in E. change (cMatchLast x0) with true in E. cbn [negb] in E.
  change (Z.ltb 0 1 && Z.eqb (Z.of_nat 1) 1)%bool with true in E. cbn iota in E. change (cOffset x0) with t in E.
  assert (Hres0 : cResults x0 = markPending (cResults c) from (idOf x)) by reflexivity.
  assert (Hfr : frame from (cResults x0) (cResults (outCtx x1))).
  { eapply (seqLoop_frame P kws input Dt m1 (fun p c c' H1 H2 H3 => parse_frame P kws input Dt Dt_items Dt_options Dt_kws m1 p c c' H1 H2 H3)); [apply Hx0|reflexivity| | |exact E]; [unfold x0; simpl; lia|].
    intros i y Hi Hy. destruct i as [|i]; [lia|]. simpl in Hy. apply Hd. eapply nth_error_In; eauto. }
  assert (Hg0 : grow S t (cResults x0)).
  { eapply grow_ext; [| |exact Hg]; rewrite Hres0; [apply stored_ext; auto|intros; apply noMatchHas_ext; auto]. }
  pose proof E as Es.
  eapply (seqLoop_ref P kws K input Hids N m1 (fun p c c' => parse_ref P kws K input Hids Hgens HK1 HK2 Hnk Hvalid N m1 p c c')) with (j := N) in E;
    [|exact Hp|exact Hx0|apply (cx_l _ Hc)|exact (Hpd0 N)|reflexivity|lia|].
  2:{ cbn [objItems map combine skipn]. fold (objItems items ranges). rewrite HN. auto. }
  cbn [objItems map combine skipn] in E. fold (objItems items ranges) in E. rewrite HN in E.
  apply (seqLoop_spec P input REof GT) in Es; auto; [|intros; eapply post_of; eauto|apply Hx0|lia].
  destruct r as [| |t' ns']; [contradiction| |].
  - destruct E as (c2 & -> & T1 & T2). inversion Hk; subst c2. clear Hk. simpl in Hfr. split; auto. right. exists l. split; auto.
    assert (Hg1 : grow S t (cResults c1)) by (eapply grow_frame; eauto; apply T1).
    split; auto. destruct Es as (_ & _ & _ & Es). destruct (cMatchLast c1); auto. right. destruct Es as [_ Es].
    destruct (g_r _ _ _ Hg1 x _ Hx Es) as (u & Hin). destruct (L3 _ _ _ Hin) as (_ & X & _). auto.
  - destruct E as (c2 & -> & T1 & Tc). destruct Es as (Q1 & Q2 & Q3 & Q4 & Q5 & Q6). simpl in Hfr.
    rewrite Hf in Hk. cbn [bind] in Hk.
    set (c3 := setResults c2 (setGeneralizations from t' gs (cResults c2))) in *.
    destruct (sameTR_clearFail t' c3) as (B1 & B2 & B3). set (c4 := clearFail t' c3) in *.
    set (c5 := setResults c4 (setMatch (cResults c4) from (idOf x) t')) in *.
    assert (Hr5 : tres (cResults c5)).
    { unfold c5. simpl. rewrite B2. simpl. apply tres_vacRec; auto. eapply tres_vacGens; [exact Hx|exact Hp|apply incl_refl|]. apply T1. }
    assert (Hfin : rMatch (cResults c1) = rMatch (cResults c5) /\ cMatchLast c1 = true /\ cOffset c1 = t').
    { clear -Hk. unfold unmarkUnless, mapResults in Hk. binv Hk. inversion Hk; subst. simpl.
      destruct (unmark_match _ _ _ _ E) as [M _]. rewrite M. auto. }
    destruct Hfin as (U6 & U5 & U4).
    assert (Hr1 : tres (cResults c1)).
    { eapply (tres_unmark P K input Hids false); [exact Hp|exact I|reflexivity|exact Hk|discriminate|exact Hr5]. }
    split; [split; auto|]. left. exists l, t', ns'. split; auto. split; auto. split; auto.
    assert (Hg2 : grow S t (cResults c2)) by (eapply grow_frame; eauto; apply T1).
    assert (Un : rNoMatch (cResults c1) = rNoMatch (cResults c2)).
    { destruct (unmark_same false _ _ _ _ Hk) as [_ X]. rewrite X. unfold c5. simpl. rewrite B2. simpl.
      rewrite noMatch_setMatch. apply setGens_nomatch. }
    eapply (grow_more S t ns (cResults c2) x l t' ns' gs); eauto.
    + congruence.
    + intros ox Hox. rewrite Hp in Hox. inversion Hox. auto.
    + intros n id ct0 its rg gs0 Hp'. rewrite Hp in Hp'. inversion Hp'; subst. exact Tc.
    + intros o i v. rewrite !stored_setMatch. rewrite (stored_ext _ _ U6). unfold c5. simpl. rewrite B2. simpl. rewrite !stored_setMatch. reflexivity.
    + intros o i. rewrite (noMatchHas_ext _ _ (noMatch_setMatch _ _ _ _)). apply noMatchHas_ext. auto.
Qed.

(** ** the passes over the options *)
Lemma choicePass_app rec id o l1 l2 : forall s c, choicePass rec id o (l1 ++ l2) s c =
  (sc <- choicePass rec id o l1 s c ;; let (s1, c1) := sc in choicePass rec id o l2 s1 c1).
Proof.
  induction l1 as [|x l1 IH]; intros s c; [reflexivity|]. cbn [app choicePass]. destruct (rec x c) as [c1| |]; cbn [bind]; auto.
  match goal with |- context [if ?b then _ else _] => destruct b end; apply IH.
Qed.
Lemma basesIn_more r r' : (forall o i v, stored r o i v -> stored r' o i v) -> basesIn r -> basesIn r'.
Proof. intros H HB b ob t ns H1 H2 H3 H4. apply H. eauto. Qed.

Section PASS.
Variable m : nat.
Notation rec := (parse P kws m).

Lemma recs_pre : forall rs s c s' c', incl rs recs -> ctx c -> empty (cResults c) -> choicePass rec ide from rs s c = Ok (s', c') ->
  ctx c' /\ empty (cResults c') /\ (forall o i v, stored (cResults c) o i v -> stored (cResults c') o i v) /\
  chMatch s' = chMatch s /\ chTo s' = chTo s /\ chFound s' = chFound s.
Proof.
  induction rs as [|x rs IH]; intros s c s' c' Hi Hc Hem Hk; cbn [choicePass] in Hk; [inversion Hk; subst; auto 8|].
  binv Hk. assert (Hx : In x recs) by (apply Hi; left; auto).
  pose proof (post_of P kws input REof _ _ _ _ (proj1 (cx_t _ Hc)) E) as (P1 & P2 & P3 & P4).
  destruct (rec_fails m x c x0 Hx Hc Hem E) as (F1 & F2 & F3). rewrite F1 in Hk. cbn [negb orb andb] in Hk.
  set (s1 := if (chFailOffset s <? cFailOffset x0)%Z then _ else s) in *.
  assert (Hs1 : chTo s1 = chTo s /\ chMatch s1 = chMatch s /\ chFound s1 = chFound s) by (unfold s1; destruct (_ <? _)%Z; auto).
  destruct Hs1 as (E1 & E2 & E3). clearbody s1.
  apply IH in Hk; [|intros y Hy; apply Hi; right; auto|eapply ctx_next; eauto|exact F3].
  destruct Hk as (K1 & K2 & K3 & K4 & K5 & K6). split; auto. split; auto. split; [intros o i v Hv; apply K3; apply (st_stored _ _ P2); auto|].
  split; [congruence|]. split; congruence.
Qed.

Lemma recs_pass : based -> forall rs s c s' c' S t ns, incl rs recs -> chain S t ns -> ctx c -> grow S t (cResults c) ->
  chMatch s = true -> chTo s = t -> choicePass rec ide from rs s c = Ok (s', c') ->
  exists S' t' ns', chain S' t' ns' /\ ctx c' /\ grow S' t' (cResults c') /\ (forall o i v, stored (cResults c) o i v -> stored (cResults c') o i v) /\
    chMatch s' = true /\ chTo s' = t' /\ round G K input lab from rs t ns t' ns' /\
    (chFound s' = true \/ (chFound s' = chFound s /\ t' = t /\ forall x, In x rs -> exists l, Ct x l t NoMatch)).
Proof.
  intros Hba. induction rs as [|x rs IH]; intros s c s' c' S t ns Hi Hch Hc Hg Hm Ht Hk; cbn [choicePass] in Hk.
  { inversion Hk; subst. exists S, (chTo s'), ns. split; auto. split; auto. split; auto. split; auto. split; auto. split; auto. split; [apply rd_end|].
    right. split; auto. split; auto. intros y []. }
  binv Hk. assert (Hx : In x recs) by (apply Hi; left; auto). assert (Hi' : incl rs recs) by (intros y Hy; apply Hi; right; auto).
  destruct (chain_le _ _ _ Hba Hch) as (L1 & L2 & L3).
  pose proof (post_of P kws input REof _ _ _ _ (proj1 (cx_t _ Hc)) E) as (P1 & P2 & P3 & P4).
  destruct (rec_step m x c x0 S t ns Hba Hx Hch Hc Hg E) as (F1 & F2).
  pose proof (ctx_next _ _ Hc F1 P2 P3) as Hc1.
  set (s1 := if (negb (cMatchLast x0) && (chFailOffset s <? cFailOffset x0)%Z)%bool then _ else s) in *.
  assert (Hs1 : chTo s1 = chTo s /\ chMatch s1 = chMatch s /\ chFound s1 = chFound s) by (unfold s1; destruct (_ && _)%bool; auto).
  destruct Hs1 as (E1 & E2 & E3). clearbody s1.
  destruct F2 as [(l & t' & ns' & Hct & Hm1 & Ho1 & Hg1)|(l & Hct & Hor & Hg1)].
  - assert (Hlt : t < t') by (eapply (gw_more _ _ _ _ _ _ _ Hgrow); eauto using chain_grown).
    rewrite Hm1, E2, Hm in Hk. cbn [negb orb andb] in Hk.
    assert (El : (cOffset x0 <=? chTo s1) = false) by (apply Nat.leb_gt; lia). rewrite El in Hk.
    assert (Hc2 : ctx (setResults (setOffset x0 from) (setMatch (cResults (setOffset x0 from)) from ide (cOffset x0)))).
    { apply ctx_setE; auto; [lia|]. simpl. apply (ci_off _ _ _ _ P1). }
    apply (IH _ _ _ _ ((t', x, t) :: S) t' _ Hi' (ch_more S t ns x l t' ns' Hch Hx Hct) Hc2) in Hk; [|simpl; rewrite Ho1; exact Hg1|reflexivity|simpl; auto].
    destruct Hk as (S2 & t2 & ns2 & K1 & K2 & K3 & K4 & K5 & K6 & K6' & K7). exists S2, t2, ns2.
    split; auto. split; auto. split; auto. split.
    { intros o i v Hv. apply K4. simpl. apply stored_setMatch. left. apply (st_stored _ _ P2); auto. }
    split; auto. split; auto. split; [eapply rd_more; eauto|]. left. destruct K7 as [K7|(K7 & _)]; auto.
  - assert (Eb : (negb (cMatchLast x0) || chMatch s1 && (cOffset x0 <=? chTo s1))%bool = true).
    { destruct (cMatchLast x0); [|reflexivity]. destruct Hor as [Hor|Hor]; [discriminate|]. rewrite E2, Hm, E1, Ht. simpl. apply Nat.leb_le. auto. }
    rewrite Eb in Hk.
    apply (IH _ _ _ _ S t ns Hi' Hch Hc1) in Hk; [|exact Hg1|congruence|congruence].
    destruct Hk as (S2 & t2 & ns2 & K1 & K2 & K3 & K4 & K5 & K6 & K6' & K7). exists S2, t2, ns2.
    split; auto. split; auto. split; auto. split.
    { intros o i v Hv. apply K4. simpl. apply (st_stored _ _ P2); auto. }
    split; auto. split; auto. split; [eapply rd_skip; eauto|]. destruct K7 as [K7|(K7 & K8 & K9)]; auto. right. split; [congruence|]. split; auto.
    intros y [<-|Hy]; eauto.
Qed.

Lemma bases_pass N rb : evalOptions (ev N) bases from NoMatch = rb -> rb <> Unfinished ->
  forall bs s c s' c', incl bs bases -> ctx c -> choicePass rec ide from bs s c = Ok (s', c') ->
  ctx c' /\
  (forall v, stored (cResults c') from ide v -> stored (cResults c) from ide v \/ exists t ns, rb = Match t ns /\ v <= t) /\
  (forall x v, In x recs -> stored (cResults c') from (idOf x) v -> stored (cResults c) from (idOf x) v) /\
  (forall o i v, stored (cResults c) o i v -> stored (cResults c') o i v) /\
  (noMatchHas (cResults c) from ide = false -> noMatchHas (cResults c') from ide = false) /\
  ((chMatch s' = chMatch s /\ chTo s' = chTo s /\ chFound s' = chFound s) \/
   (chFound s' = true /\ chMatch s' = true /\ (chMatch s = true -> chTo s < chTo s') /\ stored (cResults c') from ide (chTo s') /\
    exists b ns, In b bs /\ ev N b from = Match (chTo s') ns)) /\
  (forall b t ns, In b bs -> ev N b from = Match t ns -> chMatch s' = true /\ t <= chTo s' /\
     forall ob, nth_error P b = Some ob -> nonChar ob -> stored (cResults c') from (nodeID ob) t).
Proof.
  intros Hrb Hru.
  assert (HBg : Bg rb) by (split; auto; exists N; auto).
  destruct (evalOptions_spec (ev N) from bases NoMatch) as [Hdef Hsp]; [discriminate|congruence|]. rewrite Hrb in Hsp.
  induction bs as [|b bs IH]; intros s c s' c' Hi Hc Hk; cbn [choicePass] in Hk.
  { inversion Hk; subst. split; auto. split; auto. split; auto. split; auto. split; auto. split; auto. intros b t ns []. }
  binv Hk. assert (Hb : In b bases) by (apply Hi; left; auto). assert (Hi' : incl bs bases) by (intros y Hy; apply Hi; right; auto).
  pose proof (post_of P kws input REof _ _ _ _ (proj1 (cx_t _ Hc)) E) as (P1 & P2 & P3 & P4).
  assert (Hev : ev N b (cOffset c) <> Unfinished) by (rewrite (cx_o _ Hc); auto).
  destruct (parse_ref P kws K input Hids Hgens HK1 HK2 Hnk Hvalid N m b c x (cx_t _ Hc) (cx_l _ Hc) (cx_p _ Hc N) Hev E) as [T1 T2].
  pose proof (parse_frame P kws input Dt Dt_items Dt_options Dt_kws m b c x (Hbases b Hb) (proj1 (cx_t _ Hc)) E) as F.
  rewrite (cx_o _ Hc) in T2, F, P4.
  pose proof (ctx_next _ _ Hc T1 P2 P3) as Hc1.
  set (s1 := if (negb (cMatchLast x) && (chFailOffset s <? cFailOffset x)%Z)%bool then _ else s) in *.
  assert (Hs1 : chTo s1 = chTo s /\ chMatch s1 = chMatch s /\ chFound s1 = chFound s) by (unfold s1; destruct (_ && _)%bool; auto).
  destruct Hs1 as (E1 & E2 & E3). clearbody s1.
  pose proof (base_below _ _ _ rb HBg (proj2 T1) F) as Hbl.
  assert (Hskip : forall t1 ns1, (ev N b from = NoMatch \/ (ev N b from = Match t1 ns1 /\ chMatch s = true /\ t1 <= chTo s /\
      forall ob, nth_error P b = Some ob -> nonChar ob -> stored (cResults x) from (nodeID ob) t1)) ->
    choicePass rec ide from bs s1 (setOffset x from) = Ok (s', c') ->
    ctx c' /\
    (forall v, stored (cResults c') from ide v -> stored (cResults c) from ide v \/ exists t ns, rb = Match t ns /\ v <= t) /\
    (forall x v, In x recs -> stored (cResults c') from (idOf x) v -> stored (cResults c) from (idOf x) v) /\
    (forall o i v, stored (cResults c) o i v -> stored (cResults c') o i v) /\
    (noMatchHas (cResults c) from ide = false -> noMatchHas (cResults c') from ide = false) /\
    ((chMatch s' = chMatch s /\ chTo s' = chTo s /\ chFound s' = chFound s) \/
     (chFound s' = true /\ chMatch s' = true /\ (chMatch s = true -> chTo s < chTo s') /\ stored (cResults c') from ide (chTo s') /\
      exists b0 ns, In b0 (b :: bs) /\ ev N b0 from = Match (chTo s') ns)) /\
    (forall b0 t ns, In b0 (b :: bs) -> ev N b0 from = Match t ns -> chMatch s' = true /\ t <= chTo s' /\
       forall ob, nth_error P b0 = Some ob -> nonChar ob -> stored (cResults c') from (nodeID ob) t)).
  { intros t1 ns1 Hcase Hk'. apply IH in Hk'; auto. destruct Hk' as (K1 & K2 & K3 & K4 & K5 & K6 & K7). simpl in K2, K3, K4, K5.
    split; auto. split.
    { intros v Hv. destruct (K2 v Hv) as [Hv'|]; auto. }
    split.
    { intros y v Hy Hv. eapply frame_rec; [exact Hy|exact F|]. eauto. }
    split; [intros o i v Hv; apply K4; apply (fr_more _ _ _ _ _ F); auto|].
    split; [intros Hn; apply K5; eapply frame_none; eauto|].
    rewrite E1, E2, E3 in K6. split.
    { destruct K6 as [K6|(K6a & K6b & K6c & K6d & b0 & nb & K6e & K6f)]; auto. right. split; auto. split; auto. split; auto. split; auto. exists b0, nb. split; auto. right; auto. }
    intros b0 t nb [<-|Hb0] Heb; [|eauto].
    destruct Hcase as [Hcase|(H1 & H2 & H3 & H4)]; [congruence|]. rewrite H1 in Heb. inversion Heb; subst t1 ns1.
    assert (X : chMatch s' = true /\ chTo s <= chTo s').
    { destruct K6 as [(K6a & K6b & _)|(_ & K6b & K6c & _)]; [split; [congruence|lia]|]. specialize (K6c H2). split; auto. lia. }
    split; [apply X|]. split; [lia|]. intros ob Hob Hn. apply K4. simpl. auto. }
  destruct (ev N b from) as [| |t1 ns1] eqn:Ex; [exfalso; apply (Hdef b Hb); auto| |]; cbn [agrees] in T2.
  - rewrite T2 in Hk. cbn [negb orb] in Hk. eapply (Hskip 0 []); eauto.
  - destruct T2 as (T2 & T3 & T4). rewrite (cx_o _ Hc) in T4. rewrite T2, T3, E1, E2 in Hk. cbn [negb orb] in Hk.
    destruct (chMatch s && (t1 <=? chTo s))%bool eqn:Eb.
    + apply andb_true_iff in Eb. destruct Eb as [Eb1 Eb2]. apply Nat.leb_le in Eb2. eapply (Hskip t1 ns1); eauto.
    + clear Hskip. rewrite T2 in P4. destruct P4 as [P4 _]. rewrite T3 in P4.
      assert (Hc2 : ctx (setResults (setOffset x from) (setMatch (cResults (setOffset x from)) from ide t1))).
      { apply ctx_setE; auto. simpl. rewrite <- T3. apply (ci_off _ _ _ _ P1). }
      assert (Hle : exists t ns, rb = Match t ns /\ t1 <= t).
      { destruct rb as [| |tr nr]; [contradiction|destruct Hsp as [_ Hsp]; rewrite (Hsp b Hb) in Ex; discriminate|].
        destruct Hsp as (_ & Hsp & _). exists tr, nr. split; auto. eapply Hsp; eauto. }
      apply IH in Hk; auto. destruct Hk as (K1 & K2 & K3 & K4 & K5 & K6 & K7). simpl in K2, K3, K4, K5, K6.
      assert (Hup : forall o i v, stored (cResults x) o i v -> stored (cResults c') o i v) by (intros o i v Hv; apply K4; apply stored_setMatch; auto).
      split; auto. split.
      { intros v Hv. destruct (K2 v Hv) as [Hv'|]; auto. apply stored_setMatch in Hv'. destruct Hv' as [Hv'|(_ & _ & ->)]; auto. }
      split.
      { intros y v Hy Hv. eapply frame_rec; [exact Hy|exact F|]. apply (K3 _ _ Hy) in Hv. apply stored_setMatch in Hv.
        destruct Hv as [Hv|(_ & Hid & _)]; auto. destruct (id_e_rec y Hy Hid). }
      split; [intros o i v Hv; apply Hup; apply (fr_more _ _ _ _ _ F); auto|].
      split; [intros Hn; apply K5; rewrite (noMatchHas_ext _ _ (noMatch_setMatch _ _ _ _)); eapply frame_none; eauto|].
      assert (Hnew : chMatch s = true -> chTo s < t1).
      { intros Hms. rewrite Hms in Eb. simpl in Eb. apply Nat.leb_gt in Eb. auto. }
      split.
      { right. destruct K6 as [(K6a & K6b & K6c)|(K6a & K6b & K6c & K6d & b0 & nb & K6e & K6f)].
        - split; auto. split; auto. rewrite K6b. split; auto. split; [apply K4; apply stored_setMatch; auto|]. exists b, ns1. split; auto. left; auto.
        - split; auto. split; auto. specialize (K6c eq_refl). split; [intros Hms; specialize (Hnew Hms); lia|]. split; auto. exists b0, nb. split; auto. right; auto. }
      intros b0 t nb [<-|Hb0] Heb; [|eauto]. assert (Ht1 : t1 = t) by congruence.
      assert (X : chMatch s' = true /\ t <= chTo s').
      { destruct K6 as [(K6a & K6b & _)|(_ & K6b & K6c & _)]; [split; [auto|lia]|]. specialize (K6c eq_refl). split; auto. lia. }
      split; [apply X|]. split; [apply X|]. intros ob Hob Hn. apply Hup. rewrite <- Ht1. auto.
Qed.

(** a pass over the bases does not disturb the chain *)
Lemma grow_bases N nb S t ns s c s' c' : evalOptions (ev N) bases from NoMatch = Match T0 nb -> chain S t ns -> ctx c -> grow S t (cResults c) ->
  chMatch s = true -> chTo s = t -> choicePass rec ide from bases s c = Ok (s', c') ->
  ctx c' /\ grow S t (cResults c') /\ basesIn (cResults c') /\ chMatch s' = true /\ chTo s' = t /\ chFound s' = chFound s.
Proof.
  intros HN Hch Hc Hg Hm Ht Hk.
  assert (Hba : based) by (exists nb; split; [discriminate|exists N; auto]).
  destruct (chain_le _ _ _ Hba Hch) as (L1 & L2 & L3).
  destruct (evalOptions_spec (ev N) from bases NoMatch) as [Hdef Hsp]; [discriminate|congruence|]. rewrite HN in Hsp. destruct Hsp as (_ & Hsp & _).
  destruct (bases_pass N (Match T0 nb) HN ltac:(discriminate) bases s c s' c' (incl_refl _) Hc Hk) as (K1 & K2 & K3 & K4 & K5 & K6 & K7).
  split; auto. split.
  { destruct Hg as [A1 A2 A3 A4 A5 A6 A7]. split; auto.
    - intros v Hv. destruct (K2 v Hv) as [Hv'|(t1 & ns1 & E & Hle)]; auto. inversion E; subst. auto.
    - intros v x u Hin. destruct (A4 _ _ _ Hin) as (B1 & B2 & B3). auto.
    - intros. apply K4. eapply A6; eauto. }
  split.
  { intros b ob t1 ns1 Hb Hob Hn Hev.
    assert (Heb : ev N b from = Match t1 ns1) by (eapply Ev_fun; [apply Ev_at; auto|exact Hev]).
    destruct (K7 _ _ _ Hb Heb) as (_ & _ & X). auto. }
  destruct K6 as [(K6a & K6b & K6c)|(K6a & K6b & K6c & K6d & b0 & nb0 & K6e & K6f)]; [split; [congruence|]; split; [congruence|auto]|].
  exfalso. specialize (K6c Hm). pose proof (Hsp _ _ _ K6e K6f). lia.
Qed.
(** the first pass over the bases *)
Lemma first_bases N rb s c s' c' : evalOptions (ev N) bases from NoMatch = rb -> rb <> Unfinished -> ctx c -> empty (cResults c) ->
  chMatch s = false -> choicePass rec ide from bases s c = Ok (s', c') ->
  ctx c' /\
  match rb with
  | Match t nb => t = T0 -> grow [] T0 (cResults c') /\ basesIn (cResults c') /\ chMatch s' = true /\ chTo s' = T0 /\ chFound s' = true
  | _ => empty (cResults c') /\ chMatch s' = false /\ chFound s' = chFound s
  end.
Proof.
  intros HN Hru Hc Hem Hm Hk.
  destruct (evalOptions_spec (ev N) from bases NoMatch) as [Hdef Hsp]; [discriminate|congruence|]. rewrite HN in Hsp.
  destruct (bases_pass N rb HN Hru bases s c s' c' (incl_refl _) Hc Hk) as (K1 & K2 & K3 & K4 & K5 & K6 & K7).
  split; auto. destruct rb as [| |t nb]; [contradiction| |].
  - destruct Hsp as [_ Hsp]. destruct Hem as [A1 A2 A3]. split.
    { split; auto.
      - intros v Hv. destruct (K2 v Hv) as [Hv'|(t1 & ns1 & E & Hle)]; [eapply A1; eauto|discriminate].
      - intros x v Hx Hv. eapply A2; eauto. }
    destruct K6 as [(K6a & K6b & K6c)|(K6a & K6b & K6c & K6d & b0 & nb0 & K6e & K6f)]; [split; congruence|].
    rewrite (Hsp _ K6e) in K6f. discriminate.
  - intros ->. destruct Hsp as (_ & Hsp & [Hx|(b & Hb & Heb)]); [discriminate|].
    destruct (K7 _ _ _ Hb Heb) as (X1 & X2 & _).
    destruct K6 as [(K6a & _)|(K6a & K6b & K6c & K6d & b0 & nb0 & K6e & K6f)]; [congruence|].
    assert (Ht : chTo s' = T0) by (pose proof (Hsp _ _ _ K6e K6f); lia). rewrite Ht in *.
    destruct Hem as [A1 A2 A3]. split.
    { split; auto.
      - intros v Hv. destruct (K2 v Hv) as [Hv'|(t1 & ns1 & E & Hle)]; [destruct (A1 _ Hv')|]. inversion E; subst. auto.
      - intros v x u [].
      - intros x v Hx Hv. destruct (A2 x v Hx). auto.
      - intros v x u n id ct items ranges gs []. }
    split; auto. intros b1 ob t1 ns1 Hb1 Hob Hn Hev.
    assert (Heb1 : ev N b1 from = Match t1 ns1) by (eapply Ev_fun; [apply Ev_at; auto|exact Hev]).
    destruct (K7 _ _ _ Hb1 Heb1) as (_ & _ & X). auto.
Qed.

Notation noMore := (noMore G K input recs).
Notation rounds := (rounds G K input lab recs from).
Lemma loop_grow N nb : evalOptions (ev N) bases from NoMatch = Match T0 nb -> forall k s c s' c' S t ns, chain S t ns -> ctx c -> grow S t (cResults c) ->
  chMatch s = true -> chTo s = t -> choiceLoop rec k ide from opts s c = Ok (s', c') ->
  exists S' t' ns', chain S' t' ns' /\ ctx c' /\ grow S' t' (cResults c') /\ basesIn (cResults c') /\ chMatch s' = true /\ chTo s' = t' /\ rounds t ns t' ns'.
Proof.
  intros HN. assert (Hba : based) by (exists nb; split; [discriminate|exists N; auto]).
  induction k as [|k IH]; intros s c s' c' S t ns Hch Hc Hg Hm Ht Hk; [discriminate|]. cbn [choiceLoop] in Hk. binv Hk. destruct x as [s1 c1].
  set (s0 := mkChState (chMatch s) false (chTo s) (chFailOffset s) (chFailing s)) in *.
  assert (Hpass : exists S' t' ns', chain S' t' ns' /\ ctx c1 /\ grow S' t' (cResults c1) /\ basesIn (cResults c1) /\ chMatch s1 = true /\ chTo s1 = t' /\ round G K input lab from recs t ns t' ns' /\
            (chFound s1 = true \/ (chFound s1 = false /\ noMore t'))).
  { assert (Eo : exists l1 l2, opts = l1 ++ l2 /\ ((l1 = recs /\ l2 = bases) \/ (l1 = bases /\ l2 = recs))).
    { destruct Hopts as [Ho|Ho]; [exists recs, bases|exists bases, recs]; auto. }
    destruct Eo as (l1 & l2 & Eo & Hl). rewrite Eo, choicePass_app in E. binv E. destruct x as [s2 c2].
    destruct Hl as [[-> ->]|[-> ->]].
    - destruct (recs_pass Hba recs s0 c s2 c2 S t ns (incl_refl _) Hch Hc Hg Hm Ht E0) as (S' & t' & ns' & R1 & R2 & R3 & R4 & R5 & R6 & R6' & R7).
      destruct (grow_bases N nb S' t' ns' s2 c2 s1 c1 HN R1 R2 R3 R5 R6 E) as (Q1 & Q2 & Q3 & Q4 & Q5 & Q6).
      exists S', t', ns'. split; auto. split; auto. split; auto. split; auto. split; auto. split; auto. split; auto. rewrite Q6.
      destruct R7 as [R7|(R7 & -> & R8)]; auto.
    - destruct (grow_bases N nb S t ns s0 c s2 c2 HN Hch Hc Hg Hm Ht E0) as (Q1 & Q2 & Q3 & Q4 & Q5 & Q6).
      destruct (recs_pass Hba recs s2 c2 s1 c1 S t ns (incl_refl _) Hch Q1 Q2 Q4 Q5 E) as (S' & t' & ns' & R1 & R2 & R3 & R4 & R5 & R6 & R6' & R7).
      exists S', t', ns'. split; auto. split; auto. split; auto. split; [eapply basesIn_more; eauto|]. split; auto. split; auto. split; auto.
      destruct R7 as [R7|(R7 & -> & R8)]; auto. right. split; auto. rewrite R7, Q6. reflexivity. }
  destruct Hpass as (S' & t' & ns' & R1 & R2 & R3 & R4 & R5 & R6 & R6' & R7).
  destruct R7 as [R7|[R7 R8]]; rewrite R7 in Hk.
  - destruct (IH _ _ _ _ _ _ _ R1 R2 R3 R5 R6 Hk) as (S2 & t2 & ns2 & L1 & L2 & L3 & L4 & L5 & L6 & L7). exists S2, t2, ns2.
    split; auto. split; auto. split; auto. split; auto. split; auto. split; auto. eapply rs_next; eauto.
  - inversion Hk; subst. exists S', (chTo s'), ns'. repeat (split; auto). eapply rs_next; [exact R6'|]. apply rs_last. auto.
Qed.
Lemma loop_first N rb k s c s' c' : evalOptions (ev N) bases from NoMatch = rb -> rb <> Unfinished -> ctx c -> empty (cResults c) ->
  chMatch s = false -> choiceLoop rec k ide from opts s c = Ok (s', c') ->
  match rb with
  | Match t nb => t = T0 -> exists S' t' ns', chain S' t' ns' /\ ctx c' /\ grow S' t' (cResults c') /\ basesIn (cResults c') /\ chMatch s' = true /\ chTo s' = t' /\ rounds T0 (named lab from T0 nb) t' ns'
  | _ => chMatch s' = false /\ empty (cResults c')
  end.
Proof.
  intros HN Hru Hc Hem Hm Hk. destruct k as [|k]; [discriminate|]. cbn [choiceLoop] in Hk. binv Hk. destruct x as [s1 c1].
  set (s0 := mkChState (chMatch s) false (chTo s) (chFailOffset s) (chFailing s)) in *.
  assert (Eo : exists l1 l2, opts = l1 ++ l2 /\ ((l1 = recs /\ l2 = bases) \/ (l1 = bases /\ l2 = recs))).
  { destruct Hopts as [Ho|Ho]; [exists recs, bases|exists bases, recs]; auto. }
  destruct Eo as (l1 & l2 & Eo & Hl). rewrite Eo, choicePass_app in E. binv E. destruct x as [s2 c2].
  destruct Hl as [[-> ->]|[-> ->]].
  - destruct (recs_pre recs s0 c s2 c2 (incl_refl _) Hc Hem E0) as (R1 & R2 & R3 & R4 & R5 & R6).
    destruct (first_bases N rb s2 c2 s1 c1 HN Hru R1 R2 ltac:(rewrite R4; exact Hm) E) as [Q1 Q2].
    destruct rb as [| |t nb]; [contradiction| |].
    + destruct Q2 as (Q2 & Q3 & Q4). rewrite Q4, R6 in Hk. simpl in Hk. inversion Hk; subst. auto.
    + intros ->. destruct (Q2 eq_refl) as (Q3 & Q4 & Q5 & Q6 & Q7). rewrite Q7 in Hk.
      eapply (loop_grow N nb HN k s1 c1 s' c' []); eauto. apply ch_base with (ns := nb). split; [discriminate|exists N; auto].
  - destruct (first_bases N rb s0 c s2 c2 HN Hru Hc Hem Hm E0) as [Q1 Q2].
    destruct rb as [| |t nb]; [contradiction| |].
    + destruct Q2 as (Q2 & Q3 & Q4). destruct (recs_pre recs s2 c2 s1 c1 (incl_refl _) Q1 Q2 E) as (R1 & R2 & R3 & R4 & R5 & R6).
      rewrite R6, Q4 in Hk. simpl in Hk. inversion Hk; subst. split; [congruence|auto].
    + intros ->. destruct (Q2 eq_refl) as (Q3 & Q4 & Q5 & Q6 & Q7).
      assert (Hb : Bg (Match T0 nb)) by (split; [discriminate|exists N; auto]).
      destruct (recs_pass ltac:(exists nb; exact Hb) recs s2 c2 s1 c1 [] T0 _ (incl_refl _) (ch_base _ _ Hb) Q1 Q3 Q5 Q6 E) as (S' & t' & ns' & R1 & R2 & R3 & R4 & R5 & R6 & R6' & R7).
      assert (Hf : chFound s1 = true) by (destruct R7 as [R7|(R7 & _)]; congruence). rewrite Hf in Hk.
      destruct (loop_grow N nb HN k s1 c1 s' c' S' t' ns' R1 R2 R3 R5 R6 Hk) as (S2 & t2 & ns2 & L1 & L2 & L3 & L4 & L5 & L6 & L7). exists S2, t2, ns2.
      split; auto. split; auto. split; auto. split; auto. split; auto. split; auto. eapply rs_next; eauto.
Qed.
End PASS.

(** ** the call on the choice *)
Theorem left_parse m c c' rb : Bg rb -> tinv c -> cOffsetLimit c = None -> (forall n, pend P K input n c) -> cOffset c = from ->
  pcount (cResults c) from ide = 0 -> (forall x, In x recs -> pcount (cResults c) from (idOf x) = 0) -> empty (cResults c) ->
  parse P kws m e c = Ok c' ->
  match rb with
  | Match t nb => t = T0 -> tinv c' /\ samePending c c' /\ cMatchLast c' = true /\
      exists S t' ns', chain S t' ns' /\ rounds G K input lab recs from T0 (named lab from T0 nb) t' ns' /\ cOffset c' = t' /\ grow S t' (cResults c') /\ basesIn (cResults c')
  | _ => cMatchLast c' = false /\ forall v, ~ stored (cResults c') from ide v
  end.
Proof.
  intros [Hru (N & HN)] Ht Hl Hpd Ho Hpe Hpr Hem Hk.
  pose proof (post_of P kws input REof _ _ _ _ (proj1 Ht) Hk) as (P1 & P2 & P3 & P4).
  destruct m as [|m]; [discriminate|]. cbn [parse] in Hk. rewrite He in Hk. unfold choiceParse in Hk.
  assert (Ef : fromResults c ide = None).
  { unfold fromResults, longestResult. rewrite Ho, (em_none _ Hem). assert (L : longestMatch (cResults c) from ide = None) by (apply longestMatch_none; apply Hem). rewrite L. auto. }
  rewrite Ef, Ho in Hk. assert (Ep : pending (cResults c) from ide = false) by (apply pending_false; auto). rewrite Ep in Hk.
  set (c0 := setResults c (markPending (cResults c) from ide)) in *.
  destruct (mark_match (cResults c) from ide) as [M1 M2].
  assert (Hc0 : ctx c0).
  { split; auto.
    - split; [apply cinv_mark; apply Ht|]. simpl. eapply tres_ext; [| | |exact (proj2 Ht)].
      + apply stored_ext. auto.
      + intros. rewrite (noMatchHas_ext _ _ M2). auto.
      + intros a nm' i cm ops g o Ha. rewrite pcount_mark. intros. lia.
    - intros n. pose proof (pend_mark P K input Hids n c e _ He I) as Q. rewrite Ho in Q. apply Q; [exact (never_e n from)|auto].
    - simpl. rewrite pcount_mark, !Nat.eqb_refl. simpl. lia.
    - intros x Hx. simpl. rewrite pcount_mark, (Hpr x Hx). destruct (Nat.eqb_spec ide (idOf x)) as [E|E]; auto. destruct (id_e_rec x Hx); auto. }
  assert (Hem0 : empty (cResults c0)) by (eapply empty_ext; [| |exact Hem]; simpl; [intros o i v; apply (stored_ext _ _ M1)|intros; apply noMatchHas_ext; auto]).
  change (cOffset c0) with (cOffset c) in Hk. rewrite Ho in Hk.
  binv Hk. destruct x as [s c1].
  pose proof (fun H => loop_first m N rb m _ c0 s c1 HN Hru Hc0 Hem0 H E) as L. specialize (L eq_refl).
  destruct rb as [| |t nb]; [contradiction| |].
  - destruct L as [L1 L2]. rewrite L1 in Hk. split; [clear -Hk; unfold mapResults in Hk; binv Hk; inversion Hk; subst; auto|].
    destruct (unmark_same false _ _ _ _ Hk) as [U1 _]. intros v Hv. apply (stored_ext _ _ U1) in Hv. simpl in Hv. apply stored_setNoMatch in Hv.
    assert (Hv' : stored (cResults c1) from ide v) by (clear -Hv; destruct (_ <? _)%Z; [rewrite blame_same in Hv|]; exact Hv).
    exact (em_e _ L2 _ Hv').
  - intros ->. destruct (L eq_refl) as (S & t' & ns' & Q1 & Q2 & Q3 & Q4 & Q5 & Q6 & Q7). rewrite Q5, (Hnk _ _ _ _ _ _ He) in Hk. cbn [bind] in Hk.
    set (c3 := if Z.ltb _ _ then setFail c1 (chFailOffset s) _ else _) in *.
    assert (B2 : cResults c3 = cResults c1).
    { unfold c3. destruct (_ <? _)%Z; [|destruct (_ <? _)%Z]; auto. }
    assert (Hk' : unmarkUnless false from ide (success c3 (chTo s)) = Ok c') by exact Hk.
    assert (Hfin : cMatchLast c' = true /\ cOffset c' = chTo s).
    { clear -Hk'. unfold unmarkUnless, mapResults in Hk'. binv Hk'. inversion Hk'; subst. auto. }
    destruct Hfin as (Hf2 & Hf3). destruct (unmark_same _ _ _ _ _ Hk') as [U1 U2]. simpl in U1, U2. rewrite B2 in U1, U2.
    assert (Hst : forall o i v, stored (cResults c') o i v <-> stored (cResults c1) o i v) by (apply stored_ext; auto).
    split; [split; auto|].
    { eapply (tres_unmark P K input Hids false); [exact He|exact I|reflexivity|exact Hk'| |simpl; rewrite B2; apply (cx_t _ Q2)].
      intros nm' cm ops gs' Hob t1 Hs1. assert (ops = opts) by congruence. subst ops. simpl. rewrite B2. split.
      - intros t2 ns2 He'. destruct (noEv_e _ _ He').
      - intros z oz t2 ns2 Hz Hoz Hnz Hez. apply in_opts in Hz. destruct Hz as [Hz|Hz]; [destruct (noEv_rec z _ _ Hz Hez)|]. eapply Q4; eauto. }
    split; auto. split; auto. exists S, t', ns'. split; auto. split; auto. split; [congruence|]. split.
    + eapply grow_ext; [exact Hst| |exact Q3]. intros. apply noMatchHas_ext. auto.
    + eapply basesIn_more; [|exact Q4]. intros o i v. apply Hst.
Qed.

(** ** building the tree of the chain *)
Hypothesis Hac : allCharsOk P.
Hypothesis Hitems : forall a name id commit items ranges gs, nth_error P a = Some (PSeq name id commit items ranges gs false) ->
  forall x : addr, In x items -> exists ox, nth_error P x = Some ox /\ nonChar ox.
Hypothesis Hoptions : forall a name id commit options gs, nth_error P a = Some (PChoice name id commit options gs) ->
  forall x : addr, In x options -> exists ox, nth_error P x = Some ox /\ nonChar ox.
Variable R0 : results.
Hypothesis HR0 : tres R0.
Hypothesis Hp0 : forall o i, pcount R0 o i = 0.
Notation ready := (ready P K input R0).

Lemma enter_never b ob t c : nth_error P b = Some ob -> nonChar ob -> neverAt b -> (forall n, ready n c) -> once (cResults c) ->
  stored (cResults c) (cOffset c) (nodeID ob) t -> cOffset c < t ->
  exists c', enterBuild c (nodeID ob) (gensOf ob) t = Ok (Some c') /\ (forall n, ready n c') /\ once (cResults c') /\ cOffset c' = cOffset c /\ cTokens c' = cTokens c /\
    (forall o i t', cOffset c < o \/ t = cOffset c -> stored (cResults c') o i t' <-> stored (cResults c) o i t') /\
    (forall o i, pcount (cResults c') o i = pcount (cResults c) o i + (if cOffset c <? t then 0 else occ (cOffset c) (nodeID ob :: gensOf ob) o i)) /\
    List.length (rMatch (cResults c')) = List.length (rMatch (cResults c)) /\
    (forall o i v, stored (cResults c') o i v <-> stored (cResults c) o i v /\ ~ (o = cOffset c /\ In i (nodeID ob :: gensOf ob) /\ v = t)).
Proof.
  intros Hb Hn Hnv Hr Ho Hs Hlt.
  assert (Hlost : forall x ox n, nth_error P x = Some ox -> nonChar ox -> In (nodeID ox) (nodeID ob :: gensOf ob) -> ev n x (cOffset c) = Unfinished).
  { intros x ox n Hx Hnx [Hi|Hi].
    - assert (x = b) by (eapply Hids; eauto). subst x. auto.
    - apply (gen_unf P K input x b); [exact (Hgens b ob x ox Hb Hx Hnx Hi)|apply Hnv]. }
  assert (Hex : exists c', enterBuild c (nodeID ob) (gensOf ob) t = Ok (Some c')).
  { unfold enterBuild. assert (Elt : cOffset c <? t = true) by (apply Nat.ltb_lt; auto). rewrite Elt.
    destruct (forDrop_ok (nodeID ob :: gensOf ob) (cOffset c) t (cResults c)) as [r' Er]; [eapply stored_length; eauto|].
    rewrite Er. cbn [bind]. eauto. }
  destruct Hex as (c' & Ec'). exists c'. split; auto.
  destruct (enterBuild_spec _ _ _ _ _ Ec') as (S1 & S2 & S3 & S4 & _).
  destruct (once_enter _ _ _ _ _ Ec' Hlt Ho) as [O1 O2].
  assert (Hrows : forall o i t', cOffset c < o \/ t = cOffset c -> stored (cResults c') o i t' <-> stored (cResults c) o i t').
  { intros o i t' Hoo. rewrite O2. split; [tauto|]. intros Hst. split; auto. intros (-> & _). lia. }
  split; [|split; auto; split; auto; split; auto; split; auto; split; auto; split; [apply (sh_len _ _ S3)|auto]].
  intros n. destruct (Hr n) as [A B C D]. split.
  - intros o i t' Hoo. rewrite S1 in Hoo. rewrite Hrows by auto. apply A; auto.
  - intros x ox t' Hx Hnx Hdx. rewrite S1 in *. rewrite <- (B x ox t') by auto. rewrite O2. split; [tauto|].
    intros Hst. split; auto. intros (_ & Hi & _). apply Hdx. eapply Hlost; eauto.
  - intros x ox o Hx Hnx Hp. rewrite S4 in Hp. assert (Elt : cOffset c <? t = true) by (apply Nat.ltb_lt; auto). rewrite Elt in Hp.
    apply (C x ox); auto. lia.
  - rewrite (sh_len _ _ S3). auto.
Qed.
Lemma pick_first r t l1 x ox l2 : (forall y, In y (l1 ++ x :: l2) -> exists oy, nth_error P y = Some oy) ->
  (forall y oy, In y l1 -> nth_error P y = Some oy -> ~ stored r from (nodeID oy) t) ->
  nth_error P x = Some ox -> stored r from (nodeID ox) t -> pickOption P r from t (l1 ++ x :: l2) = Ok (Some x).
Proof.
  intros Hall Hno Hx Hs. induction l1 as [|y l1 IH]; cbn [app pickOption].
  - rewrite Hx. apply hasMatchTo_stored in Hs. rewrite Hs. auto.
  - destruct (Hall y (or_introl eq_refl)) as (oy & Hy). rewrite Hy. destruct (hasMatchTo r from (nodeID oy) t) eqn:E.
    + apply hasMatchTo_stored in E. exfalso. exact (Hno y oy (or_introl eq_refl) Hy E).
    + apply IH; [intros z Hz; apply Hall; right; auto|intros z oz Hz; apply Hno; right; auto].
Qed.
Lemma first_split (x : addr) l : In x l -> exists l1 l2, l = l1 ++ x :: l2 /\ ~ In x l1.
Proof.
  induction l as [|y l IH]; [contradiction|]. intros H. destruct (Nat.eq_dec y x) as [->|Hne].
  - exists [], l. auto.
  - destruct H as [|H]; [congruence|]. destruct (IH H) as (l1 & l2 & -> & Hn). exists (y :: l1), l2. split; auto. intros [|]; auto.
Qed.

(** the matches of the choice and of the extensions that are left *)
Definition upTo (t : nat) (c : context) : Prop :=
  (forall v, stored (cResults c) from ide v <-> stored R0 from ide v /\ v <= t) /\
  (forall x v, In x recs -> stored (cResults c) from (idOf x) v <-> stored R0 from (idOf x) v /\ v <= t).

Variables (S0 : list (nat * addr * nat)) (top : nat) (ns0 : list node).
Hypothesis Hbased : based.
Hypothesis Hch0 : chain S0 top ns0.
Hypothesis Hg0 : grow S0 top R0.
Hypothesis Hb0 : basesIn R0.

Lemma chain_one S t ns : chain S t ns -> forall v x u x' u', In (v, x, u) S -> In (v, x', u') S -> x = x' /\ u = u'.
Proof.
  induction 1 as [|S t ns x l t' ns' H IH Hx Hc]; intros v y u y' u'; [intros []|].
  destruct (chain_le _ _ _ Hbased H) as (_ & _ & Hle).
  assert (Hlt : t < t') by (eapply (gw_more _ _ _ _ _ _ _ Hgrow); eauto using chain_grown).
  intros [E|E] [E'|E'].
  - inversion E; inversion E'; subst; auto.
  - inversion E; subst. destruct (Hle _ _ _ E') as (_ & ? & _). lia.
  - inversion E'; subst. destruct (Hle _ _ _ E) as (_ & ? & _). lia.
  - eauto.
Qed.
Lemma upTo_top c : cResults c = R0 -> upTo top c.
Proof.
  intros E. split.
  - intros v. rewrite E. split; [|tauto]. intros Hv. split; auto. eapply grow_max; eauto.
  - intros x v Hx. rewrite E. split; [|tauto]. intros Hv. split; auto. destruct (g_r _ _ _ Hg0 x v Hx Hv) as (u & Hin).
    destruct (chain_le _ _ _ Hbased Hch0) as (_ & _ & Hle). destruct (Hle _ _ _ Hin) as (_ & ? & _). auto.
Qed.
Lemma base_max b ob n v : evalOptions (ev n) bases from NoMatch <> Unfinished -> In b bases -> nth_error P b = Some ob -> stored R0 from (nodeID ob) v ->
  exists tb nsb, ev n b from = Match tb nsb /\ v <= tb.
Proof.
  intros Hu Hb Hob Hs. destruct (evalOptions_spec (ev n) from bases NoMatch) as [Hdef _]; [discriminate|auto|].
  assert (Hn : nonChar ob). { destruct (Hoptions _ _ _ _ _ _ He b) as (ob' & E & Hn); [apply in_opts; auto|]. congruence. }
  destruct (ti_2 _ _ _ _ HR0 b ob from v _ Hob Hn Hs (Ev_at P K input n b from (Hdef b Hb))) as (tb & nsb & E & Hle & _).
  eauto.
Qed.

Theorem left_build S t ns : chain S t ns -> (exists pre, S0 = pre ++ S /\ forall v x u, In (v, x, u) pre -> t < v) ->
  exists M, forall m c, M <= m -> (forall n, ready n c) -> once (cResults c) -> cOffset c = from -> upTo t c ->
  exists c', build P m e c = Ok (ns, true, c') /\ built t c c'.
Proof.
  induction 1 as [t nb Hbg|S t ns x l t' ns' H IH Hx Hct]; intros (pre & Epre & Hpre).
  - pose proof Hbased as (nT & HT). assert (E := Begins_fun _ _ HT Hbg). injection E as Et En. subst nT.
    assert (Hft : from < t) by (eapply (gw_base _ _ _ _ _ _ _ Hgrow); eauto).
    pose proof Hbg as [_ (N & HN)].
    assert (Hu : evalOptions (ev N) bases from NoMatch <> Unfinished) by congruence.
    destruct (evalOptions_spec (ev N) from bases NoMatch) as [Hdef Hsp]; [discriminate|auto|].
    destruct (evalOptions_first _ _ _ _ _ _ HN) as [|(_ & p1 & b & p2 & Eb & Hevb & Hshort)]; [discriminate|].
    exists (S N). intros m c Hm Hr Hon Ho [Hue Hur]. destruct m as [|m]; [lia|]. cbn [build]. rewrite He. unfold choiceBuild. rewrite Ho.
    assert (Hse : stored (cResults c) from ide t) by (apply Hue; split; auto; rewrite <- Et; apply (g_T0 _ _ _ Hg0)).
    assert (L : longestMatch (cResults c) from ide = Some t) by (apply longestMatch_some; split; auto; intros v Hv; apply Hue in Hv; tauto).
    rewrite L.
    destruct (enter_never e _ t c He I never_e Hr Hon) as (c1 & N1 & N2 & N2' & N3 & N4 & N5 & N6 & N7 & N8); [rewrite Ho; auto|lia|].
    simpl nodeID in *. simpl gensOf in *. rewrite N1. cbn [bind]. rewrite N3, Ho.
    assert (Hbin : In b bases) by (rewrite Eb; apply in_elt).
    destruct (Hoptions _ _ _ _ _ _ He b) as (ob & Hob & Hnb); [apply in_opts; auto|].
    assert (HsR : stored R0 from (nodeID ob) t).
    { eapply Hb0; eauto. rewrite <- Hevb. apply Ev_at. congruence. }
    assert (Hsb : stored (cResults c1) from (nodeID ob) t).
    { pose proof (rd_at _ _ _ _ _ _ (N2 N) b ob t Hob Hnb) as Q. rewrite N3, Ho in Q. apply Q; auto; congruence. }
    assert (Hnorec : forall y oy, In y recs -> nth_error P y = Some oy -> ~ stored (cResults c1) from (nodeID oy) t).
    { intros y oy Hy Hoy Hs. apply N8 in Hs. destruct Hs as [Hs _]. assert (Ei : nodeID oy = idOf y) by (unfold idOf; rewrite Hoy; auto). rewrite Ei in Hs.
      apply Hur in Hs; auto. destruct Hs as [Hs _]. destruct (g_r _ _ _ Hg0 y t Hy Hs) as (u & Hin).
      destruct (chain_le _ _ _ Hbased Hch0) as (_ & _ & Hle). destruct (Hle _ _ _ Hin) as (? & _). lia. }
    assert (Hnopre : forall y oy, In y p1 -> nth_error P y = Some oy -> ~ stored (cResults c1) from (nodeID oy) t).
    { intros y oy Hy Hoy Hs. assert (Hyb : In y bases) by (rewrite Eb; apply in_or_app; auto).
      destruct (Hoptions _ _ _ _ _ _ He y) as (oy' & Hoy' & Hny); [apply in_opts; auto|]. rewrite Hoy in Hoy'. injection Hoy' as <-.
      pose proof (rd_at _ _ _ _ _ _ (N2 N) y oy t Hoy Hny) as Q. rewrite N3, Ho in Q. apply Q in Hs; [|apply Hdef; auto].
      destruct (base_max y oy N t Hu Hyb Hoy Hs) as (tb & nsb & E1 & Hle). specialize (Hshort y Hy _ _ E1). lia. }
    assert (Hall : forall y, In y opts -> exists oy, nth_error P y = Some oy).
    { intros y Hy. destruct (Hoptions _ _ _ _ _ _ He y Hy) as (oy & Hoy & _). eauto. }
    assert (Hpick : pickOption P (cResults c1) from t opts = Ok (Some b)).
    { assert (Eo : exists l1 l2, opts = l1 ++ b :: l2 /\ forall y, In y l1 -> In y recs \/ In y p1).
      { destruct Hopts as [Eo|Eo].
        - exists (recs ++ p1), p2. rewrite Eo, Eb, <- app_assoc. split; auto. intros y Hy. apply in_app_or in Hy. auto.
        - exists p1, (p2 ++ recs). rewrite Eo, Eb, <- app_assoc. split; auto. }
      destruct Eo as (l1 & l2 & Eo & Hl1). rewrite Eo. eapply pick_first; [intros y Hy; apply Hall; rewrite Eo; exact Hy| |exact Hob|exact Hsb].
      intros y oy Hy. destruct (Hl1 y Hy); eauto. }
    rewrite Hpick. cbn [bind].
    destruct (build_ref P K input Hids Hgens Hac Hitems Hoptions Hranges R0 HR0 Hp0 N m b ob c1 t nb) as (c2 & B1 & B2); auto; try lia.
    { rewrite N3, Ho. auto. }
    { rewrite N3, Ho. auto. }
    rewrite B1. cbn [bind].
    destruct (leave_built ide gse c c1 c2 t) as (c3 & V1 & V2); auto; [lia|]. rewrite Ho in V1. rewrite V1. cbn [bind].
    exists c3. split; auto. unfold named, heapLabel. destruct (hasFlag cte CAlias); auto.
  - assert (Hlt : t < t') by (eapply (gw_more _ _ _ _ _ _ _ Hgrow); eauto using chain_grown).
    destruct (chain_le _ _ _ Hbased H) as (HfT & HTt & _).
    assert (HinS : In (t', x, t) S0) by (rewrite Epre; apply in_elt).
    destruct IH as (M & IH).
    { exists (pre ++ [(t', x, t)]). rewrite <- app_assoc. split; auto. intros v y u Hin. apply in_app_or in Hin.
      destruct Hin as [Hin|[Hin|[]]]; [specialize (Hpre _ _ _ Hin); lia|inversion Hin; subst; auto]. }
    destruct (rec_obj x Hx) as (n1 & ct & items & ranges & gs & Hp & Hf & Hd).
    pose proof Hct as [_ (first & rest & N & EG & EN)].
    assert (Hrest : rest = objItems items ranges /\ l = heapLabel n1 ct).
    { unfold heapGraph in EG. rewrite Hp in EG. inversion EG; subst. auto. }
    destruct Hrest as [-> ->].
    pose proof Hbased as (nT & HT).
    pose proof HT as [_ (N0 & HN0)].
    exists (M + N + 3). intros m c Hm Hr Hon Ho [Hue Hur]. destruct m as [|[|m]]; [lia|lia|]. remember (Datatypes.S m) as m1 eqn:Em1. cbn [build]. rewrite He. unfold choiceBuild. rewrite Ho.
    destruct (g_eS _ _ _ Hg0 _ _ _ HinS) as (G1 & G2 & G3).
    assert (Hse : stored (cResults c) from ide t') by (apply Hue; auto).
    assert (L : longestMatch (cResults c) from ide = Some t') by (apply longestMatch_some; split; auto; intros v Hv; apply Hue in Hv; tauto).
    rewrite L.
    destruct (enter_never e _ t' c He I never_e Hr Hon) as (c1 & N1 & N2 & N2' & N3 & N4 & N5 & N6 & N7 & N8); [rewrite Ho; auto|lia|].
    simpl nodeID in *. simpl gensOf in *. rewrite N1. cbn [bind]. rewrite N3, Ho.
    assert (Hrec1 : forall y v, In y recs -> stored (cResults c1) from (idOf y) v <-> stored (cResults c) from (idOf y) v).
    { intros y v Hy. rewrite N8. split; [tauto|]. intros Hs. split; auto. intros (_ & [Hi|Hi] & _); [exact (id_e_rec y Hy (eq_sym Hi))|exact (gens_rec y e _ Hy He Hi)]. }
    assert (Hsx : stored (cResults c1) from (idOf x) t') by (apply Hrec1; auto; apply Hur; auto).
    assert (Hother : forall y oy, In y opts -> y <> x -> nth_error P y = Some oy -> ~ stored (cResults c1) from (nodeID oy) t').
    { intros y oy Hy Hyx Hoy Hs. apply in_opts in Hy. destruct Hy as [Hy|Hy].
      - assert (Ei : nodeID oy = idOf y) by (unfold idOf; rewrite Hoy; auto). rewrite Ei in Hs. apply Hrec1 in Hs; auto. apply Hur in Hs; auto.
        destruct Hs as [Hs _]. destruct (g_r _ _ _ Hg0 y t' Hy Hs) as (u & Hin). destruct (chain_one _ _ _ Hch0 _ _ _ _ _ Hin HinS). auto.
      - destruct (Hoptions _ _ _ _ _ _ He y) as (oy' & Hoy' & Hny); [apply in_opts; auto|]. rewrite Hoy in Hoy'. injection Hoy' as <-.
        assert (Hu : evalOptions (ev N0) bases from NoMatch <> Unfinished) by congruence.
        destruct (evalOptions_spec (ev N0) from bases NoMatch) as [Hdef Hsp]; [discriminate|auto|]. rewrite HN0 in Hsp.
        pose proof (rd_at _ _ _ _ _ _ (N2 N0) y oy t' Hoy Hny) as Q. rewrite N3, Ho in Q. apply Q in Hs; [|apply Hdef; auto].
        destruct (base_max y oy N0 t' Hu Hy Hoy Hs) as (tb & nsb & E1 & Hle). destruct Hsp as (_ & Hsp & _). specialize (Hsp _ _ _ Hy E1). lia. }
    assert (Hxo : In x opts) by (apply in_opts; auto).
    destruct (first_split x opts Hxo) as (l1 & l2 & El & Hnl).
    assert (Hpick : pickOption P (cResults c1) from t' opts = Ok (Some x)).
    { rewrite El. eapply pick_first; [| |exact Hp|exact Hsx].
      - intros y Hy. destruct (Hoptions _ _ _ _ _ _ He y)  as (oy & Hoy & _); [rewrite El; exact Hy|]. eauto.
      - intros y oy Hy Hoy. apply (Hother y oy); auto; [rewrite El; apply in_or_app; auto|intros ->; auto]. }
    rewrite Hpick. cbn [bind]. rewrite Em1. cbn [build]. rewrite Hp. unfold seqBuild. rewrite N3, Ho.
    assert (Lx : longestMatch (cResults c1) from (idOf x) = Some t').
    { apply longestMatch_some. split; auto. intros v Hv. apply Hrec1 in Hv; auto. apply Hur in Hv; tauto. }
    rewrite Lx.
    destruct (enter_never x _ t' c1 Hp I (never_rec x Hx) N2 N2') as (c2 & O1 & O2 & O2' & O3 & O4 & O5 & O6 & O7 & O8); [rewrite N3, Ho; auto|lia|].
    simpl nodeID in *. simpl gensOf in *. rewrite O1. cbn [bind].
    destruct m as [|m]; [lia|]. remember (Datatypes.S m) as m2 eqn:Em2. 
    assert (Hup : upTo t c2).
    { split.
      - intros v. rewrite O8, N8. rewrite Hue. split.
        + intros (((A1 & A2) & A3) & A4). split; auto. rewrite N3, Ho in *.
          assert (v <> t') by (intros ->; apply A3; simpl; auto).
          destruct (g_e _ _ _ Hg0 v A1) as [|(y & u & Hin)]; [lia|]. rewrite Epre in Hin. apply in_app_or in Hin.
          destruct Hin as [Hin|[Hin|Hin]]; [specialize (Hpre _ _ _ Hin); lia|inversion Hin; congruence|].
          destruct (chain_le _ _ _ Hbased H) as (_ & _ & Hle). destruct (Hle _ _ _ Hin) as (_ & ? & _). auto.
        + intros [A1 A2]. split; [split; [split; [auto|lia]|]|]; intros (_ & _ & Ev'); lia.
      - intros y v Hy. rewrite O8, (Hrec1 y v Hy), Hur by auto. split.
        + intros ((A1 & A2) & A4). split; auto. rewrite N3, Ho in *.
          destruct (g_r _ _ _ Hg0 y v Hy A1) as (u & Hin).
          assert (v <> t').
          { intros ->. destruct (chain_one _ _ _ Hch0 _ _ _ _ _ Hin HinS) as [-> _]. apply A4. simpl; auto. }
          rewrite Epre in Hin. apply in_app_or in Hin.
          destruct Hin as [Hin|[Hin|Hin]]; [specialize (Hpre _ _ _ Hin); lia|inversion Hin; congruence|].
          destruct (chain_le _ _ _ Hbased H) as (_ & _ & Hle). destruct (Hle _ _ _ Hin) as (_ & ? & _). auto.
        + intros [A1 A2]. split; [split; [auto|lia]|]. intros (_ & _ & Ev'); lia. }
    destruct (IH m2 c2) as (c3 & B1 & B2); auto; [lia|congruence|].
replace (buildLoop (build P m2) m2) with (buildLoop (build P m2) (Datatypes.S m)) by (rewrite <- Em2; auto). cbn [buildLoop nth_error]. rewrite B1. cbn [bind].
    assert (Eoff : cOffset c2 <? cOffset c3 = true) by (apply Nat.ltb_lt; rewrite (bt_off _ _ _ B2); lia).
    rewrite Eoff. cbn [app]. change (Z.ltb 0 1 && Z.eqb (Z.of_nat 1) 1)%bool with true. cbn [andb].
    assert (Hr3 : ready N c3) by (eapply built_ready; [apply O2| |exact B2]; lia).
    destruct (loop_ref P K input Hitems Hranges R0 HR0 N m2) with (p := x) (name := n1) (id := idOf x) (commit := ct) (items := e :: items) (ranges := (1, 1)%Z :: ranges)
      (gs := gs) (j := N) (k := m) (ii := 1) (cnt := 0) (nodes := ns) (c := c3) (t := t') (ns := ns') as (c4 & C1 & C2 & C3); auto.
    { intros. eapply (build_ref P K input Hids Hgens Hac Hitems Hoptions Hranges R0 HR0 Hp0 N); eauto. lia. }
    { lia. }
    { lia. }
    { rewrite (bt_off _ _ _ B2). intros y o' oy t1 ns1 Hy Hoy Hny Hey. eapply (g_asks _ _ _ Hg0 t' x t); eauto. }
    { rewrite (bt_off _ _ _ B2). exact EN. }
    rewrite C1. cbn [bind].
    assert (B24 : built t' c2 c4) by (eapply built_trans; [|exact B2|exact C2]; lia).
    destruct (leave_built (idOf x) gs c1 c2 c4 t') as (c5 & V1 & V2); auto; [lia|]. rewrite N3, Ho in V1. rewrite V1. cbn [bind].
    destruct (leave_built ide gse c c1 c5 t') as (c6 & W1 & W2); auto; [lia|]. rewrite Ho in W1.
    exists c6. split; auto. unfold named, heapLabel. destruct (hasFlag ct CAlias), (hasFlag cte CAlias); cbn [bind]; rewrite W1; auto.
Qed.
End LEFT.
