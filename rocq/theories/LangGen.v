(** The language of the initialized parsers is the language of the definitions. *)
From Verif Require Import Base Utf8 IdSet Results Parser Build Syntax ListFacts ParseFacts TermFacts NoPanic Lang Sound RunFacts Restrict Grammar WsLang InitWalk InitRun InitOk SyntaxFacts InitCore InitSpec Live.

(** the rule that a definition object stands for *)
Definition objRule (d : defobj) : rule :=
  match dKind d with
  | KChar cnot chars ranges => RChar cnot chars ranges
  | KSeq _ items _ _ _ _ _ _ => RSeq (dCommit d) items
  | KChoice options _ _ _ _ => RChoice (dCommit d) options
  end.
Definition heapRule (m : list (string * addr)) (h : dheap) (n : string) : option rule :=
  match lookup m n with
  | Some a => option_map objRule (nth_error h a)
  | None => None
  end.

Lemma quantity_norm it k : quantity (siMin it) (siMax it) k <->
  (siMin (normalizeItemRange it) <= Z.of_nat k)%Z /\ ((0 < siMax (normalizeItemRange it))%Z -> (Z.of_nat k <= siMax (normalizeItemRange it))%Z).
Proof.
  unfold quantity, normalizeItemRange. destruct (Z.eqb_spec (siMin it) 0), (Z.eqb_spec (siMax it) 0); simpl;
    try destruct (Z.leb_spec (siMin it) 0); try destruct (Z.leb_spec (siMax it) 0); lia.
Qed.
Lemma siName_norm it : siName (normalizeItemRange it) = siName it.
Proof. unfold normalizeItemRange. destruct (_ && _)%bool; auto. Qed.

Section LG.
Variables (reg : registry) (n : nat) (kws : list addr) (root : addr) (h0 h' : dheap).
Let m := gDefinition reg.
Hypothesis Hun : forall a d, nth_error h0 a = Some d -> unwalkedK (dKind d).
Hypothesis Hreg : regInv h0 reg.
Hypothesis Hcore : initCore m n (kws ++ [root]) h0 = Ok (h', None).
Hypothesis Hargs : forall a, In a (kws ++ [root]) -> In a (gDefinitions reg).
Hypothesis Hshape : forall a d, nth_error h0 a = Some d -> inited h' a -> rangeShape d.
Variable K : list (list rune).
Let P := map toParser h'.
Let PL := restrict P (liveIn h').
Let R := heapRule m h0.

Lemma PL_inited a o : inited h' a -> nth_error PL a = Some o -> nth_error P a = Some o.
Proof. intros Hi H. unfold PL in H. rewrite restrict_live in H; auto. apply liveIn_inited; auto. Qed.

(** the parser of an initialized definition *)
Lemma PL_shape a nm : lookup m nm = Some a -> inited h' a ->
  exists d0, nth_error h0 a = Some d0 /\ R nm = Some (objRule d0) /\
  match dKind d0 with
  | KChar cn ch rs => exists name id, nth_error PL a = Some (PChar name id cn ch rs)
  | KSeq _ its _ _ _ _ _ _ => exists name id items gs ac rest,
      nth_error PL a = Some (PSeq name id (dCommit d0) items (map itemRange (map normalizeItemRange its) ++ rest) gs ac) /\
      items = lookups m (map siName its) /\ (forall r, In r (map siName its) -> lookup m r <> None) /\ forall x, In x items -> inited h' x
  | KChoice opts _ _ _ _ => exists name id options gs,
      nth_error PL a = Some (PChoice name id (dCommit d0) options gs) /\
      options = lookups m opts /\ (forall r, In r opts -> lookup m r <> None) /\ forall x, In x options -> inited h' x
  end.
Proof.
  intros Hl Hi. destruct (live_final reg n kws root h0 h' Hun Hcore) as (F & A & G). fold m in F.
  pose proof Hi as (d' & Hd' & Hin). pose proof (F a) as Fa. unfold finalAt in Fa.
  destruct (nth_error h0 a) as [d0|] eqn:Hd0; [|congruence]. exists d0. split; auto.
  split; [unfold R, heapRule; rewrite Hl, Hd0; auto|]. destruct Fa as (d'' & E & Fa). rewrite Hd' in E. inversion E; subst d''. clear E.
  assert (Hp : nth_error PL a = Some (toParser d')).
  { unfold PL. rewrite restrict_live by (apply liveIn_inited; auto). unfold P. rewrite nth_error_map', Hd'. auto. }
  pose proof (Hshape a d0 Hd0 Hi) as Hs. unfold rangeShape in Hs.
  destruct (dKind d0) as [cn ch rs|oi its rs i1 i2 i3 i4 i5|opts od g v i].
  - rewrite Fa in Hp. eauto.
  - destruct Fa as (gs & [(E & _)|(_ & Df & Ki & Fa)]); [congruence|]. rewrite Fa in Hp.
    exists (dName d0), (dId d0), (lookups m (map siName its)), gs, (forallb (isCharAt h0) (lookups m (map siName its))).
    destruct Hs as [Hs|Hs]; rewrite Hs in Hp.
    + exists []. rewrite app_nil_r. auto.
    + eexists. split; [exact Hp|]. auto.
  - destruct Fa as (gs & [(E & _)|(_ & Df & Ki & Fa)]); [congruence|]. rewrite Fa in Hp. eauto 10.
Qed.

Lemma lookups_cons nm l a : lookup m nm = Some a -> lookups m (nm :: l) = a :: lookups m l.
Proof. unfold lookups. simpl. intros ->. auto. Qed.

Lemma lang_to_gen :
  (forall a w, lang PL K a w -> forall nm, lookup m nm = Some a -> inited h' a -> gen R K nm w) /\
  (forall items ranges w, langItems PL K items ranges w -> forall its rest, items = lookups m (map siName its) ->
     (forall r, In r (map siName its) -> lookup m r <> None) -> (forall x, In x items -> inited h' x) ->
     ranges = map itemRange (map normalizeItemRange its) ++ rest -> genItems R K its w) /\
  (forall item k w, langRep PL K item k w -> forall nm, lookup m nm = Some item -> inited h' item -> genRep R K nm k w).
Proof.
  apply lang_mutind.
  - intros a name id cnot chars ranges r Ha Hc nm Hl Hi. destruct (PL_shape a nm Hl Hi) as (d0 & Hd0 & HR & Hk).
    unfold objRule in HR. destruct (dKind d0) as [cn ch rs|oi its rs i1 i2 i3 i4 i5|opts od g v i].
    + destruct Hk as (n1 & i1 & E). rewrite Ha in E. inversion E; subst. eapply gen_char; eauto.
    + destruct Hk as (? & ? & ? & ? & ? & ? & E & _). rewrite Ha in E. discriminate.
    + destruct Hk as (? & ? & ? & ? & E & _). rewrite Ha in E. discriminate.
  - intros a name id commit items ranges gs ac w Ha Hkw _ IH nm Hl Hi. destruct (PL_shape a nm Hl Hi) as (d0 & Hd0 & HR & Hk).
    unfold objRule in HR. destruct (dKind d0) as [cn ch rs|oi its rs i1 i2 i3 i4 i5|opts od g v i].
    + destruct Hk as (n1 & i1 & E). rewrite Ha in E. discriminate.
    + destruct Hk as (n1 & id1 & items1 & gs1 & ac1 & rest & E & E1 & E2 & E3). rewrite Ha in E. inversion E; subst.
      eapply gen_seq; eauto.
    + destruct Hk as (? & ? & ? & ? & E & _). rewrite Ha in E. discriminate.
  - intros a name id commit options gs op w Ha Hin _ IH nm Hl Hi. destruct (PL_shape a nm Hl Hi) as (d0 & Hd0 & HR & Hk).
    unfold objRule in HR. destruct (dKind d0) as [cn ch rs|oi its rs i1 i2 i3 i4 i5|opts od g v i].
    + destruct Hk as (n1 & i1 & E). rewrite Ha in E. discriminate.
    + destruct Hk as (? & ? & ? & ? & ? & ? & E & _). rewrite Ha in E. discriminate.
    + destruct Hk as (n1 & id1 & os1 & gs1 & E & E1 & E2 & E3). rewrite Ha in E. inversion E; subst.
      pose proof Hin as Hin'. apply lookups_In in Hin'. destruct Hin' as (nm' & Hn1 & Hn2).
      eapply gen_choice; eauto.
  - intros ranges its rest E Df _ _. destruct its as [|it its]; [constructor|]. exfalso. simpl in E, Df. unfold lookups in E. simpl in E.
    destruct (lookup m (siName it)) eqn:El; [discriminate|]. apply (Df (siName it)); auto.
  - intros item items mn mx ranges k u v Hmn Hmx _ IH1 _ IH2 its rest E Df Ki Er.
    destruct its as [|it its]; [discriminate|]. simpl in Df. destruct (lookup m (siName it)) as [x|] eqn:El.
    2:{ exfalso. apply (Df (siName it)); auto. }
    simpl map in E. rewrite (lookups_cons _ _ _ El) in E. inversion E; subst x items. simpl in Er. inversion Er; subst.
    apply genItems_cons with k; [apply quantity_norm; auto|apply IH1; auto; apply Ki; left; auto|].
    eapply IH2; eauto. intros y Hy. apply Ki. right; auto.
  - intros item nm Hl Hi. constructor.
  - intros item k u v _ IH1 _ IH2 nm Hl Hi. constructor; auto.
Qed.

Lemma gen_to_lang :
  (forall nm w, gen R K nm w -> forall a, lookup m nm = Some a -> inited h' a -> lang PL K a w) /\
  (forall its w, genItems R K its w -> forall rest, 
     (forall r, In r (map siName its) -> lookup m r <> None) -> (forall x, In x (lookups m (map siName its)) -> inited h' x) ->
     langItems PL K (lookups m (map siName its)) (map itemRange (map normalizeItemRange its) ++ rest) w) /\
  (forall nm k w, genRep R K nm k w -> forall a, lookup m nm = Some a -> inited h' a -> langRep PL K a k w).
Proof.
  apply gen_mutind.
  - intros nm cnot chars ranges r HR Hc a Hl Hi. destruct (PL_shape a nm Hl Hi) as (d0 & Hd0 & HR' & Hk).
    rewrite HR in HR'. unfold objRule in HR'. destruct (dKind d0) as [cn ch rs|oi its rs i1 i2 i3 i4 i5|opts od g v i]; inversion HR'; subst.
    destruct Hk as (n1 & i1 & E). eapply lang_char; eauto.
  - intros nm ct items w HR Hkw _ IH a Hl Hi. destruct (PL_shape a nm Hl Hi) as (d0 & Hd0 & HR' & Hk).
    rewrite HR in HR'. unfold objRule in HR'. destruct (dKind d0) as [cn ch rs|oi its rs i1 i2 i3 i4 i5|opts od g v i]; inversion HR'; subst.
    destruct Hk as (n1 & id1 & items1 & gs1 & ac1 & rest & E & E1 & E2 & E3). subst. eapply lang_seq; eauto.
  - intros nm ct options o w HR Hin _ IH a Hl Hi. destruct (PL_shape a nm Hl Hi) as (d0 & Hd0 & HR' & Hk).
    rewrite HR in HR'. unfold objRule in HR'. destruct (dKind d0) as [cn ch rs|oi its rs i1 i2 i3 i4 i5|opts od g v i]; inversion HR'; subst.
    destruct Hk as (n1 & id1 & os1 & gs1 & E & E1 & E2 & E3).
    destruct (lookup m o) as [x|] eqn:El; [|exfalso; apply (E2 o); auto].
    assert (Hx : In x os1) by (subst; apply lookups_In; eauto).
    apply (lang_choice PL K a n1 id1 (dCommit d0) os1 gs1 x w E Hx). apply IH; auto.
  - intros rest _ _. constructor.
  - intros it items k u v Hq _ IH1 _ IH2 rest Df Ki. simpl in Df. destruct (lookup m (siName it)) as [x|] eqn:El.
    2:{ exfalso. apply (Df (siName it)); auto. }
    simpl map in *. rewrite (lookups_cons _ _ _ El) in *. apply quantity_norm in Hq. destruct Hq as [Q1 Q2].
    simpl. apply langItems_cons with k; auto.
    + apply IH1; auto. apply Ki. left; auto.
    + apply IH2; auto. intros y Hy. apply Ki. right; auto.
  - intros nm a Hl Hi. constructor.
  - intros nm k u v _ IH1 _ IH2 a Hl Hi. constructor; auto.
Qed.

Theorem live_lang nm a w : lookup m nm = Some a -> inited h' a -> (lang PL K a w <-> gen R K nm w).
Proof. intros Hl Hi. split; intros H; [apply lang_to_gen with a|apply gen_to_lang with nm]; auto. Qed.

End LG.

(** ** rules that say the same *)
Definition sameItem (i j : seqItem) : Prop := siName i = siName j /\ itemRange (normalizeItemRange i) = itemRange (normalizeItemRange j).
Definition sameFlags (ct ct' : commitType) : Prop :=
  hasFlag ct CNoKeyword = hasFlag ct' CNoKeyword /\ compact ct = compact ct' /\ hasFlag ct CAlias = hasFlag ct' CAlias.
Inductive sameRule : rule -> rule -> Prop :=
| sr_char cn ch rs : sameRule (RChar cn ch rs) (RChar cn ch rs)
| sr_seq ct ct' its its' : sameFlags ct ct' -> Forall2 sameItem its its' -> sameRule (RSeq ct its) (RSeq ct' its')
| sr_choice ct ct' os : sameFlags ct ct' -> sameRule (RChoice ct os) (RChoice ct' os).
Lemma sameItem_spec i j : sameItem i j -> siName i = siName j /\ (forall k, quantity (siMin i) (siMax i) k <-> quantity (siMin j) (siMax j) k) /\
  (quantity (siMin i) (siMax i) 0 -> (siMax i = 1 <-> siMax j = 1)%Z).
Proof.
  intros [H1 H2]. split; auto. unfold itemRange in H2. inversion H2 as [[E1 E2]]. split.
  - intros k. rewrite !quantity_norm, E1, E2. tauto.
  - rewrite quantity_norm. intros [Q1 Q2]. revert E1 E2 Q1 Q2. unfold normalizeItemRange.
    destruct (Z.eqb_spec (siMin i) 0), (Z.eqb_spec (siMax i) 0), (Z.eqb_spec (siMin j) 0), (Z.eqb_spec (siMax j) 0); simpl;
      repeat match goal with |- context [Z.leb ?a ?b] => destruct (Z.leb_spec a b) end; lia.
Qed.
Lemma itemRange_norm2 it : itemRange (normalizeItemRange (normalizeItemRange it)) = itemRange (normalizeItemRange it).
Proof.
  unfold itemRange, normalizeItemRange. destruct (Z.eqb_spec (siMin it) 0), (Z.eqb_spec (siMax it) 0); simpl; auto;
      destruct (Z.leb_spec (siMin it) 0), (Z.leb_spec (siMax it) 0); simpl; auto;
      repeat match goal with |- context [Z.eqb ?a ?b] => destruct (Z.eqb_spec a b); try lia; simpl end;
      repeat match goal with |- context [Z.leb ?a ?b] => destruct (Z.leb_spec a b); try lia; simpl end; auto; lia.
Qed.
Definition sameOpt (a b : option rule) : Prop :=
  match a, b with Some x, Some y => sameRule x y | None, None => True | _, _ => False end.

Lemma sameItem_refl i : sameItem i i.
Proof. split; auto. Qed.
Lemma sameItem_sym i j : sameItem i j -> sameItem j i.
Proof. intros (H1 & H2). split; auto. Qed.
Lemma sameItem_trans i j k : sameItem i j -> sameItem j k -> sameItem i k.
Proof. intros (H1 & H2) (H3 & H4). split; congruence. Qed.
Lemma sameFlags_refl c : sameFlags c c.
Proof. split; auto. Qed.
Lemma sameFlags_sym c c' : sameFlags c c' -> sameFlags c' c.
Proof. intros (H1 & H2 & H3). split; auto. Qed.
Lemma sameFlags_trans a b c : sameFlags a b -> sameFlags b c -> sameFlags a c.
Proof. intros (H1 & H2 & H2') (H3 & H4 & H4'). split; [|split]; congruence. Qed.
#[export] Hint Resolve sameFlags_refl sameFlags_sym : core.
Lemma Forall2_sym {A} (Q : A -> A -> Prop) l l' : (forall x y, Q x y -> Q y x) -> Forall2 Q l l' -> Forall2 Q l' l.
Proof. intros H. induction 1; constructor; auto. Qed.
Lemma Forall2_trans {A} (Q : A -> A -> Prop) : (forall x y z, Q x y -> Q y z -> Q x z) -> forall l l', Forall2 Q l l' -> forall l'', Forall2 Q l' l'' -> Forall2 Q l l''.
Proof. intros H. induction 1; intros l'' H2; inversion H2; subst; constructor; eauto. Qed.
Lemma Forall2_refl {A} (Q : A -> A -> Prop) : (forall x, Q x x) -> forall l, Forall2 Q l l.
Proof. intros H. induction l; constructor; auto. Qed.
Lemma sameRule_refl a : sameRule a a.
Proof. destruct a; constructor; auto. apply Forall2_refl, sameItem_refl. Qed.
Lemma sameRule_sym a b : sameRule a b -> sameRule b a.
Proof. intros H. destruct H; constructor; auto. apply Forall2_sym; auto. apply sameItem_sym. Qed.
Lemma sameRule_trans a b c : sameRule a b -> sameRule b c -> sameRule a c.
Proof.
  intros H1 H2. inversion H1; subst; inversion H2; subst; constructor; try (eapply sameFlags_trans; eauto; fail).
  eapply Forall2_trans; eauto. apply sameItem_trans.
Qed.
Lemma sameOpt_trans a b c : sameOpt a b -> sameOpt b c -> sameOpt a c.
Proof. destruct a, b, c; simpl; try tauto. apply sameRule_trans. Qed.
Lemma sameOpt_sym a b : sameOpt a b -> sameOpt b a.
Proof. destruct a, b; simpl; try tauto. apply sameRule_sym. Qed.

(** ** the parser at an address is built after the rule of its name *)
Definition hasName (P : pheap) (x : addr) (nm : string) : Prop := exists o, nth_error P x = Some o /\ nodeName o = nm.
Definition charAt (P : pheap) (x : addr) : bool := match nth_error P x with Some (PChar _ _ _ _ _) => true | _ => false end.
Definition ruleOk (R : string -> option rule) (P : pheap) (a : addr) : Prop :=
  match nth_error P a with
  | Some (PChar n _ cn ch rs) => R n = Some (RChar cn ch rs)
  | Some (PSeq n _ ct items ranges _ ac) => exists ct' its rest, R n = Some (RSeq ct' its) /\ sameFlags ct ct' /\
      Forall2 (fun x it => hasName P x (siName it)) items its /\
      ranges = map (fun it => itemRange (normalizeItemRange it)) its ++ rest /\ ac = forallb (charAt P) items
  | Some (PChoice n _ ct options _) => exists ct' os, R n = Some (RChoice ct' os) /\ sameFlags ct ct' /\ Forall2 (hasName P) options os
  | None => False
  end.
Lemma Forall2_imp2 {A B C} (Q : A -> B -> Prop) (S : B -> C -> Prop) (T : A -> C -> Prop) : (forall a b c, Q a b -> S b c -> T a c) ->
  forall l l', Forall2 Q l l' -> forall l'', Forall2 S l' l'' -> Forall2 T l l''.
Proof. intros H. induction 1; intros l'' H2; inversion H2; subst; constructor; eauto. Qed.
Lemma ruleOk_same R R' P a : (forall n, sameOpt (R n) (R' n)) -> ruleOk R P a -> ruleOk R' P a.
Proof.
  intros HR H. unfold ruleOk in *. destruct (nth_error P a) as [[n i cn ch rs|n i ct items ranges gs ac|n i ct options gs]|]; auto.
  - specialize (HR n). rewrite H in HR. destruct (R' n) as [q|]; [|destruct HR]. inversion HR; subst; auto.
  - destruct H as (ct' & its & rest & H1 & H2 & H3 & H4 & H5). specialize (HR n). rewrite H1 in HR. destruct (R' n) as [q|]; [|destruct HR]. inversion HR; subst.
    match goal with X : sameFlags ct' _ |- _ => rename X into Xf end. match goal with X : Forall2 sameItem its _ |- _ => rename X into Xi end.
    eexists _, _, rest. split; [reflexivity|]. split; [eapply sameFlags_trans; eauto|]. split; [|split; [|auto]].
    + eapply Forall2_imp2; [|exact H3|exact Xi]. simpl. intros x i1 i2 Hx [E _]. rewrite <- E. auto.
    + f_equal. clear - Xi. induction Xi as [|? ? ? ? [_ E]]; simpl; congruence.
  - destruct H as (ct' & os & H1 & H2 & H3). specialize (HR n). rewrite H1 in HR. destruct (R' n) as [q|]; [|destruct HR]. inversion HR; subst.
    eexists _, _. split; [reflexivity|]. split; [eapply sameFlags_trans; eauto|auto].
Qed.

Lemma gen_same_aux R R' K : (forall n, sameOpt (R n) (R' n)) ->
  (forall n w, gen R K n w -> gen R' K n w) /\
  (forall its w, genItems R K its w -> forall its', Forall2 sameItem its its' -> genItems R' K its' w) /\
  (forall n k w, genRep R K n k w -> genRep R' K n k w).
Proof.
  intros HR. apply gen_mutind.
  - intros n cnot chars ranges r H1 H2. specialize (HR n). rewrite H1 in HR. destruct (R' n) as [q|] eqn:E; [|destruct HR].
    inversion HR; subst. eapply gen_char; eauto.
  - intros n ct items w H1 H2 _ IH. specialize (HR n). rewrite H1 in HR. destruct (R' n) as [q|] eqn:E; [|destruct HR].
    inversion HR as [|? ? ? ? [Hf _]|]; subst. eapply gen_seq; eauto; rewrite <- Hf; auto.
  - intros n ct options o w H1 H2 _ IH. specialize (HR n). rewrite H1 in HR. destruct (R' n) as [q|] eqn:E; [|destruct HR].
    inversion HR; subst. eapply gen_choice; eauto.
  - intros its' H. inversion H; subst. constructor.
  - intros it items k u v Hq _ IH1 _ IH2 its' H. inversion H as [|? it' ? its2 Hsi Hr]; subst. destruct (sameItem_spec _ _ Hsi) as (En & Eq & Eg).
    apply genItems_cons with k; [apply Eq; auto|rewrite <- En; auto|auto].
  - intros n. constructor.
  - intros n k u v _ IH1 _ IH2. constructor; auto.
Qed.
Theorem gen_same R R' K n w : (forall n, sameOpt (R n) (R' n)) -> (gen R K n w <-> gen R' K n w).
Proof.
  intros H. split; apply gen_same_aux; auto. intros k. apply sameOpt_sym. auto.
Qed.

(** the same for the whitespace language *)
Lemma wgen_same_aux R R' K ws root : (forall n, sameOpt (R n) (R' n)) ->
  (forall n w, wgen R K ws root n w -> wgen R' K ws root n w) /\
  (forall n w, wbody R K ws root n w -> wbody R' K ws root n w) /\
  (forall its w, witems R K ws root its w -> forall its', Forall2 sameItem its its' -> witems R' K ws root its' w) /\
  (forall n k w, wrep R K ws root n k w -> wrep R' K ws root n k w) /\
  (forall first its w, wspaced R K ws root first its w -> forall its', Forall2 sameItem its its' -> wspaced R' K ws root first its' w) /\
  (forall n k w, wmore R K ws root n k w -> wmore R' K ws root n k w) /\
  (forall w, wspace R K ws root w -> wspace R' K ws root w).
Proof.
  intros HR. apply wgen_mutind; intros; try (econstructor; eauto; fail).
  - specialize (HR n). rewrite H in HR. destruct (R' n) as [q|] eqn:E; [|destruct HR]. inversion HR; subst. eapply wbody_char; eauto.
  - specialize (HR n). rewrite H in HR. destruct (R' n) as [q|] eqn:E; [|destruct HR]. inversion HR as [|? ? ? ? (Hf & Hc & _)|]; subst. eapply wbody_compact; eauto; try congruence; rewrite <- Hf; auto.
  - specialize (HR n). rewrite H in HR. destruct (R' n) as [q|] eqn:E; [|destruct HR]. inversion HR as [|? ? ? ? (Hf & Hc & _)|]; subst. eapply wbody_spaced; eauto; try congruence; rewrite <- Hf; auto.
  - specialize (HR n). rewrite H in HR. destruct (R' n) as [q|] eqn:E; [|destruct HR]. inversion HR; subst. eapply wbody_choice; eauto.
  - inversion H; subst. constructor.
  - inversion H4 as [|? it' ? its2 Hsi Hr]; subst. destruct (sameItem_spec _ _ Hsi) as (En & Eq & Eg). econstructor; [apply Eq; eauto|rewrite <- En; auto|auto].
  - inversion H; subst. constructor.
  - inversion H2 as [|? it' ? its2 Hsi Hr]; subst. destruct (sameItem_spec _ _ Hsi) as (En & Eq & Eg). apply wspaced_none; [apply Eq; auto|auto].
  - inversion H5 as [|? it' ? its2 Hsi Hr]; subst. destruct (sameItem_spec _ _ Hsi) as (En & Eq & Eg). apply wspaced_gap; [apply Eq; auto|apply Eg; auto|auto|auto].
  - inversion H6 as [|? it' ? its2 Hsi Hr]; subst. destruct (sameItem_spec _ _ Hsi) as (En & Eq & Eg). eapply wspaced_first; [apply Eq; eauto|rewrite <- En; auto|rewrite <- En; auto|auto].
  - inversion H8 as [|? it' ? its2 Hsi Hr]; subst. destruct (sameItem_spec _ _ Hsi) as (En & Eq & Eg). eapply wspaced_next; [apply Eq; eauto|auto|rewrite <- En; auto|rewrite <- En; auto|auto].
Qed.
Theorem wgen_same R R' K ws root n w : (forall n, sameOpt (R n) (R' n)) -> (wgen R K ws root n w <-> wgen R' K ws root n w).
Proof. intros H. split; apply wgen_same_aux; auto. intros k. apply sameOpt_sym. auto. Qed.

(** without whitespace definitions it is the plain language *)
Lemma wgen_plain_aux R K root :
  (forall n w, wgen R K [] root n w -> gen R K n w) /\
  (forall n w, wbody R K [] root n w -> gen R K n w) /\
  (forall its w, witems R K [] root its w -> genItems R K its w) /\
  (forall n k w, wrep R K [] root n k w -> genRep R K n k w) /\
  (forall (first : bool) its w, wspaced R K [] root first its w -> genItems R K its w) /\
  (forall n k w, wmore R K [] root n k w -> genRep R K n k w) /\
  (forall w, wspace R K [] root w -> w = []).
Proof.
  apply wgen_mutind; intros; subst; simpl; rewrite ?app_nil_r; auto; try (econstructor; eauto; fail).
  - change v with ([] ++ v). econstructor; eauto. constructor.
  - change v with ([] ++ v). econstructor; eauto. constructor.
  - rewrite app_assoc. econstructor; eauto. constructor; auto.
  - rewrite app_assoc. econstructor; eauto. constructor; auto.
  - destruct H.
Qed.
Lemma wgen_plain R K root n w : wgen R K [] root n w <-> gen R K n w.
Proof.
  split; [apply wgen_plain_aux|].
  assert (Hb : forall m u, wbody R K [] root m u -> wgen R K [] root m u).
  { intros m u H. destruct (string_dec m root) as [->|Hne]; [|apply wgen_def; auto].
    replace u with ([] ++ u ++ []) by (rewrite app_nil_r; auto). apply wgen_root; auto; constructor. }
  assert (Hr : forall m k u, (wrep R K [] root m k u -> wmore R K [] root m k u)).
  { intros m k. induction k; intros u H; inversion H; subst; [constructor|]. change (u0 ++ v) with ([] ++ u0 ++ v). constructor; auto. constructor. }
  revert n w. refine (proj1 (gen_mutind R K _ (fun its w => witems R K [] root its w /\ forall first, wspaced R K [] root first its w) (wrep R K [] root) _ _ _ _ _ _ _)).
  - intros. apply Hb. eapply wbody_char; eauto.
  - intros n ct items w H1 H2 _ [H3 H4]. apply Hb. destruct (compact ct) eqn:Ec; [eapply wbody_compact; eauto|eapply wbody_spaced; eauto].
  - intros. apply Hb. eapply wbody_choice; eauto.
  - split; [constructor|]. intros; constructor.
  - intros it items k u v Hq _ IH1 _ [IH2 IH3]. split; [econstructor; eauto|]. intros first. inversion IH1; subst.
    + simpl. apply wspaced_none; auto.
    + rewrite <- app_assoc. destruct first; [eapply wspaced_first; eauto|]. change (u0 ++ v0 ++ v) with ([] ++ u0 ++ v0 ++ v). eapply wspaced_next; eauto. constructor.
  - constructor.
  - intros. constructor; auto.
Qed.
