(** Two syntaxes that hold the same definitions, the second one with further objects in between that
    nothing refers to, behave alike. *)
From Verif Require Import Base Utf8 IdSet Results Parser Build Syntax ListFacts SyntaxFacts Generate GoSpec GenWalk GenSim SelfData Define.

Section SHIFT.
(** [k] objects inserted at [a0] *)
Variables a0 k : nat.
Definition shift (x : addr) : addr := if x <? a0 then x else x + k.
Lemma shift_inj x y : shift x = shift y -> x = y.
Proof. unfold shift. destruct (Nat.ltb_spec x a0), (Nat.ltb_spec y a0); lia. Qed.
Lemma shift_ge x : a0 <= x -> shift x = x + k.
Proof. unfold shift. destruct (Nat.ltb_spec x a0); lia. Qed.
Lemma shift_seq base n : a0 <= base -> map shift (seq base n) = seq (base + k) n.
Proof. revert base. induction n as [|n IH]; intros base H; simpl; auto. rewrite shift_ge, IH by lia. auto. Qed.

Definition shiftK (d : dkind) : dkind :=
  match d with
  | KChar a b c => KChar a b c
  | KSeq oi it rs ds gs ac v i => KSeq oi it rs (map shift ds) gs ac v i
  | KChoice os ds gs v i => KChoice os (map shift ds) gs v i
  end.
Definition shiftD (d : defobj) : defobj := mkDef (dName d) (dId d) (dCommit d) (shiftK (dKind d)).
Definition dkids (d : defobj) : list addr := match dKind d with KChar _ _ _ => [] | KSeq _ _ _ ds _ _ _ _ => ds | KChoice _ ds _ _ _ => ds end.
Definition shiftM (m : list (string * addr)) : list (string * addr) := map (fun p => (fst p, shift (snd p))) m.

(** heaps of the length [n] and [n + k] *)
Record sameH (n : nat) (h h' : dheap) : Prop := {
  sh_ge : a0 <= n;
  sh_len : List.length h = n;
  sh_len' : List.length h' = n + k;
  sh_nth : forall x, nth_error h' (shift x) = option_map shiftD (nth_error h x);
  sh_kids : forall x d, nth_error h x = Some d -> Forall (fun y => y < n) (dkids d) }.
Definition below (n : nat) (m : list (string * addr)) : Prop := Forall (fun p => snd p < n) m.
Lemma below_mono n n' m : n <= n' -> below n m -> below n' m.
Proof. intros H. apply Forall_impl. intros; lia. Qed.

Lemma lookup_shift m n : lookup (shiftM m) n = option_map shift (lookup m n).
Proof. induction m as [|[q a] m IH]; simpl; auto. destruct (String.eqb q n); auto. Qed.
(** all that a registry holds *)
Definition belowR (n : nat) (r : registry) : Prop := below n (gDefinition r) /\ Forall (fun x => x < n) (gDefinitions r).
Lemma belowR_mono n n' r : n <= n' -> belowR n r -> belowR n' r.
Proof. intros H [A B]. split; [eapply below_mono; eauto|eapply Forall_impl; [|exact B]; intros; simpl in *; lia]. Qed.
Lemma lookup_below n m x a : below n m -> lookup m x = Some a -> a < n.
Proof. induction 1 as [|[q b] m Hb Hm IH]; simpl; [discriminate|]. destruct (String.eqb q x); auto. intros X; inversion X; subst; auto. Qed.

Lemma upd_same n h h' x g g' : sameH n h h' -> (forall d, shiftD (g d) = g' (shiftD d)) ->
  (forall d, Forall (fun y => y < n) (dkids d) -> Forall (fun y => y < n) (dkids (g d))) -> sameH n (updNth x g h) (updNth (shift x) g' h').
Proof.
  intros [A B C0 D E] Hg Hk. split; auto; try (rewrite updNth_length; auto).
  - intros y. rewrite !nth_error_updNth. destruct (Nat.eqb_spec x y) as [->|Hne].
    + rewrite Nat.eqb_refl, D. destruct (nth_error h y); simpl; auto. rewrite Hg; auto.
    + destruct (Nat.eqb_spec (shift x) (shift y)) as [He|_]; [apply shift_inj in He; congruence|]. apply D.
  - intros y d. rewrite nth_error_updNth. destruct (_ =? _); [|apply E]. destruct (nth_error h y) as [d0|] eqn:Ey; simpl; [|discriminate]. intros X; inversion X; subst. eauto.
Qed.
(** new objects have no items or options yet *)
Definition fresh (l : list defobj) : Prop := Forall (fun d => dkids d = []) l.
Lemma fresh_shift d : dkids d = [] -> shiftD d = d.
Proof. destruct d as [nm i ct [a b c|oi it rs ds gs ac v i'|os ds gs v i']]; unfold dkids, shiftD; simpl; intros H; try subst; auto. Qed.
Lemma app_same n h h' l : sameH n h h' -> fresh l -> sameH (n + List.length l) (h ++ l) (h' ++ l).
Proof.
  intros [A B C0 D E] Hl. split; try (rewrite app_length; lia); try lia.
  - intros x. destruct (Nat.lt_ge_cases x n) as [Hx|Hx].
    + assert (Hs : nth_error h' (shift x) <> None). { rewrite D. destruct (nth_error h x) eqn:Ex; simpl; [discriminate|]. apply nth_error_None in Ex. lia. }
      apply nth_error_Some in Hs. rewrite !nth_error_app1 by lia. apply D.
    + rewrite shift_ge by lia. rewrite !nth_error_app2 by lia. replace (x + k - List.length h') with (x - List.length h) by lia.
      destruct (nth_error l (x - List.length h)) as [d|] eqn:Ed; simpl; auto. unfold fresh in Hl. rewrite Forall_forall in Hl. rewrite fresh_shift; auto. eapply Hl, nth_error_In; eauto.
  - intros x d Hx. destruct (Nat.lt_ge_cases x n) as [Hlt|Hge].
    + rewrite nth_error_app1 in Hx by lia. eapply Forall_impl; [|eapply E; eauto]. intros; simpl in *; lia.
    + rewrite nth_error_app2 in Hx by lia. unfold fresh in Hl. rewrite Forall_forall in Hl. rewrite (Hl d) by (eapply nth_error_In; eauto). constructor.
Qed.
Lemma new_same n h h' l : sameH n h h' -> fresh l -> forall L, List.length l = L -> sameH (n + L) (h ++ l) (h' ++ l).
Proof. intros H Hl L <-. apply app_same; auto. Qed.

Lemma commitAt_same n h h' x : sameH n h h' -> commitAt h' (shift x) = commitAt h x.
Proof. intros H. unfold commitAt. rewrite (sh_nth _ _ _ H). destruct (nth_error h x); auto. Qed.
Lemma nameAt_same n h h' x : sameH n h h' -> nameAt h' (shift x) = nameAt h x.
Proof. intros H. unfold nameAt. rewrite (sh_nth _ _ _ H). destruct (nth_error h x); auto. Qed.
Lemma isCharAt_same n h h' x : sameH n h h' -> isCharAt h' (shift x) = isCharAt h x.
Proof. intros H. unfold isCharAt. rewrite (sh_nth _ _ _ H). destruct (nth_error h x) as [[nm i ct [a b c|oi it rs ds gs ac v i'|os ds gs v i']]|]; auto. Qed.
Lemma hasWhitespace_same n h h' l : sameH n h h' -> hasWhitespace h' (map shift l) = hasWhitespace h l.
Proof. intros H. unfold hasWhitespace. induction l as [|x l IH]; simpl; auto. rewrite (commitAt_same _ _ _ _ H), IH. auto. Qed.

(** ** the registry *)
Definition shiftR (r : registry) : registry := mkRegistry (gIdSeed r) (shiftM (gDefinition r)) (map shift (gDefinitions r)).
Ltac kinds := intros [nm0 id0 ct0 [c1 c2 c3|oi0 it0 rs0 ds0 gs0 ac0 v0 i0|os0 ds0 gs0 v0 i0]]; unfold shiftD, dkids; simpl; auto.
Lemma setDefinition_same n h h' r a : sameH n h h' -> belowR n r ->
  exists h1 h1' r1 e, setDefinition h r a = (h1, r1, e) /\ setDefinition h' (shiftR r) (shift a) = (h1', shiftR r1, e) /\ sameH n h1 h1' /\ belowR n r1.
Proof.
  intros H Hb. unfold setDefinition. rewrite (sh_nth _ _ _ H). destruct (nth_error h a) as [d|] eqn:Ea; simpl; [|do 4 eexists; split; [reflexivity|split; [reflexivity|auto]]].
  rewrite lookup_shift. destruct (lookup (gDefinition r) (dName d)); simpl; [do 4 eexists; split; [reflexivity|split; [reflexivity|auto]]|].
  do 4 eexists. split; [reflexivity|]. split; [unfold shiftR; simpl; rewrite map_app; reflexivity|]. split.
  - apply upd_same; auto; kinds.
  - assert (La : a < n) by (rewrite <- (sh_len _ _ _ H); apply nth_error_Some; congruence). destruct Hb as [B1 B2]. split; simpl; [constructor; auto|apply Forall_app; split; auto].
Qed.
Lemma newRegistry_same n defs : forall h h' r, sameH n h h' -> belowR n r ->
  exists h1 h1' r1, newRegistryLoop h r defs = (h1, r1) /\ newRegistryLoop h' (shiftR r) (map shift defs) = (h1', shiftR r1) /\ sameH n h1 h1' /\ belowR n r1.
Proof.
  induction defs as [|a defs IH]; intros h h' r H Hb; cbn [newRegistryLoop map]; [do 3 eexists; split; [reflexivity|split; [reflexivity|auto]]|].
  destruct (setDefinition_same n h h' r a H Hb) as (h1 & h1' & r1 & e & E1 & E2 & H1 & B1). rewrite E1, E2. apply IH; auto.
Qed.

(** ** whitespace *)
Lemma preinit_same n defs : forall h h', sameH n h h' -> sameH n (preinitAll h defs) (preinitAll h' (map shift defs)).
Proof. unfold preinitAll. induction defs as [|a defs IH]; intros h h' H; simpl; auto. apply IH. apply upd_same; auto; kinds. Qed.
Lemma splitWs_same n defs : forall h h', sameH n h h' -> exists h1 h1' w r,
  splitWhitespaceDefs h defs = (h1, w, r) /\ splitWhitespaceDefs h' (map shift defs) = (h1', map shift w, map shift r) /\ sameH n h1 h1'.
Proof.
  induction defs as [|a defs IH]; intros h h' H; cbn [splitWhitespaceDefs map]; [do 4 eexists; split; [reflexivity|split; [reflexivity|auto]]|].
  rewrite (commitAt_same _ _ _ a H). destruct (hasFlag (commitAt h a) CWhitespace).
  - destruct (IH (updNth a (fun d => setCommitType (N.lor (dCommit d) CAlias) d) h) (updNth (shift a) (fun d => setCommitType (N.lor (dCommit d) CAlias) d) h')) as (h1 & h1' & w & r & E1 & E2 & H1).
    { apply upd_same; auto; kinds. }
    cbv zeta. rewrite E1, E2. do 4 eexists. split; [reflexivity|split; [reflexivity|auto]].
  - destruct (IH h h' H) as (h1 & h1' & w & r & E1 & E2 & H1). rewrite E1, E2. do 4 eexists. split; [reflexivity|split; [reflexivity|auto]].
Qed.
Lemma filter_shift (p p' : addr -> bool) l : (forall x, p' (shift x) = p x) -> filter p' (map shift l) = map shift (filter p l).
Proof. intros H. induction l as [|x l IH]; simpl; auto. rewrite H, IH. destruct (p x); auto. Qed.
Lemma last_shift l : last (map (@Some addr) (map shift l)) None = option_map shift (last (map (@Some addr) l) None).
Proof. induction l as [|x [|y l] IH]; auto. Qed.
Lemma splitRoot_same n h h' defs : sameH n h h' -> splitRoot h' (map shift defs) = (option_map shift (fst (splitRoot h defs)), map shift (snd (splitRoot h defs))).
Proof.
  intros H. unfold splitRoot. cbn [fst snd]. rewrite <- last_shift. f_equal.
  - f_equal. f_equal. apply filter_shift. intros x. rewrite (commitAt_same _ _ _ _ H). auto.
  - apply filter_shift. intros x. rewrite (commitAt_same _ _ _ _ H). auto.
Qed.
Lemma wsItems_fresh name items : forall i, fresh (fst (wsItems name i items)).
Proof.
  induction items as [|it items IH]; intros i; cbn [wsItems]; [constructor|]. specialize (IH (S i)). destruct (wsItems name (S i) items) as [defs rest]. simpl in IH.
  destruct (Z.eqb _ _); auto. destruct (Z.ltb _ _); simpl; repeat (constructor; auto).
Qed.
Lemma wsSeq_fresh name ct items : fresh (applyWhitespaceToSeq name ct items).
Proof.
  unfold applyWhitespaceToSeq. pose proof (wsItems_fresh name items 0) as H. destruct (wsItems name 0 items) as [defs its]. simpl in H. apply Forall_app. split; auto.
Qed.
Lemma wsDefs_same defs : forall n h h', sameH n h h' -> exists n1 h1 h1' r, n <= n1 /\
  applyWhitespaceToDefs h defs = (h1, r) /\ applyWhitespaceToDefs h' (map shift defs) = (h1', map shift r) /\ sameH n1 h1 h1'.
Proof.
  induction defs as [|a defs IH]; intros n h h' H; cbn [applyWhitespaceToDefs map]; [do 4 eexists; split; [apply Nat.le_refl|split; [reflexivity|split; [reflexivity|eauto]]]|].
  destruct (IH n h h' H) as (n1 & h1 & h1' & r & L1 & E1 & E2 & H1). rewrite (sh_nth _ _ _ H).
  assert (K : exists n1 h1 h1' r, n <= n1 /\ (let (h, rest) := applyWhitespaceToDefs h defs in (h, a :: rest)) = (h1, r) /\ (let (h, rest) := applyWhitespaceToDefs h' (map shift defs) in (h, shift a :: rest)) = (h1', map shift r) /\ sameH n1 h1 h1').
  { rewrite E1, E2. do 4 eexists. split; [eauto|split; [reflexivity|split; [reflexivity|eauto]]]. }
  destruct (nth_error h a) as [[nm i ct [c1 c2 c3|oi it rs ds gs ac v i'|os ds gs v i']]|] eqn:Ea; cbn [option_map shiftD shiftK dName dId dCommit dKind]; auto.
  destruct (hasFlag ct CNoWhitespace); auto. cbv zeta. set (new := applyWhitespaceToSeq nm ct it).
  destruct (IH _ _ _ (app_same _ _ _ new H (wsSeq_fresh nm ct it))) as (n2 & h2 & h2' & r2 & L2 & F1 & F2 & H2). rewrite F1, F2.
  do 4 eexists. split; [|split; [reflexivity|split; [|eauto]]]; [lia|]. rewrite map_app, shift_seq by (pose proof (sh_ge _ _ _ H); pose proof (sh_len _ _ _ H); lia).
  rewrite (sh_len _ _ _ H), (sh_len' _ _ _ H). auto.
Qed.
Lemma one_fresh d : dkids d = [] -> fresh [d].
Proof. intros. constructor; auto. Qed.
Lemma wsRoot_same n h h' root : sameH n h h' -> exists h1 h1', applyWhitespaceToRoot h root = (h1, n) /\ applyWhitespaceToRoot h' (shift root) = (h1', shift n) /\ sameH (n + 1) h1 h1'.
Proof.
  intros H. unfold applyWhitespaceToRoot. cbv zeta. rewrite (nameAt_same _ _ _ _ H). do 2 eexists. split; [|split].
  - rewrite updNth_length, (sh_len _ _ _ H). reflexivity.
  - rewrite updNth_length, (sh_len' _ _ _ H). rewrite (shift_ge n) by apply (sh_ge _ _ _ H). reflexivity.
  - apply new_same; [apply upd_same; auto; kinds|apply one_fresh; auto|auto].
Qed.
Definition sameWs n (x y : dheap * list addr * addr) : Prop :=
  exists n1, n <= n1 /\ sameH n1 (fst (fst x)) (fst (fst y)) /\ snd (fst y) = map shift (snd (fst x)) /\ snd y = shift (snd x) /\ snd x < n1.
Lemma applyWs_same n h h' defs : sameH n h h' -> rel (sameWs n) (applyWhitespace h defs) (applyWhitespace h' (map shift defs)).
Proof.
  intros H. unfold applyWhitespace. destruct (splitWs_same n defs h h' H) as (h1 & h1' & w & r & E1 & E2 & H1). rewrite E1, E2. cbv zeta.
  assert (En : map (nameAt h1') (map shift w) = map (nameAt h1) w) by (rewrite map_map; apply map_ext; intros; eapply nameAt_same; eauto). rewrite En.
  pose proof (app_same _ _ _ [newChoice whitespaceName CAlias (map (nameAt h1) w)] H1 (one_fresh (newChoice whitespaceName CAlias (map (nameAt h1) w)) eq_refl)) as H2.
  destruct (wsDefs_same r _ _ _ H2) as (n3 & h3 & h3' & r3 & L3 & F1 & F2 & H3). rewrite F1, F2. rewrite (splitRoot_same _ _ _ r3 H3).
  destruct (splitRoot h3 r3) as [[root|] defs3]; cbn [option_map fst snd]; [|constructor].
  destruct (wsRoot_same _ _ _ root H3) as (h4 & h4' & G1 & G2 & H4). rewrite G1, G2. constructor. exists (n3 + 1). cbn [fst snd]. simpl in L3. split; [lia|]. split; auto. split; [|split; [reflexivity|lia]].
  rewrite !map_app. simpl. rewrite (sh_len _ _ _ H1), (sh_len' _ _ _ H1), (shift_ge n) by apply (sh_ge _ _ _ H). auto.
Qed.

(** ** validate and init *)
Section REC.
Variables (m : list (string * addr)) (n : nat).
Hypothesis Hm : below n m.
Definition V2 (x y : dheap * option gerr) : Prop := sameH n (fst x) (fst y) /\ snd x = snd y.
Lemma validateNames_same rec rec' names : (forall h h' a, sameH n h h' -> rel V2 (rec h a) (rec' h' (shift a))) ->
  forall h h', sameH n h h' -> rel V2 (validateNames m rec names h) (validateNames (shiftM m) rec' names h').
Proof.
  intros Hr. induction names as [|x names IH]; intros h h' H; cbn [validateNames]; [constructor; split; auto|]. rewrite lookup_shift.
  destruct (lookup m x); cbn [option_map]; [|constructor; split; auto]. eapply rel_bind; [apply Hr; auto|]. intros [h1 [e1|]] [h2 e2] [X1 X2]; simpl in X1, X2; subst e2.
  - constructor. split; auto.
  - apply IH; auto.
Qed.
Lemma setKind_same h h' a K : sameH n h h' -> Forall (fun y => y < n) (dkids (mkDef "" 0 0%N K)) -> sameH n (updNth a (setKind K) h) (updNth (shift a) (setKind (shiftK K)) h').
Proof. intros H HK. apply upd_same; auto. Qed.
Lemma validate_same fuel : forall h h' a, sameH n h h' -> rel V2 (validate m fuel h a) (validate (shiftM m) fuel h' (shift a)).
Proof.
  induction fuel as [|fuel IH]; intros h h' a H; cbn [validate]; [constructor|]. rewrite (sh_nth _ _ _ H). destruct (nth_error h a) as [d|] eqn:Ea; cbn [option_map]; [|constructor].
  pose proof (sh_kids _ _ _ H _ _ Ea) as Hk. cbn [shiftD dKind]. unfold dkids in Hk. destruct (dKind d) as [c1 c2 c3|oi it rs ds gs ac v i|os ds gs v i]; cbn [shiftK].
  - constructor. split; auto.
  - destruct v; [constructor; split; auto|]. apply validateNames_same; auto. apply (setKind_same _ _ _ (KSeq oi it rs ds gs ac true i)); auto.
  - destruct v; [constructor; split; auto|]. apply validateNames_same; auto. apply (setKind_same _ _ _ (KChoice os ds gs true i)); auto.
Qed.
Lemma forAddrs_same rec rec' l : (forall h h' a, sameH n h h' -> rel (sameH n) (rec h a) (rec' h' (shift a))) ->
  forall h h', sameH n h h' -> rel (sameH n) (forAddrs rec l h) (forAddrs rec' (map shift l) h').
Proof. intros Hr. induction l as [|x l IH]; intros h h' H; cbn [forAddrs map]; [constructor; auto|]. eapply rel_bind; [apply Hr; auto|]. intros; apply IH; auto. Qed.
Lemma addGen_same fuel g : forall h h' a, sameH n h h' -> rel (sameH n) (addGeneralization fuel g h a) (addGeneralization fuel g h' (shift a)).
Proof.
  induction fuel as [|fuel IH]; intros h h' a H; cbn [addGeneralization]; [constructor|]. rewrite (sh_nth _ _ _ H). destruct (nth_error h a) as [d|] eqn:Ea; cbn [option_map]; [|constructor].
  pose proof (sh_kids _ _ _ H _ _ Ea) as Hk. cbn [shiftD dKind]. unfold dkids in Hk. destruct (dKind d) as [c1 c2 c3|oi it rs ds gs ac v i|os ds gs v i]; cbn [shiftK].
  - constructor; auto.
  - destruct (intsContain gs g); constructor; auto. apply (setKind_same _ _ _ (KSeq oi it rs ds (gs ++ [g]) ac v i)); auto.
  - destruct (intsContain gs g); [constructor; auto|]. apply forAddrs_same; auto. apply (setKind_same _ _ _ (KChoice os ds (gs ++ [g]) v i)); auto.
Qed.
Lemma addItem_same h h' d x : x < n -> sameH n h h' -> sameH n (updNth d (addItemDef x) h) (updNth (shift d) (addItemDef (shift x)) h').
Proof.
  intros Hx H. apply upd_same; auto.
  - intros [nm0 id0 ct0 [c1 c2 c3|oi0 it0 rs0 ds0 gs0 ac0 v0 i0|os0 ds0 gs0 v0 i0]]; unfold shiftD; simpl; auto; rewrite map_app; auto.
  - intros [nm0 id0 ct0 [c1 c2 c3|oi0 it0 rs0 ds0 gs0 ac0 v0 i0|os0 ds0 gs0 v0 i0]]; unfold dkids; simpl; auto; intros HF; apply Forall_app; split; auto.
Qed.
Lemma initItems_same rec rec' d names : (forall h h' a, sameH n h h' -> rel (sameH n) (rec h a) (rec' h' (shift a))) ->
  forall ac h h', sameH n h h' -> rel (fun x y => sameH n (fst x) (fst y) /\ snd x = snd y) (initItemsLoop m rec d names ac h) (initItemsLoop (shiftM m) rec' (shift d) names ac h').
Proof.
  intros Hr. induction names as [|x names IH]; intros ac h h' H; cbn [initItemsLoop]; [constructor; split; auto|]. rewrite lookup_shift.
  destruct (lookup m x) as [a|] eqn:El; cbn [option_map]; [|constructor]. cbv zeta. eapply rel_bind; [apply Hr; apply addItem_same; auto; eapply lookup_below; eauto|].
  intros h1 h2 H1. rewrite (isCharAt_same _ _ _ _ H1). apply IH; auto.
Qed.
Lemma initOptions_same rec rec' gf d id names : (forall h h' a, sameH n h h' -> rel (sameH n) (rec h a) (rec' h' (shift a))) ->
  forall h h', sameH n h h' -> rel (sameH n) (initOptionsLoop m rec gf d id names h) (initOptionsLoop (shiftM m) rec' gf (shift d) id names h').
Proof.
  intros Hr. induction names as [|x names IH]; intros h h' H; cbn [initOptionsLoop]; [constructor; auto|]. rewrite lookup_shift.
  destruct (lookup m x) as [a|] eqn:El; cbn [option_map]; [|constructor]. cbv zeta. eapply rel_bind; [apply Hr; apply addItem_same; auto; eapply lookup_below; eauto|].
  intros h1 h2 H1. eapply rel_bind; [apply addGen_same; eauto|]. intros; apply IH; auto.
Qed.
Lemma initDef_same fuel gf : forall h h' a, sameH n h h' -> rel (sameH n) (initDef m fuel gf h a) (initDef (shiftM m) fuel gf h' (shift a)).
Proof.
  induction fuel as [|fuel IH]; intros h h' a H; cbn [initDef]; [constructor|]. rewrite (sh_nth _ _ _ H). destruct (nth_error h a) as [d|] eqn:Ea; cbn [option_map]; [|constructor].
  cbn [shiftD dKind dId]. destruct (dKind d) as [c1 c2 c3|oi it rs ds gs ac v i|os ds gs v i]; cbn [shiftK].
  - constructor; auto.
  - destruct i; [constructor; auto|]. cbv zeta. eapply rel_bind; [apply initItems_same; auto; apply upd_same; auto; kinds|]. intros [h1 b1] [h2 b2] [X1 X2]; simpl in X1, X2; subst b2.
    constructor. apply upd_same; auto; kinds.
  - destruct i; [constructor; auto|]. apply initOptions_same; auto. apply upd_same; auto; kinds.
Qed.
Lemma validateAll_same fuel l : forall h h', sameH n h h' -> rel V2 (validateAll m fuel l h) (validateAll (shiftM m) fuel (map shift l) h').
Proof.
  induction l as [|x l IH]; intros h h' H; cbn [validateAll map]; [constructor; split; auto|]. eapply rel_bind; [apply validate_same; eauto|].
  intros [h1 [e1|]] [h2 e2] [X1 X2]; simpl in X1, X2; subst e2; [constructor; split; auto|auto].
Qed.
End REC.

(** ** syntaxes *)
Definition regOf (s : syntax) : registry := match sRegistry s with Some r => r | None => emptyRegistry end.
Record sameS (s s' : syntax) : Prop := {
  ss_heap : sameH (List.length (sHeap s)) (sHeap s) (sHeap s');
  ss_reg : regOf s' = shiftR (regOf s);
  ss_below : belowR (List.length (sHeap s)) (regOf s);
  ss_init : sInitialized s' = sInitialized s;
  ss_failed : sInitFailed s' = sInitFailed s;
  ss_explicit : sExplicitRoot s' = sExplicitRoot s;
  ss_kws : sKeywords s' = map shift (sKeywords s);
  ss_kwsL : Forall (fun x => x < List.length (sHeap s)) (sKeywords s);
  ss_root : sRoot s' = option_map shift (sRoot s);
  ss_rootL : forall r, sRoot s = Some r -> r < List.length (sHeap s);
  ss_some : sRoot s <> None -> sRegistry s <> None /\ sRegistry s' <> None }.
Definition S2 (x y : syntax * option gerr) : Prop := sameS (fst x) (fst y) /\ snd x = snd y.

Lemma upd_len {A} i (g : A -> A) l : List.length (updNth i g l) = List.length l.
Proof. apply updNth_length. Qed.
Lemma applyRoot_same s s' a : sameS s s' -> a < List.length (sHeap s) -> sRegistry s <> None -> sRegistry s' <> None -> S2 (applyRoot s a) (applyRoot s' (shift a)).
Proof.
  intros H Ha N1 N2. pose proof (ss_heap _ _ H) as Hh. unfold applyRoot. rewrite (sh_nth _ _ _ Hh). destruct (nth_error (sHeap s) a) as [d|] eqn:Ea; cbn [option_map]; [|split; auto].
  cbn [shiftD dCommit]. rewrite (ss_explicit _ _ H). destruct (_ && sExplicitRoot s)%bool; [split; auto|]. cbv zeta. rewrite (ss_root _ _ H).
  set (b := (hasFlag (dCommit d) CRoot || negb (sExplicitRoot s))%bool).
  set (h1 := match sRoot s with Some r => if b then updNth r (fun d => setCommitType (N.ldiff (dCommit d) CRoot) d) (sHeap s) else sHeap s | None => sHeap s end).
  set (h1' := match option_map shift (sRoot s) with Some r => if b then updNth r (fun d => setCommitType (N.ldiff (dCommit d) CRoot) d) (sHeap s') else sHeap s' | None => sHeap s' end).
  assert (H1 : sameH (List.length (sHeap s)) h1 h1').
  { unfold h1, h1'. destruct (sRoot s); cbn [option_map]; auto. destruct b; auto. apply upd_same; auto; kinds. }
  assert (L1 : List.length h1 = List.length (sHeap s)) by apply (sh_len _ _ _ H1).
  destruct b.
  - split; cbn [fst snd]; auto. destruct H. split; cbn [sHeap sRegistry sInitialized sInitFailed sExplicitRoot sKeywords sRoot] in *; auto; try rewrite upd_len, L1; auto.
    + apply upd_same; auto; kinds.
    + intros r X; inversion X; subst; auto.
  - split; cbn [fst snd]; auto. destruct H. split; cbn [sHeap sRegistry sInitialized sInitFailed sExplicitRoot sKeywords sRoot] in *; auto; try rewrite L1; auto.
Qed.
Lemma register_same s s' d : sameS s s' -> dkids d = [] -> S2 (register s d) (register s' d).
Proof.
  intros H Hd. unfold register. rewrite (ss_init _ _ H). destruct (sInitialized s); [split; auto|]. cbv zeta.
  fold (regOf s) (regOf s'). rewrite (ss_reg _ _ H). pose proof (ss_heap _ _ H) as Hh.
  set (t := mkSyntax (sHeap s ++ [d]) (Some (regOf s)) false (sInitFailed s) (sExplicitRoot s) (sKeywords s) (sRoot s)).
  set (t' := mkSyntax (sHeap s' ++ [d]) (Some (shiftR (regOf s))) false (sInitFailed s') (sExplicitRoot s') (sKeywords s') (sRoot s')).
  assert (Lt : List.length (sHeap t) = List.length (sHeap s) + 1) by (unfold t; cbn [sHeap]; rewrite app_length; auto).
  assert (Ht : sameS t t').
  { destruct H. split; try rewrite Lt; unfold t, t'; cbn [regOf sHeap sRegistry sInitialized sInitFailed sExplicitRoot sKeywords sRoot]; auto.
    - apply new_same; auto. apply one_fresh; auto.
    - eapply belowR_mono; [|eauto]. lia.
    - eapply Forall_impl; [|eauto]. intros; simpl in *; lia.
    - intros r Hr. apply ss_rootL0 in Hr. lia.
    - intros _. split; discriminate. }
  destruct (checkCommitType d); [split; auto|].
  assert (La : shift (List.length (sHeap s)) = List.length (sHeap s')) by (rewrite shift_ge by apply (sh_ge _ _ _ Hh); rewrite (sh_len' _ _ _ Hh); auto).
  assert (R : S2 (applyRoot t (List.length (sHeap s))) (applyRoot t' (List.length (sHeap s')))).
  { rewrite <- La. apply applyRoot_same; auto; [lia| |]; unfold t, t'; simpl; discriminate. }
  assert (LR : List.length (sHeap (fst (applyRoot t (List.length (sHeap s))))) = List.length (sHeap t)).
  { unfold applyRoot. destruct (nth_error (sHeap t) (List.length (sHeap s))); auto. destruct (_ && _)%bool; auto. destruct (sRoot t); destruct (_ || _)%bool; cbn [fst sHeap]; rewrite ?upd_len; auto. }
  destruct (applyRoot t (List.length (sHeap s))) as [u [e|]], (applyRoot t' (List.length (sHeap s'))) as [u' e'], R as [R1 R2]; cbn [fst snd] in R1, R2, LR; subst e'; [split; auto|].
  destruct (setDefinition_same _ (sHeap u) (sHeap u') (regOf s) (List.length (sHeap s)) (ss_heap _ _ R1)) as (h1 & h1' & r1 & e & E1 & E2 & H1 & B1).
  { rewrite LR, Lt. eapply belowR_mono; [|apply (ss_below _ _ H)]. lia. }
  rewrite La in E2. rewrite E1, E2. split; cbn [fst snd]; auto. assert (L1 : List.length h1 = List.length (sHeap u)) by apply (sh_len _ _ _ H1).
  destruct R1. split; cbn [regOf sHeap sRegistry sInitialized sInitFailed sExplicitRoot sKeywords sRoot] in *; auto; try rewrite L1; auto.
  - destruct (hasFlag _ _); auto. rewrite map_app, ss_kws0. simpl. rewrite La. auto.
  - destruct (hasFlag _ _); auto. apply Forall_app. split; auto. constructor; auto. lia.
  - intros _. split; discriminate.
Qed.
Lemma class_same s s' n ct b cs rs : sameS s s' -> S2 (class s n ct b cs rs) (class s' n ct b cs rs).
Proof.
  intros H. unfold class. pose proof (register_same s s' (newChar (childName n 0) b cs rs) H eq_refl) as [R1 R2].
  destruct (register s _) as [u [e|]], (register s' _) as [u' e']; cbn [fst snd] in R1, R2; subst e'; [split; auto|]. apply register_same; auto.
Qed.
Lemma charLoop_same n l : forall i s s', sameS s s' -> S2 (charSeqLoop s n i l) (charSeqLoop s' n i l).
Proof.
  induction l as [|c l IH]; intros i s s' H; cbn [charSeqLoop]; [split; auto|]. pose proof (register_same s s' (newChar (childName n i) false [c] []) H eq_refl) as [R1 R2].
  destruct (register s _) as [u [e|]], (register s' _) as [u' e']; cbn [fst snd] in R1, R2; subst e'; [split; auto|]. auto.
Qed.
Lemma charSequence_same s s' n ct l : sameS s s' -> S2 (charSequence s n ct l) (charSequence s' n ct l).
Proof.
  intros H. unfold charSequence. pose proof (charLoop_same n l 0 s s' H) as [R1 R2].
  destruct (charSeqLoop s n 0 l) as [u [e|]], (charSeqLoop s' n 0 l) as [u' e']; cbn [fst snd] in R1, R2; subst e'; [split; auto|]. apply register_same; auto.
Qed.
Lemma defineCall_same s s' d : sameS s s' -> S2 (defineCall s d) (defineCall s' d).
Proof.
  intros H. unfold defineCall. destruct (isValidSymbol _); [|split; auto]. destruct d; cbn [withUserDefined defineRaw]; unfold anyChar; try apply class_same; try apply charSequence_same; try apply register_same; auto.
Qed.

(** ** ReadSyntax *)
Fixpoint expr_same (toks : list rune) (e : node) {struct e} : forall s s' n ct, sameS s s' -> rel S2 (defineExpression toks s n ct e) (defineExpression toks s' n ct e).
Proof.
  destruct e as [en from to nodes]. intros s s' n ct H. cbn [defineExpression].
  destruct (String.eqb en "any-char"); [constructor; apply class_same; auto|].
  destruct (String.eqb en "char-class").
  { unfold defineClass. destruct (match nodes with c :: n' => if String.eqb (nName c) "class-not" then (true, n') else (false, nodes) | [] => (false, nodes) end) as [b l].
    destruct (classItems toks l); simpl; constructor. apply class_same; auto. }
  destruct (String.eqb en "char-sequence"); [unfold defineCharSequence; destruct (nodeChars toks nodes); simpl; constructor; apply charSequence_same; auto|].
  destruct (String.eqb en "symbol"); [constructor; apply register_same; auto|].
  destruct (String.eqb en "sequence").
  { match goal with |- rel S2 (?F s 0 [] nodes) (?G s' 0 [] nodes) => cut (forall s s', sameS s s' -> forall i items, rel S2 (F s i items nodes) (G s' i items nodes)); [intros K; apply (K s s' H)|] end.
    clear s s' H. induction nodes as [|[x1 x2 x3 ns] nodes IH]; intros s s' H i items; [constructor; apply register_same; auto|].
    destruct ns as [|m ns]; [constructor|]. cbv zeta.
    assert (R : rel (fun x y => fst x = fst y /\ S2 (snd x) (snd y))
      (if String.eqb (nName m) "symbol" then Ok (nodeText toks m, (s, None)) else se <- defineExpression toks s (childName n i) (N.lor CAlias (N.land ct CNoWhitespace)) m ;; Ok (childName n i, se))
      (if String.eqb (nName m) "symbol" then Ok (nodeText toks m, (s', None)) else se <- defineExpression toks s' (childName n i) (N.lor CAlias (N.land ct CNoWhitespace)) m ;; Ok (childName n i, se))).
    { destruct (String.eqb (nName m) "symbol"); [constructor; split; [reflexivity|split; [exact H|reflexivity]]|]. eapply rel_bind; [apply (expr_same toks m); auto|]. intros; constructor; auto. }
    eapply rel_bind; [exact R|]. intros [r [u [e|]]] [r' [u' e']] [Q1 [Q2 Q3]]; cbn [fst snd] in *; subst r' e'; [constructor; split; auto|].
    destruct (itemQuantity toks (m :: ns)) as [[[mn mx]|]|w|]; cbn [bind]; try constructor; [|split; auto]. apply IH; auto. }
  destruct (String.eqb en "choice"); [|constructor; split; auto].
  match goal with |- rel S2 (?F s 0 [] nodes) (?G s' 0 [] nodes) => cut (forall s s', sameS s s' -> forall i items, rel S2 (F s i items nodes) (G s' i items nodes)); [intros K; apply (K s s' H)|] end.
  clear s s' H. induction nodes as [|m nodes IH]; intros s s' H i items; [constructor; apply register_same; auto|]. cbv zeta.
  assert (R : rel (fun x y => fst x = fst y /\ S2 (snd x) (snd y))
      (if String.eqb (nName m) "symbol" then Ok (nodeText toks m, (s, None)) else se <- defineExpression toks s (childName n i) (N.lor (N.land ct CNoWhitespace) CAlias) m ;; Ok (childName n i, se))
      (if String.eqb (nName m) "symbol" then Ok (nodeText toks m, (s', None)) else se <- defineExpression toks s' (childName n i) (N.lor (N.land ct CNoWhitespace) CAlias) m ;; Ok (childName n i, se))).
  { destruct (String.eqb (nName m) "symbol"); [constructor; split; [reflexivity|split; [exact H|reflexivity]]|]. eapply rel_bind; [apply (expr_same toks m); auto|]. intros; constructor; auto. }
  eapply rel_bind; [exact R|]. intros [r [u [e|]]] [r' [u' e']] [Q1 [Q2 Q3]]; cbn [fst snd] in *; subst r' e'; [constructor; split; auto|]. apply IH; auto.
Qed.
Lemma definitions_same toks l : forall s s', sameS s s' -> rel S2 (addDefinitions toks s l) (addDefinitions toks s' l).
Proof.
  induction l as [|x l IH]; intros s s' H; cbn [addDefinitions]; [constructor; split; auto|]. eapply rel_bind.
  - unfold addDefinition. destruct (nNodes x) as [|y [|z rest]]; try constructor. apply expr_same; auto.
  - intros [u [e|]] [u' e'] [R1 R2]; cbn [fst snd] in *; subst e'; [constructor; split; auto|auto].
Qed.
Lemma readSyntax_same fuel s s' text e : sameS s s' -> rel S2 (ReadSyntax fuel s text e) (ReadSyntax fuel s' text e).
Proof.
  intros H. unfold ReadSyntax. rewrite (ss_init _ _ H). destruct (sInitialized s); [constructor; split; auto|].
  destruct (selfParse fuel text e) as [[t toks|err]|w|]; cbn [bind]; try constructor; [|split; auto]. apply definitions_same; auto.
Qed.

(** ** Init *)
Lemma init_same fuel s s' : sameS s s' -> rel S2 (Init fuel s) (Init fuel s').
Proof.
  intros H. unfold Init. rewrite (ss_failed _ _ H), (ss_init _ _ H). destruct (sInitFailed s); [constructor; split; auto|]. destruct (sInitialized s) eqn:Ei; [constructor; split; auto|].
  pose proof (ss_heap _ _ H) as Hh. pose proof (ss_below _ _ H) as Hb. pose proof (ss_reg _ _ H) as Hr. pose proof (ss_kws _ _ H) as Hk. pose proof (ss_kwsL _ _ H) as HkL.
  rewrite (ss_root _ _ H). destruct (sRoot s) as [root|] eqn:Er; cbn [option_map]; [|constructor; split; auto].
  destruct (ss_some _ _ H) as [N1 N2]; [rewrite Er; discriminate|]. unfold regOf in Hb, Hr. destruct (sRegistry s) as [reg|]; [|congruence]. destruct (sRegistry s') as [reg'|]; [|congruence]. subst reg'.
  rewrite (sh_nth _ _ _ Hh). destruct (nth_error (sHeap s) root) as [rd|] eqn:En; cbn [option_map]; [|constructor].
  assert (Ec : checkCommitType (shiftD rd) = checkCommitType rd) by reflexivity. rewrite Ec. destruct (checkCommitType rd); [constructor; split; auto|].
  cbv zeta. pose proof (preinit_same _ (gDefinitions reg) _ _ Hh) as Hp. cbn [shiftR gDefinitions gDefinition].
  rewrite (hasWhitespace_same _ _ _ _ Hp).
  set (n0 := List.length (sHeap s)) in *.
  set (HR := fun (x y : dheap * registry * addr) => exists n1, n0 <= n1 /\ sameH n1 (fst (fst x)) (fst (fst y)) /\ snd (fst y) = shiftR (snd (fst x)) /\ belowR n1 (snd (fst x)) /\ snd y = shift (snd x) /\ snd x < n1).
  eapply (rel_bind HR).
  { destruct (hasWhitespace _ _).
    - eapply rel_bind; [apply applyWs_same; exact Hp|]. intros [[h1 d1] r1] [[h2 d2] r2] (n1 & Ln & X1 & X2 & X3 & X4). cbn [fst snd] in *. subst d2 r2.
      unfold newRegistry. destruct (newRegistry_same n1 d1 h1 h2 emptyRegistry X1) as (h3 & h3' & r3 & E1 & E2 & H3 & B3); [split; constructor|].
      change (shiftR emptyRegistry) with emptyRegistry in E2. rewrite E1, E2. constructor. exists n1. cbn [fst snd]. auto 10.
    - constructor. exists n0. cbn [fst snd]. split; [lia|]. split; [exact Hp|]. split; auto. split; auto. split; auto. apply nth_error_Some. congruence. }
  intros [[h1 reg1] root1] [[h2 reg2] root2] (n1 & Ln & X1 & X2 & X3 & X4 & X5). cbn [fst snd] in *. subst reg2 root2. rewrite Hk. cbn [shiftR gDefinition].
  change [shift root1] with (map shift [root1]). rewrite <- map_app.
  assert (HkL' : Forall (fun x => x < n1) (sKeywords s)) by (eapply Forall_impl; [|exact HkL]; intros; simpl in *; lia).
  assert (FIN : forall b1 b2 hx hy, sameH n1 hx hy -> sameS (mkSyntax hx (Some reg1) b1 b2 (sExplicitRoot s) (sKeywords s) (Some root1)) (mkSyntax hy (Some (shiftR reg1)) b1 b2 (sExplicitRoot s') (map shift (sKeywords s)) (Some (shift root1)))).
  { intros b1 b2 hx hy Hxy. pose proof (sh_len _ _ _ Hxy) as Lx. split; cbn [regOf sHeap sRegistry sInitialized sInitFailed sExplicitRoot sKeywords sRoot]; try rewrite Lx; auto.
    - apply (ss_explicit _ _ H).
    - intros r X; inversion X; subst; auto.
    - intros _; split; discriminate. }
  pose proof (proj1 X3) as X3m. eapply rel_bind; [apply validateAll_same; eauto|]. intros [h3 [e3|]] [h4 e4] [Y1 Y2]; cbn [fst snd] in *; subst e4.
  - constructor. split; auto. unfold setFailed. cbn [fst]. rewrite (ss_init _ _ H), Hk. rewrite Ei. apply FIN; auto.
  - eapply rel_bind; [apply forAddrs_same; [|exact Y1]|].
    + intros. apply initDef_same; auto.
    + intros h5 h6 Z. constructor. split; auto. apply FIN; auto.
Qed.

(** ** Parse *)
Lemma parsers_same s s' x : sameS s s' -> nth_error (parsers s') (shift x) = option_map (fun o => match o with
    | PSeq n i c it rs gs ac => PSeq n i c (map shift it) rs gs ac | PChoice n i c os gs => PChoice n i c (map shift os) gs | o => o end) (nth_error (parsers s) x).
Proof.
  intros H. unfold parsers. rewrite !nth_error_map, (sh_nth _ _ _ (ss_heap _ _ H)). destruct (nth_error (sHeap s) x) as [d|]; simpl; auto. f_equal. unfold toParser, shiftD. simpl. destruct (dKind d); auto.
Qed.
Lemma parseInput_same s s' root fuel input e : sameS s s' -> sRoot s = Some root ->
  parseInput (parsers s') (map shift (sKeywords s)) (shift root) fuel input e = parseInput (parsers s) (sKeywords s) root fuel input e.
Proof.
  intros H Hroot. set (n := List.length (sHeap s)). set (L := fun a => a < n). set (P := parsers s). set (Q := parsers s').
  assert (HK : forall a, L a -> exists o o', nth_error P a = Some o /\ nth_error Q (shift a) = Some o' /\
     o' = match o with PSeq n i c it rs gs ac => PSeq n i c (map shift it) rs gs ac | PChoice n i c os gs => PChoice n i c (map shift os) gs | o => o end /\ forall x, In x (kids o) -> L x).
  { intros a Ha. unfold P, Q. rewrite (parsers_same s s' a H). unfold parsers. rewrite nth_error_map. unfold L, n in Ha. apply nth_error_Some in Ha. destruct (nth_error (sHeap s) a) as [d|] eqn:Ed; [|congruence].
    cbn [option_map]. eexists _, _. split; [reflexivity|]. split; [reflexivity|]. split; [reflexivity|]. intros x Hx. pose proof (sh_kids _ _ _ (ss_heap _ _ H) _ _ Ed) as Hf. rewrite Forall_forall in Hf. apply Hf.
    unfold toParser in Hx. unfold dkids. destruct (dKind d); exact Hx. }
  assert (AP : forall a, L a -> exists o o', nth_error P a = Some o /\ nth_error Q (shift a) = Some o' /\ alikeP shift o o' /\ forall x, In x (kids o) -> L x).
  { intros a Ha. destruct (HK a Ha) as (o & o' & E1 & E2 & -> & E4). eexists _, _. split; [eauto|]. split; [eauto|]. split; auto. destruct o; simpl; auto 10. }
  assert (AB : forall a, L a -> exists o o', nth_error P a = Some o /\ nth_error Q (shift a) = Some o' /\ alikeB shift o o' /\ forall x, In x (kids o) -> L x).
  { intros a Ha. destruct (HK a Ha) as (o & o' & E1 & E2 & -> & E4). eexists _, _. split; [eauto|]. split; [eauto|]. split; auto. destruct o; simpl; auto 10. }
  set (ok := fun a => L a /\ exists o, nth_error P a = Some o /\ isCh o = false /\ hasFlag (commitTypeOf o) CUserDefined = true).
  assert (Hok1 : forall a o, L a -> nth_error P a = Some o -> isCh o = false -> hasFlag (commitTypeOf o) CUserDefined = true -> ok a) by (intros; split; eauto).
  assert (Hok2 : forall a, ok a -> L a /\ exists o, nth_error P a = Some o /\ isCh o = false /\ hasFlag (commitTypeOf o) CUserDefined = true) by auto.
  assert (HoptB : forall a n i c os gs x ox ox', L a -> nth_error P a = Some (PChoice n i c os gs) -> In x os -> nth_error P x = Some ox -> nth_error Q (shift x) = Some ox' -> nodeID ox' = nodeID ox).
  { intros a n0 i c os gs x ox ox' Ha Eo Hx Ex Ex'. destruct (HK a Ha) as (o1 & o2 & F1 & _ & _ & F4). rewrite Eo in F1. inversion F1; subst o1. destruct (HK x (F4 x Hx)) as (o3 & o4 & G1 & G2 & G3 & _).
    rewrite Ex in G1. rewrite Ex' in G2. inversion G1; inversion G2; subst. destruct o3; auto. }
  assert (H1 : forall k, In k (sKeywords s) -> L k) by (apply Forall_forall; apply (ss_kwsL _ _ H)).
  assert (H2 : L root) by (apply (ss_rootL _ _ H); auto).
  assert (R : rel eq (parseInput P (sKeywords s) root fuel input e) (parseInput Q (map shift (sKeywords s)) (shift root) fuel input e)).
  { unfold parseInput, parseInputPB. eapply rel_bind.
    { apply (parse_sim shift ok P Q L AP Hok1 (sKeywords s) fuel H1 root (newContext input e) (newContext input e) H2). split; auto. intros p; discriminate. }
    intros c d Hc. pose proof Hc as [Hd _]. replace (cReadErr d) with (cReadErr c) by (subst d; auto). destruct (cReadErr c); [constructor; auto|].
    eapply rel_bind.
    { apply (finalize_sim shift ok P Q L AP Hok2 root H2 c d Hc). }
    intros [c1 [e1|]] [d1 [e2|]] [X1 X2]; simpl in X1, X2; try contradiction.
    - constructor. destruct X2 as [[->|(o & l & cc & o1 & o2 & W1 & W2 & -> & ->)] X3]; auto. destruct (HK root H2) as (o3 & o4 & G1 & G2 & G3 & _).
      rewrite W1 in G1. rewrite W2 in G2. inversion G1; inversion G2; subst. destruct o3; auto.
    - eapply rel_bind.
      { apply (build_sim shift shift P Q L AB HoptB fuel root (setResults (setOffset c1 0) (resetPending (cResults (setOffset c1 0)))) (setResults (setOffset d1 0) (resetPending (cResults (setOffset d1 0))))); auto.
        destruct X1 as [-> _]. reflexivity. }
      intros [[n1 b1] c2] [[n2 b2] d2] [Y1 Y2]. simpl in Y1, Y2. inversion Y1; subst n2 b2. destruct n1; constructor. rewrite Y2. auto. }
  inversion R; subst; auto.
Qed.
Lemma parse_same fuel s s' input e : sameS s s' -> rel (fun x y => sameS (fst x) (fst y) /\ snd x = snd y) (Parse fuel s input e) (Parse fuel s' input e).
Proof.
  intros H. unfold Parse. eapply rel_bind; [apply init_same; eauto|]. intros [u [err|]] [u' err'] [R1 R2]; cbn [fst snd] in *; subst err'; [constructor; split; auto|].
  rewrite (ss_root _ _ R1). destruct (sRoot u) as [root|] eqn:Er; cbn [option_map]; [|constructor]. rewrite (ss_kws _ _ R1). rewrite (parseInput_same u u' root); auto.
  destruct (parseInput _ _ _ _ _ _); cbn [bind]; constructor. split; auto.
Qed.
End SHIFT.
