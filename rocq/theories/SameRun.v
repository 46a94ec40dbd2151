(** Two syntaxes whose known definitions are the same after the whitespace is applied are initialized
    alike and parse alike. *)
From Verif Require Import Base Utf8 IdSet Results Parser Build Syntax ListFacts GenSim SyntaxFacts InitWalk InitRun InitCore InitSpec WsGen SameStore SameSim SameInit.

(** an object without its id and without the items as they were given *)
Definition nf (d : defobj) : defobj :=
  mkDef (dName d) 0 (dCommit d) (match dKind d with KSeq _ items rs defs gs ac v i => KSeq [] items rs defs gs ac v i | k => k end).
Lemma nf_name d d' : nf d = nf d' -> dName d = dName d'. Proof. intros H. apply (f_equal dName) in H. exact H. Qed.
Lemma nf_commit d d' : nf d = nf d' -> dCommit d = dCommit d'. Proof. intros H. apply (f_equal dCommit) in H. exact H. Qed.
Lemma nf_refs d d' : nf d = nf d' -> refsOf d = refsOf d'.
Proof. intros H. apply (f_equal dKind) in H. unfold nf in H. simpl in H. unfold refsOf. destruct (dKind d), (dKind d'); inversion H; auto. Qed.
Lemma nf_setID i d : nf (setID i d) = nf d.
Proof. reflexivity. Qed.
Lemma nf_setCommit c d d' : nf d = nf d' -> nf (setCommitType c d) = nf (setCommitType c d').
Proof.
  intros H. pose proof (nf_name _ _ H) as N. pose proof (f_equal dKind H) as Hk. unfold nf in Hk. simpl in Hk. unfold setCommitType. destruct (dKind d) eqn:E, (dKind d') eqn:E'; inversion Hk; auto; unfold nf; simpl; rewrite N; congruence.
Qed.
Lemma nf_setName n d d' : nf d = nf d' -> nf (setName n d) = nf (setName n d').
Proof. intros H. unfold nf in *. simpl. inversion H. congruence. Qed.

(** the registered objects *)
Record holds (O : list defobj) (h : dheap) (reg : registry) : Prop := mkHolds {
  hl_inv : regInv h reg;
  hl_in : forall o, In o O -> exists a d, lookup (gDefinition reg) (dName o) = Some a /\ nth_error h a = Some d /\ nf d = nf o;
  hl_out : forall n a, lookup (gDefinition reg) n = Some a -> In n (map dName O) }.
(** the known names have the same objects, and refer to known names *)
Definition known (K : string -> Prop) (O O' : list defobj) : Prop := forall n, K n ->
  (~ In n (map dName O) /\ ~ In n (map dName O')) \/
  exists o o', In o O /\ In o' O' /\ dName o = n /\ nf o = nf o' /\ Forall K (refsOf o).

Section RUN.
Variables (K : string -> Prop) (O O' : list defobj) (h h' : dheap) (reg reg' : registry).
Hypothesis HO : holds O h reg.
Hypothesis HO' : holds O' h' reg'.
Hypothesis Hun : unwalked h.
Hypothesis Hun' : unwalked h'.
Hypothesis HK : known K O O'.
Let m := gDefinition reg.
Let m' := gDefinition reg'.
Definition NA (a a' : addr) : Prop := exists n, K n /\ lookup m n = Some a /\ lookup m' n = Some a'.
Definition NI (i i' : nat) : Prop := exists a a' d d', NA a a' /\ nth_error h a = Some d /\ nth_error h' a' = Some d' /\ dId d = i /\ dId d' = i'.
Lemma look_name (O0 : list defobj) h0 reg0 n a : holds O0 h0 reg0 -> lookup (gDefinition reg0) n = Some a -> exists d i, nth_error h0 a = Some d /\ dName d = n /\ nth_error (gDefinitions reg0) i = Some a /\ dId d = S i.
Proof.
  intros H Hl. destruct (ri_map _ _ (hl_inv _ _ _ H) n a Hl) as (Hin & d & Hd & Hn). apply In_nth_error in Hin. destruct Hin as [i Hi].
  destruct (ri_defs _ _ (hl_inv _ _ _ H) i a Hi) as (d1 & Hd1 & Ei & _). rewrite Hd in Hd1. inversion Hd1; subst d1. eauto 6.
Qed.
Lemma look_id (O0 : list defobj) h0 reg0 n a b k d e : holds O0 h0 reg0 -> lookup (gDefinition reg0) n = Some a -> lookup (gDefinition reg0) k = Some b ->
  nth_error h0 a = Some d -> nth_error h0 b = Some e -> (a = b <-> n = k) /\ (dId d = dId e <-> a = b).
Proof.
  intros H H1 H2 Hd He. destruct (look_name _ _ _ _ _ H H1) as (d1 & i & D1 & N1 & I1 & J1). destruct (look_name _ _ _ _ _ H H2) as (d2 & j & D2 & N2 & I2 & J2).
  rewrite Hd in D1. rewrite He in D2. inversion D1; inversion D2; subst d1 d2. split; split; intros X; subst; try congruence.
Qed.
Lemma NA_inj a a' b b' : NA a a' -> NA b b' -> (a =? b) = (a' =? b').
Proof.
  intros (n & _ & H1 & H2) (k & _ & H3 & H4).
  destruct (look_name _ _ _ _ _ HO H1) as (d1 & i1 & D1 & _). destruct (look_name _ _ _ _ _ HO H3) as (d2 & i2 & D2 & _).
  destruct (look_name _ _ _ _ _ HO' H2) as (d3 & i3 & D3 & _). destruct (look_name _ _ _ _ _ HO' H4) as (d4 & i4 & D4 & _).
  destruct (look_id _ _ _ _ _ _ _ _ _ HO H1 H3 D1 D2) as [E1 _]. destruct (look_id _ _ _ _ _ _ _ _ _ HO' H2 H4 D3 D4) as [E2 _].
  apply Bool.eq_iff_eq_true. rewrite !Nat.eqb_eq. rewrite E1, E2. tauto.
Qed.
Lemma NI_inj i i' j j' : NI i i' -> NI j j' -> (i =? j) = (i' =? j').
Proof.
  intros (a & a' & d & d' & HA & D1 & D2 & <- & <-) (b & b' & e & e' & HB & D3 & D4 & <- & <-). pose proof (NA_inj _ _ _ _ HA HB) as E.
  destruct HA as (n & _ & H1 & H2), HB as (k & _ & H3 & H4).
  destruct (look_id _ _ _ _ _ _ _ _ _ HO H1 H3 D1 D3) as [_ E1]. destruct (look_id _ _ _ _ _ _ _ _ _ HO' H2 H4 D2 D4) as [_ E2].
  apply Bool.eq_iff_eq_true. rewrite !Nat.eqb_eq. rewrite E1, E2. rewrite <- !Nat.eqb_eq, E. tauto.
Qed.
Lemma N_lookup n : K n -> optA NA (lookup m n) (lookup m' n).
Proof.
  intros Hn. destruct (HK n Hn) as [[X Y]|(o & o' & Ho & Ho' & En & Enf & _)].
  - destruct (lookup m n) as [a|] eqn:E; [exfalso; apply X; apply (hl_out _ _ _ HO n a E)|]. destruct (lookup m' n) as [a|] eqn:E'; [exfalso; apply Y; apply (hl_out _ _ _ HO' n a E')|]. constructor.
  - destruct (hl_in _ _ _ HO o Ho) as (a & d & L1 & _). destruct (hl_in _ _ _ HO' o' Ho') as (a' & d' & L2 & _). rewrite <- (nf_name _ _ Enf) in L2. rewrite En in *. fold m in L1. fold m' in L2.
    rewrite L1, L2. constructor. exists n. auto.
Qed.
Lemma N_HR : HR NA NI K h h'.
Proof.
  intros a a' HA. pose proof HA as (n & Hn & H1 & H2). destruct (HK n Hn) as [[X Y]|(o & o' & Ho & Ho' & En & Enf & HKr)].
  - exfalso. apply X. apply (hl_out _ _ _ HO n a H1).
  - destruct (hl_in _ _ _ HO o Ho) as (b & d & L1 & D1 & F1). destruct (hl_in _ _ _ HO' o' Ho') as (b' & d' & L2 & D2 & F2). rewrite <- (nf_name _ _ Enf) in L2. rewrite En in *.
    unfold m in H1. unfold m' in H2. rewrite H1 in L1. rewrite H2 in L2. inversion L1; inversion L2; subst b b'. exists d, d'. split; auto. split; auto.
    assert (F : nf d = nf d') by congruence. pose proof (nf_refs d o F1) as Er. rewrite <- Er in HKr.
    assert (U : unwalkedK (dKind d)) by (unfold unwalked in Hun; rewrite Forall_forall in Hun; apply Hun; eapply nth_error_In; eauto).
    assert (U' : unwalkedK (dKind d')) by (unfold unwalked in Hun'; rewrite Forall_forall in Hun'; apply Hun'; eapply nth_error_In; eauto).
    split; [symmetry; apply nf_name; auto|]. split; [symmetry; apply nf_commit; auto|]. split; [exists a, a', d, d'; auto|].
    pose proof (f_equal dKind F) as Fk. unfold nf in Fk. simpl in Fk. unfold refsOf in HKr. destruct (dKind d), (dKind d'); inversion Fk; subst; auto; simpl in U, U'; intuition; subst; auto.
Qed.
End RUN.

(** the parse after the preparation *)
Theorem Parse_same K O O' s s' reg reg' root root' rd rd' h h' reg1 reg1' root1 root1' :
  sInitFailed s = false -> sInitialized s = false -> sRoot s = Some root -> nth_error (sHeap s) root = Some rd -> sRegistry s = Some reg ->
  sInitFailed s' = false -> sInitialized s' = false -> sRoot s' = Some root' -> nth_error (sHeap s') root' = Some rd' -> sRegistry s' = Some reg' ->
  checkCommitType rd = None -> checkCommitType rd' = None ->
  prepare s reg root = Ok (h, reg1, root1) -> prepare s' reg' root' = Ok (h', reg1', root1') ->
  holds O h reg1 -> holds O' h' reg1' -> unwalked h -> unwalked h' -> known K O O' ->
  Forall2 (NA K reg1 reg1') (sKeywords s ++ [root1]) (sKeywords s' ++ [root1']) -> Forall2 (NA K reg1 reg1') (sKeywords s) (sKeywords s') -> NA K reg1 reg1' root1 root1' ->
  forall n, rel (fun x y => snd x = snd y) (Init n s) (Init n s') /\ forall input e, rel (fun x y => snd x = snd y) (Parse n s input e) (Parse n s' input e).
Proof.
  intros F1 F2 F3 F4 F5 G1 G2 G3 G4 G5 C1 C2 P1 P2 H1 H2 U1 U2 HK Hl Hk Hr n.
  pose proof (NA_inj K O O' h h' reg1 reg1' H1 H2) as Ainj. pose proof (NI_inj K O O' h h' reg1 reg1' H1 H2) as Iinj.
  pose proof (initCore_same (NA K reg1 reg1') (NI K h h' reg1 reg1') Ainj Iinj K (gDefinition reg1) (gDefinition reg1') (N_lookup K O O' h h' reg1 reg1' H1 H2 HK) n _ _ h h' Hl (N_HR K O O' h h' reg1 reg1' H1 H2 U1 U2 HK)) as X.
  unfold Parse. rewrite !Init_split, F1, F2, F3, F4, F5, G1, G2, G3, G4, G5, C1, C2, P1, P2. cbn [bind].
  destruct X as [[h1 e1] [h2 e2] [X1 X2]|w|]; simpl in *; [|split; constructor|split; constructor]. subst e2. destruct e1; [split; constructor; auto|]. split; [constructor; auto|]. intros input e. cbn [bind sRoot].
  unfold parsers. cbn [sHeap sKeywords].
  rewrite (parseInput_same (NA K reg1 reg1') (NI K h h' reg1 reg1') Iinj (map toParser h1) (map toParser h2) (HR_parsers _ _ K h1 h2 X1) _ _ _ _ n input e Hk Hr).
  destruct (parseInput (map toParser h2) _ _ n input e); constructor; auto.
Qed.
