(** A lone Parse creates its parsers and builders completely and then parses like the model of
    Syntax.v; once they exist, concurrent calls do not change the shared memory. *)
From Verif Require Import Base Utf8 IdSet Results Parser Build Syntax ListFacts ParseFacts Generate GoSpec GenWalk GenSim Conc.

Section CONC.
Variables (D : pheap) (root : addr) (kws : list addr) (fuel : nat) (live : addr -> Prop).
Hypothesis Hobj : forall a, live a -> exists o, nth_error D a = Some o.
Hypothesis Hkids : forall a o x, live a -> nth_error D a = Some o -> In x (subDefs o) -> live x.
Hypothesis Hroot : live root.
Hypothesis Hkws : forall k, In k kws -> live k.

Lemma firstn_S_nth {A} (l : list A) i x : nth_error l i = Some x -> firstn (S i) l = firstn i l ++ [x].
Proof. revert i. induction l as [|y l IH]; intros [|i] H; simpl in *; try discriminate; [inversion H; auto|]. rewrite <- IH; auto. Qed.

(** runs of a single thread *)
Inductive runs : shared * thread -> shared * thread -> Prop :=
| runs_refl x : runs x x
| runs_more sh t sh' t' z : tstep D fuel sh t = Some (sh', t') -> runs (sh', t') z -> runs (sh, t) z.
Lemma runs_trans x y z : runs x y -> runs y z -> runs x z.
Proof. induction 1; auto. intros. eapply runs_more; eauto. Qed.
Lemma runs_one sh t sh' t' : tstep D fuel sh t = Some (sh', t') -> runs (sh, t) (sh', t').
Proof. intros. eapply runs_more; eauto. constructor. Qed.

Definition filled (o : pobj) (xs : list addr) : pobj :=
  match o with
  | PChar n i x cs rs => PChar n i x cs rs
  | PSeq n i c _ rs gs ac => PSeq n i c xs rs gs ac
  | PChoice n i c _ gs => PChoice n i c xs gs
  end.
Lemma emptied_filled o : emptied o = filled o [].
Proof. destruct o; auto. Qed.
Lemma addKid_filled o xs p : addKid p (filled o xs) = filled o (xs ++ [p]).
Proof. destruct o; auto. Qed.

(** the parser or builder of a definition *)
Definition ptr (sh : shared) (b : bool) (x : addr) : option addr :=
  match nth_error D x with Some o => if isCh o then Some x else cached sh b x | None => None end.
Definition complete (sh : shared) (b : bool) (x : addr) : Prop :=
  exists o q xs, nth_error D x = Some o /\ cached sh b x = Some q /\ nth_error (shObjs sh) q = Some (filled o xs) /\
    Forall2 (fun k p => ptr sh b k = Some p) (subDefs o) xs.
Record mem (sh : shared) : Prop := mkMem {
  mem_len : List.length D <= List.length (shObjs sh);
  mem_chars : forall a o, nth_error D a = Some o -> isCh o = true -> nth_error (shObjs sh) a = Some o;
  mem_bounds : forall b x q, cached sh b x = Some q -> List.length D <= q < List.length (shObjs sh);
  mem_one : forall b x b' x' q, cached sh b x = Some q -> cached sh b' x' = Some q -> b = b' /\ x = x' }.

Lemma keyEqb_eq a b : keyEqb a b = true <-> a = b.
Proof.
  destruct a as [a1 a2], b as [b1 b2]. unfold keyEqb. simpl. rewrite andb_true_iff, Bool.eqb_true_iff, Nat.eqb_eq.
  split; [intros [-> ->]; auto|intros H; inversion H; auto].
Qed.
Lemma cached_new sh b d q objs b' x : cached (mkShared (((b, d), q) :: shCache sh) objs) b' x = if keyEqb (b, d) (b', x) then Some q else cached sh b' x.
Proof. reflexivity. Qed.

(** from [sh] to [sh']: the pointers stay, the objects but [hole] stay, new ones are complete *)
Record ext (hole : addr -> Prop) (b : bool) (sh sh' : shared) : Prop := mkExt {
  ext_cache : forall b' x q, cached sh b' x = Some q -> cached sh' b' x = Some q;
  ext_objs : forall a o, nth_error (shObjs sh) a = Some o -> ~ hole a -> nth_error (shObjs sh') a = Some o;
  ext_len : List.length (shObjs sh) <= List.length (shObjs sh');
  ext_new : forall b' x q, cached sh' b' x = Some q -> cached sh b' x = Some q \/ (b' = b /\ complete sh' b x /\ List.length (shObjs sh) <= q);
  ext_mem : mem sh' }.
Lemma ptr_ext hole b sh sh' b' x p : ext hole b sh sh' -> ptr sh b' x = Some p -> ptr sh' b' x = Some p.
Proof. intros E. unfold ptr. destruct (nth_error D x) as [o|]; auto. destruct (isCh o); auto. apply (ext_cache _ _ _ _ E). Qed.
Lemma F2_impl {A B} (P Q : A -> B -> Prop) l l' : (forall a b, P a b -> Q a b) -> Forall2 P l l' -> Forall2 Q l l'.
Proof. intros H. induction 1; auto. Qed.
Lemma complete_ext hole b sh sh' b' x : ext hole b sh sh' -> complete sh b' x -> (forall q, cached sh b' x = Some q -> ~ hole q) -> complete sh' b' x.
Proof.
  intros E (o & q & xs & H1 & H2 & H3 & H4) Hq. exists o, q, xs. split; auto. split; [eapply ext_cache; eauto|]. split; [eapply ext_objs; eauto|].
  eapply F2_impl; [|exact H4]. intros k p. eapply ptr_ext; eauto.
Qed.
Lemma ext_refl hole b sh : mem sh -> ext hole b sh sh.
Proof. intros M. constructor; auto. Qed.
Lemma ext_trans (hole : addr -> Prop) b sh sh1 sh2 : (forall q, hole q -> q < List.length (shObjs sh)) -> ext hole b sh sh1 -> ext hole b sh1 sh2 -> ext hole b sh sh2.
Proof.
  intros Hh A B. pose proof A as [A1 A2 A3 A4 A5]. pose proof B as [B1 B2 B3 B4 B5]. constructor; auto; [lia|].
  intros b' x q Hq. destruct (B4 _ _ _ Hq) as [H|(H1 & H2 & H3)].
  - destruct (A4 _ _ _ H) as [H'|(H1 & H2 & H3)]; auto. right. split; auto. split; auto. subst b'.
    eapply complete_ext; eauto. intros q' Hq'. rewrite H in Hq'. inversion Hq'; subst q'. intros X. apply Hh in X. lia.
  - right. split; auto. split; auto. lia.
Qed.

(** definitions without a parser or builder *)
Definition missing (sh : shared) (b : bool) : nat :=
  List.length (filter (fun x => match nth_error D x with Some o => negb (isCh o) && match cached sh b x with None => true | Some _ => false end | None => false end)%bool (seq 0 (List.length D))).
Lemma missing_le hole b sh sh' : ext hole b sh sh' -> missing sh' b <= missing sh b.
Proof.
  intros E. apply filter_le. intros x. destruct (nth_error D x) as [o|]; auto. destruct (isCh o); auto. simpl.
  destruct (cached sh b x) as [q|] eqn:Eq; auto. rewrite (ext_cache _ _ _ _ E _ _ _ Eq). auto.
Qed.

Lemma goto_goto t c c' : goto (goto t c) c' = goto t c'.
Proof. reflexivity. Qed.

(** creating the items or options from index [i] on *)
Lemma loop_ok b k
  (Hcall : forall sh d st t, mem sh -> missing sh b <= k -> live d -> exists sh' p,
     runs (sh, goto t (Enter b d st)) (sh', goto t (Return b p st)) /\ ext (fun _ => False) b sh sh' /\ ptr sh' b d = Some p) :
  forall m sh d st t o q xs i, m = List.length (subDefs o) - i -> mem sh -> missing sh b <= k -> live d -> nth_error D d = Some o -> isCh o = false ->
  cached sh b d = Some q -> nth_error (shObjs sh) q = Some (filled o xs) -> i <= List.length (subDefs o) ->
  Forall2 (fun x p => ptr sh b x = Some p) (firstn i (subDefs o)) xs ->
  exists sh' xs', runs (sh, goto t (Loop b d i st)) (sh', goto t (Return b q st)) /\ ext (eq q) b sh sh' /\
    nth_error (shObjs sh') q = Some (filled o xs') /\ Forall2 (fun x p => ptr sh' b x = Some p) (subDefs o) xs'.
Proof.
  induction m as [|m IH]; intros sh d st t o q xs i Em M Hm Hd Ho Hc Hq Hx Hi Hf.
  - assert (Hn : nth_error (subDefs o) i = None) by (apply nth_error_None; lia). exists sh, xs. split; [|split; [|split]].
    + apply runs_one. unfold tstep. cbn [goto tCtl]. rewrite Ho, Hn, Hq. reflexivity.
    + apply ext_refl; auto.
    + auto.
    + rewrite firstn_all2 in Hf by lia. auto.
  - destruct (nth_error (subDefs o) i) as [x|] eqn:Ex; [|apply nth_error_None in Ex; lia].
    assert (Hlx : live x) by (eapply Hkids; eauto; eapply nth_error_In; eauto).
    destruct (Hcall sh x ((d, i) :: st) t M Hm Hlx) as (sh1 & p & R1 & E1 & P1).
    pose proof (ext_cache _ _ _ _ E1 _ _ _ Hq) as Hq1. pose proof (ext_objs _ _ _ _ E1 _ _ Hx (fun z => z)) as Hx1. pose proof (ext_mem _ _ _ _ E1) as M1.
    pose proof (mem_bounds _ M _ _ _ Hq) as Bq.
    set (sh2 := mkShared (shCache sh1) (updNth q (addKid p) (shObjs sh1))).
    assert (C2 : forall b' x', cached sh2 b' x' = cached sh1 b' x') by reflexivity.
    assert (O2 : nth_error (shObjs sh2) q = Some (filled o (xs ++ [p]))).
    { unfold sh2. cbn [shObjs]. rewrite nth_error_updNth, Nat.eqb_refl, Hx1. cbn [option_map]. rewrite addKid_filled. auto. }
    assert (O2' : forall a, a <> q -> nth_error (shObjs sh2) a = nth_error (shObjs sh1) a).
    { intros a Ha. unfold sh2. cbn [shObjs]. rewrite nth_error_updNth. destruct (Nat.eqb_spec q a); congruence. }
    assert (M2 : mem sh2).
    { constructor.
      - unfold sh2. cbn [shObjs]. rewrite updNth_length. apply (mem_len _ M1).
      - intros a oa Ha Hca. rewrite O2'; [apply (mem_chars _ M1); auto|]. intros ->. assert (q < List.length D) by (apply nth_error_Some; congruence). lia.
      - intros b' x' q' H. rewrite C2 in H. unfold sh2. cbn [shObjs]. rewrite updNth_length. apply (mem_bounds _ M1 _ _ _ H).
      - intros b1 x1 b2 x2 q' H1 H2. rewrite C2 in H1, H2. eapply (mem_one _ M1); eauto. }
    assert (E2 : ext (eq q) b sh1 sh2).
    { constructor; auto.
      - intros a oa Ha Hn. rewrite O2'; auto.
      - unfold sh2. cbn [shObjs]. rewrite updNth_length. lia. }
    assert (E12 : ext (eq q) b sh sh2).
    { apply ext_trans with sh1; auto; [intros q' <-; lia|]. destruct E1. constructor; auto. }
    destruct (IH sh2 d st t o q (xs ++ [p]) (S i)) as (sh3 & xs3 & R3 & E3 & O3 & F3); auto.
    + lia.
    + pose proof (missing_le _ _ _ _ E12). lia.
    + lia.
    + rewrite (firstn_S_nth _ _ _ Ex). apply Forall2_app.
      * eapply F2_impl; [|exact Hf]. intros y py Hy. eapply ptr_ext; eauto.
      * constructor; [|constructor]. eapply ptr_ext; [exact E2|auto].
    + exists sh3, xs3. split; [|split; [|split]]; auto.
      * eapply runs_more.
        { unfold tstep. cbn [goto tCtl]. rewrite Ho, Ex. reflexivity. }
        rewrite goto_goto. eapply runs_trans; [exact R1|]. eapply runs_more.
        { unfold tstep. cbn [goto tCtl]. rewrite Hq1. reflexivity. }
        exact R3.
      * eapply ext_trans; [|exact E12|exact E3]. intros q' <-. lia.
Qed.

Lemma call_ok b : forall k sh d st t, mem sh -> missing sh b <= k -> live d -> exists sh' p,
  runs (sh, goto t (Enter b d st)) (sh', goto t (Return b p st)) /\ ext (fun _ => False) b sh sh' /\ ptr sh' b d = Some p.
Proof.
  induction k as [|k IH]; intros sh d st t M Hm Hd; destruct (Hobj d Hd) as (o & Ho).
  all: destruct (isCh o) eqn:Hc; [exists sh, d; split; [apply runs_one; unfold tstep; cbn [goto tCtl]; rewrite Ho; destruct o; [reflexivity|discriminate|discriminate]|split; [apply ext_refl; auto|unfold ptr; rewrite Ho, Hc; auto]]|].
  all: destruct (cached sh b d) as [q|] eqn:Eq; [exists sh, q; split; [apply runs_one; unfold tstep; cbn [goto tCtl]; rewrite Ho; destruct o; [discriminate| |]; rewrite Eq; reflexivity|split; [apply ext_refl; auto|unfold ptr; rewrite Ho, Hc; auto]]|].
  all: assert (Hin : In d (seq 0 (List.length D))) by (apply in_seq; assert (d < List.length D) by (apply nth_error_Some; congruence); lia).
  - exfalso. unfold missing in Hm. apply Nat.le_0_r, length_zero_iff_nil in Hm.
    match type of Hm with filter ?f _ = _ => assert (X : In d (filter f (seq 0 (List.length D)))) by (apply filter_In; split; auto; rewrite Ho, Hc, Eq; auto) end. rewrite Hm in X. destruct X.
  - set (q := List.length (shObjs sh)). set (sh1 := mkShared (((b, d), q) :: shCache sh) (shObjs sh ++ [emptied o])).
    assert (C1 : forall b' x, cached sh1 b' x = if keyEqb (b, d) (b', x) then Some q else cached sh b' x) by reflexivity.
    assert (Lq : List.length (shObjs sh1) = S q) by (unfold sh1; cbn [shObjs]; rewrite app_length; simpl; unfold q; lia).
    pose proof (mem_len _ M) as HD. fold q in HD.
    assert (N1 : forall b' x q', cached sh b' x = Some q' -> cached sh1 b' x = Some q').
    { intros b' x q' H. rewrite C1. destruct (keyEqb (b, d) (b', x)) eqn:E; auto. apply keyEqb_eq in E. inversion E; subst. congruence. }
    assert (M1 : mem sh1).
    { constructor.
      - lia.
      - intros a oa Ha Hca. unfold sh1. cbn [shObjs]. rewrite nth_error_app1; [apply (mem_chars _ M); auto|]. assert (a < List.length D) by (apply nth_error_Some; congruence). fold q. lia.
      - intros b' x q' H. rewrite C1 in H. rewrite Lq. destruct (keyEqb (b, d) (b', x)); [inversion H; subst; lia|]. apply (mem_bounds _ M) in H. fold q in H. lia.
      - intros b1 x1 b2 x2 q' H1 H2. rewrite C1 in H1, H2. destruct (keyEqb (b, d) (b1, x1)) eqn:K1, (keyEqb (b, d) (b2, x2)) eqn:K2.
        + apply keyEqb_eq in K1. apply keyEqb_eq in K2. rewrite K1 in K2. inversion K2. auto.
        + inversion H1; subst q'. apply (mem_bounds _ M) in H2. fold q in H2. lia.
        + inversion H2; subst q'. apply (mem_bounds _ M) in H1. fold q in H1. lia.
        + eapply (mem_one _ M); eauto. }
    assert (Cd : cached sh1 b d = Some q) by (rewrite C1; replace (keyEqb (b, d) (b, d)) with true by (symmetry; apply keyEqb_eq; auto); auto).
    destruct (loop_ok b k IH (List.length (subDefs o) - 0) sh1 d st t o q [] 0) as (sh2 & xs & R2 & E2 & O2 & F2); auto.
    + assert (missing sh1 b < missing sh b); [|lia]. apply (filter_lt _ _ _ d); auto.
      * intros x. destruct (nth_error D x) as [ox|]; auto. destruct (isCh ox); auto. simpl. destruct (cached sh b x) as [q'|] eqn:Eq'; auto. rewrite (N1 _ _ _ Eq'). auto.
      * rewrite Ho, Cd. apply andb_false_r.
      * rewrite Ho, Hc, Eq. auto.
    + unfold sh1. cbn [shObjs]. rewrite nth_error_app2 by (fold q; lia). fold q. rewrite Nat.sub_diag. cbn [nth_error]. rewrite emptied_filled. auto.
    + lia.
    + constructor.
    + exists sh2, q. pose proof E2 as [X1 X2 X3 X4 X5]. split; [|split].
      * eapply runs_more; [unfold tstep; cbn [goto tCtl]; rewrite Ho; destruct o; [discriminate| |]; rewrite Eq; reflexivity|].
        rewrite goto_goto. eapply runs_more; [unfold tstep; cbn [goto tCtl]; rewrite Ho; reflexivity|]. rewrite goto_goto. exact R2.
      * constructor; auto.
        -- intros a oa Ha _. assert (a < q) by (apply nth_error_Some; congruence). apply X2; [|lia]. unfold sh1. cbn [shObjs]. rewrite nth_error_app1; auto.
        -- fold q. lia.
        -- intros b' x q' H. destruct (X4 _ _ _ H) as [H'|(H1 & H2 & H3)]; [|right; split; auto; split; auto; lia].
           rewrite C1 in H'. destruct (keyEqb (b, d) (b', x)) eqn:K; auto. apply keyEqb_eq in K. inversion K; subst b' x. inversion H'; subst q'.
           right. split; auto. split; [|unfold q; lia]. exists o, q, xs. auto.
      * unfold ptr. rewrite Ho, Hc. auto.
Qed.

(** ** between the calls of Parse *)
Definition quiet (sh : shared) : Prop := mem sh /\ forall b x q, cached sh b x = Some q -> complete sh b x.
Lemma quiet_fresh : quiet (freshMemory D).
Proof.
  split; [|intros b x q H; discriminate]. constructor.
  - cbn [freshMemory shObjs]. rewrite map_length. auto.
  - intros a o Ha Hc. cbn [freshMemory shObjs]. rewrite nth_error_map, Ha. cbn [option_map]. destruct o; [auto|discriminate|discriminate].
  - intros b x q H; discriminate.
  - intros b x b' x' q H; discriminate.
Qed.
Definition keeps (sh sh' : shared) : Prop := forall b x q, cached sh b x = Some q -> cached sh' b x = Some q.
Lemma call_quiet b sh d t : quiet sh -> live d -> exists sh' p,
  runs (sh, goto t (Enter b d [])) (sh', goto t (Return b p [])) /\ quiet sh' /\ keeps sh sh' /\ ptr sh' b d = Some p.
Proof.
  intros [M Q] Hd. destruct (call_ok b (missing sh b) sh d [] t M (le_n _) Hd) as (sh' & p & R & E & P). exists sh', p. split; auto. split; [|split; auto].
  - split; [apply (ext_mem _ _ _ _ E)|]. intros b' x q H. destruct (ext_new _ _ _ _ E _ _ _ H) as [H'|(-> & H' & _)]; auto.
    eapply complete_ext; eauto.
  - exact (ext_cache _ _ _ _ E).
Qed.
Lemma ptr_keeps sh sh' b x p : keeps sh sh' -> ptr sh b x = Some p -> ptr sh' b x = Some p.
Proof. intros K. unfold ptr. destruct (nth_error D x) as [o|]; auto. destruct (isCh o); auto. Qed.
Lemma keeps_trans a b c : keeps a b -> keeps b c -> keeps a c.
Proof. unfold keeps. auto. Qed.

Lemma todo_run input e : forall todo sh got, quiet sh -> (forall b d, In (b, d) todo -> live d) -> exists sh' ps,
  runs (sh, mkThread input e todo got Idle) (sh', mkThread input e [] (got ++ ps) Idle) /\ quiet sh' /\ keeps sh sh' /\
  Forall2 (fun c p => ptr sh' (fst c) (snd c) = Some p) todo ps.
Proof.
  induction todo as [|[b d] todo IH]; intros sh got Q Hl.
  - exists sh, []. rewrite app_nil_r. split; [constructor|]. split; auto. split; [intros b x q; auto|constructor].
  - set (t := mkThread input e todo got Idle). destruct (call_quiet b sh d t Q (Hl b d (or_introl eq_refl))) as (sh1 & p & R1 & Q1 & K1 & P1).
    destruct (IH sh1 (got ++ [p]) Q1) as (sh2 & ps & R2 & Q2 & K2 & F2); [intros; eapply Hl; right; eauto|].
    exists sh2, (p :: ps). split; [|split; auto; split; [eapply keeps_trans; eauto|]].
    + eapply runs_more; [reflexivity|]. change (mkThread _ _ _ _ (Enter b d [])) with (goto t (Enter b d [])). eapply runs_trans; [exact R1|].
      eapply runs_more; [reflexivity|]. cbn [goto tInput tEnd tTodo tGot t]. rewrite <- app_assoc in R2. exact R2.
    + constructor; auto. simpl. eapply ptr_keeps; eauto.
Qed.

(** the parse on created objects is the parse on the definitions *)
Lemma same_parse sh p b ks input e : quiet sh -> ptr sh false root = Some p -> ptr sh true root = Some b -> Forall2 (fun k p => ptr sh false k = Some p) kws ks ->
  parseInputPB (shObjs sh) (shObjs sh) ks p b fuel input e = parseInput D kws root fuel input e.
Proof.
  intros [M Q] Hp Hb Hk. set (H := shObjs sh).
  set (f := fun a => match ptr sh false a with Some q => q | None => 0 end). set (g := fun a => match ptr sh true a with Some q => q | None => 0 end).
  set (L := fun a => ptr sh false a <> None). set (LB := fun a => ptr sh true a <> None).
  assert (G : forall bb a q, ptr sh bb a = Some q -> exists o o', nth_error D a = Some o /\ nth_error H q = Some o' /\
     o' = filled o (map (fun a => match ptr sh bb a with Some q => q | None => 0 end) (subDefs o)) /\ forall x, In x (subDefs o) -> ptr sh bb x <> None).
  { intros bb a q Ha. pose proof Ha as Ha'. unfold ptr in Ha'. destruct (nth_error D a) as [o|] eqn:Ho; [|discriminate]. destruct (isCh o) eqn:Hc.
    - inversion Ha'; subst q. exists o, o. split; auto. split; [apply (mem_chars _ M); auto|]. destruct o; try discriminate. split; auto; intros x [].
    - destruct (Q _ _ _ Ha') as (o1 & q1 & xs & X1 & X2 & X3 & X4). rewrite Ho in X1. inversion X1; subst o1. rewrite Ha' in X2. inversion X2; subst q1.
      exists o, (filled o xs). split; auto. split; auto.
      clear - X4. assert (E : xs = map (fun a => match ptr sh bb a with Some q => q | None => 0 end) (subDefs o) /\ forall x, In x (subDefs o) -> ptr sh bb x <> None).
      { revert X4. generalize (subDefs o). intros l X. induction X as [|k p l xs Hkp _ [IH1 IH2]]; [split; [auto|intros x []]|]. split.
        - simpl. rewrite Hkp. f_equal; auto.
        - intros x [<-|Hx]; [congruence|auto]. }
      destruct E as [<- E]. auto. }
  assert (AP : forall a, L a -> exists o o', nth_error D a = Some o /\ nth_error H (f a) = Some o' /\ alikeP f o o' /\ forall x, In x (kids o) -> L x).
  { intros a Ha. unfold L in Ha. destruct (ptr sh false a) as [q|] eqn:Eq; [|congruence]. destruct (G _ _ _ Eq) as (o & o' & G1 & G2 & G3 & G4).
    exists o, o'. split; auto. split; [unfold f; rewrite Eq; auto|]. split; [|auto]. subst o'. destruct o; simpl; repeat split; auto. }
  assert (AB : forall a, LB a -> exists o o', nth_error D a = Some o /\ nth_error H (g a) = Some o' /\ alikeB g o o' /\ forall x, In x (kids o) -> LB x).
  { intros a Ha. unfold LB in Ha. destruct (ptr sh true a) as [q|] eqn:Eq; [|congruence]. destruct (G _ _ _ Eq) as (o & o' & G1 & G2 & G3 & G4).
    exists o, o'. split; auto. split; [unfold g; rewrite Eq; auto|]. split; [|auto]. subst o'. destruct o; simpl; repeat split; auto. }
  assert (HoptB : forall a n i c os gs x ox ox', LB a -> nth_error D a = Some (PChoice n i c os gs) -> In x os -> nth_error D x = Some ox -> nth_error H (g x) = Some ox' -> nodeID ox' = nodeID ox).
  { intros a n i c os gs x ox ox' Ha Eo Hx Ex Ex'. destruct (AB a Ha) as (o1 & o2 & F1 & _ & _ & F4). rewrite Eo in F1. inversion F1; subst o1. specialize (F4 x Hx).
    unfold LB in F4. unfold g in Ex'. destruct (ptr sh true x) as [q|] eqn:Eq; [|congruence]. destruct (G _ _ _ Eq) as (o & o' & G1 & G2 & G3 & G4).
    rewrite Ex in G1. rewrite Ex' in G2. inversion G1; subst o. inversion G2; subst o'. destruct ox; subst; auto. }
  set (ok := fun a => L a /\ exists o, nth_error D a = Some o /\ isCh o = false /\ hasFlag (commitTypeOf o) CUserDefined = true).
  assert (Hok1 : forall a o, L a -> nth_error D a = Some o -> isCh o = false -> hasFlag (commitTypeOf o) CUserDefined = true -> ok a) by (intros; split; eauto).
  assert (Hok2 : forall a, ok a -> L a /\ exists o, nth_error D a = Some o /\ isCh o = false /\ hasFlag (commitTypeOf o) CUserDefined = true) by auto.
  assert (Lr : L root) by (unfold L; congruence). assert (LBr : LB root) by (unfold LB; congruence).
  assert (Ep : p = f root) by (unfold f; rewrite Hp; auto). assert (Eb : b = g root) by (unfold g; rewrite Hb; auto).
  assert (Ek : ks = map f kws /\ forall k, In k kws -> L k).
  { revert Hk. clear. intros X. induction X as [|k q l xs Hkp _ [IH1 IH2]]; [split; [auto|intros k []]|]. split.
    - simpl. unfold f at 1. rewrite Hkp. f_equal; auto.
    - intros x [<-|Hx]; [unfold L; congruence|auto]. }
  destruct Ek as [-> Lk]. subst p b.
  assert (R : rel eq (parseInput D kws root fuel input e) (parseInputPB H H (map f kws) (f root) (g root) fuel input e)).
  { unfold parseInput, parseInputPB. eapply rel_bind.
    { apply (parse_sim f ok D H L AP Hok1 kws fuel Lk root (newContext input e) (newContext input e) Lr). split; auto. intros p; discriminate. }
    intros c d Hc. pose proof Hc as [Hd _]. replace (cReadErr d) with (cReadErr c) by (subst d; auto). destruct (cReadErr c); [constructor; auto|].
    eapply rel_bind.
    { apply (finalize_sim f ok D H L AP Hok2 root Lr c d Hc). }
    intros [c1 [e1|]] [d1 [e2|]] [X1 X2]; simpl in X1, X2; try contradiction.
    - constructor. destruct X2 as [[->|(o & l & cc & o1 & o2 & W1 & W2 & -> & ->)] X3]; auto.
      destruct (G false root (f root)) as (o3 & o4 & G1 & G2 & G3 & _); [unfold f; rewrite Hp; auto|]. rewrite W1 in G1. rewrite W2 in G2. inversion G1; subst o3. inversion G2; subst o4.
      f_equal. f_equal. subst o2. destruct o1; auto.
    - eapply rel_bind.
      { apply (build_sim f g D H LB AB HoptB fuel root (setResults (setOffset c1 0) (resetPending (cResults (setOffset c1 0)))) (setResults (setOffset d1 0) (resetPending (cResults (setOffset d1 0))))); auto.
        destruct X1 as [-> _]. reflexivity. }
      intros [[n1 b1] c2] [[n2 b2] d2] [Y1 Y2]. simpl in Y1, Y2. inversion Y1; subst n2 b2. destruct n1; constructor. rewrite Y2. auto. }
  inversion R; congruence.
Qed.

Definition created (sh : shared) : Prop := ptr sh false root <> None /\ ptr sh true root <> None /\ forall k, In k kws -> ptr sh false k <> None.
(** a call of Parse without others at the same time *)
Theorem lone_parse sh input e : quiet sh -> exists sh' t',
  runs (sh, parseThread root kws input e) (sh', t') /\ tCtl t' = Finished (parseInput D kws root fuel input e) /\ quiet sh' /\ created sh'.
Proof.
  intros Q. destruct (todo_run input e ((false, root) :: (true, root) :: map (fun k => (false, k)) kws) sh [] Q) as (sh' & ps & R & Q' & K & F).
  { intros b d [H|[H|H]]; [inversion H; subst; auto|inversion H; subst; auto|]. apply in_map_iff in H. destruct H as (k & E & Hk). inversion E; subst. auto. }
  inversion F as [|c1 p l1 ps1 Hp F1]; subst. inversion F1 as [|c2 b l2 ks Hb F2]; subst. simpl in Hp, Hb.
  assert (Fk : Forall2 (fun k p => ptr sh' false k = Some p) kws ks).
  { clear - F2. revert ks F2. induction kws as [|k l IH]; intros ks F2; inversion F2; subst; constructor; auto. }
  exists sh'. eexists. split; [eapply runs_trans; [exact R|]; eapply runs_one; reflexivity|]. split; [|split; auto].
  - cbn [goto tCtl tInput tEnd]. f_equal. apply same_parse; auto.
  - split; [congruence|]. split; [congruence|]. intros k Hk. clear - Fk Hk. induction Fk as [|y q l xs H _ IH]; [destruct Hk|]. destruct Hk as [<-|Hk]; [congruence|auto].
Qed.

(** ** calls that run at the same time, when the objects exist *)
Definition onTrack (sh : shared) (t : thread) : Prop :=
  match tCtl t with
  | Finished out => out = parseInput D kws root fuel (tInput t) (tEnd t)
  | _ =>
    exists before, (false, root) :: (true, root) :: map (fun k => (false, k)) kws = before ++ tTodo t /\
      match tCtl t with
      | Idle => Forall2 (fun c p => ptr sh (fst c) (snd c) = Some p) before (tGot t)
      | Enter b d st => st = [] /\ exists before', before = before' ++ [(b, d)] /\ Forall2 (fun c p => ptr sh (fst c) (snd c) = Some p) before' (tGot t)
      | Return b p st => st = [] /\ Forall2 (fun c p => ptr sh (fst c) (snd c) = Some p) before (tGot t ++ [p])
      | _ => False
      end
  end.
Lemma created_all sh b d : created sh -> In (b, d) ((false, root) :: (true, root) :: map (fun k => (false, k)) kws) -> ptr sh b d <> None.
Proof. clear Hroot Hkws Hobj Hkids. intros (C1 & C2 & C3) [H|[H|H]]; [inversion H; subst; auto|inversion H; subst; auto|]. apply in_map_iff in H. destruct H as (k & E & Hk). inversion E; subst. auto. Qed.
Lemma onTrack_step sh t sh' t' : quiet sh -> created sh -> onTrack sh t -> tstep D fuel sh t = Some (sh', t') -> sh' = sh /\ onTrack sh t' /\ tInput t' = tInput t /\ tEnd t' = tEnd t.
Proof.
  intros Q C T S. unfold onTrack in T. unfold tstep in S. destruct (tCtl t) as [|b d st|b d st|b d i st|b p st|out] eqn:Ec; [| | | | |discriminate].
  - destruct T as (before & E1 & F). destruct (tTodo t) as [|[b d] todo] eqn:Et.
    + destruct (tGot t) as [|p [|b ks]] eqn:Eg; try discriminate. inversion S; subst sh' t'. split; auto. split; auto. unfold onTrack. cbn [goto tCtl tInput tEnd].
      rewrite app_nil_r in E1. subst before. inversion F as [|c1 q1 l1 ps1 Hp F1]; subst. inversion F1 as [|c2 q2 l2 ks2 Hb F2]; subst. simpl in Hp, Hb.
      apply same_parse; auto. clear - F2. revert ks F2. induction kws as [|k l IH]; intros ks F2; inversion F2; subst; constructor; auto.
    + inversion S; subst sh' t'. split; auto. split; auto. unfold onTrack. cbn [tCtl tTodo tGot]. exists (before ++ [(b, d)]). rewrite <- app_assoc. split; auto. split; auto. exists before. auto.
  - destruct T as (before & E1 & -> & before' & -> & F).
    assert (Hin : In (b, d) ((false, root) :: (true, root) :: map (fun k => (false, k)) kws)) by (rewrite E1; apply in_or_app; left; apply in_or_app; right; left; auto).
    pose proof (created_all _ _ _ C Hin) as Hc. destruct (ptr sh b d) as [q|] eqn:Eq; [|congruence]. pose proof Eq as Eq'. unfold ptr in Eq'. destruct (nth_error D d) as [o|] eqn:Eo; [|discriminate].
    assert (Es : Some (sh', t') = Some (sh, goto t (Return b q []))).
    { rewrite <- S. destruct o; simpl in Eq'; [inversion Eq'; auto|rewrite Eq'; auto|rewrite Eq'; auto]. }
    inversion Es; subst sh' t'. split; auto. split; auto. unfold onTrack. cbn [goto tCtl tTodo tGot]. exists (before' ++ [(b, d)]). split; auto. split; auto. apply Forall2_app; auto.
  - destruct T as (before & _ & []).
  - destruct T as (before & _ & []).
  - destruct T as (before & E1 & -> & F). inversion S; subst sh' t'. split; auto. split; auto. unfold onTrack. cbn [tCtl tTodo tGot]. exists before. auto.
Qed.
Lemma nth_error_upd_cases {A} (l : list A) i j x y : nth_error (updNth i (fun _ => x) l) j = Some y -> (i = j /\ y = x /\ j < List.length l) \/ (i <> j /\ nth_error l j = Some y).
Proof.
  rewrite nth_error_updNth. destruct (Nat.eqb_spec i j) as [->|]; [|auto]. destruct (nth_error l j) eqn:E; simpl; [|discriminate].
  intros H; inversion H. left. split; auto. split; auto. apply nth_error_Some. congruence.
Qed.
Theorem concurrent sh ts sh' ts' : quiet sh -> created sh -> (forall i t, nth_error ts i = Some t -> onTrack sh t) -> csteps D fuel (sh, ts) (sh', ts') ->
  sh' = sh /\ forall i t', nth_error ts' i = Some t' -> onTrack sh t' /\ exists t, nth_error ts i = Some t /\ tInput t' = tInput t /\ tEnd t' = tEnd t.
Proof.
  intros Q C T S. remember (sh, ts) as x eqn:Ex. remember (sh', ts') as z eqn:Ez. revert sh ts Q C T Ex sh' ts' Ez.
  induction S as [x|x y z S1 S2 IH]; intros sh ts Q C T Ex sh' ts' Ez; subst.
  - inversion Ez; subst. split; auto. intros i t' H. split; eauto.
  - inversion S1 as [a b i t sh1 t1 Hi Ht]; subst. destruct (onTrack_step sh t sh1 t1 Q C (T i t Hi) Ht) as (-> & T1 & I1 & I2).
    destruct (IH sh (updNth i (fun _ => t1) ts) Q C) with (sh' := sh') (ts' := ts') as (-> & H); auto.
    { intros j tj Hj. apply nth_error_upd_cases in Hj. destruct Hj as [(-> & -> & _)|(_ & Hj)]; eauto. }
    split; auto. intros j tj Hj. destruct (H j tj Hj) as (H1 & t2 & H2 & H3 & H4). split; auto.
    apply nth_error_upd_cases in H2. destruct H2 as [(-> & -> & _)|(_ & H2)]; [exists t; rewrite H3, H4; auto|exists t2; auto].
Qed.
Lemma onTrack_start sh input e : onTrack sh (parseThread root kws input e).
Proof. unfold onTrack. cbn [parseThread tCtl tTodo tGot]. exists []. split; auto. Qed.
End CONC.
