(** The statements that generate writes, and the memory they set up. *)
From Verif Require Import Base Utf8 IdSet Results Parser Build Syntax ListFacts Generate GoSpec.

(** the literal in a declaration *)
Definition literal (b : bool) (o : pobj) : pobj :=
  match o with
  | PChar _ id cnot chars ranges => if b then PChar "" 0 false [] [] else PChar "" id cnot chars ranges
  | PSeq name id commit _ ranges gs ac => PSeq (if writesName b commit then name else "") id commit [] ranges gs ac
  | PChoice name id commit _ gs => PChoice (if writesName b commit then name else "") id commit [] gs
  end%string.
Definition typeOf (b : bool) (o : pobj) : gotype :=
  match o with
  | PChar _ _ _ _ _ => if b then TCharBuilder else TCharParser
  | PSeq _ _ _ _ _ _ _ => if b then TSequenceBuilder else TSequenceParser
  | PChoice _ _ _ _ _ => if b then TChoiceBuilder else TChoiceParser
  end.
Definition nameField (b : bool) (name : string) (commit : commitType) : list field :=
  if writesName b commit then [FName name] else [].
Definition flagField (b : bool) (f : field) : list field := if b then [f] else [].
Definition listField {A} (f : list A -> field) (l : list A) : list field := match l with [] => [] | _ => [f l] end.
Definition fieldsOf (b : bool) (o : pobj) : list field :=
  match o with
  | PChar _ id cnot chars ranges =>
    if b then [] else FId id :: flagField cnot FNot ++ listField FChars chars ++ listField FRuneRanges ranges
  | PSeq name id commit _ ranges gs ac =>
    FId id :: FCommit commit :: nameField b name commit ++ flagField ac FAllChars ++ listField FIntRanges ranges ++ listField FGeneralizations gs
  | PChoice name id commit _ gs =>
    FId id :: FCommit commit :: nameField b name commit ++ listField FGeneralizations gs
  end.
Definition declare (b : bool) (o : pobj) : stmt := SVar (b, nodeID o) (typeOf b o) (fieldsOf b o).
Lemma value_literal b o : value (typeOf b o) (fieldsOf b o) = Some (literal b o).
Proof.
  destruct o as [n i x cs rs|n i c it rs gs ac|n i c os gs]; unfold value, fieldsOf, literal, nameField, flagField, listField.
  - destruct b; auto. destruct x, cs, rs; auto.
  - destruct b, (writesName _ c), ac, rs, gs; auto.
  - destruct b, (writesName _ c), gs; auto.
Qed.
Definition isCh (o : pobj) : bool := match o with PChar _ _ _ _ _ => true | _ => false end.
Definition withKids (xs : list addr) (o : pobj) : pobj :=
  match o with
  | PChar _ _ _ _ _ => o
  | PSeq n i c _ rs gs ac => PSeq n i c xs rs gs ac
  | PChoice n i c _ gs => PChoice n i c xs gs
  end.

Section WALK.
Variables (P : pheap) (b : bool).

Fixpoint walkAll (rec : addr -> list string -> res (list stmt * list string)) (l : list addr) (done : list string)
  : res (list stmt * list string) :=
  match l with
  | [] => Ok ([], done)
  | x :: l' =>
    r <- rec x done ;;
    r' <- walkAll rec l' (snd r) ;;
    Ok (fst r ++ fst r', snd r')
  end.
Fixpoint walk (n : nat) (a : addr) (done : list string) : res (list stmt * list string) :=
  match n with
  | O => NoFuel
  | S n' =>
    match nth_error P a with
    | None => Panic PanicDangling
    | Some ob =>
      if isCh ob then Ok ([declare b ob], done)
      else if existsb (String.eqb (nodeName ob)) done then Ok ([], done)
      else
        r <- walkAll (walk n') (kids ob) (nodeName ob :: done) ;;
        match kids ob with
        | [] => Ok (declare b ob :: fst r, snd r)
        | ks =>
          ids <- kidIDs P ks ;;
          Ok (declare b ob :: fst r ++ [SLink (b, nodeID ob) (isSeq ob) b (map (pair b) ids)], snd r)
        end
    end
  end.
End WALK.

(** ** variables *)
Lemma varEqb_eq v w : varEqb v w = true <-> v = w.
Proof.
  destruct v as [x i], w as [y j]. unfold varEqb. simpl. rewrite andb_true_iff, Bool.eqb_true_iff, Nat.eqb_eq. split; [intros [-> ->]; auto|intros H; inversion H; auto].
Qed.
Lemma cellOf_nth vars : forall v a, cellOf vars v = Some a -> nth_error vars a = Some v.
Proof.
  induction vars as [|w vars IH]; intros v a; simpl; [discriminate|]. destruct (varEqb w v) eqn:E.
  - intros H; inversion H; subst. apply varEqb_eq in E. subst. auto.
  - destruct (cellOf vars v) eqn:Ec; simpl; [|discriminate]. intros H; inversion H; subst. simpl. auto.
Qed.
Lemma cellOf_none vars v : cellOf vars v = None <-> ~ In v vars.
Proof.
  induction vars as [|w vars IH]; simpl; [tauto|]. destruct (varEqb w v) eqn:E.
  - apply varEqb_eq in E. subst. split; [discriminate|tauto].
  - assert (w <> v) by (intros ->; assert (varEqb v v = true) by (apply varEqb_eq; auto); congruence). destruct (cellOf vars v); simpl; [|tauto].
    split; [discriminate|]. intros Hn. exfalso. apply Hn. right. destruct IH as [_ IH]. destruct (in_dec (fun x y : var => ltac:(decide equality; [apply Nat.eq_dec|apply Bool.bool_dec])) v vars) as [Hi|Hi]; auto. specialize (IH Hi). discriminate.
Qed.
Lemma cellOf_some vars v : In v vars -> exists a, cellOf vars v = Some a.
Proof. intros H. destruct (cellOf vars v) eqn:E; eauto. apply cellOf_none in E. contradiction. Qed.
Lemma cellOf_app vars more v : In v vars -> cellOf (vars ++ more) v = cellOf vars v.
Proof.
  induction vars as [|w vars IH]; simpl; [tauto|]. intros H. destruct (varEqb w v) eqn:E; auto.
  rewrite IH; auto. destruct H as [->|H]; auto. assert (varEqb v v = true) by (apply varEqb_eq; auto). congruence.
Qed.
Lemma cellOf_new vars v more : ~ In v vars -> cellOf (vars ++ v :: more) v = Some (List.length vars).
Proof.
  induction vars as [|w vars IH]; simpl; intros H.
  - assert (E : varEqb v v = true) by (apply varEqb_eq; auto). rewrite E. auto.
  - destruct (varEqb w v) eqn:E; [apply varEqb_eq in E; subst; tauto|]. rewrite IH by tauto. auto.
Qed.
Lemma cellOf_lt vars v a : cellOf vars v = Some a -> a < List.length vars.
Proof. intros H. apply cellOf_nth in H. apply nth_error_Some. congruence. Qed.
Definition cell (vars : list var) (v : var) : addr := match cellOf vars v with Some a => a | None => 0 end.
Lemma cell_app vars more v : In v vars -> cell (vars ++ more) v = cell vars v.
Proof. intros H. unfold cell. rewrite cellOf_app; auto. Qed.
Lemma cellsOf_all vars l : (forall v, In v l -> In v vars) -> cellsOf vars l = Some (map (cell vars) l).
Proof.
  induction l as [|v l IH]; intros H; auto. simpl. destruct (cellOf_some vars v) as (a & Ha); [apply H; left; auto|].
  rewrite IH by (intros; apply H; right; auto). unfold cell at 2. rewrite Ha. auto.
Qed.
Lemma step_declare m b o : step m (declare b o) =
  match cellOf (mVars m) (b, nodeID o) with Some _ => None | None => Some (mkMemory (mVars m ++ [(b, nodeID o)]) (mCells m ++ [literal b o])) end.
Proof.
  unfold step, declare, wellTyped. rewrite value_literal. replace (isBuilder (typeOf b o)) with b by (destruct o, b; auto). cbn [fst]. rewrite Bool.eqb_reflx. auto.
Qed.
Lemma step_link m b i items (l : list nat) : step m (SLink (b, i) items b (map (pair b) l)) =
    match cellOf (mVars m) (b, i), cellsOf (mVars m) (map (pair b) l) with
    | Some a, Some xs =>
      match nth_error (mCells m) a with
      | Some o => match assign items xs o with Some o' => Some (mkMemory (mVars m) (updNth a (fun _ => o') (mCells m))) | None => None end
      | None => None
      end
    | _, _ => None
    end.
Proof.
  unfold step, wellTyped. cbn [fst]. rewrite Bool.eqb_reflx. assert (E : forallb (fun r : var => Bool.eqb (fst r) b) (map (pair b) l) = true).
  { rewrite forallb_forall. intros x Hx. apply in_map_iff in Hx. destruct Hx as (y & <- & _). apply Bool.eqb_reflx. }
  cbn. unfold var in *. rewrite E. auto.
Qed.
Lemma exec_app l1 : forall m l2, exec m (l1 ++ l2) = match exec m l1 with Some m' => exec m' l2 | None => None end.
Proof. induction l1 as [|st l1 IH]; intros m l2; simpl; auto. destruct (step m st); auto. Qed.

Section WALKED.
Variables (P : pheap) (b : bool) (live : addr -> Prop).
Hypothesis Hobj : forall a, live a -> exists o, nth_error P a = Some o.
Hypothesis Hkids : forall a o x, live a -> nth_error P a = Some o -> In x (kids o) -> live x.
Hypothesis Hname : forall x y ox oy, live x -> live y -> nth_error P x = Some ox -> nth_error P y = Some oy -> nodeName ox = nodeName oy -> x = y.
Hypothesis Hid : forall x y ox oy, live x -> live y -> nth_error P x = Some ox -> nth_error P y = Some oy -> nodeID ox = nodeID oy -> x = y.
(** a character is an item once *)
Hypothesis Honce : forall p q op oq i j x ox, live p -> live q -> nth_error P p = Some op -> nth_error P q = Some oq ->
  nth_error (kids op) i = Some x -> nth_error (kids oq) j = Some x -> nth_error P x = Some ox -> isCh ox = true -> p = q /\ i = j.

Definition idOf (a : addr) : nat := match nth_error P a with Some o => nodeID o | None => 0 end.
Definition V (a : addr) : var := (b, idOf a).
Lemma idOf_inj x y : live x -> live y -> idOf x = idOf y -> x = y.
Proof. intros Hx Hy E. destruct (Hobj x Hx) as (ox & Ex), (Hobj y Hy) as (oy & Ey). unfold idOf in E. rewrite Ex, Ey in E. eauto. Qed.
Lemma V_inj x y : live x -> live y -> V x = V y -> x = y.
Proof. intros Hx Hy E. inversion E. apply idOf_inj; auto. Qed.

(** the cell of an object when everything is set up *)
Definition entry (vars : list var) (o : pobj) : pobj := withKids (map (fun x => cell vars (V x)) (kids o)) (literal b o).

Lemma kidIDs_ok l : (forall x, In x l -> live x) -> kidIDs P l = Ok (map idOf l).
Proof.
  induction l as [|x l IH]; intros H; auto. simpl. destruct (Hobj x) as (o & Ho); [apply H; left; auto|]. unfold idOf at 1. rewrite Ho.
  rewrite IH by (intros; apply H; right; auto). auto.
Qed.

Definition nameIn (a : addr) (done : list string) : Prop := exists o, nth_error P a = Some o /\ In (nodeName o) done.
Definition char (a : addr) : Prop := exists o, nth_error P a = Some o /\ isCh o = true.
Definition parent (p x : addr) : Prop := exists o, nth_error P p = Some o /\ In x (kids o).

(** before a call: what is declared *)
Record pre (done : list string) (m : memory) : Prop := mkPre {
  pr_len : List.length (mVars m) = List.length (mCells m);
  pr_iff : forall r, live r -> ~ char r -> (In (V r) (mVars m) <-> nameIn r done);
  pr_char : forall p x, live p -> ~ nameIn p done -> parent p x -> char x -> ~ In (V x) (mVars m) }.

(** after a call on the objects [roots] *)
Record post (roots : list addr) (done done' : list string) (m m' : memory) : Prop := mkPost {
  po_pre : pre done' m';
  po_done : forall s, In s done -> In s done';
  po_roots : forall a, In a roots -> In (V a) (mVars m');
  po_new : exists nv nc, mVars m' = mVars m ++ nv /\ mCells m' = mCells m ++ nc /\ List.length nv = List.length nc /\
    forall k v, nth_error nv k = Some v -> exists r o, live r /\ nth_error P r = Some o /\ v = V r /\ ~ In v (mVars m) /\
      (forall k', nth_error nv k' = Some v -> k' = k) /\
      (char r -> In r roots \/ exists p, live p /\ parent p r /\ ~ nameIn p done /\ nameIn p done') /\
      nth_error nc k = Some (entry (mVars m') o) /\ (forall x, In x (kids o) -> In (V x) (mVars m')) }.

Lemma char_dec a : live a -> char a \/ ~ char a.
Proof. intros H. destruct (Hobj a H) as (o & Ho). destruct (isCh o) eqn:E; [left; exists o; auto|]. right. intros (o' & H1 & H2). congruence. Qed.
Lemma char_kids a x : char a -> ~ parent a x.
Proof. intros (o & Ho & Hc) (o' & Ho' & Hx). rewrite Ho in Ho'. inversion Ho'; subst. destruct o'; try discriminate. destruct Hx. Qed.

Lemma entry_app vars more o : (forall x, In x (kids o) -> In (V x) vars) -> entry (vars ++ more) o = entry vars o.
Proof. intros H. unfold entry. f_equal. apply map_ext_in. intros x Hx. apply cell_app; auto. Qed.

Lemma post_nil done m : pre done m -> post [] done done m m.
Proof.
  intros H. constructor; auto; [intros a []|]. exists [], []. rewrite !app_nil_r. split; auto. split; auto. split; auto. intros [|k] v Hv; discriminate.
Qed.
Lemma nameIn_mono a d d' : (forall s, In s d -> In s d') -> nameIn a d -> nameIn a d'.
Proof. intros H (o & H1 & H2). exists o. auto. Qed.
Lemma post_trans r1 r2 d1 d2 d3 m1 m2 m3 : post r1 d1 d2 m1 m2 -> post r2 d2 d3 m2 m3 -> post (r1 ++ r2) d1 d3 m1 m3.
Proof.
  intros [A1 A2 A3 (nv1 & nc1 & A4 & A5 & Al & A6)] [B1 B2 B3 (nv2 & nc2 & B4 & B5 & Bl & B6)]. constructor; auto.
  - intros a Ha. apply in_app_or in Ha. destruct Ha as [Ha|Ha]; auto. rewrite B4. apply in_or_app; left; auto.
  - exists (nv1 ++ nv2), (nc1 ++ nc2). rewrite B4, B5, A4, A5, <- !app_assoc. split; auto. split; auto. split; [rewrite !app_length; lia|].
    intros k v Hv. destruct (Nat.lt_ge_cases k (List.length nv1)) as [L|L].
    + rewrite nth_error_app1 in Hv by auto. destruct (A6 k v Hv) as (r & o & H1 & H2 & H3 & H4 & H5 & H6 & H7 & H8). exists r, o.
      assert (Hin2 : In v (mVars m2)) by (rewrite A4; apply in_or_app; right; eapply nth_error_In; eauto).
      split; auto. split; auto. split; auto. split; auto. split; [|split; [|split]].
      * intros k' Hk'. destruct (Nat.lt_ge_cases k' (List.length nv1)) as [L'|L'].
        -- rewrite nth_error_app1 in Hk' by auto. auto.
        -- rewrite nth_error_app2 in Hk' by auto. destruct (B6 _ _ Hk') as (_ & _ & _ & _ & _ & X & _). contradiction.
      * intros Hc. destruct (H6 Hc) as [Hr|(p & P1 & P2 & P3 & P4)]; [left; apply in_or_app; auto|]. right. exists p. split; auto. split; auto. split; auto. eapply nameIn_mono; eauto.
      * rewrite nth_error_app1 by lia. rewrite H7. rewrite app_assoc, <- A4, entry_app; auto.
      * intros x Hx. rewrite app_assoc, <- A4. apply in_or_app; left; auto.
    + rewrite nth_error_app2 in Hv by auto. destruct (B6 _ v Hv) as (r & o & H1 & H2 & H3 & H4 & H5 & H6 & H7 & H8). exists r, o.
      split; auto. split; auto. split; auto. split; [intros X; apply H4; rewrite A4; apply in_or_app; auto|]. split; [|split; [|split]].
      * intros k' Hk'. destruct (Nat.lt_ge_cases k' (List.length nv1)) as [L'|L'].
        -- rewrite nth_error_app1 in Hk' by auto. exfalso. apply H4. rewrite A4. apply in_or_app; right. eapply nth_error_In; eauto.
        -- rewrite nth_error_app2 in Hk' by auto. apply H5 in Hk'. lia.
      * intros Hc. destruct (H6 Hc) as [Hr|(p & P1 & P2 & P3 & P4)]; [left; apply in_or_app; auto|]. right. exists p. split; auto. split; auto. split; auto.
        intros X. apply P3. eapply nameIn_mono; eauto.
      * rewrite nth_error_app2 by lia. rewrite <- Al, H7. f_equal. rewrite B4, A4, app_assoc. auto.
      * intros x Hx. specialize (H8 x Hx). rewrite B4, A4, <- app_assoc in H8. auto.
Qed.

(** the number of names that are not done *)
Definition isDone (done : list string) (s : string) : bool := existsb (String.eqb s) done.
Lemma isDone_In done s : isDone done s = true <-> In s done.
Proof.
  unfold isDone. rewrite existsb_exists. split; [intros (x & H & E); apply String.eqb_eq in E; subst; auto|]. intros H. exists s. split; auto. apply String.eqb_refl.
Qed.
Definition todo (done : list string) : nat := List.length (filter (fun s => negb (isDone done s)) (map nodeName P)).
Lemma filter_le {A} (f g : A -> bool) l : (forall x, f x = true -> g x = true) -> List.length (filter f l) <= List.length (filter g l).
Proof.
  intros H. induction l as [|x l IH]; simpl; auto. destruct (f x) eqn:E; [rewrite (H x E); simpl; lia|]. destruct (g x); simpl; lia.
Qed.
Lemma filter_lt {A} (f g : A -> bool) l y : (forall x, f x = true -> g x = true) -> In y l -> f y = false -> g y = true -> List.length (filter f l) < List.length (filter g l).
Proof.
  intros H. induction l as [|x l IH]; simpl; [tauto|]. intros [->|Hy] Hf Hg.
  - rewrite Hf, Hg. simpl. pose proof (filter_le f g l H). lia.
  - specialize (IH Hy Hf Hg). destruct (f x) eqn:E; [rewrite (H x E); simpl; lia|]. destruct (g x); simpl; lia.
Qed.
Lemma todo_mono d d' : (forall s, In s d -> In s d') -> todo d' <= todo d.
Proof.
  intros H. apply filter_le. intros s Hs. destruct (isDone d s) eqn:E; auto. apply isDone_In in E. apply H, isDone_In in E. rewrite E in Hs. auto.
Qed.
Lemma todo_lt a o done : nth_error P a = Some o -> isDone done (nodeName o) = false -> todo (nodeName o :: done) < todo done.
Proof.
  intros Ho Hd. apply (filter_lt _ _ _ (nodeName o)).
  - intros s Hs. simpl in Hs. destruct (String.eqb s (nodeName o)); [discriminate|]. auto.
  - apply in_map. eapply nth_error_In; eauto.
  - simpl. rewrite String.eqb_refl. auto.
  - rewrite Hd. auto.
Qed.

Definition ready (a : addr) (done : list string) (m : memory) : Prop :=
  char a -> ~ In (V a) (mVars m) /\ forall p, live p -> parent p a -> nameIn p done.

Definition good (n : nat) : Prop := forall a done m, live a -> todo done < n -> pre done m -> ready a done m ->
  exists st done' m', walk P b n a done = Ok (st, done') /\ exec m st = Some m' /\ post [a] done done' m m'.

Lemma walkAll_ok n : good n -> forall l done m, (forall x, In x l -> live x) -> todo done < n -> pre done m ->
  (forall i j x, nth_error l i = Some x -> nth_error l j = Some x -> char x -> i = j) -> (forall x, In x l -> ready x done m) ->
  exists st done' m', walkAll (walk P b n) l done = Ok (st, done') /\ exec m st = Some m' /\ post l done done' m m'.
Proof.
  intros Hg. induction l as [|y l IH]; intros done m Hl Ht Hp Ho Hr.
  - exists [], done, m. split; auto. split; auto. apply post_nil. auto.
  - destruct (Hg y done m) as (st1 & d1 & m1 & E1 & X1 & P1); [apply Hl; left; auto|auto|auto|apply Hr; left; auto|].
    destruct (IH d1 m1) as (st2 & d2 & m2 & E2 & X2 & P2).
    + intros; apply Hl; right; auto.
    + pose proof (todo_mono done d1 (po_done _ _ _ _ _ P1)). lia.
    + apply P1.
    + intros i j x Hi Hj Hc. assert (S i = S j) by (apply (Ho (S i) (S j) x); auto). lia.
    + intros x Hx Hc. assert (Hlx : live x) by (apply Hl; right; auto). destruct (Hr x (or_intror Hx) Hc) as [R1 R2]. split.
      * destruct P1 as [_ _ _ (nv & nc & V1 & _ & _ & V2)]. rewrite V1. intros X. apply in_app_or in X. destruct X as [X|X]; [auto|].
        apply In_nth_error in X. destruct X as (k & Hk). destruct (V2 k _ Hk) as (r & o & L1 & _ & L2 & _ & _ & L3 & _).
        apply V_inj in L2; auto. subst r. destruct (L3 Hc) as [[E|[]]|(p & P1 & P2 & P3 & _)].
        -- subst y. apply In_nth_error in Hx. destruct Hx as (j & Hj). assert (0 = S j) by (apply (Ho 0 (S j) x); auto). discriminate.
        -- apply P3. auto.
      * intros p Hp1 Hp2. eapply nameIn_mono; [apply (po_done _ _ _ _ _ P1)|auto].
    + exists (st1 ++ st2), d2, m2. cbn [walkAll]. rewrite E1. cbn [bind snd fst]. rewrite E2. cbn [bind snd fst]. split; auto.
      rewrite exec_app, X1. split; auto. apply (post_trans [y] l done d1 d2 m m1 m2); auto.
Qed.

Lemma literal_kids o : kids (literal b o) = [].
Proof. destruct o; simpl; auto. destruct b; auto. Qed.
Lemma withKids_nil o : kids o = [] -> withKids [] o = o.
Proof. destruct o; simpl; intros H; subst; auto. Qed.
Lemma literal_assign o xs : isCh o = false -> assign (isSeq o) xs (literal b o) = Some (withKids xs (literal b o)).
Proof. destruct o; simpl; auto. discriminate. Qed.

Lemma updNth_middle {A} (l1 : list A) x l2 (f : A -> A) : updNth (List.length l1) f (l1 ++ x :: l2) = l1 ++ f x :: l2.
Proof. induction l1; simpl; auto. f_equal. auto. Qed.

Lemma walk_ok n : good n.
Proof.
  induction n as [|n IH]; intros a done m Hl Ht Hp Hr; [lia|]. destruct (Hobj a Hl) as (o & Ho). cbn [walk]. rewrite Ho.
  assert (Hva : V a = (b, nodeID o)) by (unfold V, idOf; rewrite Ho; auto).
  destruct (isCh o) eqn:Ec.
  - assert (Hc : char a) by (exists o; auto). destruct (Hr Hc) as [R1 R2]. eexists _, done, _. split; [reflexivity|]. cbn [exec]. rewrite step_declare, <- Hva. pose proof R1 as R1'. apply cellOf_none in R1'. rewrite R1'. split; [reflexivity|]. destruct Hp as [L I C]. constructor.
    + constructor; simpl.
      * rewrite !app_length. simpl. lia.
      * intros r Hlr Hcr. rewrite in_app_iff. rewrite <- I by auto. simpl. split; [|auto]. intros [H|[H|[]]]; auto. apply V_inj in H; auto. subst. contradiction.
      * intros p x Hpl Hpn Hpx Hcx. rewrite in_app_iff. intros [H|[H|[]]]; [eapply C; eauto|].
        assert (Hlx : live x) by (destruct Hpx as (op & Hop & Hx); eapply Hkids; eauto). apply V_inj in H; auto. subst. apply Hpn. auto.
    + auto.
    + intros x [<-|[]]. simpl. apply in_or_app; right; left; auto.
    + exists [V a], [literal b o]. simpl. split; auto. split; auto. split; auto. intros [|[|k]] v Hv; try discriminate. simpl in Hv. inversion Hv; subst v.
      exists a, o. split; auto. split; auto. split; auto. split; auto. split; [intros [|[|k']] Hk; auto; discriminate|]. split; [intros _; left; left; auto|].
      assert (Hk : kids o = []) by (destruct o; try discriminate; auto).
      split; [|rewrite Hk; intros x []]. simpl. f_equal. unfold entry. rewrite Hk. simpl. symmetry. apply withKids_nil, literal_kids.
  - assert (Hnc : ~ char a) by (intros (o' & H1 & H2); congruence). fold (isDone done (nodeName o)). destruct (isDone done (nodeName o)) eqn:Ed.
    + exists [], done, m. split; auto. split; auto. destruct (post_nil done m Hp) as [A1 A2 _ A4]. constructor; auto.
      * intros x [<-|[]]. apply (pr_iff _ _ Hp); auto. exists o. split; auto. apply isDone_In. auto.
      * destruct A4 as (nv & nc & V1 & V2 & V3 & V4). assert (nv = []).
        { apply (f_equal (@List.length var)) in V1. rewrite app_length in V1. destruct nv; auto. simpl in V1. lia. }
        subst nv. destruct nc; [|discriminate]. exists [], []. split; auto. split; auto. split; auto. intros [|k] v Hv; discriminate.
    + set (done1 := nodeName o :: done). set (m0 := mkMemory (mVars m ++ [V a]) (mCells m ++ [literal b o])).
      assert (Hna : ~ nameIn a done). { intros (o' & H1 & H2). rewrite Ho in H1. inversion H1; subst o'. apply isDone_In in H2. congruence. }
      assert (Hnv : ~ In (V a) (mVars m)) by (intros X; apply (pr_iff _ _ Hp) in X; auto).
      assert (Hsub : forall s, In s done -> In s done1) by (intros; right; auto).
      assert (Hin1 : nameIn a done1) by (exists o; split; auto; left; auto).
      assert (Hpre0 : pre done1 m0).
      { destruct Hp as [L I C]. constructor; simpl.
        - rewrite !app_length. simpl. lia.
        - intros r Hlr Hcr. rewrite in_app_iff. rewrite I by auto. split.
          + intros [H|[H|[]]]; [eapply nameIn_mono; eauto|]. apply V_inj in H; auto. subst. auto.
          + intros (or & H1 & [H2|H2]); [|left; exists or; auto]. right; left. f_equal. apply (Hname a r o or); auto.
        - intros p x Hpl Hpn Hpx Hcx. rewrite in_app_iff. intros [H|[H|[]]].
          + apply (C p x); auto. intros X. apply Hpn. eapply nameIn_mono; eauto.
          + assert (Hlx : live x) by (destruct Hpx as (op & Hop & Hx); eapply Hkids; eauto). apply V_inj in H; auto. subst. contradiction. }
      destruct (walkAll_ok n IH (kids o) done1 m0) as (st & d' & m1 & E1 & X1 & P1).
      * intros; eapply Hkids; eauto.
      * pose proof (todo_lt a o done Ho Ed). unfold done1. lia.
      * auto.
      * intros i j x Hi Hj (ox & Hx & Hcx). destruct (Honce a a o o i j x ox); auto.
      * intros x Hx Hcx. assert (Hlx : live x) by (eapply Hkids; eauto). split.
        -- simpl. intros X. apply in_app_or in X. destruct X as [X|[X|[]]].
           ++ revert X. apply (pr_char _ _ Hp a x); auto. exists o; auto.
           ++ apply V_inj in X; auto. subst. contradiction.
        -- intros p Hpl (op & Hop & Hxp). destruct Hcx as (ox & Hox & Hcx). apply In_nth_error in Hx. destruct Hx as (i & Hi). apply In_nth_error in Hxp. destruct Hxp as (j & Hj).
           destruct (Honce a p o op i j x ox) as [-> _]; auto.
      * change (existsb (String.eqb (nodeName o)) done) with (isDone done (nodeName o)). fold done1. rewrite E1. cbn [bind fst snd].
        destruct P1 as [Q1 Q2 Q3 (nv & nc & V1 & V2 & V3 & V4)].
        assert (Hkidsin : forall x, In x (kids o) -> In (V x) (mVars m1)) by auto.
        set (m' := mkMemory (mVars m1) (mCells m ++ entry (mVars m1) o :: nc)).
        assert (Hpost : post [a] done d' m m').
        { constructor.
          - destruct Q1 as [L I C]. constructor; auto. simpl. rewrite V1. simpl. pose proof (pr_len _ _ Hp). rewrite !app_length. simpl. lia.
          - intros s Hs. apply Q2. right; auto.
          - intros x [<-|[]]. simpl. rewrite V1. simpl. apply in_or_app; left. apply in_or_app; right; left; auto.
          - exists (V a :: nv), (entry (mVars m1) o :: nc). simpl. split; [rewrite V1; simpl; rewrite <- app_assoc; auto|]. split; auto. split; auto.
            intros [|k] v Hv; simpl in Hv.
            + inversion Hv; subst v. exists a, o. split; auto. split; auto. split; auto. split; auto. split; [|split; [contradiction|split; auto]].
              intros [|k'] Hk'; auto. simpl in Hk'. destruct (V4 _ _ Hk') as (_ & _ & _ & _ & _ & X & _). exfalso. apply X. simpl. apply in_or_app; right; left; auto.
            + destruct (V4 k v Hv) as (r & or & L1 & L2 & L3 & L4 & L5 & L6 & L7 & L8). exists r, or. split; auto. split; auto. split; auto.
              split; [intros X; apply L4; simpl; apply in_or_app; auto|]. split; [|split; [|split; auto]].
              * intros [|k'] Hk'; simpl in Hk'; [|f_equal; auto]. inversion Hk'; subst v. exfalso. apply L4. simpl. apply in_or_app; right; left; auto.
              * intros Hcr. right. destruct (L6 Hcr) as [X|(p & P1 & P2 & P3 & P4)].
                -- exists a. split; auto. split; [exists o; auto|]. split; auto. eapply nameIn_mono; [exact Q2|auto].
                -- exists p. split; auto. split; auto. split; auto. intros X. apply P3. eapply nameIn_mono; eauto. }
        destruct (kids o) as [|x0 xs] eqn:Ek.
        -- eexists _, d', m'. split; [reflexivity|]. split; auto. cbn [exec]; rewrite step_declare, <- Hva. rewrite (proj2 (cellOf_none _ _) Hnv). fold m0.
           cbn [walkAll] in E1. inversion E1; subst st d'. simpl in X1. injection X1 as X1. subst m'. simpl. f_equal. rewrite <- X1 in *. unfold m0 at 1. simpl. f_equal.
           assert (nc = []). { apply (f_equal (@List.length pobj)) in V2. rewrite app_length in V2. destruct nc; auto. simpl in V2. lia. } subst nc. f_equal. f_equal.
           unfold entry. rewrite Ek. simpl. symmetry. apply withKids_nil, literal_kids.
        -- rewrite <- Ek in *. rewrite kidIDs_ok by (intros; eapply Hkids; eauto). cbn [bind]. eexists _, d', m'. split; [reflexivity|]. split; auto.
           cbn [exec]; rewrite step_declare, <- Hva. rewrite (proj2 (cellOf_none _ _) Hnv). change (exec {| mVars := mVars m ++ [V a]; mCells := mCells m ++ [literal b o] |}) with (exec m0). rewrite exec_app, X1. cbn [exec]. rewrite Hva, step_link, <- Hva.
           assert (Hca : cellOf (mVars m1) (V a) = Some (List.length (mCells m))).
           { rewrite V1. simpl. rewrite <- app_assoc. simpl. rewrite cellOf_new by auto. f_equal. apply Hp. }
           rewrite Hca. rewrite cellsOf_all by (intros v Hv; rewrite map_map in Hv; apply in_map_iff in Hv; destruct Hv as (x & <- & Hx); apply Hkidsin; auto).
           rewrite V2. simpl. rewrite <- app_assoc. simpl. rewrite nth_error_app2 by lia. rewrite Nat.sub_diag. simpl. rewrite literal_assign by auto.
           rewrite updNth_middle. unfold m'. f_equal. f_equal. f_equal. f_equal. unfold entry. rewrite !map_map. auto.
Qed.
End WALKED.

(** ** the whole function *)
Definition program (P : pheap) (kws : list addr) (root : addr) (n : nat) : res goFunc :=
  r1 <- walkAll (walk P false n) kws [] ;;
  r2 <- walk P false n root (snd r1) ;;
  r3 <- walk P true n root [] ;;
  ids <- kidIDs P kws ;;
  rid <- kidIDs P [root] ;;
  let id := match rid with i :: _ => i | [] => 0 end in
  Ok (mkGoFunc (fst r1 ++ fst r2 ++ fst r3) (map (pair false) ids) (false, id) (true, id)).

(** every declared variable is used *)
Definition declared (st : list stmt) (v : var) : Prop := exists t fs, In (SVar v t fs) st.
Section USED.
Variables (P : pheap) (b : bool).
Definition refsIn (st : list stmt) (v : var) : Prop := In v (flat_map refsOfStmt st).
Definition usedOr (l : list addr) (st : list stmt) : Prop :=
  forall v, declared st v -> refsIn st v \/ exists a o, In a l /\ nth_error P a = Some o /\ v = (b, nodeID o).
Lemma refsIn_app st st' v : refsIn (st ++ st') v <-> refsIn st v \/ refsIn st' v.
Proof. unfold refsIn. rewrite flat_map_app. apply in_app_iff. Qed.
Lemma declared_app st st' v : declared (st ++ st') v <-> declared st v \/ declared st' v.
Proof.
  unfold declared. split.
  - intros (t & fs & H). apply in_app_or in H. destruct H; eauto.
  - intros [(t & fs & H)|(t & fs & H)]; exists t, fs; apply in_or_app; auto.
Qed.
Lemma walkAll_used n : (forall a done st d', walk P b n a done = Ok (st, d') -> usedOr [a] st) ->
  forall l done st d', walkAll (walk P b n) l done = Ok (st, d') -> usedOr l st.
Proof.
  intros IHn. induction l as [|x l IH]; intros done st d' E; cbn [walkAll] in E.
  - inversion E; subst. intros v (t & fs & []).
  - destruct (walk P b n x done) as [[st1 d1]| |] eqn:E1; simpl in E; try discriminate. destruct (walkAll (walk P b n) l d1) as [[st2 d2]| |] eqn:E2; simpl in E; try discriminate. inversion E; subst.
    intros v Hv. rewrite refsIn_app. apply declared_app in Hv. destruct Hv as [Hv|Hv].
    + destruct (IHn _ _ _ _ E1 v Hv) as [H|(a & o & [<-|[]] & H)]; auto. right. exists x, o. split; [left; auto|auto].
    + destruct (IH _ _ _ E2 v Hv) as [H|(a & o & Ha & H)]; auto. right. exists a, o. split; [right; auto|auto].
Qed.
Lemma kidIDs_in l : forall ids, kidIDs P l = Ok ids -> forall a o, In a l -> nth_error P a = Some o -> In (nodeID o) ids.
Proof.
  induction l as [|x l IH]; intros ids E a o Ha Ho; [destruct Ha|]. simpl in E. destruct (nth_error P x) as [ox|] eqn:Ex; [|discriminate].
  destruct (kidIDs P l) as [r| |]; simpl in E; try discriminate. inversion E; subst. destruct Ha as [->|Ha]; [left; congruence|right; eauto].
Qed.
Lemma walk_used n : forall a done st d', walk P b n a done = Ok (st, d') -> usedOr [a] st.
Proof.
  induction n as [|n IH]; intros a done st d' E; [discriminate|]. cbn [walk] in E. destruct (nth_error P a) as [o|] eqn:Eo; [|discriminate].
  assert (Hself : forall v t fs, SVar v t fs = declare b o -> exists a0 o0, In a0 [a] /\ nth_error P a0 = Some o0 /\ v = (b, nodeID o0)).
  { intros v t fs H. inversion H; subst. exists a, o. split; [left; auto|auto]. }
  destruct (isCh o).
  { inversion E; subst. intros v (t & fs & [H|[]]). right. symmetry in H. apply (Hself _ _ _ H). }
  destruct (existsb (String.eqb (nodeName o)) done); [inversion E; subst; intros v (t & fs & [])|].
  destruct (walkAll (walk P b n) (kids o) (nodeName o :: done)) as [[st1 d1]| |] eqn:E1; cbn [bind fst snd] in E; try discriminate.
  pose proof (walkAll_used n IH _ _ _ _ E1) as Hk. destruct (kids o) as [|k ks].
  - inversion E; subst. intros v (t & fs & [H|H]); [right; symmetry in H; apply (Hself _ _ _ H)|]. assert (Hdv : declared st1 v) by (exists t, fs; auto). destruct (Hk v Hdv) as [X|(x & ox & [] & _)]. left. unfold refsIn in *. simpl. auto.
  - destruct (kidIDs P (k :: ks)) as [ids| |] eqn:Ei; cbn [bind fst snd] in E; try discriminate. inversion E; subst. intros v (t & fs & [H|H]); [right; symmetry in H; apply (Hself _ _ _ H)|]. left.
    unfold refsIn. cbn [flat_map refsOfStmt declare app]. rewrite flat_map_app. apply in_or_app. apply in_app_or in H. destruct H as [H|[H|[]]]; [|discriminate].
    assert (Hdv : declared st1 v) by (exists t, fs; auto). destruct (Hk v Hdv) as [X|(x & ox & Hx & Ho & ->)]; [left; auto|]. right. simpl. rewrite app_nil_r. apply in_map. eapply kidIDs_in; eauto.
Qed.
End USED.
Lemma program_used P kws root n fn : program P kws root n = Ok fn -> allUsed fn = true.
Proof.
  unfold program. intros E. destruct (walkAll (walk P false n) kws []) as [[st1 d1]| |] eqn:E1; simpl in E; try discriminate.
  destruct (walk P false n root d1) as [[st2 d2]| |] eqn:E2; simpl in E; try discriminate. destruct (walk P true n root []) as [[st3 d3]| |] eqn:E3; simpl in E; try discriminate.
  destruct (kidIDs P kws) as [ids| |] eqn:E4; simpl in E; try discriminate. destruct (nth_error P root) as [o|] eqn:E5; simpl in E; try discriminate. inversion E; subst. clear E.
  unfold allUsed. apply forallb_forall. cbn [fBody]. intros [v t fs|] Hst; auto. unfold used. cbn [fRoot fRootBuilder fKeywords fBody].
  apply existsb_exists. exists v. split; [|apply varEqb_eq; auto].
  assert (Hd : declared (st1 ++ st2 ++ st3) v) by (exists t, fs; auto). rewrite !flat_map_app. fold var.
  apply declared_app in Hd. destruct Hd as [Hd|Hd]; [|apply declared_app in Hd; destruct Hd as [Hd|Hd]].
  - destruct (walkAll_used P false n (walk_used P false n) _ _ _ _ E1 v Hd) as [H|(a & oa & Ha & Ho & ->)].
    + right. right. apply in_or_app. right. apply in_or_app. auto.
    + right. right. apply in_or_app. left. apply in_map. eapply kidIDs_in; eauto.
  - destruct (walk_used P false n _ _ _ _ E2 v Hd) as [H|(a & oa & [<-|[]] & Ho & ->)].
    + right. right. apply in_or_app. right. apply in_or_app. right. apply in_or_app. auto.
    + left. congruence.
  - destruct (walk_used P true n _ _ _ _ E3 v Hd) as [H|(a & oa & [<-|[]] & Ho & ->)].
    + right. right. apply in_or_app. right. apply in_or_app. right. apply in_or_app. auto.
    + right. left. congruence.
Qed.

Section PROGRAM.
Variables (P : pheap) (live : addr -> Prop) (kws : list addr) (root : addr).
Hypothesis Hobj : forall a, live a -> exists o, nth_error P a = Some o.
Hypothesis Hkids : forall a o x, live a -> nth_error P a = Some o -> In x (kids o) -> live x.
Hypothesis Hname : forall x y ox oy, live x -> live y -> nth_error P x = Some ox -> nth_error P y = Some oy -> nodeName ox = nodeName oy -> x = y.
Hypothesis Hid : forall x y ox oy, live x -> live y -> nth_error P x = Some ox -> nth_error P y = Some oy -> nodeID ox = nodeID oy -> x = y.
Hypothesis Honce : forall p q op oq i j x ox, live p -> live q -> nth_error P p = Some op -> nth_error P q = Some oq ->
  nth_error (kids op) i = Some x -> nth_error (kids oq) j = Some x -> nth_error P x = Some ox -> isCh ox = true -> p = q /\ i = j.
Hypothesis Hkws : forall k, In k kws -> live k /\ ~ char P k.
Hypothesis Hroot : live root /\ ~ char P root.

(** a memory that holds the objects of a closed set, under the variables of parsers or builders *)
Definition holds (b : bool) (m : memory) (L : addr -> Prop) : Prop :=
  forall a, L a -> live a /\ exists o c, nth_error P a = Some o /\ cellOf (mVars m) (V P b a) = Some c /\
    nth_error (mCells m) c = Some (entry P b (mVars m) o) /\ forall x, In x (kids o) -> L x.

Lemma nth_cellOf vars k v : nth_error vars k = Some v -> (forall k', nth_error vars k' = Some v -> k' = k) -> cellOf vars v = Some k.
Proof.
  intros H Hu. destruct (cellOf_some vars v) as (c & Hc); [eapply nth_error_In; eauto|]. rewrite Hc. f_equal. apply Hu. apply cellOf_nth; auto.
Qed.

Lemma filter_len {A} (f : A -> bool) l : List.length (filter f l) <= List.length l.
Proof. induction l as [|x l IH]; simpl; auto. destruct (f x); simpl; lia. Qed.
Lemma todo_nil n : List.length P < n -> todo P [] < n.
Proof.
  intros H. unfold todo. pose proof (filter_len (fun s => negb (isDone [] s)) (map nodeName P)) as E. rewrite map_length in E. lia.
Qed.

Theorem program_ok n : List.length P < n -> exists f m, program P kws root n = Ok f /\ exec noMemory (fBody f) = Some m /\
  fKeywords f = map (V P false) kws /\ fRoot f = V P false root /\ fRootBuilder f = V P true root /\
  exists L LB, holds false m L /\ holds true m LB /\ (forall k, In k kws -> L k) /\ L root /\ LB root.
Proof.
  intros Hn. pose proof (todo_nil n Hn) as Ht. destruct Hroot as [Hr1 Hr2].
  assert (Hpre0 : pre P false live [] noMemory).
  { constructor; simpl; auto. intros r Hl Hc. split; [intros []|intros (o & _ & [])]. }
  destruct (walkAll_ok P false live Hobj Hid n (walk_ok P false live Hobj Hkids Hname Hid Honce n) kws [] noMemory)
    as (st1 & d1 & m1 & E1 & X1 & P1); auto.
  { intros k Hk. apply Hkws; auto. }
  { intros i j x Hi _ Hc. exfalso. apply nth_error_In in Hi. apply (Hkws x Hi). auto. }
  { intros k Hk Hc. exfalso. apply (Hkws k Hk). auto. }
  destruct (walk_ok P false live Hobj Hkids Hname Hid Honce n root d1 m1) as (st2 & d2 & m2 & E2 & X2 & P2); auto.
  { pose proof (todo_mono P [] d1 (po_done _ _ _ _ _ _ _ _ P1)). lia. }
  { apply P1. }
  { intros Hc. contradiction. }
  pose proof (post_trans P false live _ _ _ _ _ _ _ _ P1 P2) as P12.
  destruct P12 as [A1 _ A3 (nv & nc & V1 & V2 & V3 & V4)]. simpl in V1, V2.
  assert (Hpre2 : pre P true live [] m2).
  { assert (Hno : forall r, ~ In (V P true r) (mVars m2)).
    { intros r X. rewrite V1 in X. apply In_nth_error in X. destruct X as (k & Hk). destruct (V4 k _ Hk) as (r' & o & _ & _ & X & _). discriminate. }
    constructor; [apply A1| |intros; apply Hno]. intros r Hl Hc. split; [intros X; destruct (Hno r X)|intros (o & _ & [])]. }
  destruct (walk_ok P true live Hobj Hkids Hname Hid Honce n root [] m2) as (st3 & d3 & m3 & E3 & X3 & P3); auto.
  { intros Hc. contradiction. }
  destruct P3 as [B1 _ B3 (nv3 & nc3 & W1 & W2 & W3 & W4)].
  exists (mkGoFunc (st1 ++ st2 ++ st3) (map (pair false) (map (idOf P) kws)) (false, idOf P root) (true, idOf P root)), m3.
  split; [|split; [|split; [|split; [|split]]]]; auto.
  - unfold program. rewrite E1. cbn [bind fst snd]. rewrite E2. cbn [bind fst snd]. rewrite E3. cbn [bind fst snd].
    rewrite (kidIDs_ok P live Hobj) by (intros; apply Hkws; auto). cbn [bind].
    rewrite (kidIDs_ok P live Hobj) by (intros x [<-|[]]; auto). cbn [bind map]. auto.
  - simpl. rewrite exec_app, X1, exec_app, X2, X3. auto.
  - simpl. rewrite map_map. auto.
  - exists (fun a => live a /\ In (V P false a) (mVars m2)), (fun a => live a /\ In (V P true a) nv3). split; [|split; [|split; [|split]]].
    + intros a [Hl Ha]. split; auto. rewrite V1 in Ha. apply In_nth_error in Ha. destruct Ha as (k & Hk).
      destruct (V4 k _ Hk) as (r & o & L1 & L2 & L3 & _ & L5 & _ & L7 & L8). apply V_inj with (live := live) in L3; auto. subst r.
      exists o, k. split; auto. split; [|split].
      * rewrite W1, cellOf_app by (rewrite V1; eapply nth_error_In; eauto). rewrite V1. apply nth_cellOf; auto.
      * rewrite W2, V2, nth_error_app1 by (rewrite <- V3; apply nth_error_Some; congruence). simpl in L7. rewrite L7. f_equal.
        rewrite W1. symmetry. apply entry_app. intros x Hx. apply L8; auto.
      * intros x Hx. split; [eapply Hkids; eauto|]. apply L8; auto.
    + intros a [Hl Ha]. split; auto. apply In_nth_error in Ha. destruct Ha as (k & Hk).
      destruct (W4 k _ Hk) as (r & o & L1 & L2 & L3 & L4 & L5 & _ & L7 & L8). apply V_inj with (live := live) in L3; auto. subst r.
      assert (Hlen : List.length (mVars m2) = List.length (mCells m2)) by apply A1.
      exists o, (List.length (mCells m2) + k). split; auto. split; [|split].
      * rewrite W1. rewrite <- Hlen. apply nth_cellOf; [rewrite nth_error_app2 by lia; replace (_ + k - _) with k by lia; auto|].
        intros k' Hk'. destruct (Nat.lt_ge_cases k' (List.length (mVars m2))) as [L|L].
        -- rewrite nth_error_app1 in Hk' by auto. exfalso. apply L4. eapply nth_error_In; eauto.
        -- rewrite nth_error_app2 in Hk' by auto. apply L5 in Hk'. lia.
      * rewrite W2, nth_error_app2 by lia. replace (_ + k - _) with k by lia. rewrite L7, W1. auto.
      * intros x Hx. split; [eapply Hkids; eauto|]. specialize (L8 x Hx). try rewrite W1 in L8. apply in_app_or in L8. destruct L8 as [X|X]; auto.
        rewrite V1 in X. apply In_nth_error in X. destruct X as (k2 & Hk2). destruct (V4 k2 _ Hk2) as (r' & o' & _ & _ & X & _). discriminate.
    + intros k Hk. split; [apply Hkws; auto|]. apply A3. apply in_or_app; auto.
    + split; auto. apply A3. apply in_or_app; right; left; auto.
    + split; auto. assert (X : In (V P true root) (mVars m3)) by (apply B3; left; auto). rewrite W1 in X. apply in_app_or in X. destruct X as [X|X]; auto.
      rewrite V1 in X. apply In_nth_error in X. destruct X as (k2 & Hk2). destruct (V4 k2 _ Hk2) as (r' & o' & _ & _ & X & _). discriminate.
Qed.
End PROGRAM.
