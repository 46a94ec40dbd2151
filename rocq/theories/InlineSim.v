(** The reference semantics when sequences and choices without a label are written out. *)
From Verif Require Import Base Parser Build RefSpec RefFuel.

(** ** items and options as relations *)
Section REL.
Context {A : Type}.
Variable R : A -> nat -> outcome -> Prop.
Notation item := (A * (nat * option nat))%type.
Inductive itemsR : list item -> nat -> nat -> outcome -> Prop :=
| ir_nil count o : itemsR [] count o (Match o [])
| ir_skip x mn mx l count o r : R x o NoMatch -> mn <= count -> itemsR l 0 o r -> itemsR ((x, (mn, mx)) :: l) count o r
| ir_fail x mn mx l count o : R x o NoMatch -> count < mn -> itemsR ((x, (mn, mx)) :: l) count o NoMatch
| ir_last x mn mx l count o t ns r : R x o (Match t ns) -> o < t -> match mx with Some m => S count =? m | None => false end = true ->
    itemsR l 0 t r -> itemsR ((x, (mn, mx)) :: l) count o (after ns r)
| ir_more x mn mx l count o t ns r : R x o (Match t ns) -> o < t -> match mx with Some m => S count =? m | None => false end = false ->
    itemsR ((x, (mn, mx)) :: l) (S count) t r -> itemsR ((x, (mn, mx)) :: l) count o (after ns r)
| ir_empty x mn mx l count o t ns r : R x o (Match t ns) -> t <= o -> itemsR l 0 t r -> itemsR ((x, (mn, mx)) :: l) count o (after (List.concat (repeat ns (mn - count))) r).
Inductive optionsR : list A -> nat -> outcome -> outcome -> Prop :=
| or_nil o best : optionsR [] o best best
| or_cons x l o best rx r : R x o rx -> rx <> Unfinished -> optionsR l o (longer best rx) r -> optionsR (x :: l) o best r.

Lemma after_fin ns r : r <> Unfinished -> after ns r <> Unfinished.
Proof. destruct r; simpl; congruence. Qed.
Lemma itemsR_fin l count o r : itemsR l count o r -> r <> Unfinished.
Proof. induction 1; try discriminate; auto using after_fin. Qed.
Lemma after_after a b r : after a (after b r) = after (a ++ b) r.
Proof. destruct r; simpl; auto. rewrite app_assoc. auto. Qed.
Lemma after_nil r : after [] r = r. Proof. destruct r; auto. Qed.
(** a sequence of items in two parts *)
Lemma itemsR_app l2 : forall l1 count o r1, itemsR l1 count o r1 -> forall r,
  match r1 with Match t ns => exists r2, itemsR l2 0 t r2 /\ r = after ns r2 | x => r = x end -> l1 = [] -> count = 0 -> itemsR (l1 ++ l2) count o r.
Proof. intros l1 count o r1 H r Hr -> ->. inversion H; subst. destruct Hr as (r2 & H2 & ->). rewrite after_nil. auto. Qed.
Lemma itemsR_join l2 l1 count o r1 : itemsR l1 count o r1 -> (l1 = [] -> count = 0) -> forall r,
  match r1 with Match t ns => exists r2, itemsR l2 0 t r2 /\ r = after ns r2 | x => r = x end -> itemsR (l1 ++ l2) count o r.
Proof.
  induction 1 as [count o|x mn mx l count o r1 H1 H2 H3 IH|x mn mx l count o H1 H2|x mn mx l count o t ns r1 H1 H2 H3 H4 IH|x mn mx l count o t ns r1 H1 H2 H3 H4 IH|x mn mx l count o t ns r1 H1 H2 H3 IH]; intros Hc r Hr.
  - rewrite (Hc eq_refl). destruct Hr as (r2 & H2 & ->). rewrite after_nil. auto.
  - simpl. apply ir_skip; auto.
  - subst. simpl. apply ir_fail; auto.
  - simpl. destruct r1 as [| |t1 ns1]; simpl in Hr.
    + subst. apply itemsR_fin in H4. congruence.
    + subst. change NoMatch with (after ns NoMatch). eapply ir_last; [eauto|auto|auto|]. apply IH; auto.
    + destruct Hr as (r2 & G & ->). rewrite <- after_after. eapply ir_last; [eauto|auto|auto|]. apply IH; auto. exists r2. auto.
  - simpl. destruct r1 as [| |t1 ns1]; simpl in Hr.
    + subst. apply itemsR_fin in H4. congruence.
    + subst. change NoMatch with (after ns NoMatch). eapply ir_more; [eauto|auto|auto|]. apply IH; auto. discriminate.
    + destruct Hr as (r2 & G & ->). rewrite <- after_after. eapply ir_more; [eauto|auto|auto|]. apply IH; [discriminate|]. exists r2. auto.
  - simpl. destruct r1 as [| |t1 ns1]; simpl in Hr.
    + subst. apply itemsR_fin in H3. congruence.
    + subst. change NoMatch with (after (List.concat (repeat ns (mn - count))) NoMatch). eapply ir_empty; [eauto|auto|]. apply IH; auto.
    + destruct Hr as (r2 & G & ->). rewrite <- after_after. eapply ir_empty; [eauto|auto|]. apply IH; auto. exists r2. auto.
Qed.
Lemma itemsR_split l2 : forall l count o r, itemsR l count o r -> forall l1, l = l1 ++ l2 -> (l1 = [] -> count = 0) ->
  exists r1, itemsR l1 count o r1 /\ match r1 with Match t ns => exists r2, itemsR l2 0 t r2 /\ r = after ns r2 | x => r = x end.
Proof.
  induction 1 as [count o|x mn mx l count o r H1 H2 H3 IH|x mn mx l count o H1 H2|x mn mx l count o t ns r H1 H2 H3 H4 IH|x mn mx l count o t ns r H1 H2 H3 H4 IH|x mn mx l count o t ns r H1 H2 H3 IH]; intros l1 E Hc.
  - destruct l1; [|discriminate]. destruct l2; [|discriminate]. rewrite (Hc eq_refl). exists (Match o []). split; [constructor|]. exists (Match o []). split; [constructor|]. auto.
  - destruct l1 as [|y l1].
    + simpl in E. subst l2. rewrite (Hc eq_refl) in *. exists (Match o []). split; [constructor|]. exists r. split; [apply ir_skip; auto|rewrite after_nil; auto].
    + injection E as <- ->. destruct (IH l1 eq_refl (fun _ => eq_refl)) as (r1 & A1 & A2). exists r1. split; auto. apply ir_skip; auto.
  - destruct l1 as [|y l1].
    + simpl in E. subst l2. rewrite (Hc eq_refl) in *. exists (Match o []). split; [constructor|]. exists NoMatch. split; [apply ir_fail; auto|auto].
    + injection E as <- ->. exists NoMatch. split; auto. apply ir_fail; auto.
  - destruct l1 as [|y l1].
    + simpl in E. subst l2. rewrite (Hc eq_refl) in *. exists (Match o []). split; [constructor|]. exists (after ns r). split; [eapply ir_last; eauto|rewrite after_nil; auto].
    + injection E as <- ->. destruct (IH l1 eq_refl (fun _ => eq_refl)) as (r1 & A1 & A2). exists (after ns r1). split; [eapply ir_last; eauto|]. destruct r1 as [| |t1 ns1]; simpl; [subst; auto|subst; auto|]. destruct A2 as (r2 & B1 & ->). exists r2. rewrite after_after. auto.
  - destruct l1 as [|y l1].
    + simpl in E. subst l2. rewrite (Hc eq_refl) in *. exists (Match o []). split; [constructor|]. exists (after ns r). split; [eapply ir_more; eauto|rewrite after_nil; auto].
    + injection E as <- ->. destruct (IH ((x, (mn, mx)) :: l1) eq_refl) as (r1 & A1 & A2); [discriminate|]. exists (after ns r1). split; [eapply ir_more; eauto|]. destruct r1 as [| |t1 ns1]; simpl; [subst; auto|subst; auto|]. destruct A2 as (r2 & B1 & ->). exists r2. rewrite after_after. auto.
  - destruct l1 as [|y l1].
    + simpl in E. subst l2. rewrite (Hc eq_refl) in *. exists (Match o []). split; [constructor|]. exists (after (List.concat (repeat ns (mn - 0))) r). split; [eapply ir_empty; eauto|rewrite after_nil; auto].
    + injection E as <- ->. destruct (IH l1 eq_refl (fun _ => eq_refl)) as (r1 & A1 & A2). exists (after (List.concat (repeat ns (mn - count))) r1). split; [eapply ir_empty; eauto|]. destruct r1 as [| |t1 ns1]; simpl; [subst; auto|subst; auto|]. destruct A2 as (r2 & B1 & ->). exists r2. rewrite after_after. auto.
Qed.
(** an item that occurs once *)
Lemma itemsR_once x l o r : itemsR ((x, (1, Some 1)) :: l) 0 o r -> exists rx, R x o rx /\ match rx with Match t ns => exists r2, itemsR l 0 t r2 /\ r = after ns r2 | NoMatch => r = NoMatch | Unfinished => False end.
Proof.
  inversion 1; subst; try lia; try discriminate.
  - exists NoMatch. auto.
  - eexists. split; [eassumption|]. cbv beta iota. eauto.
  - eexists. split; [eassumption|]. cbv beta iota. cbn [repeat Nat.sub List.concat]. rewrite app_nil_r. eauto.
Qed.
Lemma once_itemsR x l o rx r : R x o rx -> match rx with Match t ns => exists r2, itemsR l 0 t r2 /\ r = after ns r2 | NoMatch => r = NoMatch | Unfinished => False end -> itemsR ((x, (1, Some 1)) :: l) 0 o r.
Proof.
  intros H Hr. destruct rx as [| |t ns]; [contradiction|subst; apply ir_fail; auto|]. destruct Hr as (r2 & H2 & ->). destruct (Nat.lt_ge_cases o t) as [L|L].
  - eapply ir_last; eauto.
  - replace ns with (List.concat (repeat ns (1 - 0))) by (cbn [repeat Nat.sub List.concat]; apply app_nil_r). eapply ir_empty; eauto.
Qed.
Lemma longer_assoc a b c : b <> Unfinished -> c <> Unfinished -> longer a (longer b c) = longer (longer a b) c.
Proof.
  intros Hb Hc. destruct b as [| |t1 ns1]; [congruence| |]; (destruct c as [| |t2 ns2]; [congruence| |]); destruct a as [| |t ns]; simpl; auto;
    repeat (simpl; match goal with |- context [?x <? ?y] => destruct (Nat.ltb_spec x y) end); simpl; auto; exfalso; lia.
Qed.
Lemma longer_fin a b : b <> Unfinished -> longer a b <> Unfinished.
Proof. destruct a, b; simpl; try congruence. destruct (_ <? _); congruence. Qed.
Lemma longer_no r : r <> Unfinished -> longer NoMatch r = r. Proof. destruct r; auto. Qed.
Lemma optionsR_fin l o best r : optionsR l o best r -> best <> Unfinished -> r <> Unfinished.
Proof. induction 1; auto. intros Hb. apply IHoptionsR. apply longer_fin; auto. Qed.
Lemma optionsR_from l : forall o best r, optionsR l o best r -> forall b0, best <> Unfinished -> optionsR l o (longer b0 best) (longer b0 r).
Proof.
  induction 1 as [o best|x l o best rx r H1 H2 H3 IH]; intros b0 Hb; [constructor|]. eapply or_cons; eauto. rewrite <- longer_assoc by auto. apply IH. apply longer_fin; auto.
Qed.
Lemma optionsR_back l : forall o best r, optionsR l o best r -> forall b0 b1, best = longer b0 b1 -> b1 <> Unfinished -> exists r1, optionsR l o b1 r1 /\ r = longer b0 r1.
Proof.
  induction 1 as [o best|x l o best rx r H1 H2 H3 IH]; intros b0 b1 E Hb.
  - exists b1. split; [constructor|auto].
  - destruct (IH b0 (longer b1 rx)) as (r1 & A1 & A2); [subst; symmetry; apply longer_assoc; auto|apply longer_fin; auto|]. exists r1. split; auto. eapply or_cons; eauto.
Qed.
Lemma optionsR_app l2 : forall l1 o best r1 r, optionsR l1 o best r1 -> optionsR l2 o r1 r -> optionsR (l1 ++ l2) o best r.
Proof. intros l1 o best r1 r H. induction H; simpl; auto. intros H2. eapply or_cons; eauto. Qed.
Lemma optionsR_split l2 : forall l1 o best r, optionsR (l1 ++ l2) o best r -> exists r1, optionsR l1 o best r1 /\ optionsR l2 o r1 r.
Proof.
  induction l1 as [|x l1 IH]; intros o best r H; simpl in H; [exists best; split; [constructor|auto]|]. inversion H; subst. destruct (IH _ _ _ H7) as (r1 & A1 & A2). exists r1. split; auto. eapply or_cons; eauto.
Qed.
End REL.
Lemma itemsR_mono {A} (R R' : A -> nat -> outcome -> Prop) : forall l count o r, itemsR R l count o r -> (forall x o r, R x o r -> R' x o r) -> itemsR R' l count o r.
Proof. induction 1; intros Hm; [apply ir_nil|apply ir_skip|apply ir_fail|eapply ir_last|eapply ir_more|eapply ir_empty]; eauto. Qed.

(** ** the relations and the functions *)
Section EVAL.
Context {A : Type}.
Variable G : A -> option (gobj A).
Variable K : list (list rune).
Variable input : list rune.
Notation ev := (eval G K input). Notation gives := (Gives G K input).
Definition evR (n : nat) (x : A) (o : nat) (r : outcome) : Prop := ev n x o = r /\ r <> Unfinished.
Lemma evalItems_rel rec k : forall items count o r, evalItems rec k items count o = r -> r <> Unfinished -> itemsR (fun (x : A) o r => rec x o = r /\ r <> Unfinished) items count o r.
Proof.
  induction k as [|k IH]; intros items count o r H Hr; cbn [evalItems] in H; [congruence|]. destruct items as [|[x [mn mx]] items]; [subst; constructor|].
  destruct (rec x o) as [| |t ns] eqn:E; [congruence| |].
  - assert (N : rec x o = NoMatch /\ NoMatch <> Unfinished) by (split; auto; discriminate). destruct (Nat.leb_spec mn count); [apply ir_skip; auto|subst; apply ir_fail; auto].
  - assert (N : rec x o = Match t ns /\ Match t ns <> Unfinished) by (split; auto; discriminate). destruct (Nat.ltb_spec o t).
    + destruct (match mx with Some m => S count =? m | None => false end) eqn:Em; subst r; pose proof (after_unf _ _ Hr) as Hu; [eapply ir_last|eapply ir_more]; eauto.
    + subst r. pose proof (after_unf _ _ Hr) as Hu. eapply ir_empty; eauto.
Qed.
Lemma rel_evalItems items count o r : itemsR gives items count o r -> exists n, evalItems (ev n) n items count o = r.
Proof.
  assert (Up : forall n m l c i, n <= m -> leO (evalItems (ev n) n l c i) (evalItems (ev m) m l c i)) by (intros; apply evalItems_mono; auto; intros; apply eval_mono; auto).
  assert (Ue : forall n m x i rx, ev n x i = rx -> rx <> Unfinished -> n <= m -> ev m x i = rx) by (intros n m x i rx E Hx L; pose proof (eval_mono G K input n m x i L) as Q; unfold leO in Q; rewrite E in Q; auto).
  assert (Ui : forall n m l c i rx, evalItems (ev n) n l c i = rx -> rx <> Unfinished -> n <= m -> evalItems (ev m) m l c i = rx) by (intros n m l c i rx E Hx L; pose proof (Up n m l c i L) as Q; unfold leO in Q; rewrite E in Q; auto).
  assert (Uk : forall n m l c i rx, evalItems (ev n) n l c i = rx -> rx <> Unfinished -> n <= m -> evalItems (ev (S m)) m l c i = rx).
  { intros n m l c i rx E Hx L. pose proof (evalItems_mono (ev n) (ev (S m)) ltac:(intros; apply eval_mono; lia) n m l c i L) as Q. unfold leO in Q. rewrite E in Q. auto. }
  induction 1 as [count o|x mn mx l count o r [Hx (n1 & H1)] H2 H3 (n2 & IH)|x mn mx l count o [Hx (n1 & H1)] H2|x mn mx l count o t ns r [Hx (n1 & H1)] H2 H3 H4 (n2 & IH)|x mn mx l count o t ns r [Hx (n1 & H1)] H2 H3 H4 (n2 & IH)|x mn mx l count o t ns r [Hx (n1 & H1)] H2 H3 (n2 & IH)].
  - exists 1. auto.
  - exists (S (Nat.max n1 n2)). apply itemsR_fin in H3. cbn [evalItems]. rewrite (Ue n1 _ _ _ _ H1) by (auto; lia). replace (mn <=? count) with true by (symmetry; apply Nat.leb_le; auto). eapply Uk; eauto. lia.
  - exists (S n1). cbn [evalItems]. rewrite (Ue n1 _ _ _ _ H1) by (auto; lia). replace (mn <=? count) with false by (symmetry; apply Nat.leb_gt; auto). auto.
  - exists (S (Nat.max n1 n2)). apply itemsR_fin in H4. cbn [evalItems]. rewrite (Ue n1 _ _ _ _ H1) by (auto; lia). replace (o <? t) with true by (symmetry; apply Nat.ltb_lt; auto). rewrite H3. f_equal. eapply Uk; eauto. lia.
  - exists (S (Nat.max n1 n2)). apply itemsR_fin in H4. cbn [evalItems]. rewrite (Ue n1 _ _ _ _ H1) by (auto; lia). replace (o <? t) with true by (symmetry; apply Nat.ltb_lt; auto). rewrite H3. f_equal. eapply Uk; eauto. lia.
  - exists (S (Nat.max n1 n2)). apply itemsR_fin in H3. cbn [evalItems]. rewrite (Ue n1 _ _ _ _ H1) by (auto; lia). replace (o <? t) with false by (symmetry; apply Nat.ltb_ge; auto). f_equal. eapply Uk; eauto. lia.
Qed.
Lemma evalOptions_rel rec : forall options o best r, evalOptions rec options o best = r -> r <> Unfinished -> optionsR (fun (x : A) o r => rec x o = r /\ r <> Unfinished) options o best r.
Proof.
  induction options as [|x options IH]; intros o best r H Hr; cbn [evalOptions] in H; [subst; constructor|]. destruct (rec x o) as [| |t ns] eqn:E; [congruence| |]; (eapply or_cons; [split; [exact E|discriminate]|discriminate|]; apply IH; auto).
Qed.
Lemma rel_evalOptions options o best r : optionsR gives options o best r -> best <> Unfinished -> exists n, evalOptions (ev n) options o best = r.
Proof.
  induction 1 as [o best|x l o best rx r [Hx (n1 & H1)] H2 H3 IH]; intros Hb; [exists 0; auto|]. pose proof (longer_fin best rx Hx) as Hl. destruct (IH Hl) as (n2 & E). exists (Nat.max n1 n2). cbn [evalOptions].
  assert (E1 : ev (Nat.max n1 n2) x o = rx) by (pose proof (eval_mono G K input n1 (Nat.max n1 n2) x o ltac:(lia)) as Q; unfold leO in Q; rewrite H1 in Q; auto).
  rewrite E1. assert (E2 : evalOptions (ev (Nat.max n1 n2)) l o (longer best rx) = r).
  { pose proof (evalOptions_mono (ev n2) (ev (Nat.max n1 n2)) ltac:(intros; apply eval_mono; lia) l o (longer best rx)) as Q. unfold leO in Q. rewrite E in Q. apply Q. eapply optionsR_fin; eauto. }
  destruct rx; auto. congruence.
Qed.
(** what a definition gives, by what its parts give *)
Definition seqResult (label : option string) (nokw : bool) (o : nat) (r : outcome) : outcome :=
  match r with Match t ns => if nokw && isOneOf (between input o t) K then NoMatch else labelled label o (Match t ns) | _ => r end.
Lemma seqResult_fin l k o r : seqResult l k o r <> Unfinished -> r <> Unfinished.
Proof. destruct r; simpl; auto; discriminate. Qed.
Lemma seqResult_fin' l k o r : r <> Unfinished -> seqResult l k o r <> Unfinished.
Proof. destruct r; simpl; auto. intros _. destruct (_ && _)%bool; discriminate. Qed.
Lemma labelled_fin l o r : r <> Unfinished -> labelled l o r <> Unfinished. Proof. destruct r; simpl; congruence. Qed.
Lemma gives_seq a l k items o r : G a = Some (GSeq l k items) -> itemsR gives items 0 o r -> gives a o (seqResult l k o r).
Proof. intros Ha H. pose proof (itemsR_fin _ _ _ _ _ H) as Hf. apply rel_evalItems in H. destruct H as (n & H). split; [apply seqResult_fin'; auto|]. exists (S n). cbn [eval]. rewrite Ha, H. destruct r; reflexivity. Qed.
Lemma gives_choice a l options o r : G a = Some (GChoice l options) -> optionsR gives options o NoMatch r -> gives a o (labelled l o r).
Proof. intros Ha H. pose proof (optionsR_fin _ _ _ _ _ H ltac:(discriminate)) as Hf. apply rel_evalOptions in H; [|discriminate]. destruct H as (n & H). split; [apply labelled_fin; auto|]. exists (S n). cbn [eval]. rewrite Ha, H. auto. Qed.
Lemma ev_seq n a l k items o r : G a = Some (GSeq l k items) -> evR (S n) a o r -> exists r1, itemsR (evR n) items 0 o r1 /\ r = seqResult l k o r1.
Proof.
  intros Ha [H Hr]. cbn [eval] in H. rewrite Ha in H. exists (evalItems (ev n) n items 0 o). subst r. split; [|destruct (evalItems _ _ _ _ _); reflexivity]. apply (evalItems_rel (ev n) n); auto. intros E. rewrite E in Hr. auto.
Qed.
Lemma ev_choice n a l options o r : G a = Some (GChoice l options) -> evR (S n) a o r -> exists r1, optionsR (evR n) options o NoMatch r1 /\ r = labelled l o r1.
Proof.
  intros Ha [H Hr]. cbn [eval] in H. rewrite Ha in H. exists (evalOptions (ev n) options o NoMatch). subst r. split; auto. apply evalOptions_rel; auto. apply labelled_unf in Hr. auto.
Qed.
Lemma evR_up n m x o r : n <= m -> evR n x o r -> evR m x o r.
Proof. intros L [H Hr]. split; auto. pose proof (eval_mono G K input n m x o L) as Q. unfold leO in Q. rewrite H in Q. auto. Qed.
End EVAL.

(** ** two graphs *)
Section TWO.
Context {A B : Type}.
Variable G : A -> option (gobj A).
Variable H : B -> option (gobj B).
Variable K : list (list rune).
Variable input : list rune.
Variable sim : A -> B -> Prop.
Inductive itemsSim : list (A * (nat * option nat)) -> list (B * (nat * option nat)) -> Prop :=
| is_nil : itemsSim [] []
| is_keep x y b l l' : sim x y -> itemsSim l l' -> itemsSim ((x, b) :: l) ((y, b) :: l')
| is_write x body l l' : G x = Some (GSeq None false body) -> itemsSim (body ++ l) l' -> itemsSim ((x, (1, Some 1)) :: l) l'.
Inductive optionsSim : list A -> list B -> Prop :=
| os_nil : optionsSim [] []
| os_keep x y l l' : sim x y -> optionsSim l l' -> optionsSim (x :: l) (y :: l')
| os_write x body l l' : G x = Some (GChoice None body) -> optionsSim (body ++ l) l' -> optionsSim (x :: l) l'.
Definition objSim (p : option (gobj A)) (q : option (gobj B)) : Prop :=
  match p, q with
  | None, None => True
  | Some (GChar cn ch rs), Some (GChar cn' ch' rs') => cn = cn' /\ ch = ch' /\ rs = rs'
  | Some (GSeq l k items), Some (GSeq l' k' items') => l = l' /\ k = k' /\ itemsSim items items'
  | Some (GChoice l options), Some (GChoice l' options') => l = l' /\ optionsSim options options'
  | _, _ => False
  end.
Hypothesis Hsim : forall a b, sim a b -> objSim (G a) (H b).

Lemma keep_items (R : A -> nat -> outcome -> Prop) (S : B -> nat -> outcome -> Prop) x y b l l' (RS : forall o r, R x o r -> S y o r) (LS : forall o r, itemsR R l 0 o r -> itemsR S l' 0 o r) :
  forall l0 count o r, itemsR R l0 count o r -> l0 = (x, b) :: l -> itemsR S ((y, b) :: l') count o r.
Proof.
  induction 1 as [count o|x0 mn mx l0 count o r H1 H2 H3 IH|x0 mn mx l0 count o H1 H2|x0 mn mx l0 count o t ns r H1 H2 H3 H4 IH|x0 mn mx l0 count o t ns r H1 H2 H3 H4 IH|x0 mn mx l0 count o t ns r H1 H2 H3 IH]; intros E; [discriminate| | | | |]; injection E as -> <- ->.
  - apply ir_skip; auto.
  - apply ir_fail; auto.
  - eapply ir_last; eauto.
  - eapply ir_more; eauto.
  - eapply ir_empty; eauto.
Qed.
(** from the first graph to the second *)
Lemma items_fwd n : (forall a b o r, sim a b -> evR G K input n a o r -> Gives H K input b o r) ->
  forall l l', itemsSim l l' -> forall o r, itemsR (evR G K input n) l 0 o r -> itemsR (Gives H K input) l' 0 o r.
Proof.
  intros IH. induction 1 as [|x y b l l' Hxy Hl IHl|x body l l' Hx Hl IHl]; intros o r Hi.
  - inversion Hi; constructor.
  - eapply keep_items; eauto.
  - apply IHl. apply itemsR_once in Hi. destruct Hi as (rx & Hr & Hi). destruct n as [|n]; [destruct Hr as [Hr Hu]; exfalso; apply Hu; symmetry; exact Hr|].
    destruct (ev_seq G K input n x None false body o rx Hx Hr) as (r1 & H1 & ->). apply (itemsR_mono _ (evR G K input (S n))) in H1; [|intros; eapply evR_up; [|eauto]; lia].
    eapply itemsR_join; eauto. destruct r1 as [| |t ns]; cbn [seqResult andb labelled] in *; auto. contradiction.
Qed.
Lemma options_fwd n : (forall a b o r, sim a b -> evR G K input n a o r -> Gives H K input b o r) ->
  forall l l', optionsSim l l' -> forall o best r, best <> Unfinished -> optionsR (evR G K input n) l o best r -> optionsR (Gives H K input) l' o best r.
Proof.
  intros IH. induction 1 as [|x y l l' Hxy Hl IHl|x body l l' Hx Hl IHl]; intros o best r Hb Hi.
  - inversion Hi; constructor.
  - inversion Hi; subst. eapply or_cons; eauto. apply IHl; auto. apply longer_fin; auto.
  - apply IHl; auto. inversion Hi as [|x0 l0 o0 best0 rx r0 Q1 Q2 Q3]; subst. destruct n as [|n]; [destruct Q1 as [Hr Hu]; exfalso; apply Hu; symmetry; exact Hr|].
    destruct (ev_choice G K input n x None body o rx Hx Q1) as (r1 & H1 & ->).
    assert (H1' : optionsR (evR G K input (S n)) body o NoMatch r1). { clear -H1. induction H1; [constructor|]. eapply or_cons; eauto. eapply evR_up; [|eauto]. lia. }
    pose proof (optionsR_from _ _ _ _ _ H1' best ltac:(discriminate)) as F. replace (longer best NoMatch) with best in F by (destruct best; [congruence| |]; reflexivity).
    eapply optionsR_app; [exact F|]. destruct r1; exact Q3.
Qed.
Theorem sim_fwd n : forall a b o r, sim a b -> evR G K input n a o r -> Gives H K input b o r.
Proof.
  induction n as [|n IH]; intros a b o r Hab Hr; [destruct Hr as [Hr Hu]; exfalso; apply Hu; symmetry; exact Hr|]. pose proof (Hsim a b Hab) as Ho. unfold objSim in Ho. destruct (G a) as [[cn ch rs|lb nk items|lb options]|] eqn:Ea, (H b) as [[cn' ch' rs'|lb' nk' items'|lb' options']|] eqn:Eb; try contradiction.
  - destruct Ho as (<- & <- & <-). destruct Hr as [Hr Hu]. split; auto. exists 1. cbn [eval] in *. rewrite Ea in Hr. rewrite Eb. auto.
  - destruct Ho as (<- & <- & Hs). destruct (ev_seq _ _ _ _ _ _ _ _ _ _ Ea Hr) as (r1 & H1 & ->). eapply gives_seq; eauto. eapply items_fwd; eauto.
  - destruct Ho as (<- & Hs). destruct (ev_choice _ _ _ _ _ _ _ _ _ Ea Hr) as (r1 & H1 & ->). eapply gives_choice; eauto. eapply options_fwd; eauto. discriminate.
  - destruct Hr as [Hr Hu]. cbn [eval] in Hr. rewrite Ea in Hr. congruence.
Qed.
(** and back *)
Lemma items_bwd n : (forall a b o r, sim a b -> evR H K input n b o r -> Gives G K input a o r) ->
  forall l l', itemsSim l l' -> forall o r, itemsR (evR H K input n) l' 0 o r -> itemsR (Gives G K input) l 0 o r.
Proof.
  intros IH. induction 1 as [|x y b l l' Hxy Hl IHl|x body l l' Hx Hl IHl]; intros o r Hi.
  - inversion Hi; constructor.
  - assert (E : forall l0 count o r, itemsR (evR H K input n) l0 count o r -> l0 = (y, b) :: l' -> itemsR (Gives G K input) ((x, b) :: l) count o r).
    { induction 1 as [count0 o0|x0 mn mx l0 count0 o0 r0 H1 H2 H3 IH0|x0 mn mx l0 count0 o0 H1 H2|x0 mn mx l0 count0 o0 t ns r0 H1 H2 H3 H4 IH0|x0 mn mx l0 count0 o0 t ns r0 H1 H2 H3 H4 IH0|x0 mn mx l0 count0 o0 t ns r0 H1 H2 H3 IH0]; intros E; [discriminate| | | | |]; injection E as -> <- ->.
      - apply ir_skip; eauto.
      - apply ir_fail; eauto.
      - eapply ir_last; eauto.
      - eapply ir_more; eauto.
      - eapply ir_empty; eauto. }
    eapply E; eauto.
  - specialize (IHl o r Hi). destruct (itemsR_split _ l _ _ _ _ IHl body eq_refl (fun _ => eq_refl)) as (r1 & A1 & A2). pose proof (itemsR_fin _ _ _ _ _ A1) as Hf.
    pose proof (gives_seq G K input x None false body o r1 Hx A1) as Hg. eapply once_itemsR; [exact Hg|]. destruct r1 as [| |t ns]; cbn [seqResult andb labelled]; auto. 
Qed.
Lemma options_bwd n : (forall a b o r, sim a b -> evR H K input n b o r -> Gives G K input a o r) ->
  forall l l', optionsSim l l' -> forall o best r, best <> Unfinished -> optionsR (evR H K input n) l' o best r -> optionsR (Gives G K input) l o best r.
Proof.
  intros IH. induction 1 as [|x y l l' Hxy Hl IHl|x body l l' Hx Hl IHl]; intros o best r Hb Hi.
  - inversion Hi; constructor.
  - inversion Hi; subst. eapply or_cons; eauto. apply IHl; auto. apply longer_fin; auto.
  - specialize (IHl o best r Hb Hi). apply optionsR_split in IHl. destruct IHl as (r1 & A1 & A2).
    destruct (optionsR_back _ _ _ _ _ A1 best NoMatch) as (r2 & B1 & ->); [destruct best; [congruence| |]; reflexivity|discriminate|].
    pose proof (gives_choice G K input x None body o r2 Hx B1) as Hg. assert (L : labelled None o r2 = r2) by (destruct r2; auto). rewrite L in Hg. eapply or_cons; [exact Hg|apply Hg|auto].
Qed.
Theorem sim_bwd n : forall a b o r, sim a b -> evR H K input n b o r -> Gives G K input a o r.
Proof.
  induction n as [|n IH]; intros a b o r Hab Hr; [destruct Hr as [Hr Hu]; exfalso; apply Hu; symmetry; exact Hr|]. pose proof (Hsim a b Hab) as Ho. unfold objSim in Ho. destruct (G a) as [[cn ch rs|lb nk items|lb options]|] eqn:Ea, (H b) as [[cn' ch' rs'|lb' nk' items'|lb' options']|] eqn:Eb; try contradiction.
  - destruct Ho as (<- & <- & <-). destruct Hr as [Hr Hu]. split; auto. exists 1. cbn [eval] in *. rewrite Eb in Hr. rewrite Ea. auto.
  - destruct Ho as (<- & <- & Hs). destruct (ev_seq _ _ _ _ _ _ _ _ _ _ Eb Hr) as (r1 & H1 & ->). eapply gives_seq; eauto. eapply items_bwd; eauto.
  - destruct Ho as (<- & Hs). destruct (ev_choice _ _ _ _ _ _ _ _ _ Eb Hr) as (r1 & H1 & ->). eapply gives_choice; eauto. eapply options_bwd; eauto. discriminate.
  - destruct Hr as [Hr Hu]. cbn [eval] in Hr. rewrite Eb in Hr. congruence.
Qed.
Theorem sim_gives a b o r : sim a b -> Gives G K input a o r <-> Gives H K input b o r.
Proof. intros Hab. split; intros [Hr (n & E)]; [eapply sim_fwd|eapply sim_bwd]; eauto; split; eauto. Qed.
End TWO.
