(** A check for predictive syntaxes. *)
From Verif Require Import Base Utf8 IdSet Results Parser Build Syntax ListFacts Lang Grammar WsLang ApiSpec InitSpec Api ApiFacts RefSpec RefFuel RefTotal RefCheck LeftCheck InlineSim PredictSpec PredictFacts PredictApi.

(** ** classes, by the points where they change *)
Definition cuts (G : key -> option (gobj key)) (c : key) : list Z :=
  match G c with Some (GChar _ chars ranges) => flat_map (fun x => [x; x + 1]%Z) chars ++ flat_map (fun lh => [fst lh; snd lh + 1]%Z) ranges | _ => [] end.
Definition charHas (G : key -> option (gobj key)) (r : rune) (c : key) : bool :=
  match G c with Some (GChar cn ch rs) => classHas cn ch rs r | _ => false end.
Definition someHas (G : key -> option (gobj key)) (l : list key) (r : rune) : bool := existsb (charHas G r) l.
Definition points (cs : list Z) : list Z := (fold_right Z.min 0%Z cs - 1)%Z :: cs.
Definition apart (G : key -> option (gobj key)) (l l' : list key) : bool :=
  forallb (fun p => negb (someHas G l p && someHas G l' p)) (points (flat_map (cuts G) l ++ flat_map (cuts G) l')).

Lemma points_for cs r : exists p, In p (points cs) /\ forall c, In c cs -> (c <= r <-> c <= p)%Z.
Proof.
  assert (Hmin : forall l c, In c l -> (fold_right Z.min 0%Z l <= c)%Z) by (induction l as [|x l IH]; intros c []; simpl; [subst; lia|specialize (IH c H); lia]).
  assert (H : forall l, (forall c, In c l -> (r < c)%Z) \/ exists p, In p l /\ (p <= r)%Z /\ forall c, In c l -> (c <= r)%Z -> (c <= p)%Z).
  { induction l as [|x l IH]; [left; intros c []|]. destruct (Z.le_gt_cases x r) as [L|L].
    - right. destruct IH as [IH|(p & P1 & P2 & P3)].
      + exists x. split; [left; auto|]. split; auto. intros c [->|Hc] Hr; [lia|]. specialize (IH c Hc). lia.
      + destruct (Z.le_gt_cases x p); [exists p|exists x]; (split; [simpl; auto|]); (split; [lia|]); intros c [->|Hc] Hr; try lia; specialize (P3 c Hc Hr); lia.
    - destruct IH as [IH|(p & P1 & P2 & P3)]; [left; intros c [->|Hc]; auto|right]. exists p. split; [right; auto|]. split; auto. intros c [->|Hc] Hr; [lia|auto]. }
  destruct (H cs) as [Hc|(p & P1 & P2 & P3)].
  - exists (fold_right Z.min 0%Z cs - 1)%Z. split; [left; auto|]. intros c Hin. specialize (Hc c Hin). specialize (Hmin cs c Hin). lia.
  - exists p. split; [right; auto|]. intros c Hin. split; [auto|lia].
Qed.
Section CHECK.
Variable calls : list defcall.
Notation G := (graphOf calls).
Lemma cut_same c p r : (forall x, In x (cuts G c) -> (x <= r <-> x <= p)%Z) -> charHas G r c = charHas G p c.
Proof.
  unfold cuts, charHas. destruct (G c) as [[cn ch rs| |]|]; auto. intros H. unfold classHas. f_equal. f_equal.
  - apply Bool.eq_iff_eq_true. rewrite !existsb_exists. split; intros (x & Hx & E); exists x; (split; [auto|]); apply Z.eqb_eq in E; apply Z.eqb_eq;
      assert (H1 := H x ltac:(apply in_or_app; left; apply in_flat_map; exists x; split; simpl; auto)); assert (H2 := H (x + 1)%Z ltac:(apply in_or_app; left; apply in_flat_map; exists x; split; simpl; auto)); lia.
  - apply Bool.eq_iff_eq_true. rewrite !existsb_exists. split; intros ((lo, hi) & Hx & E); exists (lo, hi); (split; [auto|]); apply andb_true_iff in E; apply andb_true_iff; simpl in *;
      assert (H1 := H lo ltac:(apply in_or_app; right; apply in_flat_map; exists (lo, hi); split; simpl; auto)); assert (H2 := H (hi + 1)%Z ltac:(apply in_or_app; right; apply in_flat_map; exists (lo, hi); split; simpl; auto)); lia.
Qed.
Lemma apart_ok l l' r : apart G l l' = true -> someHas G l r = true -> someHas G l' r = true -> False.
Proof.
  intros H H1 H2. unfold apart in H. rewrite forallb_forall in H. destruct (points_for (flat_map (cuts G) l ++ flat_map (cuts G) l') r) as (p & P1 & P2). specialize (H p P1).
  assert (S : forall m, (forall c, In c m -> forall x, In x (cuts G c) -> (x <= r <-> x <= p)%Z) -> someHas G m r = true -> someHas G m p = true).
  { intros m Hm X. unfold someHas in *. apply existsb_exists in X. destruct X as (c & Hc & X). apply existsb_exists. exists c. split; auto. rewrite <- (cut_same c p r); [auto|]. apply (Hm c Hc). }
  rewrite (S l), (S l') in H; auto; try discriminate; intros c Hc x Hx; apply P2; apply in_or_app; [right|left]; apply in_flat_map; eauto.
Qed.

(** ** the tables *)
Definition look (t : list (key * list key)) (k : key) : list key := flat_map snd (filter (fun p => key_eq k (fst p)) t).
Fixpoint dedupe (l : list key) : list key := match l with [] => [] | x :: l' => if member l' x then dedupe l' else x :: dedupe l' end.
Section ONE.
Variables (E : key -> bool) (f n : key -> list key).
(** the single characters that some items, and then [rest], may begin with *)
Fixpoint chain (items : list (key * (nat * option nat))) (rest : list key) : list key :=
  match items with
  | [] => rest
  | (x, (mn, _)) :: items' => f x ++ (if (mn =? 0) || E x then chain items' rest else [])
  end.
Definition stepFirst (k : key) : list key :=
  match G k with
  | Some (GChar _ _ _) => [k]
  | Some (GSeq _ _ items) => chain items []
  | Some (GChoice _ options) => flat_map f options
  | None => []
  end.
Fixpoint seqFollow (rest : list key) (items : list (key * (nat * option nat))) : list (key * list key) :=
  match items with
  | [] => []
  | (x, (mn, mx)) :: items' => (x, chain items' rest ++ match mx with Some 1 => [] | _ => f x end) :: seqFollow rest items'
  end.
Definition stepFollow (k : key) : list (key * list key) :=
  match G k with
  | Some (GSeq _ _ items) => seqFollow (n k) items
  | Some (GChoice _ options) => map (fun x => (x, n k)) options
  | _ => []
  end.
Definition refs (k : key) : list key :=
  match G k with
  | Some (GSeq _ _ items) => map fst items
  | Some (GChoice _ options) => options
  | _ => []
  end.
Fixpoint seqDecided (rest : list key) (items : list (key * (nat * option nat))) : bool :=
  match items with
  | [] => true
  | (x, (mn, mx)) :: items' =>
    (((mn =? 1) && match mx with Some 1 => true | _ => false end) || negb (E x)) &&
    ((match mx with Some m => m =? mn | None => false end) || apart G (f x) (chain items' rest)) && seqDecided rest items'
  end.
Definition keyDecided (k : key) : bool :=
  match G k with
  | Some (GSeq _ _ items) => seqDecided (n k) items
  | Some (GChoice _ options) =>
    forallb (fun x => forallb (fun y => (key_eq x y || apart G (f x) (f y)) && (negb (E x) || apart G (f y) (n k))) options) options
  | _ => true
  end.
End ONE.
Definition subset (l l' : list key) : bool := forallb (member l') l.
Fixpoint reachTab (fuel : nat) (l : list key) : list key := match fuel with O => l | S m => reachTab m (dedupe (l ++ flat_map refs l)) end.
Fixpoint firstTab (E : key -> bool) (fuel : nat) : list (key * list key) :=
  match fuel with O => [] | S m => let t := firstTab E m in map (fun k => (k, dedupe (stepFirst E (look t) k))) (keysOf calls) end.
Fixpoint followTab (E : key -> bool) (f : key -> list key) (reach : list key) (fuel : nat) : list (key * list key) :=
  match fuel with O => [] | S m =>
    let t := followTab E f reach m in
    let p := flat_map (stepFollow E f (look t)) reach in
    map (fun k => (k, dedupe (look p k))) reach
  end.
Definition tablesOk (E : key -> bool) (ft nt : list (key * list key)) (reach : list key) : bool :=
  forallb (fun k => subset (stepFirst E (look ft) k) (look ft k)) (keysOf calls) &&
  forallb (fun k => forallb (fun p => subset (snd p) (look nt (fst p))) (stepFollow E (look ft) (look nt) k)) reach &&
  forallb (keyDecided E (look ft) (look nt)) reach.
Definition predictCheck (rounds : nat) (root : string) : bool :=
  let e := emptyKeys calls rounds in
  let E := member e in
  let reach := reachTab rounds [KDef root] in
  let ft := firstTab E rounds in
  let nt := followTab E (look ft) reach rounds in
  forallb (fun k => implb (emptyStep calls e k) (E k)) (keysOf calls) &&
  member reach (KDef root) && forallb (fun k => subset (refs k) reach) reach &&
  tablesOk E ft nt reach.

Lemma member_In l k : member l k = true <-> In k l.
Proof. unfold member. rewrite existsb_exists. split; [intros (x & Hx & X); apply key_eq_ok in X; subst; auto|intros H; exists k; split; auto; apply key_eq_ok; auto]. Qed.
Lemma subset_has l l' r : subset l l' = true -> someHas G l r = true -> someHas G l' r = true.
Proof. unfold subset, someHas. rewrite forallb_forall, !existsb_exists. intros H (c & Hc & X). exists c. split; auto. apply member_In. auto. Qed.
Lemma has_app l l' r : someHas G (l ++ l') r = true <-> someHas G l r = true \/ someHas G l' r = true.
Proof. unfold someHas. rewrite existsb_app, orb_true_iff. tauto. Qed.
Lemma has_flat {X} (g : X -> list key) l x r : In x l -> someHas G (g x) r = true -> someHas G (flat_map g l) r = true.
Proof. unfold someHas. rewrite !existsb_exists. intros Hx (c & Hc & H). exists c. split; auto. apply in_flat_map. eauto. Qed.

Section TABLES.
Variables (E : key -> bool) (ft nt : list (key * list key)) (reach : list key) (root : key).
Definition Fk (k : key) (r : rune) : Prop := someHas G (look ft k) r = true.
Definition Nk (k : key) (r : rune) : Prop := someHas G (look nt k) r = true.
Hypothesis HE : mayBeEmpty G E.
Hypothesis Hreach : forall k, reached G root k -> In k reach.
Hypothesis Hok : tablesOk E ft nt reach = true.
Lemma miss_chain x mn (mx : option nat) : mayMiss E (x, (mn, mx)) -> ((mn =? 0) || E x)%bool = true.
Proof. intros [H|H]; simpl in H; [subst; auto|rewrite H; apply orb_true_r]. Qed.
Lemma begin_chain l r rest : itemsBegin E Fk l r -> someHas G (chain E (look ft) l rest) r = true.
Proof.
  induction 1 as [x [mn mx] l r H|[x [mn mx]] l r H _ IH]; cbn [chain]; apply has_app; [left; auto|right]. rewrite (miss_chain _ _ _ H). auto.
Qed.
Lemma ahead_chain a l r : ahead E Fk Nk a l r -> someHas G (chain E (look ft) l (look nt a)) r = true.
Proof.
  intros [H|[H1 H2]]; [apply begin_chain; auto|]. induction l as [|[x [mn mx]] l IH]; cbn [chain]; auto. apply has_app; right. rewrite (miss_chain x mn mx) by (apply H1; left; auto). apply IH. intros i Hi. apply H1. right; auto.
Qed.
Lemma tables_ok : begins G E Fk /\ follows G root E Fk Nk /\ decided G root E Fk Nk.
Proof.
  unfold tablesOk in Hok. apply andb_true_iff in Hok. destruct Hok as [H12 H3]. apply andb_true_iff in H12. destruct H12 as [H1 H2]. rewrite forallb_forall in H1, H2, H3. repeat split.
  - intros a r. destruct (G a) eqn:HG; auto. assert (Ha : In a (keysOf calls)) by (apply keys_cover; congruence). specialize (H1 a Ha). unfold stepFirst in H1. rewrite HG in H1. destruct g as [cn ch rs|lb nk items|lb options].
    + intros Hr. eapply subset_has; eauto. unfold someHas. simpl. unfold charHas. rewrite HG, Hr. auto.
    + intros Hr. eapply subset_has; eauto. apply begin_chain; auto.
    + intros x Hx Hr. eapply subset_has; eauto. eapply has_flat; eauto.
  - intros a r Ra. specialize (H2 a (Hreach a Ra)). rewrite forallb_forall in H2. unfold stepFollow in H2. destruct (G a) as [[cn ch rs|lb nk items|lb options]|] eqn:HG; auto.
    + intros before x mn mx behind -> Hr.
      assert (Hin : In (x, chain E (look ft) behind (look nt a) ++ match mx with Some 1 => [] | _ => look ft x end) (seqFollow E (look ft) (look nt a) (before ++ (x, (mn, mx)) :: behind))).
      { clear. induction before as [|[y [m M]] before IH]; [left; auto|right; auto]. }
      specialize (H2 _ Hin). simpl in H2. eapply subset_has; eauto. apply has_app. destruct Hr as [Hr|[Hm Hr]]; [left; apply ahead_chain; auto|right]. destruct mx as [[|[|m]]|]; auto; congruence.
    + intros x Hx Hr. specialize (H2 (x, look nt a)). simpl in H2. eapply subset_has; [apply H2|exact Hr]. apply in_map_iff. eauto.
  - intros a Ra. specialize (H3 a (Hreach a Ra)). unfold keyDecided in H3. destruct (G a) as [[cn ch rs|lb nk items|lb options]|] eqn:HG; auto.
    + intros before x mn mx behind ->.
      assert (Hs : seqDecided E (look ft) (look nt a) ((x, (mn, mx)) :: behind) = true).
      { clear - H3. induction before as [|[y [m M]] before IH]; auto. cbn [app seqDecided] in H3. apply andb_true_iff in H3. tauto. }
      cbn [seqDecided] in Hs. apply andb_true_iff in Hs. destruct Hs as [Hs _]. apply andb_true_iff in Hs. destruct Hs as [Hs1 Hs2]. split.
      * apply orb_true_iff in Hs1. destruct Hs1 as [Hs1|Hs1]; [left|right; apply negb_true_iff; auto]. apply andb_true_iff in Hs1. destruct Hs1 as [X Y]. apply Nat.eqb_eq in X. subst mn. destruct mx as [[|[|m]]|]; try discriminate. auto.
      * apply orb_true_iff in Hs2. destruct Hs2 as [Hs2|Hs2]; [left; destruct mx; [apply Nat.eqb_eq in Hs2; subst; auto|discriminate]|right]. intros r Hr Ha. apply ahead_chain in Ha. eapply apart_ok; eauto.
    + rewrite forallb_forall in H3. split; intros x y r Hx Hy Hr; specialize (H3 x Hx); rewrite forallb_forall in H3; specialize (H3 y Hy); apply andb_true_iff in H3; destruct H3 as [X Y].
      * intros Hr'. apply orb_true_iff in X. destruct X as [X|X]; [apply key_eq_ok; auto|]. exfalso. eapply apart_ok; eauto.
      * intros Hr1 Hr2. rewrite Hr in Y. simpl in Y. eapply apart_ok; eauto.
Qed.
End TABLES.
Theorem predictCheck_ok rounds root : predictCheck rounds root = true -> predictive calls root.
Proof.
  unfold predictCheck. set (e := emptyKeys calls rounds). set (E := member e). set (reach := reachTab rounds _). set (ft := firstTab E rounds). set (nt := followTab E _ reach rounds).
  intros H. apply andb_true_iff in H. destruct H as [H Hok]. apply andb_true_iff in H. destruct H as [H Hc]. apply andb_true_iff in H. destruct H as [H Hr].
  rewrite forallb_forall in H, Hc. apply member_In in Hr.
  assert (HE : mayBeEmpty G E).
  { intros k. pose proof (keys_cover calls k) as Hk. destruct (G k) as [[cn ch rs|lb nk items|lb options]|] eqn:Eg; auto; assert (Hin : In k (keysOf calls)) by (apply Hk; discriminate); specialize (H k Hin); unfold emptyStep in H; rewrite Eg in H.
    + intros Hi. destruct (E k); auto. assert (X : forallb (fun x => (fst (snd x) =? 0) || member e (fst x)) items = true).
      { apply forallb_forall. intros [x [mn mx]] Hx. simpl. destruct (Hi x mn mx Hx) as [->|Hx']; [reflexivity|]. unfold E in Hx'. rewrite Hx'. apply orb_true_r. }
      rewrite X in H. discriminate.
    + intros x Hx HEx. destruct (E k); auto. assert (X : existsb (member e) options = true) by (apply existsb_exists; exists x; auto). rewrite X in H. discriminate. }
  assert (Hreach : forall k, reached G (KDef root) k -> In k reach).
  { induction 1 as [|a lb nk items x b _ IH HG Hx|a lb options x _ IH HG Hx]; auto; specialize (Hc a IH); unfold subset in Hc; rewrite forallb_forall in Hc; apply member_In, Hc; unfold refs; rewrite HG; auto.
    apply in_map_iff. exists (x, b). auto. }
  exists E, (Fk ft), (Nk nt). split; auto. apply (tables_ok E ft nt reach); auto.
Qed.
End CHECK.
