(** A check for definitions whose left recursion is grounded. *)
From Verif Require Import Base Parser Build Syntax ListFacts Lang Grammar WsLang ApiSpec RefSpec RefSim RefApi RefCheck LeftSpec GrowSpec GrowSim.

Section CHECK.
Variable calls : list defcall.
Variable start : key.
Notation G := (graphOf calls).
Notation extn := (extending keyEqb (graphOf calls)).
Notation isExt := (isExtension keyEqb (graphOf calls)).

(** the keys that are reached *)
Definition kidKeys (k : key) : list key :=
  match G k with
  | Some (GSeq _ _ items) => map fst items
  | Some (GChoice _ options) => options
  | _ => []
  end.
Definition memberK (l : list key) (k : key) : bool := existsb (keyEqb k) l.
Fixpoint reachKeys (n : nat) (todo found : list key) : list key :=
  match n with
  | O => todo ++ found
  | S n' =>
    match todo with
    | [] => found
    | k :: todo' => if memberK found k then reachKeys n' todo' found else reachKeys n' (kidKeys k ++ todo') (k :: found)
    end
  end.
Definition plainStarts (E : key -> bool) (k : key) : list key := filter (fun x => negb (extn x)) (starts calls E k).
Fixpoint plainDepth (E : key -> bool) (n : nat) (k : key) : nat :=
  match n with O => 0 | S n' => S (fold_right (fun x m => Nat.max (plainDepth E n' x) m) 0 (plainStarts E k)) end.
Definition growOk (E : key -> bool) (k : key) : bool :=
  match G k with
  | None => false
  | Some (GChar _ _ _) => true
  | Some (GSeq _ _ items) => forallb (fun x => negb (extn (fst x))) items &&
    (negb (extn k) || existsb (fun x => (0 <? fst (snd x)) && negb (E (fst x))) (tl items))
  | Some (GChoice _ options) => forallb (fun x => Bool.eqb (extn x) (isExt k x)) options &&
    match extensionsOf keyEqb G k options with
    | [] => true
    | _ => inBlocks keyEqb G k options && forallb (fun b => negb (E b)) (basesOf keyEqb G k options)
    end
  end.
Definition growCheck (steps rounds : nat) : bool :=
  let empty := emptyKeys calls rounds in
  let E := member empty in
  let reached := reachKeys steps [start] [] in
  memberK reached start &&
  forallb (fun k => forallb (memberK reached) (kidKeys k)) reached &&
  forallb (fun k => implb (emptyStep calls empty k) (E k)) (keysOf calls) &&
  forallb (fun k => extn k || forallb (fun x => plainDepth E rounds x <? plainDepth E rounds k) (plainStarts E k)) reached &&
  forallb (growOk E) reached && negb (extn start).

Lemma memberK_In l k : memberK l k = true -> In k l.
Proof. intros H. apply existsb_exists in H. destruct H as (x & Hx & E). apply keyEqb_spec in E. subst; auto. Qed.

Theorem growCheck_ok steps rounds : growCheck steps rounds = true -> groundedGrowth keyEqb G start.
Proof.
  intros H. unfold growCheck in H. cbv zeta in H. set (empty := emptyKeys calls rounds) in *. set (E := member empty) in *. set (reached := reachKeys steps [start] []) in *.
  rewrite !andb_true_iff in H. destruct H as (((((Hr1 & Hr2) & H1) & H2) & H3) & Hx).
  rewrite forallb_forall in Hr2, H1, H2, H3. apply negb_true_iff in Hx. split; auto.
  assert (Hre : forall a, reaches G start a -> In a reached).
  { induction 1 as [|a x Ha IH Hax]; [apply memberK_In; auto|]. specialize (Hr2 _ IH). rewrite forallb_forall in Hr2. apply memberK_In, Hr2.
    unfold kidKeys. destruct Hax as [l nk items b Eg Hi|l options Eg Ho]; rewrite Eg; auto. apply in_map_iff. exists (x, b); auto. }
  exists E, (plainDepth E rounds). split.
  - intros k. pose proof (keys_cover calls k) as Hc. destruct (G k) as [[cn ch rs|lb nk items|lb options]|] eqn:Eg; auto; assert (Hin : In k (keysOf calls)) by (apply Hc; discriminate); specialize (H1 k Hin);
      unfold emptyStep in H1; rewrite Eg in H1.
    + intros Hi. destruct (E k); auto. assert (X : forallb (fun x => (fst (snd x) =? 0) || member empty (fst x)) items = true).
      { apply forallb_forall. intros [x [mn mx]] Hy. simpl. destruct (Hi x mn mx Hy) as [->|Hx']; [reflexivity|]. unfold E in Hx'. rewrite Hx'. apply orb_true_r. }
      rewrite X in H1. discriminate.
    + intros x Hy HEx. destruct (E k); auto. assert (X : existsb (member empty) options = true) by (apply existsb_exists; exists x; auto). rewrite X in H1. discriminate.
  - intros a Ha. apply Hre in Ha. split.
    + intros x Hs Hxa Hxx. specialize (H2 a Ha). rewrite Hxa in H2. simpl in H2. rewrite forallb_forall in H2.
      apply Nat.ltb_lt, H2. apply filter_In. split; [|rewrite Hxx; reflexivity].
      unfold starts. destruct Hs as [l k before b behind Eg Hb|l options Eg Ho]; rewrite Eg; auto. apply firstItems_In; auto.
    + specialize (H3 a Ha). unfold growOk in H3. destruct (G a) as [[cn ch rs|l nk items|l options]|]; [auto| | |discriminate].
      * apply andb_true_iff in H3. destruct H3 as [Ho H3]. rewrite forallb_forall in Ho. split.
        -- intros x b Hi. specialize (Ho _ Hi). simpl in Ho. apply negb_true_iff in Ho. auto.
        -- intros He. rewrite He in H3. simpl in H3. apply existsb_exists in H3. destruct H3 as ((y & mn & mx) & Hy & Hb). simpl in Hb. apply andb_true_iff in Hb. destruct Hb as [Hb1 Hb2].
           exists y, mn, mx. split; auto. split; [apply Nat.ltb_lt; auto|apply negb_true_iff; auto].
      * apply andb_true_iff in H3. destruct H3 as [Ho H3]. rewrite forallb_forall in Ho. split.
        -- intros x Hi. apply Bool.eqb_prop. auto.
        -- intros He. destruct (extensionsOf keyEqb G a options); [congruence|]. apply andb_true_iff in H3. destruct H3 as [Ho1 Ho2]. split; auto. rewrite forallb_forall in Ho2. intros b Hb. apply negb_true_iff. auto.
Qed.
End CHECK.
