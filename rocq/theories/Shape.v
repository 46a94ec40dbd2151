(** The names of the children in a tree of the reference semantics, as regular expressions. *)
From Verif Require Import Base Utf8 Parser Build Syntax Grammar WsLang RefSpec RefCheck.
Local Open Scope string_scope.
Local Open Scope list_scope.
Local Open Scope nat_scope.

Inductive re := Eps | Sym (s : string) | Cat (a b : re) | Alt (a b : re) | Star (a : re).
Inductive lang : re -> list string -> Prop :=
| l_eps : lang Eps []
| l_sym s : lang (Sym s) [s]
| l_cat a b u v : lang a u -> lang b v -> lang (Cat a b) (u ++ v)
| l_left a b u : lang a u -> lang (Alt a b) u
| l_right a b u : lang b u -> lang (Alt a b) u
| l_none a : lang (Star a) []
| l_more a u v : lang a u -> lang (Star a) v -> lang (Star a) (u ++ v).

Fixpoint reEqb (a b : re) : bool :=
  match a, b with
  | Eps, Eps => true
  | Sym s, Sym t => String.eqb s t
  | Cat a b, Cat c d => reEqb a c && reEqb b d
  | Alt a b, Alt c d => reEqb a c && reEqb b d
  | Star a, Star b => reEqb a b
  | _, _ => false
  end.
Lemma reEqb_eq a : forall b, reEqb a b = true -> a = b.
Proof.
  induction a; intros [] H; simpl in H; try discriminate; auto; try (apply andb_true_iff in H; destruct H as [H1 H2]; f_equal; auto; fail).
  - apply String.eqb_eq in H. subst; auto.
  - f_equal; auto.
Qed.
(** smart constructors *)
Definition cat (a b : re) : re := match a, b with Eps, _ => b | _, Eps => a | _, _ => Cat a b end.
Definition star (a : re) : re := match a with Eps => Eps | _ => Star a end.
Lemma lang_eps w : lang Eps w -> w = [].
Proof. inversion 1; auto. Qed.
Lemma cat_ok a b u v : lang a u -> lang b v -> lang (cat a b) (u ++ v).
Proof.
  intros Ha Hb. unfold cat. destruct a; [apply lang_eps in Ha; subst; auto| | | |];
    (destruct b; [apply lang_eps in Hb; subst; rewrite app_nil_r; auto| | | |]; apply l_cat; auto).
Qed.
Lemma star_ok a l : Forall (lang a) l -> lang (star a) (List.concat l).
Proof.
  intros H. assert (X : lang (Star a) (List.concat l)) by (induction H; simpl; [apply l_none|apply l_more; auto]).
  unfold star. destruct a; auto. replace (List.concat l) with (@nil string); [constructor|]. clear X. induction H as [|x l Hx _ IH]; auto. apply lang_eps in Hx. subst. auto.
Qed.
(** an expression whose words are single names *)
Fixpoint syms (a : re) : option (list string) :=
  match a with
  | Sym s => Some [s]
  | Alt a b => match syms a, syms b with Some x, Some y => Some (x ++ y) | _, _ => None end
  | _ => None
  end.
(** one of the names *)
Definition oneOf (l : list string) : re := match l with [] => Eps | x :: l' => fold_left (fun r y => Alt r (Sym y)) l' (Sym x) end.
Definition alt (a b : re) : re :=
  if reEqb a b then a else
  match syms a, syms b with
  | Some x, Some y => oneOf (x ++ filter (fun s => negb (existsb (String.eqb s) x)) y)
  | _, _ => Alt a b
  end.
Definition within (a b : re) : bool :=
  reEqb a b || match syms a, syms b with Some x, Some y => forallb (fun s => existsb (String.eqb s) y) x | _, _ => false end.
Lemma syms_lang a : forall l, syms a = Some l -> forall w, lang a w <-> exists s, In s l /\ w = [s].
Proof.
  induction a as [|s|a IHa b IHb|a IHa b IHb|a IHa]; intros l H; simpl in H; try discriminate.
  - inversion H; subst. intros w. split.
    + inversion 1; subst. exists s. split; [left|]; auto.
    + intros (x & [<-|[]] & ->). constructor.
  - destruct (syms a) as [x|]; [|discriminate]. destruct (syms b) as [y|]; [|discriminate]. inversion H; subst. intros w. split.
    + intros Hw. inversion Hw as [| | |? ? ? H1|? ? ? H1| |]; subst; [apply (IHa _ eq_refl) in H1|apply (IHb _ eq_refl) in H1]; destruct H1 as (s & Hs & ->); exists s; split; auto; apply in_or_app; auto.
    + intros (s & Hs & ->). apply in_app_or in Hs. destruct Hs as [Hs|Hs]; [apply l_left, (IHa _ eq_refl)|apply l_right, (IHb _ eq_refl)]; eauto.
Qed.
Lemma oneOf_ok l s : In s l -> lang (oneOf l) [s].
Proof.
  assert (X : forall l r w, lang r w \/ (exists s, In s l /\ w = [s]) -> lang (fold_left (fun r y => Alt r (Sym y)) l r) w).
  { induction l0 as [|y l0 IH]; intros r w H; simpl; [destruct H as [H|(x & [] & _)]; auto|]. apply IH.
    destruct H as [H|(x & [<-|Hx] & ->)]; [left; apply l_left; auto|left; apply l_right; constructor|right; eauto]. }
  destruct l as [|x l]; [intros []|]. intros Hs. simpl. apply X. destruct Hs as [->|Hs]; [left; constructor|right; eauto].
Qed.
Lemma alt_ok a b u : lang a u \/ lang b u -> lang (alt a b) u.
Proof.
  intros H. unfold alt. destruct (reEqb a b) eqn:E; [apply reEqb_eq in E; subst; tauto|clear E]. destruct (syms a) as [x|] eqn:Ea; [destruct (syms b) as [y|] eqn:Eb|]; try (destruct H; [apply l_left|apply l_right]; auto; fail).
  destruct H as [H|H]; [apply (syms_lang _ _ Ea) in H|apply (syms_lang _ _ Eb) in H]; destruct H as (s & Hs & ->); apply oneOf_ok, in_or_app; auto.
  destruct (existsb (String.eqb s) x) eqn:Ex; [left|right; apply filter_In; rewrite Ex; auto].
  apply existsb_exists in Ex. destruct Ex as (z & Hz & E). apply String.eqb_eq in E. subst; auto.
Qed.
Lemma within_ok a b w : within a b = true -> lang a w -> lang b w.
Proof.
  unfold within. intros H Hw. apply orb_true_iff in H. destruct H as [H|H]; [apply reEqb_eq in H; subst; auto|].
  destruct (syms a) as [x|] eqn:Ea; [|discriminate]. destruct (syms b) as [y|] eqn:Eb; [|discriminate].
  apply (syms_lang _ _ Ea) in Hw. destruct Hw as (s & Hs & ->). apply (syms_lang _ _ Eb). exists s. split; auto.
  rewrite forallb_forall in H. specialize (H s Hs). apply existsb_exists in H. destruct H as (z & Hz & E). apply String.eqb_eq in E. subst; auto.
Qed.

(** ** names without those of comments *)
Definition heard (ns : list node) : list string := map nName (filter (fun x => negb (String.eqb (nName x) "comment")) ns).
Lemma heard_app a b : heard (a ++ b) = heard a ++ heard b.
Proof. unfold heard. rewrite filter_app, map_app. auto. Qed.
Definition symbolRe (n : string) : re := if String.eqb n "comment" then Eps else Sym n.

Section SHAPE.
Variable G : key -> option (gobj key).
Variable K : list (list rune).
Variable input : list rune.
Variable reOf : key -> re.
Variable content : string -> re.

Definition itemRe (r : re) (mn : nat) (mx : option nat) : re :=
  match mn, mx with
  | 1, Some 1 => r
  | 0, Some 1 => alt Eps r
  | 0, _ => star r
  | _, _ => cat r (star r)
  end.
Definition itemsRe (items : list (key * (nat * option nat))) : re :=
  fold_right (fun x r => cat (itemRe (reOf (fst x)) (fst (snd x)) (snd (snd x))) r) Eps items.
Definition optionsRe (options : list key) : re :=
  match map reOf options with [] => Eps | r :: l => fold_left alt l r end.
Definition labelOk (label : option string) (body : re) (r : re) : bool :=
  match label with
  | None => within body r
  | Some n => within (symbolRe n) r && within body (content n)
  end.
(** nodes with the content of their name, all the way down *)
Inductive shaped : node -> Prop :=
| shaped_node n f t ns : lang (content n) (heard ns) -> Forall shaped ns -> shaped (Node n f t ns).

Definition good (k : key) (ns : list node) : Prop := lang (reOf k) (heard ns) /\ Forall shaped ns.

Lemma itemRe_ok r mn mx parts : Forall (lang r) parts -> mn <= List.length parts -> (mx = Some 1 -> List.length parts <= Nat.max 1 mn) -> lang (itemRe r mn mx) (List.concat parts).
Proof.
  intros Hp Hm Hx. assert (S1 : lang (star r) (List.concat parts)) by (apply star_ok; auto).
  assert (P1 : 1 <= List.length parts -> lang (cat r (star r)) (List.concat parts)).
  { intros H1. inversion Hp as [|p ps Hp1 Hp2]; subst; simpl in H1; [lia|]. simpl. apply cat_ok; auto. apply star_ok; auto. }
  unfold itemRe. destruct mn as [|[|mn]].
  - destruct mx as [[|[|m]]|]; auto. specialize (Hx eq_refl). destruct parts as [|p [|q parts]]; simpl in *; try lia; apply alt_ok; [left; constructor|right]. inversion Hp; subst. rewrite app_nil_r. auto.
  - destruct mx as [[|[|m]]|]; auto. specialize (Hx eq_refl). destruct parts as [|p [|q parts]]; simpl in *; try lia. inversion Hp; subst. rewrite app_nil_r. auto.
  - apply P1. lia.
Qed.

Section ITEMS.
Variable rec : key -> nat -> outcome.
Hypothesis Hrec : forall k o t ns, rec k o = Match t ns -> good k ns.

Lemma repeat_good k ns m : good k ns -> Forall (lang (reOf k)) (repeat (heard ns) m) /\ heard (List.concat (repeat ns m)) = List.concat (repeat (heard ns) m) /\ Forall shaped (List.concat (repeat ns m)).
Proof.
  intros [H1 H2]. induction m as [|m (I1 & I2 & I3)]; simpl; [repeat split; constructor|]. rewrite heard_app, I2. repeat split; auto. apply Forall_app; auto.
Qed.
Definition itemSane (x : key * (nat * option nat)) : bool := match snd (snd x) with Some m => fst (snd x) <=? m | None => true end.
Lemma items_ok k : forall items count o t ns, forallb itemSane items = true -> evalItems rec k items count o = Match t ns ->
  Forall shaped ns /\
  match items with
  | [] => heard ns = []
  | (x, (mn, mx)) :: items' =>
    exists parts rest, heard ns = List.concat parts ++ rest /\ Forall (lang (reOf x)) parts /\ lang (itemsRe items') rest /\
      mn <= count + List.length parts /\ (mx = Some 1 -> count = 0 -> List.length parts <= Nat.max 1 mn)
  end.
Proof.
  induction k as [|k IH]; intros items count o t ns Hs H; [discriminate|]. cbn [evalItems] in H.
  destruct items as [|[x [mn mx]] items]; [inversion H; subst; split; [constructor|reflexivity]|].
  pose proof Hs as Hs0. cbn [forallb] in Hs. apply andb_true_iff in Hs. destruct Hs as [Hs1 Hs]. unfold itemSane in Hs1; cbn [fst snd] in Hs1.
  assert (Hnext : forall o' t' ns', evalItems rec k items 0 o' = Match t' ns' -> Forall shaped ns' /\ lang (itemsRe items) (heard ns')).
  { intros o' t' ns' H'. pose proof (IH _ _ _ _ _ Hs H') as [S1 S2]. split; auto. destruct items as [|[y [mn' mx']] items]; [rewrite S2; constructor|].
    destruct S2 as (parts & rest & -> & P1 & P2 & P3 & P4). cbn [itemsRe fold_right fst snd]. apply cat_ok; auto. apply itemRe_ok; auto. }
  destruct (rec x o) as [| |t1 ns1] eqn:E1; [discriminate| |].
  - destruct (Nat.leb_spec mn count); [|discriminate]. destruct (Hnext _ _ _ H) as [S1 S2]. split; auto. exists [], (heard ns). simpl. repeat split; auto; try (intros; lia).
  - pose proof (Hrec _ _ _ _ E1) as Hg. destruct (Nat.ltb_spec o t1).
    + destruct (match mx with Some m => S count =? m | None => false end) eqn:Em.
      * destruct (evalItems rec k items 0 t1) as [| |t2 ns2] eqn:E2; try discriminate. simpl in H. inversion H; subst. destruct (Hnext _ _ _ E2) as [S1 S2]. destruct Hg as [G1 G2]. split; [apply Forall_app; auto|].
        exists [heard ns1], (heard ns2). rewrite heard_app. simpl. rewrite app_nil_r.
        destruct mx as [m|]; [|discriminate]. apply Nat.eqb_eq in Em. apply Nat.leb_le in Hs1. repeat split; auto; try (intros; lia). intros; destruct mn; lia.
      * destruct (evalItems rec k ((x, (mn, mx)) :: items) (S count) t1) as [| |t2 ns2] eqn:E2; try discriminate. cbn [after] in H. inversion H; subst.
        destruct (IH _ _ _ _ _ Hs0 E2) as (S1 & parts & rest & S2 & P1 & P2 & P3 & P4). destruct Hg as [G1 G2]. split; [apply Forall_app; auto|].
        exists (heard ns1 :: parts), rest. rewrite heard_app, S2. simpl. rewrite app_assoc. repeat split; auto; try (intros; lia). intros -> ->. discriminate.
    + destruct (evalItems rec k items 0 t1) as [| |t2 ns2] eqn:E2; try discriminate. cbn [after] in H. inversion H; subst. destruct (Hnext _ _ _ E2) as [S1 S2].
      destruct (repeat_good x ns1 (mn - count) Hg) as (R1 & R2 & R3). split; [apply Forall_app; auto|].
      exists (repeat (heard ns1) (mn - count)), (heard ns2). rewrite heard_app, R2, repeat_length. repeat split; auto; try (intros; lia).
Qed.
Lemma items_lang k items o t ns : forallb itemSane items = true -> evalItems rec k items 0 o = Match t ns -> Forall shaped ns /\ lang (itemsRe items) (heard ns).
Proof.
  intros Hs H. destruct (items_ok _ _ _ _ _ _ Hs H) as [S1 S2]. split; auto. destruct items as [|[y [mn' mx']] items]; [rewrite S2; constructor|].
  destruct S2 as (parts & rest & -> & P1 & P2 & P3 & P4). cbn [itemsRe fold_right fst snd]. apply cat_ok; auto. apply itemRe_ok; auto.
Qed.
Lemma options_ok : forall options o best t ns, evalOptions rec options o best = Match t ns -> best = Match t ns \/ exists x, In x options /\ rec x o = Match t ns.
Proof.
  induction options as [|x options IH]; intros o best t ns H; simpl in H; auto.
  destruct (rec x o) as [| |t1 ns1] eqn:E; [discriminate| |]; apply IH in H; destruct H as [H|(y & Hy & H)]; try (right; exists y; split; [right|]; auto; fail).
  - left. destruct best; simpl in H; auto; discriminate.
  - destruct best as [| |t2 ns2]; simpl in H; try (right; exists x; split; [left|]; auto; congruence).
    destruct (t2 <? t1); [right; exists x; split; [left|]; auto; congruence|auto].
Qed.
Lemma fold_alt l : forall r w, lang r w \/ (exists x, In x l /\ lang x w) -> lang (fold_left alt l r) w.
Proof.
  induction l as [|y l IH]; intros r w H; simpl; [destruct H as [H|(x & [] & _)]; auto|].
  apply IH. destruct H as [H|(x & [<-|Hx] & H)]; [left; apply alt_ok; auto|left; apply alt_ok; auto|right; eauto].
Qed.
Lemma optionsRe_ok options x w : In x options -> lang (reOf x) w -> lang (optionsRe options) w.
Proof.
  intros Hx Hw. unfold optionsRe. destruct options as [|y options]; [destruct Hx|]. simpl. apply fold_alt. destruct Hx as [->|Hx]; auto. right. exists (reOf x). split; auto. apply in_map. auto.
Qed.
End ITEMS.

Definition objOk (k : key) (g : gobj key) : bool :=
  match g with
  | GChar _ _ _ => within Eps (reOf k)
  | GSeq label _ items => forallb itemSane items && labelOk label (itemsRe items) (reOf k)
  | GChoice label options => labelOk label (optionsRe options) (reOf k)
  end.
Hypothesis Hok : forall k g, G k = Some g -> objOk k g = true.

Lemma label_good k label body o t ns t' ns' : labelOk label body (reOf k) = true -> lang body (heard ns) -> Forall shaped ns ->
  labelled label o (Match t ns) = Match t' ns' -> good k ns'.
Proof.
  unfold labelOk, labelled, good. intros H1 H2 H3 H. destruct label as [n|]; inversion H; subst.
  - apply andb_true_iff in H1. destruct H1 as [H1 H1']. split; [|constructor; [constructor|]; auto; eapply within_ok; eauto].
    eapply within_ok; [exact H1|]. unfold heard, symbolRe. simpl. destruct (String.eqb n "comment"); simpl; constructor.
  - split; auto. eapply within_ok; eauto.
Qed.
Theorem eval_good n : forall k o t ns, eval G K input n k o = Match t ns -> good k ns.
Proof.
  induction n as [|n IH]; intros k o t ns H; [discriminate|]. cbn [eval] in H. destruct (G k) as [g|] eqn:Eg; [|discriminate].
  pose proof (Hok _ _ Eg) as Hg. destruct g as [cnot chars ranges|label nokw items|label options]; cbn [objOk] in Hg.
  - destruct (nth_error input o) as [c|]; [|discriminate]. destruct (classHas cnot chars ranges c); inversion H; subst. split; [|constructor]. eapply within_ok; [exact Hg|constructor].
  - apply andb_true_iff in Hg. destruct Hg as [Hs Hg]. destruct (evalItems (eval G K input n) n items 0 o) as [| |t1 ns1] eqn:E; try discriminate.
    destruct (nokw && isOneOf (between input o t1) K)%bool; [discriminate|]. destruct (items_lang _ IH _ _ _ _ _ Hs E). eapply label_good; eauto.
  - destruct (evalOptions (eval G K input n) options o NoMatch) as [| |t1 ns1] eqn:E; try (destruct label; discriminate).
    apply options_ok in E. destruct E as [E|(x & Hx & E)]; [discriminate|]. apply IH in E. destruct E. eapply label_good; eauto. eapply optionsRe_ok; eauto.
Qed.
End SHAPE.
