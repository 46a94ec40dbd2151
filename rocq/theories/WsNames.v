(** The names that the whitespace rewriting creates never collide with each other or with the
    names of the definitions. *)
From Coq Require Import DecimalString DecimalZ DecimalPos Decimal.
From Verif Require Import Base Utf8 Parser Syntax.
Local Open Scope string_scope.

Definition colonFree (s : string) : Prop := ~ In ":"%char (list_ascii_of_string s).
Definition isItoa (s : string) : Prop := exists k, s = itoaNat k.

Lemma list_ascii_app a b : list_ascii_of_string (a ++ b) = (list_ascii_of_string a ++ list_ascii_of_string b)%list.
Proof. induction a; simpl; auto. f_equal; auto. Qed.
Lemma str_inj a b : list_ascii_of_string a = list_ascii_of_string b -> a = b.
Proof. intros H. rewrite <- (string_of_list_ascii_of_string a), <- (string_of_list_ascii_of_string b). congruence. Qed.

(** ** itoa *)
Lemma to_int_nonnil z : Z.to_int z <> Pos Nil /\ Z.to_int z <> Neg Nil.
Proof.
  destruct z; simpl; [split; discriminate| |]; split; try discriminate; intros H; inversion H as [H1]; revert H1; apply DecimalPos.Unsigned.to_uint_nonnil.
Qed.
Lemma itoa_inj z z' : itoa z = itoa z' -> z = z'.
Proof.
  unfold itoa. intros H. destruct (to_int_nonnil z) as [A1 A2], (to_int_nonnil z') as [B1 B2].
  apply (f_equal NilZero.int_of_string) in H. rewrite !NilZero.isi in H by auto. inversion H as [H1].
  apply (f_equal Z.of_int) in H1. rewrite !DecimalZ.of_to in H1. auto.
Qed.
Lemma itoaNat_inj k k' : itoaNat k = itoaNat k' -> k = k'.
Proof. intros H. apply itoa_inj in H. lia. Qed.
Definition digit (c : ascii) : bool := let n := N_of_ascii c in (48 <=? n)%N && (n <=? 57)%N.
Lemma string_of_uint_digits d : forallb digit (list_ascii_of_string (NilEmpty.string_of_uint d)) = true.
Proof. induction d; simpl; auto. Qed.
Lemma itoaNat_digits k : forallb digit (list_ascii_of_string (itoaNat k)) = true.
Proof.
  unfold itoaNat, itoa. destruct (Z.of_nat k) eqn:E; [reflexivity| |lia]. simpl Z.to_int. unfold NilZero.string_of_int, NilZero.string_of_uint.
  destruct (Pos.to_uint p) eqn:Ep; auto; rewrite <- Ep; apply string_of_uint_digits.
Qed.
Lemma itoaNat_colonFree k : colonFree (itoaNat k).
Proof.
  intros H. pose proof (itoaNat_digits k) as D. rewrite forallb_forall in D. apply D in H. discriminate.
Qed.
Lemma itoa_not s : forallb digit (list_ascii_of_string s) = false -> ~ isItoa s.
Proof. intros H [k ->]. rewrite itoaNat_digits in H. discriminate. Qed.

(** ** names as lists of components *)
Notation cat := (String.concat ":").
Lemma cat_cons a l : l <> [] -> cat (a :: l) = a ++ ":" ++ cat l.
Proof. destruct l; [congruence|reflexivity]. Qed.
Lemma str_app_assoc a b c : (a ++ b) ++ c = a ++ (b ++ c).
Proof. induction a; simpl; auto. f_equal; auto. Qed.
Lemma cat_app l l' : l <> [] -> l' <> [] -> cat (l ++ l') = cat l ++ ":" ++ cat l'.
Proof.
  intros H H'. induction l as [|a l IH]; [congruence|]. destruct l as [|b l].
  - change ([a] ++ l')%list with (a :: l'). rewrite cat_cons by auto. reflexivity.
  - change ((a :: b :: l) ++ l')%list with (a :: ((b :: l) ++ l'))%list. rewrite cat_cons by discriminate. rewrite IH by discriminate.
    rewrite (cat_cons a (b :: l)) by discriminate. rewrite !str_app_assoc. auto.
Qed.
Lemma colon_split a b a' b' : colonFree a -> colonFree a' -> a ++ ":" ++ b = a' ++ ":" ++ b' -> a = a' /\ b = b'.
Proof.
  revert a'. induction a as [|c a IH]; intros a' Ha Ha' H.
  - destruct a' as [|c' a']; simpl in H; inversion H; subst; auto. exfalso. apply Ha'. left. auto.
  - destruct a' as [|c' a']; simpl in H; inversion H; subst.
    + exfalso. apply Ha. left. auto.
    + destruct (IH a') as [-> ->]; auto; intros X; [apply Ha|apply Ha']; right; auto.
Qed.
Lemma colon_none a a' b : colonFree a -> a = a' ++ ":" ++ b -> False.
Proof. intros H ->. apply H. rewrite list_ascii_app. apply in_or_app. right. left. auto. Qed.
Lemma cat_inj l l' : l <> [] -> l' <> [] -> Forall colonFree l -> Forall colonFree l' -> cat l = cat l' -> l = l'.
Proof.
  revert l'. induction l as [|a l IH]; intros l' H H' F F' E; [congruence|]. destruct l' as [|a' l']; [congruence|].
  inversion F; subst. inversion F'; subst. destruct l as [|b l], l' as [|b' l'].
  - simpl in E. congruence.
  - exfalso. rewrite (cat_cons a' (b' :: l')) in E by discriminate. change (cat [a]) with a in E. eapply colon_none; [|exact E]. auto.
  - exfalso. rewrite (cat_cons a (b :: l)) in E by discriminate. change (cat [a']) with a' in E. symmetry in E. eapply colon_none; [|exact E]. auto.
  - rewrite (cat_cons a (b :: l)), (cat_cons a' (b' :: l')) in E by discriminate. apply colon_split in E; auto. destruct E as [-> E]. f_equal. apply IH; [discriminate|discriminate|auto|auto|exact E].
Qed.

(** the names of definitions: a symbol, followed by child indexes *)
Definition comps (n : string) (l : list string) : Prop :=
  exists c ds, l = c :: ds /\ n = cat l /\ colonFree c /\ Forall isItoa ds.
Lemma comps_free n l : comps n l -> l <> [] /\ Forall colonFree l.
Proof.
  intros (c & ds & -> & _ & Hc & Hd). split; [discriminate|]. constructor; auto. eapply Forall_impl; [|exact Hd]. intros a [k ->]. apply itoaNat_colonFree.
Qed.
Lemma comps_fun n l l' : comps n l -> comps n l' -> l = l'.
Proof.
  intros H H'. destruct (comps_free _ _ H), (comps_free _ _ H'). destruct H as (c & ds & E & En & _), H' as (c' & ds' & E' & En' & _).
  apply cat_inj; auto. congruence.
Qed.
Lemma comps_name n n' l : comps n l -> comps n' l -> n = n'.
Proof. intros (c & ds & _ & -> & _) (c' & ds' & _ & -> & _). auto. Qed.

(** ** the created names *)
Lemma patch_comps a b kind i la lb : comps a la -> comps b lb -> patchName [a; b; kind; itoaNat i] = cat (la ++ lb ++ [kind; itoaNat i]).
Proof.
  intros Ha Hb. destruct (comps_free _ _ Ha) as [A1 _], (comps_free _ _ Hb) as [B1 _]. destruct Ha as (c & ds & _ & -> & _), Hb as (c' & ds' & _ & -> & _).
  unfold patchName. rewrite cat_app; [|auto|destruct lb; discriminate]. rewrite cat_app; [|auto|discriminate]. reflexivity.
Qed.
Lemma free_helper la lb kind i : Forall colonFree la -> Forall colonFree lb -> colonFree kind -> Forall colonFree (la ++ lb ++ [kind; itoaNat i]).
Proof. intros. apply Forall_app. split; auto. apply Forall_app. split; auto. constructor; auto. constructor; auto. apply itoaNat_colonFree. Qed.

(** how the sequence part of a helper name can be told from the item part: the sequence names
    have no colon, or the symbols are not numbers *)
Definition tellable (P : string -> Prop) : Prop :=
  (forall n, P n -> colonFree n) \/ (forall n l, P n -> comps n l -> match l with c :: _ => ~ isItoa c | [] => True end).

Lemma split_last_nonitoa la la' c c' ds ds' : Forall isItoa ds -> Forall isItoa ds' -> ~ isItoa c -> ~ isItoa c' ->
  (la ++ c :: ds = la' ++ c' :: ds')%list -> la = la' /\ c = c' /\ ds = ds'.
Proof.
  intros F F' Hc Hc'.
  assert (Hg : forall (la la' : list string) c c' ds ds', Forall isItoa ds -> ~ isItoa c' -> (la ++ c :: ds = la' ++ c' :: ds')%list -> List.length la' <= List.length la).
  { clear. induction la as [|x la IH]; intros la' c c' ds ds' F Hc' E.
    - destruct la' as [|y la']; simpl in *; auto. exfalso. inversion E; subst. apply Hc'. rewrite Forall_forall in F. apply F. apply in_or_app. right. left. auto.
    - destruct la' as [|y la']; simpl in *; [lia|]. inversion E; subst. apply IH in H1; auto. lia. }
  intros E. assert (El : List.length la = List.length la').
  { pose proof (Hg _ _ _ _ _ _ F Hc' E). symmetry in E. pose proof (Hg _ _ _ _ _ _ F' Hc E). lia. }
  revert la' El E. clear. induction la as [|x la IH]; intros [|y la'] El E; simpl in *; try discriminate; inversion E; subst; auto.
  destruct (IH la') as (-> & -> & ->); auto.
Qed.

Lemma helper_inj P a b kind i a' b' kind' i' la lb la' lb' : tellable P -> P b -> P b' ->
  comps a la -> comps b lb -> comps a' la' -> comps b' lb' -> colonFree kind -> colonFree kind' ->
  patchName [a; b; kind; itoaNat i] = patchName [a'; b'; kind'; itoaNat i'] -> a = a' /\ b = b' /\ kind = kind' /\ i = i'.
Proof.
  intros HP Pb Pb' Ca Cb Ca' Cb' Fk Fk' E.
  rewrite (patch_comps a b kind i la lb), (patch_comps a' b' kind' i' la' lb') in E by auto.
  destruct (comps_free _ _ Ca), (comps_free _ _ Cb), (comps_free _ _ Ca'), (comps_free _ _ Cb').
  apply cat_inj in E; try (apply free_helper; auto); try (destruct la; [congruence|discriminate]); try (destruct la'; [congruence|discriminate]).
  rewrite !app_assoc in E.
  assert (Ek : (la ++ lb = la' ++ lb')%list /\ kind = kind' /\ i = i').
  { change [kind; itoaNat i] with ([kind] ++ [itoaNat i])%list in E. change [kind'; itoaNat i'] with ([kind'] ++ [itoaNat i'])%list in E.
    rewrite !app_assoc in E. apply app_inj_tail in E. destruct E as [E Ei]. apply app_inj_tail in E. destruct E as [E Ek]. apply itoaNat_inj in Ei. auto. }
  destruct Ek as (E1 & -> & ->).
  assert (la = la' /\ lb = lb') as [-> ->].
  { destruct HP as [HA|HB].
    - assert (S1 : forall n l, P n -> comps n l -> exists c, l = [c]).
      { intros n l Pn (c & ds & -> & En & Hc & Hd). destruct ds as [|d ds]; [eauto|]. exfalso. apply HA in Pn. rewrite En, cat_cons in Pn by discriminate. eapply colon_none; [exact Pn|reflexivity]. }
      destruct (S1 _ _ Pb Cb) as [c ->], (S1 _ _ Pb' Cb') as [c' ->]. apply app_inj_tail in E1. destruct E1 as [-> ->]. auto.
    - pose proof (HB _ _ Pb Cb) as N1. pose proof (HB _ _ Pb' Cb') as N2. destruct Cb as (c & ds & -> & _ & _ & Hd), Cb' as (c' & ds' & -> & _ & _ & Hd').
      destruct (split_last_nonitoa _ _ _ _ _ _ Hd Hd' N1 N2 E1) as (-> & -> & ->). auto. }
  split; [eapply comps_name; eauto|]. split; [eapply comps_name; eauto|]. auto.
Qed.

(** a name with a component that is not an index is no name of a definition *)
Lemma comps_bad n l : l <> [] -> Forall colonFree l -> n = cat l -> (exists x, In x (tl l) /\ ~ isItoa x) -> forall l', ~ comps n l'.
Proof.
  intros Hl F -> (x & Hx & Hn) l' Hc. destruct (comps_free _ _ Hc) as [H1 H2]. destruct Hc as (c & ds & -> & E & Hc & Hd).
  apply cat_inj in E; auto. subst l. simpl in Hx. rewrite Forall_forall in Hd. apply Hn, Hd, Hx.
Qed.
