(** A renaming of the symbols, extended to the names that are made from them. *)
From Coq Require Import DecimalString.
From Verif Require Import Base Utf8 Parser Syntax WsNames WsRefs WsApi GenFacts BlameApi RenameSpec.
Local Open Scope string_scope.

(** the part before the first colon, and the rest *)
Fixpoint cut (s : string) : string * option string :=
  match s with
  | EmptyString => ("", None)
  | String c s => if Ascii.eqb c ":" then ("", Some s) else let (a, r) := cut s in (String c a, r)
  end.
Definition join (x : string * option string) : string := match x with (a, None) => a | (a, Some r) => a ++ ":" ++ r end.
Lemma cut_join s : join (cut s) = s.
Proof.
  induction s as [|c s IH]; auto. cbn [cut]. destruct (Ascii.eqb_spec c ":") as [->|]; auto. destruct (cut s) as [a [r|]]; simpl in *; congruence.
Qed.
Lemma cut_free s : colonFree (fst (cut s)).
Proof.
  induction s as [|c s IH]; [intros []|]. cbn [cut]. destruct (Ascii.eqb_spec c ":") as [->|N]; [intros []|]. destruct (cut s) as [a r]. cbn [fst] in *. intros [E|H]; [congruence|auto].
Qed.
Lemma free_cons c s : colonFree (String c s) <-> c <> ":"%char /\ colonFree s.
Proof. unfold colonFree. simpl. split; [intros H; split; auto|intros [A B] [E|E]; auto]. Qed.
Lemma cut_none s : colonFree s -> cut s = (s, None).
Proof. induction s as [|c s IH]; auto. intros H. apply free_cons in H. destruct H as [N H]. cbn [cut]. destruct (Ascii.eqb_spec c ":"); [congruence|]. rewrite IH; auto. Qed.
Lemma cut_some s r : colonFree s -> cut (s ++ ":" ++ r) = (s, Some r).
Proof. induction s as [|c s IH]; auto. intros H. apply free_cons in H. destruct H as [N H]. simpl append. cbn [cut]. destruct (Ascii.eqb_spec c ":"); [congruence|]. change (String ":" r) with (":" ++ r). rewrite IH; auto. Qed.
Lemma cut_inj s s' : cut s = cut s' -> s = s'.
Proof. intros H. rewrite <- (cut_join s), <- (cut_join s'), H. auto. Qed.

Section EXTEND.
Variable f : string -> string.
Hypothesis f_inj : forall n m, f n = f m -> n = m.
Hypothesis f_free : forall n, colonFree n -> colonFree (f n).
Hypothesis f_empty : f "" = "".
Definition rn (s : string) : string :=
  match cut s with
  | (a, None) => f a
  | (a, Some r) => f a ++ ":" ++ match cut r with (_, None) => r | (b, Some r2) => f b ++ ":" ++ r2 end
  end.
Lemma cut_rn s : cut (rn s) = match cut s with (a, None) => (f a, None) | (a, Some r) => (f a, Some match cut r with (_, None) => r | (b, Some r2) => f b ++ ":" ++ r2 end) end.
Proof. unfold rn. pose proof (cut_free s) as H. destruct (cut s) as [a [r|]]; cbn [fst] in H; [apply cut_some; auto|apply cut_none; auto]. Qed.
Lemma rest_inj r r' : match cut r with (_, None) => r | (b, Some r2) => f b ++ ":" ++ r2 end = match cut r' with (_, None) => r' | (b, Some r2) => f b ++ ":" ++ r2 end -> r = r'.
Proof.
  intros H. apply (f_equal cut) in H. pose proof (cut_free r) as A. pose proof (cut_free r') as A'. pose proof (cut_join r) as J. pose proof (cut_join r') as J'.
  destruct (cut r) as [b [r2|]] eqn:E, (cut r') as [b' [r2'|]] eqn:E'; cbn [fst] in *.
  - rewrite !cut_some in H by auto. injection H as H1 H2. apply f_inj in H1. subst. auto.
  - rewrite cut_some, E' in H by auto. discriminate.
  - rewrite cut_some, E in H by auto. discriminate.
  - apply cut_inj; auto.
Qed.
Lemma rn_inj s s' : rn s = rn s' -> s = s'.
Proof.
  intros H. apply (f_equal cut) in H. rewrite !cut_rn in H. apply cut_inj. destruct (cut s) as [a [r|]], (cut s') as [a' [r'|]]; try discriminate; [|injection H as H; apply f_inj in H; congruence].
  injection H as H1 H2. apply f_inj in H1. apply rest_inj in H2. congruence.
Qed.
Lemma rn_free n : colonFree n -> rn n = f n.
Proof. intros H. unfold rn. rewrite cut_none by auto. auto. Qed.
Lemma rn_two a b : colonFree a -> colonFree b -> rn (a ++ ":" ++ b) = f a ++ ":" ++ b.
Proof. intros A B. unfold rn. rewrite cut_some, (cut_none b) by auto. auto. Qed.
Lemma rn_child n i : colonFree n -> rn (childName n i) = childName (rn n) i.
Proof. intros H. rewrite (rn_free n) by auto. unfold childName. apply rn_two; auto. apply itoaNat_colonFree. Qed.
Lemma rn_patch a b c l : colonFree a -> colonFree b -> rn (patchName (a :: b :: c :: l)) = patchName (rn a :: rn b :: c :: l).
Proof.
  intros A B. rewrite (rn_free a), (rn_free b) by auto. unfold patchName. rewrite !(cat_cons _ (_ :: _)) by discriminate. unfold rn. rewrite cut_some by auto. rewrite (cut_some b) by auto. auto.
Qed.
Lemma rn_wsroot a : colonFree a -> rn (patchName [a; "wsroot"]) = patchName [rn a; "wsroot"].
Proof. intros A. rewrite (rn_free a) by auto. unfold patchName. rewrite !(cat_cons _ [_]) by discriminate. apply rn_two; auto. intros H. simpl in H. repeat (destruct H as [H|H]; [discriminate|]). destruct H. Qed.
Lemma rn_ws : rn whitespaceName = whitespaceName.
Proof. unfold rn. simpl. rewrite f_empty. reflexivity. Qed.
Lemma rn_def n : definitionName (rn n) = rn (definitionName n).
Proof.
  pose proof (cut_join n) as J. pose proof (cut_free n) as A. destruct (cut n) as [a [r|]] eqn:E; cbn [fst] in A; simpl join in J.
  - destruct a as [|c a].
    + subst n. simpl append in *. unfold definitionName at 2. assert (X : forall s, String.index 0 ":" (String ":" s) = Some 0) by (intros s; destruct s; reflexivity). rewrite X. unfold rn. cbn [cut]. simpl. rewrite f_empty. simpl append.
      unfold definitionName. rewrite X. reflexivity.
    + rewrite <- J. change (String c a ++ String ":" r) with (String c a ++ ":" ++ r). replace (rn (String c a ++ ":" ++ r)) with (f (String c a) ++ ":" ++ match cut r with (_, None) => r | (b, Some r2) => f b ++ ":" ++ r2 end) by (unfold rn; rewrite cut_some by auto; auto).
      change (String c a ++ ":" ++ r) with (String c a ++ String ":" r). rewrite definitionName_cut by (auto; discriminate).
      match goal with |- context [f (String c a) ++ ":" ++ ?x] => change (f (String c a) ++ ":" ++ x) with (f (String c a) ++ String ":" x) end.
      rewrite definitionName_cut; [rewrite rn_free; auto|apply f_free; auto|]. intros H. rewrite <- f_empty in H. apply f_inj in H. discriminate.
  - subst n. rewrite (definitionName_free a) by auto. rewrite (rn_free a) by auto. apply definitionName_free. apply f_free; auto.
Qed.
End EXTEND.

(** ** a renaming of some symbols is part of a renaming of all *)
Definition swap (x y n : string) : string := if String.eqb n x then y else if String.eqb n y then x else n.
Lemma swap_inj x y n m : swap x y n = swap x y m -> n = m.
Proof. unfold swap. destruct (String.eqb_spec n x), (String.eqb_spec n y), (String.eqb_spec m x), (String.eqb_spec m y); congruence. Qed.
Lemma extend f (l : list string) : (forall n, In n l -> n <> "" /\ colonFree n /\ f n <> "" /\ colonFree (f n)) -> (forall n m, In n l -> In m l -> f n = f m -> n = m) ->
  exists g, (forall n, In n l -> g n = f n) /\ (forall n m, g n = g m -> n = m) /\ (forall n, colonFree n -> colonFree (g n)) /\ g "" = "".
Proof.
  induction l as [|x l IH]; intros Hl Hi.
  - exists (fun n => n). split; [intros n []|]. auto.
  - destruct IH as (g & G1 & G2 & G3 & G4); [intros; apply Hl; right; auto|intros; apply Hi; auto; right; auto|]. destruct (in_dec string_dec x l) as [Hx|Hx].
    { exists g. split; auto. intros n [<-|Hn]; auto. }
    destruct (Hl x (or_introl eq_refl)) as (X1 & X2 & X3 & X4).
    exists (fun n => swap (g x) (f x) (g n)). split; [|split; [|split]].
    + intros n [<-|Hn]; unfold swap; [rewrite String.eqb_refl; auto|]. destruct (String.eqb_spec (g n) (g x)) as [E|_]; [apply G2 in E; congruence|].
      destruct (String.eqb_spec (g n) (f x)) as [E|_]; [|auto]. rewrite (G1 n Hn) in E. apply Hi in E; [congruence|right; auto|left; auto].
    + intros n m H. apply swap_inj in H. auto.
    + intros n Hn. unfold swap. destruct (String.eqb _ _); auto. destruct (String.eqb _ _); auto.
    + unfold swap. rewrite G4. destruct (String.eqb_spec "" (g x)) as [E|_]; [rewrite <- G4 in E; apply G2 in E; congruence|]. destruct (String.eqb_spec "" (f x)); congruence.
Qed.
