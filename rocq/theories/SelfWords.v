(** The texts of characters, symbols and numbers in a syntax text. *)
From Verif Require Import Base Utf8 Parser Build Syntax Lang Grammar WsLang ApiSpec ReadSpec SelfGrammar.
Local Open Scope string_scope.
Local Open Scope list_scope.
Local Open Scope nat_scope.

Section WORDS.
Variable calls : list defcall.
Variable root : string.
Let R := grammarOf calls.
Let W := texts calls root.
Let B := wbody R (keywordTexts calls) (whitespaceNames calls) root.
Let I := witems R (keywordTexts calls) (whitespaceNames calls) root.
Let Rep := wrep R (keywordTexts calls) (whitespaceNames calls) root.

Lemma W_body n w : n <> root -> W n w -> B n w.
Proof. intros Hn H. inversion H; subst; [congruence|auto]. Qed.
Lemma W_char n cnot chars ranges w : n <> root -> R n = Some (RChar cnot chars ranges) -> W n w -> exists r, w = [r] /\ inClass cnot chars ranges r.
Proof. intros Hn Hr H. apply W_body in H; auto. inversion H; subst; unfold R in *; try congruence. rewrite H0 in Hr. inversion Hr; subst. eauto. Qed.
Lemma W_choice n ct options w : n <> root -> R n = Some (RChoice ct options) -> W n w -> exists o, In o options /\ W o w.
Proof. intros Hn Hr H. apply W_body in H; auto. inversion H; subst; unfold R in *; try congruence. rewrite H0 in Hr. inversion Hr; subst. eauto. Qed.
Lemma W_items n ct items w : n <> root -> R n = Some (RSeq ct items) -> compact ct = true -> W n w -> I items w.
Proof. intros Hn Hr Hc H. apply W_body in H; auto. inversion H; subst; unfold R in *; try congruence; rewrite H0 in Hr; inversion Hr; subst; auto. Qed.
Lemma I_nil w : I [] w -> w = [].
Proof. inversion 1; auto. Qed.
Lemma I_one it items w : siMin it = siMax it -> (siMin it = 0 \/ siMin it = 1)%Z -> I (it :: items) w -> exists u v, w = u ++ v /\ W (siName it) u /\ I items v.
Proof.
  intros E1 E2 H. inversion H as [|? ? k u v Hq Hr Hi]; subst. assert (k = 1) by (unfold quantity in Hq; lia). subst k.
  inversion Hr as [|? ? u1 v1 H1 H2]; subst. inversion H2; subst. rewrite app_nil_r. exists u1, v. auto.
Qed.
Lemma I_many it items w : (siMin it = 1 /\ siMax it <= 0)%Z -> I (it :: items) w -> exists k u v, w = u ++ v /\ Rep (siName it) (S k) u /\ I items v.
Proof.
  intros E1 H. inversion H as [|? ? k u v Hq Hr Hi]; subst. destruct k; [unfold quantity in Hq; lia|]. eauto 7.
Qed.
(** a repeated single character *)
Lemma Rep_chars n (Q : rune -> Prop) : (forall w, W n w -> exists r, w = [r] /\ Q r) -> forall k w, Rep n k w -> List.length w = k /\ Forall Q w.
Proof.
  intros Hn. induction k as [|k IH]; intros w H; inversion H as [|? ? u v H1 H2]; subst; [auto|].
  apply Hn in H1. destruct H1 as (r & -> & Hr). apply IH in H2. destruct H2. simpl. split; [congruence|constructor; auto].
Qed.
(** a class is a sequence of its one character *)
Lemma W_class n m cnot chars ranges ct w : n <> root -> m <> root -> R n = Some (RSeq ct [once m]) -> R m = Some (RChar cnot chars ranges) -> W n w -> exists r, w = [r] /\ inClass cnot chars ranges r.
Proof.
  intros H1 H2 H3 H4 H. apply W_body in H; auto. inversion H as [|? ? ? ? Hr _ _ Hi|? ? ? ? Hr _ _ Hi|]; subst; unfold R in *; try congruence; rewrite Hr in H3; inversion H3; subst.
  - apply I_one in Hi; simpl; auto. destruct Hi as (u & v & -> & Hu & Hv). apply I_nil in Hv. subst v. rewrite app_nil_r. eapply W_char; eauto.
  - inversion Hi as [|? ? ? ? Hq _|? ? ? ? Hq _ _ _|? ? k u v w' Hq Hu Hv Hw|]; subst; unfold quantity in Hq; simpl in Hq; try lia. assert (k = 0) by lia. subst k. inversion Hv; subst. inversion Hw; subst. rewrite !app_nil_r in *. simpl. eapply W_char; eauto.
Qed.
End WORDS.

Ltac rule := vm_compute; reflexivity.
Notation W := (texts published "syntax").
(** a character that needs no escape, or an escaped one *)
Definition charText (w : list rune) : Prop := (exists c, w = [c] /\ c <> 92%Z) \/ (exists c, w = [92%Z; c]).
Lemma char_text n w : (n = "class-char" \/ n = "sequence-char") -> W n w -> charText w.
Proof.
  intros Hn H.
  assert (X : W (childName n 0) w \/ W (childName n 1) w).
  { destruct Hn as [-> | ->]; eapply W_choice in H; try discriminate; try rule; destruct H as (o & [<-|[<-|[]]] & H); auto. }
  destruct X as [X|X].
  - left. assert (Y : exists r, w = [r] /\ exists l, In 92%Z l /\ inClass true l [] r).
    { destruct Hn as [-> | ->]; (eapply W_class in X; [|discriminate| |rule|rule]; [|discriminate]); destruct X as (r & -> & Hr); exists r; (split; [auto|eexists; split; [|exact Hr]; left; auto]). }
    destruct Y as (r & -> & l & Hl & Hr). exists r. split; auto. intros ->. apply Hr. auto.
  - right. assert (Y : exists a b, W (childName (childName n 1) 0) a /\ W (childName (childName n 1) 1) b /\ w = a ++ b).
    { destruct Hn as [-> | ->]; (eapply W_items in X; [|discriminate|rule|rule]); apply I_one in X; simpl; auto; destruct X as (u & v & -> & Hu & Hv);
      apply I_one in Hv; simpl; auto; destruct Hv as (u2 & v2 & -> & Hu2 & Hv2); apply I_nil in Hv2; subst; rewrite app_nil_r; eauto. }
    destruct Y as (a & b & Ha & Hb & ->).
    assert (Ea : a = [92%Z]).
    { destruct Hn as [-> | ->]; (eapply W_class in Ha; [|discriminate| |rule|rule]; [|discriminate]); destruct Ha as (r & -> & [[<-|[]]|(? & ? & [] & _)]); auto. }
    assert (Eb : exists c, b = [c]).
    { destruct Hn as [-> | ->]; (eapply W_class in Hb; [|discriminate| |rule|rule]; [|discriminate]); destruct Hb as (r & -> & _); eauto. }
    destruct Eb as (c & ->). subst a. exists c. auto.
Qed.
(** a symbol is not empty and has none of the separators *)
Definition separators : list rune := (rBackslash :: runesOf " " ++ [rNl; rTab; rBs; rFf; rCr; rVt] ++ runesOf "/.[]" ++ [rQuote] ++ runesOf "{}^+*?|():=;")%list.
Lemma symbol_text w : W "symbol" w -> w <> [] /\ forall c, In c w -> ~ In c separators.
Proof.
  intros H. eapply W_items in H; [|discriminate|rule|rule]. apply I_many in H; simpl; [|lia]. destruct H as (k & u & v & -> & Hu & Hv). apply I_nil in Hv. subst v. rewrite app_nil_r.
  eapply (Rep_chars _ _ _ (fun c => ~ In c separators)) in Hu.
  - destruct Hu as [Hl Hu]. split; [intros ->; discriminate|]. rewrite Forall_forall in Hu. auto.
  - intros w Hw. eapply W_class in Hw; [|discriminate| |rule|rule]; [|discriminate]. destruct Hw as (r & -> & Hr). exists r. split; [auto|]. intros X. apply Hr. left. exact X.
Qed.
(** a number is a list of digits *)
Lemma number_text n w : In n ["count"; "range-from"; "range-to"] -> W n w -> w <> [] /\ forallb isDigit w = true.
Proof.
  intros Hn H.
  assert (X : W "number" w).
  { assert (Hr : grammarOf published n = Some (RSeq CUserDefined [mkItem "number" 0 0]) /\ n <> "syntax") by (destruct Hn as [<-|[<-|[<-|[]]]]; (split; [rule|discriminate])).
    destruct Hr as [Hr Hns]. apply W_body in H; auto. inversion H as [? ? ? ? ? Hr'|? ? ? ? Hr' Hc _ Hi|? ? ? ? Hr' _ _ Hi|? ? ? ? ? Hr']; subst; rewrite Hr in Hr'; inversion Hr'; subst; [discriminate|].
    inversion Hi as [|? ? ? ? Hq _|? ? ? ? Hq _ _ _|? ? k u v w' Hq Hu Hv Hw|]; subst; unfold quantity in Hq; simpl in Hq; try lia. assert (k = 0) by lia. subst k. inversion Hv; subst. inversion Hw; subst. rewrite !app_nil_r in *. exact Hu. }
  eapply W_items in X; [|discriminate|rule|rule]. apply I_many in X; simpl; [|lia]. destruct X as (k & u & v & -> & Hu & Hv). apply I_nil in Hv. subst v. rewrite app_nil_r.
  eapply (Rep_chars _ _ _ (fun c => isDigit c = true)) in Hu.
  - destruct Hu as [Hl Hu]. split; [intros ->; discriminate|]. apply forallb_forall. rewrite Forall_forall in Hu. auto.
  - intros w Hw. eapply W_class in Hw; [|discriminate| |rule|rule]; [|discriminate]. destruct Hw as (r & -> & [[]|(lo & hi & [E|[]] & Hr)]). inversion E; subst. exists r. split; auto. unfold isDigit. apply andb_true_iff. split; apply Z.leb_le; lia.
Qed.
