(** JSON texts with different characters. *)
From Verif Require Import Base Utf8 Parser ListFacts JsonDoc.

Section MONO.
Variables b p h b' p' h' ok : rune -> Prop.
Hypothesis Hb : forall r, ok r -> b r -> b' r.
Hypothesis Hp : forall r, ok r -> p r -> p' r.
Hypothesis Hh : forall r, ok r -> h r -> h' r.
Ltac parts := repeat match goal with
  | X : Forall ok (_ ++ _) |- _ => apply Forall_app in X; destruct X
  | X : Forall ok (_ :: _) |- _ => inversion X; clear X; subst
  end.
Lemma gap_mono w : Forall ok w -> gap b w -> gap b' w.
Proof. unfold gap. intros Ho H. induction H; constructor; inversion Ho; auto. Qed.
Lemma piece_mono w : Forall ok w -> piece p h w -> piece p' h' w.
Proof. intros Ho H. inversion H; subst; parts; constructor; auto. Qed.
Lemma pieces_mono w : Forall ok w -> pieces p h w -> pieces p' h' w.
Proof. intros Ho H. induction H as [|u v Hu _ IH]; [constructor|]. parts. constructor; auto. apply piece_mono; auto. Qed.
Lemma jstring_mono w : Forall ok w -> jstring p h w -> jstring p' h' w.
Proof. intros Ho H. inversion H; subst. parts. constructor. apply pieces_mono; auto. Qed.
Lemma value_mono : (forall w, value b p h w -> Forall ok w -> value b' p' h' w) /\ (forall w, elements b p h w -> Forall ok w -> elements b' p' h' w) /\ (forall w, members b p h w -> Forall ok w -> members b' p' h' w) /\ (forall w, member b p h w -> Forall ok w -> member b' p' h' w).
Proof.
  apply value_mutind; intros; parts.
  - apply value_true.
  - apply value_false.
  - apply value_null.
  - apply value_string, jstring_mono; auto.
  - apply value_number; auto.
  - apply value_object_empty, gap_mono; auto.
  - apply value_object; auto using gap_mono.
  - apply value_array_empty, gap_mono; auto.
  - apply value_array; auto using gap_mono.
  - apply elements_one; auto.
  - apply elements_more; auto using gap_mono.
  - apply members_one; auto.
  - apply members_more; auto using gap_mono.
  - apply member_pair; auto using gap_mono, jstring_mono.
Qed.
Lemma document_mono w : Forall ok w -> document b p h w -> document b' p' h' w.
Proof. intros Ho H. inversion H; subst. parts. constructor; auto using gap_mono. apply value_mono; auto. Qed.
End MONO.

(** the characters of a document *)
Section CHARS.
Variables b p h ok : rune -> Prop.
Hypothesis Hb : forall r, b r -> ok r.
Hypothesis Hp : forall r, p r -> ok r.
Hypothesis Hh : forall r, h r -> ok r.
Hypothesis Hascii : forall r, (32 <= r <= 126)%Z -> ok r.
Ltac ascii := apply Hascii; lia.
Lemma digits_ok w : Forall digit w -> Forall ok w.
Proof. intros H. eapply Forall_impl; [|exact H]. unfold digit. intros r Hr. ascii. Qed.
Lemma piece_ok w : piece p h w -> Forall ok w.
Proof.
  intros H. inversion H as [r Hr|r Hr|a c d e Ha Hc Hd He]; subst.
  - constructor; auto.
  - constructor; [ascii|constructor; auto]. simpl in Hr. repeat (destruct Hr as [<-|Hr]; [ascii|]). destruct Hr.
  - constructor; [ascii|constructor; [ascii|]]. repeat (constructor; auto).
Qed.
Lemma jstring_ok w : jstring p h w -> Forall ok w.
Proof.
  intros H. inversion H as [u Hu]; subst. constructor; [ascii|]. apply Forall_app. split; [|constructor; [ascii|auto]].
  clear H. induction Hu as [|x y Hx _ IH]; auto. apply Forall_app. split; auto. apply piece_ok; auto.
Qed.
Lemma jnumber_ok w : jnumber w -> Forall ok w.
Proof.
  intros H. inversion H as [s i f e Hs Hi Hf He]; subst. repeat (apply Forall_app; split).
  - destruct Hs as [-> | ->]; auto. constructor; [ascii|auto].
  - inversion Hi; subst; constructor; try ascii; auto using digits_ok.
  - inversion Hf as [|d u Hd Hu]; subst; auto. unfold digit in Hd. constructor; [ascii|constructor; [ascii|apply digits_ok; auto]].
  - inversion He as [|x sg d u Hx Hsg Hd Hu]; subst; auto. unfold digit in Hd. constructor; [ascii|]. apply Forall_app. split; [|constructor; [ascii|apply digits_ok; auto]]. destruct Hsg as [->|[-> | ->]]; auto; constructor; auto; ascii.
Qed.
Lemma value_ok : (forall w, value b p h w -> Forall ok w) /\ (forall w, elements b p h w -> Forall ok w) /\ (forall w, members b p h w -> Forall ok w) /\ (forall w, member b p h w -> Forall ok w).
Proof.
  assert (Hgap : forall g, gap b g -> Forall ok g) by (intros g Hg; eapply Forall_impl; [|exact Hg]; auto).
  assert (Hc : forall r w, (32 <= r <= 126)%Z -> Forall ok w -> Forall ok (r :: w)) by (intros r w L Hw; constructor; auto).
  assert (Ha : forall u v, Forall ok u -> Forall ok v -> Forall ok (u ++ v)) by (intros u v Hu Hv; apply Forall_app; auto).
  apply value_mutind; intros; auto using jstring_ok, jnumber_ok; try (vm_compute; repeat (apply Hc; [lia|]); apply Forall_nil);
    repeat first [apply Hc; [lia|]|apply Ha|apply Forall_nil]; auto using jstring_ok.
Qed.
Lemma document_ok w : document b p h w -> Forall ok w.
Proof. assert (Hgap : forall g, gap b g -> Forall ok g) by (intros g Hg; eapply Forall_impl; [|exact Hg]; auto). intros H. inversion H; subst. apply Forall_app; split; [auto|]. apply Forall_app; split; [apply (proj1 value_ok); assumption|apply Hgap; assumption]. Qed.
End CHARS.
