(** Printed numbers. *)
From Coq Require Import DecimalString Decimal DecimalZ.
From Verif Require Import Base Syntax SelfGrammar ReadSpec FormatWords GenText.
Local Open Scope string_scope.
Local Open Scope list_scope.

Definition value (w : list rune) (acc : Z) : Z := fold_left (fun acc c => acc * 10 + (c - 48))%Z w acc.
Lemma value_pos u : forall p, value (runesOf (NilEmpty.string_of_uint u)) (Zpos p) = Zpos (Pos.of_uint_acc u p).
Proof.
  induction u as [|u IH|u IH|u IH|u IH|u IH|u IH|u IH|u IH|u IH|u IH]; intros p; auto; cbn [NilEmpty.string_of_uint]; unfold value, runesOf in *; cbn [list_ascii_of_string map fold_left Pos.of_uint_acc];
  (match goal with |- fold_left _ _ ?z = Zpos (Pos.of_uint_acc _ ?q) => replace z with (Zpos q) end; [apply IH|]).
  all: match goal with |- context [Z.of_N ?x] => let v := eval vm_compute in (Z.of_N x) in change (Z.of_N x) with v end; rewrite ?Pos2Z.inj_add, Pos2Z.inj_mul; lia.
Qed.
Lemma value_zero u : value (runesOf (NilEmpty.string_of_uint u)) 0 = Z.of_uint u.
Proof.
  induction u as [|u IH|u IH|u IH|u IH|u IH|u IH|u IH|u IH|u IH|u IH]; auto; cbn [NilEmpty.string_of_uint]; unfold Z.of_uint; cbn [Pos.of_uint].
  - apply (value_pos u 1).
  - apply (value_pos u 2).
  - apply (value_pos u 3).
  - apply (value_pos u 4).
  - apply (value_pos u 5).
  - apply (value_pos u 6).
  - apply (value_pos u 7).
  - apply (value_pos u 8).
  - apply (value_pos u 9).
Qed.
Lemma itoa_uint z : (0 <= z)%Z -> exists u, itoa z = NilEmpty.string_of_uint u /\ u <> Nil /\ Z.of_uint u = z.
Proof.
  intros H. pose proof (DecimalZ.of_to z) as E. unfold itoa. destruct z as [|p|p]; [exists (D0 Nil); repeat split; auto; discriminate| |lia].
  cbn [Z.to_int] in *. exists (Pos.to_uint p). cbn [Z.of_int] in E. pose proof (DecimalPos.Unsigned.to_uint_nonnil p) as Hn. repeat split; auto.
  cbn [NilZero.string_of_int]. destruct (Pos.to_uint p); auto. congruence.
Qed.
Definition numText (z : Z) : list rune := runesOf (itoa z).
Lemma uint_digits u : Forall digit (runesOf (NilEmpty.string_of_uint u)).
Proof.
  unfold runesOf. induction u as [|u IH|u IH|u IH|u IH|u IH|u IH|u IH|u IH|u IH|u IH]; cbn [NilEmpty.string_of_uint list_ascii_of_string map]; constructor; auto; unfold digit; vm_compute; split; discriminate.
Qed.
Theorem numText_ok z : (0 <= z)%Z -> Forall digit (numText z) /\ numText z <> [] /\ value (numText z) 0 = z.
Proof.
  intros H. destruct (itoa_uint z H) as (u & E & Hn & Hz). unfold numText. rewrite E. split; [apply uint_digits|]. split; [|rewrite value_zero; auto].
  destruct u; try congruence; discriminate.
Qed.
