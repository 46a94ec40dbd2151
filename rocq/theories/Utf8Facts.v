(** Facts about UTF-8 decoding and encoding. *)
From Verif Require Import Base Utf8.
Local Open Scope Z_scope.

(** a decoded rune takes at least one byte; ASCII bytes decode to themselves and are never part of
    a longer encoding *)
Lemma decodeRune_ascii bs r k : decodeRune bs = Some (r, k) ->
  (1 <= k <= List.length bs)%nat /\ (forall b, In b (firstn k bs) -> b < 128 -> k = 1%nat /\ r = b).
Proof.
  unfold decodeRune, isCont. destruct bs as [|b0 bs]; [discriminate|].
  assert (Hone : forall q, 128 <= b0 -> (1 <= 1 <= List.length (b0 :: bs))%nat /\ (forall b, In b (firstn 1 (b0 :: bs)) -> b < 128 -> 1%nat = 1%nat /\ q = b)).
  { intros q Hb. split; [simpl; lia|]. simpl. intros b [<-|[]]; lia. }
  destruct (Z.ltb_spec b0 128).
  { intros H1; inversion H1; subst. split; [simpl; lia|]. simpl. intros b [<-|[]]; auto. }
  destruct ((194 <=? b0) && (b0 <=? 223)).
  { destruct bs as [|b1 bs]; [intros H1; inversion H1; subst; apply Hone; lia|].
    destruct (Z.leb_spec 128 b1), (Z.leb_spec b1 191); simpl; intros H3; inversion H3; subst; try (apply Hone; lia).
    split; [simpl; lia|]. simpl. intros b [<-|[<-|[]]]; lia. }
  destruct ((224 <=? b0) && (b0 <=? 239)).
  { destruct bs as [|b1 [|b2 bs]]; try (intros H1; inversion H1; subst; apply Hone; lia).
    destruct (_ && _) eqn:E; intros H3; inversion H3; subst; try (apply Hone; lia).
    repeat rewrite andb_true_iff in E. rewrite !Z.leb_le in E. destruct E as [[E1 E2] [E3 E4]].
    assert (128 <= b1) by (destruct (b0 =? 224); lia).
    split; [simpl; lia|]. simpl. intros b [<-|[<-|[<-|[]]]]; lia. }
  destruct ((240 <=? b0) && (b0 <=? 244)).
  { destruct bs as [|b1 [|b2 [|b3 bs]]]; try (intros H1; inversion H1; subst; apply Hone; lia).
    destruct (_ && _) eqn:E; intros H3; inversion H3; subst; try (apply Hone; lia).
    repeat rewrite andb_true_iff in E. rewrite !Z.leb_le in E. destruct E as [[[E1 E2] [E3 E4]] [E5 E6]].
    assert (128 <= b1) by (destruct (b0 =? 240); lia).
    split; [simpl; lia|]. simpl. intros b [<-|[<-|[<-|[<-|[]]]]]; lia. }
  intros H1; inversion H1; subst. apply Hone; lia.
Qed.

Lemma decodeFuel_ascii b : b < 128 -> forall n bs, (List.length bs <= n)%nat -> In b bs -> In b (decodeFuel n bs).
Proof.
  intros Hb n. induction n as [|n IH]; intros bs Hl Hin; [destruct bs; [destruct Hin|simpl in Hl; lia]|].
  simpl. destruct (decodeRune bs) as [[r k]|] eqn:E; [|destruct bs; [destruct Hin|]].
  - apply decodeRune_ascii in E. destruct E as [Hk Ha]. rewrite <- (firstn_skipn k bs) in Hin. apply in_app_or in Hin. destruct Hin as [Hin|Hin].
    + left. destruct (Ha b Hin Hb). auto.
    + right. apply IH; auto. rewrite skipn_length. lia.
  - exfalso. clear - E. unfold decodeRune in E.
    repeat match type of E with
    | (if ?c then _ else _) = _ => destruct c
    | (match ?x with _ => _ end) = _ => destruct x
    end; discriminate.
Qed.
Lemma decode_ascii b bs : b < 128 -> In b bs -> In b (decodeUtf8 bs).
Proof. intros Hb Hin. apply decodeFuel_ascii; auto. Qed.

(** ** round trip *)
(** Unicode scalar values *)
Definition scalar (r : rune) : Prop := 0 <= r <= 1114111 /\ ~ (55296 <= r <= 57343).

Lemma decode_encode_one r rest : scalar r -> decodeRune (encodeRune r ++ rest) = Some (r, List.length (encodeRune r)).
Proof.
  intros [[H1 H2] H3]. unfold encodeRune.
  replace ((r <? 0) || (1114111 <? r) || ((55296 <=? r) && (r <=? 57343))) with false.
  2:{ symmetry. rewrite !orb_false_iff, andb_false_iff, !Z.ltb_ge, !Z.leb_gt. lia. }
  destruct (Z.ltb_spec r 128).
  { cbn [app List.length decodeRune]. destruct (Z.ltb_spec r 128); [auto|lia]. }
  assert (M : forall x, 0 <= x mod 64 < 64) by (intros; apply Z.mod_pos_bound; lia).
  pose proof (M r) as M0. pose proof (M (r / 64)) as M1. pose proof (M (r / 4096)) as M2.
  pose proof (Z.div_mod r 64 ltac:(lia)) as D0. pose proof (Z.div_mod (r / 64) 64 ltac:(lia)) as D1. pose proof (Z.div_mod (r / 4096) 64 ltac:(lia)) as D2.
  rewrite Zdiv.Zdiv_Zdiv in D1 by lia. rewrite Zdiv.Zdiv_Zdiv in D2 by lia. change (64 * 64) with 4096 in *. change (4096 * 64) with 262144 in *.
  set (m0 := r mod 64) in *. set (m1 := (r / 64) mod 64) in *. set (m2 := (r / 4096) mod 64) in *.
  set (q0 := r / 64) in *. set (q1 := r / 4096) in *. set (q2 := r / 262144) in *.
  assert (Hc : forall m, 0 <= m < 64 -> isCont (128 + m) = true).
  { intros m Hm. unfold isCont. rewrite andb_true_iff, !Z.leb_le. lia. }
  destruct (Z.ltb_spec r 2048).
  { cbn [app List.length decodeRune]. destruct (Z.ltb_spec (192 + q0) 128); [lia|].
    replace ((194 <=? 192 + q0) && (192 + q0 <=? 223)) with true by (symmetry; rewrite andb_true_iff, !Z.leb_le; lia).
    rewrite Hc by auto. do 2 f_equal. lia. }
  destruct (Z.ltb_spec r 65536).
  { cbn [app List.length decodeRune]. destruct (Z.ltb_spec (224 + q1) 128); [lia|].
    replace ((194 <=? 224 + q1) && (224 + q1 <=? 223)) with false by (symmetry; rewrite andb_false_iff, !Z.leb_gt; lia).
    replace ((224 <=? 224 + q1) && (224 + q1 <=? 239)) with true by (symmetry; rewrite andb_true_iff, !Z.leb_le; lia).
    rewrite Hc by auto.
    replace (_ && _) with true; [do 2 f_equal; lia|]. symmetry. rewrite !andb_true_iff, !Z.leb_le.
    destruct (Z.eqb_spec (224 + q1) 224), (Z.eqb_spec (224 + q1) 237); lia. }
  cbn [app List.length decodeRune]. destruct (Z.ltb_spec (240 + q2) 128); [lia|].
  replace ((194 <=? 240 + q2) && (240 + q2 <=? 223)) with false by (symmetry; rewrite andb_false_iff, !Z.leb_gt; lia).
  replace ((224 <=? 240 + q2) && (240 + q2 <=? 239)) with false by (symmetry; rewrite andb_false_iff, !Z.leb_gt; lia).
  replace ((240 <=? 240 + q2) && (240 + q2 <=? 244)) with true by (symmetry; rewrite andb_true_iff, !Z.leb_le; lia).
  rewrite !Hc by auto.
  replace (_ && _) with true; [do 2 f_equal; lia|]. symmetry. rewrite !andb_true_iff, !Z.leb_le.
  destruct (Z.eqb_spec (240 + q2) 240), (Z.eqb_spec (240 + q2) 244); lia.
Qed.
Lemma encode_len r : (1 <= List.length (encodeRune r))%nat.
Proof. unfold encodeRune. repeat match goal with |- context [if ?c then _ else _] => destruct c end; simpl; lia. Qed.

Lemma decode_encode rs : Forall scalar rs -> decodeUtf8 (encodeUtf8 rs) = rs.
Proof.
  intros H. unfold decodeUtf8. assert (Hg : forall n, (List.length (encodeUtf8 rs) <= n)%nat -> decodeFuel n (encodeUtf8 rs) = rs).
  { induction H as [|r rs Hr H IH]; intros n Hn; [destruct n; auto|].
    unfold encodeUtf8 in *. cbn [List.map List.concat] in *. rewrite app_length in Hn. pose proof (encode_len r). destruct n as [|n]; [lia|].
    cbn [decodeFuel]. rewrite decode_encode_one by auto. f_equal. rewrite skipn_app, Nat.sub_diag, skipn_all. apply IH. lia. }
  apply Hg. auto.
Qed.
Lemma bytes_byte bs : Forall (fun b => 0 <= b < 256) bs -> bytesOf (stringOfBytes bs) = bs.
Proof.
  induction 1 as [|b bs Hb H IH]; simpl; auto. rewrite IH. f_equal. rewrite N_ascii_embedding by lia. lia.
Qed.
Lemma encode_bytes rs : Forall (fun b => 0 <= b < 256) (encodeUtf8 rs).
Proof.
  unfold encodeUtf8. apply Forall_concat. rewrite Forall_map. apply Forall_forall. intros r _. unfold encodeRune.
  assert (Hs : forall r, 0 <= r <= 1114111 -> Forall (fun b => 0 <= b < 256)
    (if r <? 128 then [r] else if r <? 2048 then [192 + r / 64; 128 + r mod 64]
     else if r <? 65536 then [224 + r / 4096; 128 + (r / 64) mod 64; 128 + r mod 64]
     else [240 + r / 262144; 128 + (r / 4096) mod 64; 128 + (r / 64) mod 64; 128 + r mod 64])).
  { clear. intros r Hr. assert (M : forall x, 0 <= x mod 64 < 64) by (intros; apply Z.mod_pos_bound; lia).
    destruct (Z.ltb_spec r 128); [repeat constructor; lia|].
    destruct (Z.ltb_spec r 2048).
    { assert (2 <= r / 64 < 32) by (split; [apply Z.div_le_lower_bound|apply Z.div_lt_upper_bound]; lia). pose proof (M r). repeat constructor; lia. }
    destruct (Z.ltb_spec r 65536).
    { assert (0 <= r / 4096 < 16) by (split; [apply Z.div_le_lower_bound|apply Z.div_lt_upper_bound]; lia). pose proof (M r). pose proof (M (r / 64)). repeat constructor; lia. }
    assert (0 <= r / 262144 < 5) by (split; [apply Z.div_le_lower_bound|apply Z.div_lt_upper_bound]; lia).
    pose proof (M r). pose proof (M (r / 64)). pose proof (M (r / 4096)). repeat constructor; lia. }
  apply Hs. destruct (Z.ltb_spec r 0), (Z.ltb_spec 1114111 r); simpl; try (unfold runeError; lia).
  destruct ((55296 <=? r) && (r <=? 57343)); unfold runeError; lia.
Qed.
(** []rune(string(rs)) = rs for scalar values *)
Theorem runes_string rs : Forall scalar rs -> stringRunes (runesString rs) = rs.
Proof. intros H. unfold stringRunes, runesString. rewrite bytes_byte by apply encode_bytes. apply decode_encode. auto. Qed.

(** decoding gives scalar values only *)
Lemma decodeRune_scalar bs r k : Forall (fun b => 0 <= b < 256) bs -> decodeRune bs = Some (r, k) -> scalar r.
Proof.
  intros Hb. assert (He : scalar runeError) by (unfold scalar, runeError; lia).
  unfold decodeRune, isCont. destruct bs as [|b0 bs]; [discriminate|]. inversion Hb as [|? ? B0 Hb']; subst.
  destruct (Z.ltb_spec b0 128); [intros X; inversion X; subst; unfold scalar; lia|].
  destruct (Z.leb_spec 194 b0); simpl.
  2:{ replace (224 <=? b0) with false by (symmetry; apply Z.leb_gt; lia). replace (240 <=? b0) with false by (symmetry; apply Z.leb_gt; lia). simpl. intros X; inversion X; subst; auto. }
  destruct (Z.leb_spec b0 223).
  { destruct bs as [|b1 bs]; [intros X; inversion X; subst; auto|]. destruct (Z.leb_spec 128 b1), (Z.leb_spec b1 191); simpl; intros X; inversion X; subst; auto. unfold scalar. lia. }
  replace (224 <=? b0) with true by (symmetry; apply Z.leb_le; lia). simpl. destruct (Z.leb_spec b0 239).
  { destruct bs as [|b1 [|b2 bs]]; try (intros X; inversion X; subst; auto; fail).
    destruct (_ && _) eqn:E; intros X; inversion X; subst; auto. rewrite !andb_true_iff, !Z.leb_le in E. destruct E as [[E1 E2] [E3 E4]].
    destruct (Z.eqb_spec b0 224), (Z.eqb_spec b0 237); unfold scalar; lia. }
  replace (240 <=? b0) with true by (symmetry; apply Z.leb_le; lia). simpl. destruct (Z.leb_spec b0 244); [|intros X; inversion X; subst; auto].
  destruct bs as [|b1 [|b2 [|b3 bs]]]; try (intros X; inversion X; subst; auto; fail).
  destruct (_ && _) eqn:E; intros X; inversion X; subst; auto. rewrite !andb_true_iff, !Z.leb_le in E. destruct E as [[[E1 E2] [E3 E4]] [E5 E6]].
  destruct (Z.eqb_spec b0 240), (Z.eqb_spec b0 244); unfold scalar; lia.
Qed.
