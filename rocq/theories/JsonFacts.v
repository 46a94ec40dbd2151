(** Reading the text printed by show gives back the tree. *)
From Coq Require Import DecimalString.
From Verif Require Import Base Utf8 Parser Build Syntax Define Cli Json TextSpec JsonSpec Utf8Facts TextFacts WsNames ParseFacts RenderFacts GenNames ReadMeans CliSpec CliFacts.
Local Open Scope string_scope.
Local Open Scope list_scope.
Local Open Scope Z_scope.

(** ** characters *)
(** a valid encoding is the encoding of its character *)
Lemma encode_decode bs r k : Forall (fun b => 0 <= b < 256) bs -> decodeRune bs = Some (r, k) -> (k = 1%nat /\ r = runeError) \/ firstn k bs = encodeRune r.
Proof.
  intros Hb. unfold decodeRune, isCont. destruct bs as [|b0 bs]; [discriminate|]. inversion Hb as [|? ? B0 Hb']; subst.
  assert (Q : forall r0, scalar r0 -> encodeRune r0 = if r0 <? 128 then [r0]
     else if r0 <? 2048 then [192 + r0 / 64; 128 + r0 mod 64]
     else if r0 <? 65536 then [224 + r0 / 4096; 128 + (r0 / 64) mod 64; 128 + r0 mod 64]
     else [240 + r0 / 262144; 128 + (r0 / 4096) mod 64; 128 + (r0 / 64) mod 64; 128 + r0 mod 64]).
  { intros r0 [[S1 S2] S3]. unfold encodeRune. replace ((r0 <? 0) || (1114111 <? r0) || ((55296 <=? r0) && (r0 <=? 57343))) with false; auto.
    symmetry. rewrite !orb_false_iff, andb_false_iff, !Z.ltb_ge, !Z.leb_gt. lia. }
  assert (D : forall a m, 0 <= m < 64 -> (a * 64 + m) / 64 = a /\ (a * 64 + m) mod 64 = m).
  { intros a m Hm. split; [rewrite Z.div_add_l, Z.div_small; lia|rewrite Z.add_comm, Z.mod_add, Z.mod_small; lia]. }
  destruct (Z.ltb_spec b0 128).
  { intros X; inversion X; subst. right. rewrite Q by (unfold scalar; lia). destruct (Z.ltb_spec r 128); [auto|lia]. }
  destruct (Z.leb_spec 194 b0); simpl.
  2:{ replace (224 <=? b0) with false by (symmetry; apply Z.leb_gt; lia). replace (240 <=? b0) with false by (symmetry; apply Z.leb_gt; lia). simpl. intros X; inversion X; subst; auto. }
  destruct (Z.leb_spec b0 223).
  { destruct bs as [|b1 bs]; [intros X; inversion X; subst; auto|]. destruct (Z.leb_spec 128 b1), (Z.leb_spec b1 191); simpl; intros X; inversion X; subst; auto.
    right. rewrite Q by (unfold scalar; lia). destruct (D (b0 - 192) (b1 - 128) ltac:(lia)) as [D1 D2]. rewrite D1, D2.
    destruct (Z.ltb_spec ((b0 - 192) * 64 + (b1 - 128)) 128); [lia|]. destruct (Z.ltb_spec ((b0 - 192) * 64 + (b1 - 128)) 2048); [|lia].
    cbn [firstn]. f_equal; [lia|]. f_equal. lia. }
  replace (224 <=? b0) with true by (symmetry; apply Z.leb_le; lia). simpl. destruct (Z.leb_spec b0 239).
  { destruct bs as [|b1 [|b2 bs]]; try (intros X; inversion X; subst; auto; fail).
    destruct (_ && _) eqn:E; intros X; inversion X; subst; auto. rewrite !andb_true_iff, !Z.leb_le in E. destruct E as [[E1 E2] [E3 E4]].
    right. set (v := (b0 - 224) * 4096 + (b1 - 128) * 64 + (b2 - 128)) in *.
    assert (Sv : scalar v /\ 2048 <= v < 65536) by (destruct (Z.eqb_spec b0 224), (Z.eqb_spec b0 237); unfold scalar, v; lia).
    assert (B1 : 0 <= b1 - 128 < 64) by (destruct (Z.eqb_spec b0 224), (Z.eqb_spec b0 237); lia).
    destruct Sv as [Sv Rv]. rewrite Q by auto. destruct (Z.ltb_spec v 128); [lia|]. destruct (Z.ltb_spec v 2048); [lia|]. destruct (Z.ltb_spec v 65536); [|lia].
    replace (v / 4096) with (v / 64 / 64) by (rewrite Zdiv.Zdiv_Zdiv by lia; auto).
    destruct (D ((b0 - 224) * 64 + (b1 - 128)) (b2 - 128) ltac:(lia)) as [D1 D2]. destruct (D (b0 - 224) (b1 - 128) ltac:(lia)) as [D3 D4].
    replace v with (((b0 - 224) * 64 + (b1 - 128)) * 64 + (b2 - 128)) by (unfold v; lia). rewrite D1, D2, D3, D4.
    cbn [firstn]. f_equal; [lia|]. f_equal; [lia|]. f_equal. lia. }
  replace (240 <=? b0) with true by (symmetry; apply Z.leb_le; lia). simpl. destruct (Z.leb_spec b0 244); [|intros X; inversion X; subst; auto].
  destruct bs as [|b1 [|b2 [|b3 bs]]]; try (intros X; inversion X; subst; auto; fail).
  destruct (_ && _) eqn:E; intros X; inversion X; subst; auto. rewrite !andb_true_iff, !Z.leb_le in E. destruct E as [[[E1 E2] [E3 E4]] [E5 E6]].
  right. set (v := (b0 - 240) * 262144 + (b1 - 128) * 4096 + (b2 - 128) * 64 + (b3 - 128)) in *.
  assert (Sv : scalar v /\ 65536 <= v) by (destruct (Z.eqb_spec b0 240), (Z.eqb_spec b0 244); unfold scalar, v; lia).
  assert (B1 : 0 <= b1 - 128 < 64) by (destruct (Z.eqb_spec b0 240), (Z.eqb_spec b0 244); lia).
  destruct Sv as [Sv Rv]. rewrite Q by auto. destruct (Z.ltb_spec v 128); [lia|]. destruct (Z.ltb_spec v 2048); [lia|]. destruct (Z.ltb_spec v 65536); [lia|].
  replace (v / 262144) with (v / 64 / 64 / 64) by (rewrite !Zdiv.Zdiv_Zdiv by lia; auto). replace (v / 4096) with (v / 64 / 64) by (rewrite Zdiv.Zdiv_Zdiv by lia; auto).
  destruct (D (((b0 - 240) * 64 + (b1 - 128)) * 64 + (b2 - 128)) (b3 - 128) ltac:(lia)) as [D1 D2]. destruct (D ((b0 - 240) * 64 + (b1 - 128)) (b2 - 128) ltac:(lia)) as [D3 D4].
  destruct (D (b0 - 240) (b1 - 128) ltac:(lia)) as [D5 D6].
  replace v with ((((b0 - 240) * 64 + (b1 - 128)) * 64 + (b2 - 128)) * 64 + (b3 - 128)) by (unfold v; lia). rewrite D1, D2, D3, D4, D5, D6.
  cbn [firstn]. f_equal; [lia|]. f_equal; [lia|]. f_equal; [lia|]. f_equal. lia.
Qed.
Lemma encode_high r : scalar r -> 128 <= r -> Forall (fun b => 128 <= b < 256) (encodeRune r).
Proof.
  intros [[S1 S2] S3] Hr. unfold encodeRune. replace ((r <? 0) || (1114111 <? r) || ((55296 <=? r) && (r <=? 57343))) with false.
  2:{ symmetry. rewrite !orb_false_iff, andb_false_iff, !Z.ltb_ge, !Z.leb_gt. lia. }
  assert (M : forall x, 0 <= x mod 64 < 64) by (intros; apply Z.mod_pos_bound; lia).
  destruct (Z.ltb_spec r 128); [lia|]. destruct (Z.ltb_spec r 2048).
  { assert (2 <= r / 64 < 32) by (split; [apply Z.div_le_lower_bound|apply Z.div_lt_upper_bound]; lia). pose proof (M r). repeat constructor; lia. }
  destruct (Z.ltb_spec r 65536).
  { assert (0 <= r / 4096 < 16) by (split; [apply Z.div_le_lower_bound|apply Z.div_lt_upper_bound]; lia). pose proof (M r). pose proof (M (r / 64)). repeat constructor; lia. }
  assert (0 <= r / 262144 < 5) by (split; [apply Z.div_le_lower_bound|apply Z.div_lt_upper_bound]; lia).
  pose proof (M r). pose proof (M (r / 64)). pose proof (M (r / 4096)). repeat constructor; lia.
Qed.

(** the place inside of a string after some characters; None: the string has ended *)
Fixpoint walk (place : nat) (l : list Z) : option nat :=
  match l with
  | [] => Some place
  | c :: l' => match place with
               | S O => if c =? 34 then None else walk (if c =? 92 then 2%nat else 1%nat) l'
               | _ => walk 1 l'
               end
  end.
Lemma walk_app l l' : forall p q, walk p l = Some q -> walk p (l ++ l') = walk q l'.
Proof.
  induction l as [|c l IH]; intros p q H; simpl in *; [inversion H; auto|]. destruct p as [|[|p]]; auto. destruct (c =? 34); [discriminate|auto].
Qed.
Lemma walk_high l : Forall (fun b => 128 <= b < 256) l -> walk 1 l = Some 1%nat.
Proof.
  induction 1 as [|c l Hc H IH]; simpl; auto. destruct (Z.eqb_spec c 34); [lia|]. destruct (Z.eqb_spec c 92); [lia|auto].
Qed.
Lemma read_high l : Forall (fun b => 128 <= b < 256) l -> forall m s rest, readString m = Some (s, rest) -> readString (l ++ m) = Some (l ++ s, rest).
Proof.
  induction 1 as [|c l Hc H IH]; intros m s rest R; [auto|]. cbn [app readString]. destruct (Z.eqb_spec c 34); [lia|]. destruct (Z.eqb_spec c 92); [lia|].
  destruct (Z.ltb_spec c 32); [lia|]. rewrite (IH _ _ _ R). auto.
Qed.
Lemma hex_digit x : 0 <= x < 16 -> hexValue (hexDigit x) = Some x /\ hexDigit x <> 34 /\ hexDigit x <> 92.
Proof.
  intros H. unfold hexValue, hexDigit. destruct (Z.ltb_spec x 10).
  - replace ((48 <=? 48 + x) && (48 + x <=? 57)) with true by (symmetry; rewrite andb_true_iff, !Z.leb_le; lia). split; [f_equal; lia|lia].
  - replace ((48 <=? 87 + x) && (87 + x <=? 57)) with false by (symmetry; rewrite andb_false_iff, !Z.leb_gt; lia).
    replace ((97 <=? 87 + x) && (87 + x <=? 102)) with true by (symmetry; rewrite andb_true_iff, !Z.leb_le; lia). split; [f_equal; lia|lia].
Qed.
Definition good (p : list Z) (r : Z) : Prop :=
  walk 1 p = Some 1%nat /\ forall m s rest, readString m = Some (s, rest) -> readString (p ++ m) = Some (encodeRune r ++ s, rest).
Lemma encode_ascii r : 0 <= r < 128 -> encodeRune r = [r].
Proof.
  intros H. unfold encodeRune. replace ((r <? 0) || (1114111 <? r) || ((55296 <=? r) && (r <=? 57343))) with false.
  2:{ symmetry. rewrite !orb_false_iff, andb_false_iff, !Z.ltb_ge, !Z.leb_gt. lia. }
  destruct (Z.ltb_spec r 128); [auto|lia].
Qed.
Lemma read_u a b d f a' b' d' f' m s rest : hexValue a = Some a' -> hexValue b = Some b' -> hexValue d = Some d' -> hexValue f = Some f' ->
  readString m = Some (s, rest) -> readString (92 :: 117 :: a :: b :: d :: f :: m) = Some (encodeRune (4096 * a' + 256 * b' + 16 * d' + f') ++ s, rest).
Proof.
  intros Ha Hb Hd Hf R. cbn [readString]. change (92 =? 34) with false. change (92 =? 92) with true. change (117 =? 117) with true. cbv iota. now rewrite Ha, Hb, Hd, Hf, R.
Qed.
Lemma good_ascii modern b : 0 <= b < 128 -> good (jsonAscii modern b) b.
Proof.
  intros Hb. unfold jsonAscii. unfold good. rewrite encode_ascii by auto.
  destruct (Z.eqb_spec b 34) as [->|N1]; [split; [reflexivity|intros m s rest R; cbn -[readString]; cbn; rewrite R; reflexivity]|].
  destruct (Z.eqb_spec b 92) as [->|N2]; [split; [reflexivity|intros m s rest R; cbn; rewrite R; reflexivity]|]. cbn [orb].
  destruct (Z.eqb_spec b 10) as [->|N3]; [split; [reflexivity|intros m s rest R; cbn; rewrite R; reflexivity]|].
  destruct (Z.eqb_spec b 13) as [->|N4]; [split; [reflexivity|intros m s rest R; cbn; rewrite R; reflexivity]|].
  destruct (Z.eqb_spec b 9) as [->|N5]; [split; [reflexivity|intros m s rest R; cbn; rewrite R; reflexivity]|].
  destruct (modern && (b =? 8)) eqn:N6.
  { apply andb_true_iff in N6. destruct N6 as [_ N6]. apply Z.eqb_eq in N6. subst. split; [reflexivity|intros m s rest R; cbn; rewrite R; reflexivity]. }
  destruct (modern && (b =? 12)) eqn:N7.
  { apply andb_true_iff in N7. destruct N7 as [_ N7]. apply Z.eqb_eq in N7. subst. split; [reflexivity|intros m s rest R; cbn; rewrite R; reflexivity]. }
  destruct ((b <? 32) || (b =? 60) || (b =? 62) || (b =? 38)) eqn:N8.
  - assert (H1 : 0 <= b / 16 < 16) by (split; [apply Z.div_le_lower_bound|apply Z.div_lt_upper_bound]; lia).
    assert (H2 : 0 <= b mod 16 < 16) by (apply Z.mod_pos_bound; lia).
    destruct (hex_digit _ H1) as (A1 & A2 & A3), (hex_digit _ H2) as (B1 & B2 & B3). split.
    + cbn. apply Z.eqb_neq in A2, A3, B2, B3. rewrite A2, A3, B2, B3. auto.
    + intros m s rest R. cbn [app]. rewrite (read_u 48 48 _ _ 0 0 (b / 16) (b mod 16) m s rest); auto. replace (4096 * 0 + 256 * 0 + 16 * (b / 16) + b mod 16) with b. { rewrite encode_ascii by auto. auto. }
      pose proof (Z.div_mod b 16 ltac:(lia)). lia.
  - split.
    + cbn. apply Z.eqb_neq in N1, N2. rewrite N1, N2. auto.
    + intros m s rest R. cbn. apply Z.eqb_neq in N1, N2. rewrite N1, N2. rewrite !orb_false_iff in N8. destruct N8 as [[[N8 _] _] _]. rewrite N8, R. auto.
Qed.
Lemma good_piece modern bs r k : Forall (fun b => 0 <= b < 256) bs -> decodeRune bs = Some (r, k) ->
  good (if r <? 128 then jsonAscii modern r
       else if (r =? runeError) && Nat.eqb k 1 then 92 :: bytesOf "ufffd"
       else if r =? 8232 then 92 :: bytesOf "u2028"
       else if r =? 8233 then 92 :: bytesOf "u2029"
       else firstn k bs) r.
Proof.
  intros Hb Hd. pose proof (decodeRune_scalar _ _ _ Hb Hd) as Sr. destruct (Z.ltb_spec r 128) as [L|L]; [apply good_ascii; destruct Sr; lia|].
  destruct ((r =? runeError) && Nat.eqb k 1) eqn:E.
  { apply andb_true_iff in E. destruct E as [E _]. apply Z.eqb_eq in E. subst r. split; [reflexivity|]. intros m s rest R. cbn. rewrite R. reflexivity. }
  destruct (Z.eqb_spec r 8232) as [->|N1]. { split; [reflexivity|]. intros m s rest R. cbn. rewrite R. reflexivity. }
  destruct (Z.eqb_spec r 8233) as [->|N2]. { split; [reflexivity|]. intros m s rest R. cbn. rewrite R. reflexivity. }
  destruct (encode_decode _ _ _ Hb Hd) as [[-> ->]|F]; [discriminate|]. rewrite F. pose proof (encode_high r Sr L) as Hh. split; [apply walk_high; auto|].
  apply read_high. auto.
Qed.
Lemma decodeRune_len bs r k : decodeRune bs = Some (r, k) -> (1 <= k)%nat.
Proof.
  unfold decodeRune. destruct bs as [|b0 bs]; [discriminate|].
  repeat match goal with |- context [if ?c then _ else _] => destruct c | |- context [match ?l with [] => _ | _ :: _ => _ end] => is_var l; destruct l end;
  intros X; inversion X; lia.
Qed.
Lemma good_chars modern n : forall bs, Forall (fun b => 0 <= b < 256) bs ->
  walk 1 (jsonChars modern n bs) = Some 1%nat /\
  forall rest, readString (jsonChars modern n bs ++ 34 :: rest) = Some (encodeUtf8 (decodeFuel n bs), rest).
Proof.
  induction n as [|n IH]; intros bs Hb; [split; reflexivity|]. cbn [jsonChars decodeFuel].
  destruct (decodeRune bs) as [[r k]|] eqn:E; [|split; reflexivity]. destruct (good_piece modern bs r k Hb E) as [G1 G2].
  destruct (IH (skipn k bs)) as [I1 I2]. { apply Forall_forall. intros x Hx. rewrite Forall_forall in Hb. apply Hb. rewrite <- (firstn_skipn k bs). apply in_or_app. auto. }
  split; [erewrite walk_app; eauto|]. intros rest. rewrite <- app_assoc. unfold encodeUtf8. cbn [List.map List.concat]. apply G2, I2.
Qed.
Lemma bytes_len s : List.length (bytesOf s) = String.length s.
Proof. induction s; simpl; auto. Qed.
Lemma bytes_range s : Forall (fun b => 0 <= b < 256) (bytesOf s).
Proof.
  induction s as [|a s IH]; simpl; constructor; auto. pose proof (N_ascii_bounded a). lia.
Qed.
(** what is read of a string: bytes that are not valid UTF-8 are replaced *)
Local Notation cleaned := inUtf8.
Lemma read_string modern s rest : exists cs, jsonString modern s ++ rest = 34 :: cs ++ 34 :: rest /\ walk 1 cs = Some 1%nat /\
  readString (cs ++ 34 :: rest) = Some (bytesOf (cleaned s), rest).
Proof.
  destruct (good_chars modern (String.length s) (bytesOf s) (bytes_range s)) as [G1 G2]. exists (jsonChars modern (String.length s) (bytesOf s)).
  unfold jsonString. split; [simpl; rewrite <- app_assoc; auto|]. split; auto. rewrite G2. unfold inUtf8, runesString, stringRunes, decodeUtf8.
  rewrite bytes_byte by apply encode_bytes. now rewrite bytes_len.
Qed.

(** ** numbers *)
Lemma bytes_back s : stringOfBytes (bytesOf s) = s.
Proof. induction s as [|a s IH]; simpl; auto. rewrite IH, N2Z.id, ascii_N_embedding. auto. Qed.
Definition noDigit (l : list Z) : Prop := match l with [] => True | c :: _ => isDigit c = false end.
Lemma take_digits l rest : forallb isDigit l = true -> noDigit rest -> takeDigits (l ++ rest) = (l, rest).
Proof.
  induction l as [|c l IH]; simpl; intros H N.
  - destruct rest as [|c rest]; auto. simpl in *. now rewrite N.
  - apply andb_true_iff in H. destruct H as [H1 H2]. rewrite H1, IH; auto.
Qed.
Lemma digit_bytes s : forallb digit (list_ascii_of_string s) = true -> forallb isDigit (bytesOf s) = true.
Proof.
  induction s as [|a s IH]; simpl; auto. intros H. apply andb_true_iff in H. destruct H as [H1 H2]. rewrite IH by auto. rewrite andb_true_r.
  destruct a as [[] [] [] [] [] [] [] []]; try discriminate H1; reflexivity.
Qed.
Lemma itoa_bytes k : forallb isDigit (bytesOf (itoaNat k)) = true.
Proof. apply digit_bytes, itoaNat_digits. Qed.
Lemma itoa_first k : exists c l, bytesOf (itoaNat k) = c :: l /\ isDigit c = true.
Proof.
  pose proof (itoa_bytes k) as H. pose proof (number_itoa k) as N. destruct (itoaNat k) as [|a s] eqn:E; [discriminate N|].
  simpl in *. apply andb_true_iff in H. destruct H as [H _]. eauto.
Qed.

(** ** the printed text, with any white space between the parts *)
Section Render.
Variable modern : bool.
Variable nl : nat -> list Z.
Variable co : list Z.
Definition key (k : string) : list Z := 34 :: bytesOf k ++ [34; 58] ++ co.
Fixpoint joinBy (sep : list Z) (l : list (list Z)) : list Z :=
  match l with
  | [] => []
  | [x] => x
  | x :: l' => x ++ 44 :: sep ++ joinBy sep l'
  end.
Fixpoint render (d : nat) (n : shown) : list Z :=
  match n with
  | Shown name from to text nodes =>
    123 :: nl (S d) ++ key "name" ++ jsonString modern name ++
    44 :: nl (S d) ++ key "from" ++ bytesOf (itoaNat from) ++
    44 :: nl (S d) ++ key "to" ++ bytesOf (itoaNat to) ++
    match text with Some t => 44 :: nl (S d) ++ key "text" ++ jsonString modern t | None => [] end ++
    match nodes with
    | Some l => 44 :: nl (S d) ++ key "nodes" ++ 91 :: nl (S (S d)) ++ joinBy (nl (S (S d))) (map (render (S (S d))) l) ++ nl (S d) ++ [93]
    | None => []
    end ++ nl d ++ [125]
  end.
End Render.

Section ShownInd.
Variable P : shown -> Prop.
Hypothesis Hleaf : forall name from to text, P (Shown name from to text None).
Hypothesis Hnode : forall name from to text l, Forall P l -> P (Shown name from to text (Some l)).
Fixpoint shown_ind' (n : shown) : P n :=
  match n with
  | Shown name from to text None => Hleaf name from to text
  | Shown name from to text (Some l) => Hnode name from to text l ((fix go l := match l return Forall P l with [] => Forall_nil P | x :: l' => Forall_cons x (shown_ind' x) (go l') end) l)
  end.
End ShownInd.

(** no empty list of child nodes *)
Inductive proper : shown -> Prop :=
| proper_leaf name from to text : proper (Shown name from to text None)
| proper_node name from to text l : l <> [] -> Forall proper l -> proper (Shown name from to text (Some l)).

Lemma joinComma_by l : joinComma l = joinBy [] l.
Proof. induction l as [|x [|y l] IH]; auto. change (x ++ 44 :: joinComma (y :: l) = x ++ 44 :: [] ++ joinBy [] (y :: l)). now rewrite IH. Qed.
Lemma compact_render modern n : forall d, jsonNode modern n = render modern (fun _ => []) [] d n.
Proof.
  induction n as [name from to text|name from to text l IH] using shown_ind'; intros d.
  - cbn [jsonNode render]. destruct text; cbn -[jsonString itoaNat]; rewrite ?app_nil_r; reflexivity.
  - cbn [jsonNode render]. rewrite joinComma_by.
    assert (E : map (jsonNode modern) l = map (render modern (fun _ => []) [] (S (S d))) l).
    { apply map_ext_in. intros x Hx. rewrite Forall_forall in IH. apply IH. auto. }
    rewrite E. destruct text; cbn -[jsonString itoaNat render]; rewrite <- ?app_assoc; reflexivity.
Qed.

Section Indent.
Variable modern : bool.
Variable ind : list Z.
Local Notation nl := (newline ind).
Lemma indent_walk l : forall need d p q rest, walk (S p) l = Some (S q) ->
  indentJson ind need d (S p) (l ++ rest) = l ++ indentJson ind need d (S q) rest.
Proof.
  induction l as [|c l IH]; intros need d p q rest H; simpl in H; [inversion H; auto|]. cbn [app indentJson]. destruct p as [|p].
  - destruct (c =? 34); [discriminate|]. destruct (c =? 92); f_equal; apply IH; auto.
  - f_equal. apply IH. auto.
Qed.
Lemma indent_string d s rest : indentJson ind false d 0 (jsonString modern s ++ rest) = jsonString modern s ++ indentJson ind false d 0 rest.
Proof.
  unfold jsonString. destruct (good_chars modern (String.length s) (bytesOf s) (bytes_range s)) as [W _].
  set (cs := jsonChars _ _ _) in *. clearbody cs. change ((34 :: cs ++ [34]) ++ rest) with (34 :: (cs ++ [34]) ++ rest). rewrite <- app_assoc. cbn. f_equal.
  rewrite (indent_walk cs false d 0 0) by auto. cbn. rewrite <- app_assoc. reflexivity.
Qed.
Lemma indent_digits l : forall d rest, forallb isDigit l = true -> indentJson ind false d 0 (l ++ rest) = l ++ indentJson ind false d 0 rest.
Proof.
  induction l as [|c l IH]; intros d rest H; [auto|]. simpl in H. apply andb_true_iff in H. destruct H as [H1 H2].
  unfold isDigit in H1. apply andb_true_iff in H1. rewrite !Z.leb_le in H1. cbn [app indentJson andb orb negb].
  destruct (Z.eqb_spec c 123); [lia|]. destruct (Z.eqb_spec c 91); [lia|]. destruct (Z.eqb_spec c 44); [lia|]. destruct (Z.eqb_spec c 58); [lia|].
  destruct (Z.eqb_spec c 125); [lia|]. destruct (Z.eqb_spec c 93); [lia|]. destruct (Z.eqb_spec c 34); [lia|]. cbn [orb app]. f_equal. auto.
Qed.
Lemma indent_key d k rest : walk 1 (bytesOf k) = Some 1%nat ->
  indentJson ind false d 0 (key [] k ++ rest) = key [32] k ++ indentJson ind false d 0 rest.
Proof.
  intros W. unfold key. change ((34 :: bytesOf k ++ [34; 58] ++ []) ++ rest) with (34 :: (bytesOf k ++ [34; 58]) ++ rest). rewrite <- app_assoc. cbn. f_equal.
  rewrite (indent_walk (bytesOf k) false d 0 0) by auto. cbn. rewrite <- !app_assoc. reflexivity.
Qed.
Lemma indent_first d k rest : walk 1 (bytesOf k) = Some 1%nat ->
  indentJson ind true d 0 (key [] k ++ rest) = nl (S d) ++ key [32] k ++ indentJson ind false (S d) 0 rest.
Proof.
  intros W. unfold key. change ((34 :: bytesOf k ++ [34; 58] ++ []) ++ rest) with (34 :: (bytesOf k ++ [34; 58]) ++ rest). rewrite <- app_assoc. cbn. f_equal. f_equal. f_equal.
  rewrite (indent_walk (bytesOf k) false (S d) 0 0) by auto. cbn. rewrite <- !app_assoc. reflexivity.
Qed.
Local Notation flat := (render modern (fun _ => []) [] 0).
Lemma flat_any d n : render modern (fun _ => []) [] d n = flat n.
Proof. rewrite <- !compact_render. auto. Qed.
Lemma indent_comma d k rest : walk 1 (bytesOf k) = Some 1%nat ->
  indentJson ind false d 0 (44 :: key [] k ++ rest) = 44 :: nl d ++ key [32] k ++ indentJson ind false d 0 rest.
Proof. intros W. change (indentJson ind false d 0 (44 :: key [] k ++ rest)) with (44 :: nl d ++ indentJson ind false d 0 (key [] k ++ rest)). now rewrite indent_key. Qed.

Lemma flat_eq name from to text nodes rest : flat (Shown name from to text nodes) ++ rest =
  123 :: key [] "name" ++ jsonString modern name ++ 44 :: key [] "from" ++ bytesOf (itoaNat from) ++ 44 :: key [] "to" ++ bytesOf (itoaNat to) ++
  match text with Some t => 44 :: key [] "text" ++ jsonString modern t | None => [] end ++
  match nodes with Some l => 44 :: key [] "nodes" ++ 91 :: joinBy [] (map flat l) ++ [93] | None => [] end ++ 125 :: rest.
Proof.
  cbn [render]. assert (E : forall l, map (render modern (fun _ => []) [] 2) l = map flat l) by (intros l; apply map_ext, flat_any).
  destruct nodes; rewrite ?E; destruct text; cbn -[jsonString itoaNat render map]; rewrite <- ?app_assoc; cbn -[jsonString itoaNat render map];
  repeat (rewrite <- ?app_assoc; f_equal; cbn -[jsonString itoaNat render map]); reflexivity.
Qed.
Lemma render_eq d name from to text nodes rest : render modern nl [32] d (Shown name from to text nodes) ++ rest =
  123 :: nl (S d) ++ key [32] "name" ++ jsonString modern name ++ 44 :: nl (S d) ++ key [32] "from" ++ bytesOf (itoaNat from) ++ 44 :: nl (S d) ++ key [32] "to" ++ bytesOf (itoaNat to) ++
  match text with Some t => 44 :: nl (S d) ++ key [32] "text" ++ jsonString modern t | None => [] end ++
  match nodes with Some l => 44 :: nl (S d) ++ key [32] "nodes" ++ 91 :: nl (S (S d)) ++ joinBy (nl (S (S d))) (map (render modern nl [32] (S (S d))) l) ++ nl (S d) ++ [93] | None => [] end ++ nl d ++ 125 :: rest.
Proof.
  cbn [render]. rewrite <- app_comm_cons. rewrite <- !app_assoc. f_equal. f_equal. f_equal. f_equal. rewrite <- app_comm_cons. f_equal. rewrite <- !app_assoc. do 3 f_equal.
  rewrite <- app_comm_cons. f_equal. rewrite <- !app_assoc. reflexivity.
Qed.
Lemma indent_open d m : indentJson ind false d 0 (91 :: m) = 91 :: indentJson ind true d 0 m.
Proof. reflexivity. Qed.
Lemma indent_join d l : Forall (fun n => forall need d rest, indentJson ind need d 0 (flat n ++ rest) =
    (if need then nl (S d) else []) ++ render modern nl [32] (if need then S d else d) n ++ indentJson ind false (if need then S d else d) 0 rest) l ->
  l <> [] -> forall need rest, indentJson ind need d 0 (joinBy [] (map flat l) ++ rest) =
    (if need then nl (S d) else []) ++ joinBy (nl (if need then S d else d)) (map (render modern nl [32] (if need then S d else d)) l) ++ indentJson ind false (if need then S d else d) 0 rest.
Proof.
  intros H. revert d. induction H as [|x l Hx H IH]; intros d N need rest; [contradiction|]. destruct l as [|y l].
  - cbn [map joinBy]. apply Hx.
  - cbn [map] in *. change (joinBy [] (flat x :: flat y :: map flat l)) with (flat x ++ 44 :: [] ++ joinBy [] (flat y :: map flat l)).
    rewrite <- app_assoc. rewrite Hx. set (d' := if need then S d else d).
    change (joinBy (nl d') (render modern nl [32] d' x :: render modern nl [32] d' y :: map (render modern nl [32] d') l)) with
      (render modern nl [32] d' x ++ 44 :: nl d' ++ joinBy (nl d') (render modern nl [32] d' y :: map (render modern nl [32] d') l)).
    rewrite <- app_assoc. f_equal. f_equal. rewrite <- app_comm_cons. cbn [app].
    transitivity (44 :: nl d' ++ indentJson ind false d' 0 (joinBy [] (flat y :: map flat l) ++ rest)); [reflexivity|].
    rewrite (IH d' ltac:(discriminate) false). rewrite <- ?app_comm_cons, <- ?app_assoc. reflexivity.
Qed.
Lemma indent_node n : proper n -> forall need d rest, indentJson ind need d 0 (flat n ++ rest) =
    (if need then nl (S d) else []) ++ render modern nl [32] (if need then S d else d) n ++ indentJson ind false (if need then S d else d) 0 rest.
Proof.
  assert (B : forall name from to text nodes,
    match nodes with None => True | Some l => l <> [] /\ Forall (fun n => forall need d rest, indentJson ind need d 0 (flat n ++ rest) =
    (if need then nl (S d) else []) ++ render modern nl [32] (if need then S d else d) n ++ indentJson ind false (if need then S d else d) 0 rest) l end ->
    forall need d rest, indentJson ind need d 0 (flat (Shown name from to text nodes) ++ rest) =
    (if need then nl (S d) else []) ++ render modern nl [32] (if need then S d else d) (Shown name from to text nodes) ++ indentJson ind false (if need then S d else d) 0 rest).
  { intros name from to text nodes Hn need d rest. rewrite flat_eq, render_eq. set (d' := if need then S d else d).
    match goal with |- indentJson ind need d 0 (123 :: ?l) = _ => transitivity ((if need then nl (S d) else []) ++ 123 :: indentJson ind true d' 0 l); [destruct need; reflexivity|] end.
    f_equal. f_equal. rewrite indent_first by reflexivity. f_equal. f_equal. rewrite indent_string. f_equal. rewrite indent_comma by reflexivity. f_equal. f_equal. f_equal.
    rewrite indent_digits by apply itoa_bytes. f_equal. rewrite indent_comma by reflexivity. f_equal. f_equal. f_equal. rewrite indent_digits by apply itoa_bytes. f_equal.
    assert (T : indentJson ind false (S d') 0 (match nodes with Some l => 44 :: key [] "nodes" ++ 91 :: joinBy [] (map flat l) ++ [93] | None => [] end ++ 125 :: rest) =
      match nodes with Some l => 44 :: nl (S d') ++ key [32] "nodes" ++ 91 :: nl (S (S d')) ++ joinBy (nl (S (S d'))) (map (render modern nl [32] (S (S d'))) l) ++ nl (S d') ++ [93] | None => [] end ++ nl d' ++ 125 :: indentJson ind false d' 0 rest).
    { destruct nodes as [l|]; [|reflexivity]. destruct Hn as [N Hl]. rewrite <- app_comm_cons, <- app_assoc. rewrite indent_comma by reflexivity. rewrite <- app_comm_cons. f_equal.
      rewrite <- !app_assoc. f_equal. f_equal. rewrite <- !app_comm_cons, <- !app_assoc.
      rewrite indent_open.
      rewrite (indent_join (S d') l Hl N true). rewrite <- !app_comm_cons, <- !app_assoc. reflexivity. }
    destruct text as [t|]; [|exact T]. rewrite <- app_comm_cons, <- app_assoc. rewrite indent_comma by reflexivity. rewrite <- app_comm_cons, <- !app_assoc. f_equal. f_equal. f_equal.
    rewrite indent_string. f_equal. exact T. }
  induction n as [name from to text|name from to text l IH] using shown_ind'; intros Hp; apply B; auto.
  inversion Hp as [|? ? ? ? ? N Hl]; subst. split; auto. rewrite Forall_forall in *. auto.
Qed.
End Indent.

(** ** reading *)
Definition spaces (l : list Z) : Prop := forallb isSpace l = true.
Lemma skip_spaces l rest : spaces l -> skipSpace (l ++ rest) = skipSpace rest.
Proof. unfold spaces. induction l as [|c l IH]; simpl; auto. intros H. apply andb_true_iff in H. destruct H as [-> H]. auto. Qed.
Definition reads (n : nat) (txt : list Z) (v : json) : Prop := forall sp rest, spaces sp -> noDigit rest -> readValue n (sp ++ txt ++ rest) = Some (v, rest).

Lemma reads_string modern n s : reads (S n) (jsonString modern s) (JString (cleaned s)).
Proof.
  intros sp rest Hs _. cbn [readValue]. rewrite skip_spaces by auto. destruct (read_string modern s rest) as (cs & -> & _ & R). cbn [skipSpace]. change (isSpace 34) with false. cbv iota.
  change (34 =? 34) with true. cbv iota. rewrite R, bytes_back. auto.
Qed.
Lemma reads_number n k : reads (S n) (bytesOf (itoaNat k)) (JNumber (Z.of_nat k)).
Proof.
  intros sp rest Hs Hr. cbn [readValue]. rewrite skip_spaces by auto. destruct (itoa_first k) as (c & l & E & D).
  pose proof (take_digits (bytesOf (itoaNat k)) rest (itoa_bytes k) Hr) as T. rewrite E in *. rewrite <- app_comm_cons in *. cbn [skipSpace].
  unfold isDigit in D. apply andb_true_iff in D. rewrite !Z.leb_le in D. unfold isSpace.
  destruct (Z.eqb_spec c 32); [lia|]. destruct (Z.eqb_spec c 9); [lia|]. destruct (Z.eqb_spec c 10); [lia|]. destruct (Z.eqb_spec c 13); [lia|]. cbn [orb].
  destruct (Z.eqb_spec c 34); [lia|]. destruct (Z.eqb_spec c 91); [lia|]. destruct (Z.eqb_spec c 123); [lia|]. rewrite T. cbn [fst snd]. rewrite <- E, bytes_back, number_itoa. auto.
Qed.
(** keys are plain *)
Lemma read_plain k rest : forallb (fun c => negb (c =? 34) && negb (c =? 92) && negb (c <? 32)) (bytesOf k) = true -> readString (bytesOf k ++ 34 :: rest) = Some (bytesOf k, rest).
Proof.
  induction k as [|a k IH]; intros H; [reflexivity|]. cbn [bytesOf forallb] in H. apply andb_true_iff in H. destruct H as [H1 H2]. rewrite !andb_true_iff, !negb_true_iff in H1. destruct H1 as [[H1 H3] H4].
  cbn [bytesOf app readString]. rewrite H1, H3, H4, IH; auto.
Qed.
Definition plain (k : string) : Prop := forallb (fun c => negb (c =? 34) && negb (c =? 92) && negb (c <? 32)) (bytesOf k) = true.
Lemma space_noDigit sp c l : spaces sp -> isDigit c = false -> noDigit (sp ++ c :: l).
Proof.
  intros Hs Hc. destruct sp as [|x sp]; [exact Hc|]. unfold spaces in Hs. simpl in *. apply andb_true_iff in Hs. destruct Hs as [Hs _]. unfold isSpace in Hs. unfold isDigit.
  rewrite !orb_true_iff, !Z.eqb_eq in Hs. apply andb_false_iff. rewrite !Z.leb_gt. lia.
Qed.
Lemma member_more n m co k txt v sp sp2 l : plain k -> spaces sp -> spaces co -> spaces sp2 -> reads m txt v ->
  readMembers (readValue m) (S n) (sp ++ key co k ++ txt ++ sp2 ++ 44 :: l) =
  match readMembers (readValue m) n l with Some (ms, r5) => Some ((k, v) :: ms, r5) | None => None end.
Proof.
  intros P Hs Hc H2 R. cbn [readMembers]. rewrite skip_spaces by auto. unfold key. rewrite <- !app_comm_cons, <- !app_assoc. cbn [skipSpace]. change (isSpace 34) with false. cbv iota.
  cbn [app]. rewrite read_plain by auto.
  cbn [skipSpace]. change (isSpace 58) with false. cbv iota. rewrite (R co (sp2 ++ 44 :: l)); auto; [|apply space_noDigit; auto].
  rewrite skip_spaces by auto. cbn [skipSpace]. change (isSpace 44) with false. cbv iota. change (44 =? 125) with false. change (44 =? 44) with true. cbv iota. rewrite bytes_back. auto.
Qed.
Lemma member_last n m co k txt v sp sp2 l : plain k -> spaces sp -> spaces co -> spaces sp2 -> reads m txt v ->
  readMembers (readValue m) (S n) (sp ++ key co k ++ txt ++ sp2 ++ 125 :: l) = Some ([(k, v)], l).
Proof.
  intros P Hs Hc H2 R. cbn [readMembers]. rewrite skip_spaces by auto. unfold key. rewrite <- !app_comm_cons, <- !app_assoc. cbn [skipSpace]. change (isSpace 34) with false. cbv iota.
  cbn [app]. rewrite read_plain by auto.
  cbn [skipSpace]. change (isSpace 58) with false. cbv iota. rewrite (R co (sp2 ++ 125 :: l)); auto; [|apply space_noDigit; auto].
  rewrite skip_spaces by auto. cbn [skipSpace]. change (isSpace 125) with false. cbv iota. change (125 =? 125) with true. cbv iota. rewrite bytes_back. auto.
Qed.
Lemma reads_elements m sep sp2 r txts vs : Forall2 (reads m) txts vs -> txts <> [] -> spaces sep -> spaces sp2 ->
  forall n sp, (List.length txts <= n)%nat -> spaces sp -> readElements (readValue m) n (sp ++ joinBy sep txts ++ sp2 ++ 93 :: r) = Some (vs, r).
Proof.
  intros H N Hs H2. induction H as [|x v txts vs Hx H IH]; [contradiction|]. intros n sp Hn Hsp. destruct n as [|n]; [simpl in Hn; lia|].
  destruct txts as [|y txts].
  - inversion H; subst. cbn [readElements joinBy]. rewrite (Hx sp (sp2 ++ 93 :: r)); auto; [|apply space_noDigit; auto].
    rewrite skip_spaces by auto. cbn [skipSpace]. change (isSpace 93) with false. cbv iota. change (93 =? 93) with true. cbv iota. auto.
  - change (joinBy sep (x :: y :: txts)) with (x ++ 44 :: sep ++ joinBy sep (y :: txts)). rewrite <- app_assoc. cbn [readElements].
    rewrite (Hx sp); auto; [|exact (eq_refl false)]. rewrite <- app_comm_cons. cbn [skipSpace]. change (isSpace 44) with false. cbv iota. change (44 =? 93) with false. change (44 =? 44) with true. cbv iota.
    rewrite <- app_assoc. rewrite (IH ltac:(discriminate)); auto. cbn [List.length] in *. lia.
Qed.
(** the value printed *)
Fixpoint valueOf (n : shown) : json :=
  match n with
  | Shown name from to text nodes =>
    JObject ([("name", JString (cleaned name)); ("from", JNumber (Z.of_nat from)); ("to", JNumber (Z.of_nat to))] ++
      match text with Some t => [("text", JString (cleaned t))] | None => [] end ++
      match nodes with Some l => [("nodes", JArray (map valueOf l))] | None => [] end)
  end.
Section Read.
Variable modern : bool.
Variable nl : nat -> list Z.
Variable co : list Z.
Hypothesis Hnl : forall d, spaces (nl d).
Hypothesis Hco : spaces co.
Local Notation pr := (render modern nl co).
Lemma pr_head d n : exists l, pr d n = 123 :: l.
Proof. destruct n. eexists. reflexivity. Qed.
Definition arrayText (d : nat) (l : list shown) : list Z := 91 :: nl (S (S d)) ++ joinBy (nl (S (S d))) (map (pr (S (S d))) l) ++ nl (S d) ++ [93].
Lemma pr_eq d name from to text nodes rest : pr d (Shown name from to text nodes) ++ rest =
  123 :: nl (S d) ++ key co "name" ++ jsonString modern name ++ [] ++ 44 :: nl (S d) ++ key co "from" ++ bytesOf (itoaNat from) ++ [] ++ 44 :: nl (S d) ++ key co "to" ++ bytesOf (itoaNat to) ++
  match text with Some t => [] ++ 44 :: nl (S d) ++ key co "text" ++ jsonString modern t | None => [] end ++
  match nodes with Some l => [] ++ 44 :: nl (S d) ++ key co "nodes" ++ arrayText d l | None => [] end ++ nl d ++ 125 :: rest.
Proof.
  cbn [render]. rewrite <- app_comm_cons. rewrite <- !app_assoc. f_equal. f_equal. f_equal. f_equal. rewrite <- app_comm_cons. cbn [app]. f_equal. rewrite <- !app_assoc. do 3 f_equal.
  rewrite <- app_comm_cons. f_equal. rewrite <- !app_assoc. reflexivity.
Qed.
Lemma joinBy_len sep (l : list (list Z)) : (List.length l <= S (List.length (joinBy sep l)))%nat /\ forall x, In x l -> (List.length x <= List.length (joinBy sep l))%nat.
Proof.
  induction l as [|x [|y l] [IH1 IH2]]; [split; [simpl; lia|intros ? []]|split; [simpl; lia|intros x' [->|[]]; simpl; lia]|].
  change (joinBy sep (x :: y :: l)) with (x ++ 44 :: sep ++ joinBy sep (y :: l)). rewrite app_length. cbn [List.length] in *. rewrite app_length. split; [lia|].
  intros x' [->|Hx]; [lia|]. apply IH2 in Hx. lia.
Qed.
Lemma reads_array d m l : (List.length (arrayText d l) <= m)%nat -> l <> [] ->
  Forall (fun n => forall d m, (List.length (pr d n) <= m)%nat -> reads m (pr d n) (valueOf n)) l ->
  reads m (arrayText d l) (JArray (map valueOf l)).
Proof.
  intros Hm N Hl sp rest Hs _. unfold arrayText in *. destruct m as [|m]; [simpl in Hm; lia|]. cbn [readValue]. rewrite skip_spaces by auto. rewrite <- app_comm_cons. cbn [skipSpace].
  change (isSpace 91) with false. cbv iota. change (91 =? 34) with false. change (91 =? 91) with true. cbv iota. rewrite <- !app_assoc.
  assert (E : exists t, skipSpace (nl (S (S d)) ++ joinBy (nl (S (S d))) (map (pr (S (S d))) l) ++ nl (S d) ++ [93] ++ rest) = 123 :: t).
  { rewrite skip_spaces by auto. destruct l as [|x l]; [contradiction|]. destruct (pr_head (S (S d)) x) as [t Et]. cbn [map]. rewrite Et.
    destruct (map (pr (S (S d))) l); eexists; reflexivity. }
  destruct E as [t ->]. cbv iota. cbn [List.length] in Hm. rewrite !app_length in Hm. destruct (joinBy_len (nl (S (S d))) (map (pr (S (S d))) l)) as [J1 J2].
  change ([93] ++ rest) with (93 :: rest). rewrite (reads_elements m (nl (S (S d))) (nl (S d)) rest _ (map valueOf l)); auto.
  - clear N J1 t. assert (G : forall x, In x l -> reads m (pr (S (S d)) x) (valueOf x)).
    { intros x Hx. rewrite Forall_forall in Hl. apply Hl; auto. specialize (J2 (pr (S (S d)) x) (in_map _ _ _ Hx)). lia. }
    clear -G. induction l as [|x l IH]; cbn [map]; constructor; [apply G; left; auto|apply IH; intros; apply G; right; auto].
  - destruct l; [contradiction|discriminate].
  - cbn [List.length] in Hm. lia.
Qed.
Lemma nodes_tail n m d k txt v nodes rest : plain k -> reads m txt v ->
  match nodes with None => True | Some l => reads m (arrayText d l) (JArray (map valueOf l)) end ->
  readMembers (readValue m) (S (S n)) (nl (S d) ++ key co k ++ txt ++ match nodes with Some l => [] ++ 44 :: nl (S d) ++ key co "nodes" ++ arrayText d l | None => [] end ++ nl d ++ 125 :: rest) =
  Some ((k, v) :: match nodes with Some l => [("nodes", JArray (map valueOf l))] | None => [] end, rest).
Proof.
  intros P R Hn. destruct nodes as [l|].
  - rewrite <- app_assoc. rewrite <- app_comm_cons. rewrite (member_more _ m co k txt v (nl (S d)) []); auto; [|reflexivity]. rewrite <- !app_assoc.
    rewrite (member_last _ m co "nodes" (arrayText d l) _ (nl (S d)) (nl d) rest eq_refl (Hnl _) Hco (Hnl _) Hn). auto.
  - cbn [app]. apply member_last; auto.
Qed.
Lemma reads_render n : proper n -> forall d m, (List.length (pr d n) <= m)%nat -> reads m (pr d n) (valueOf n).
Proof.
  assert (B : forall name from to text nodes,
    match nodes with None => True | Some l => l <> [] /\ Forall (fun n => forall d m, (List.length (pr d n) <= m)%nat -> reads m (pr d n) (valueOf n)) l end ->
    forall d m, (List.length (pr d (Shown name from to text nodes)) <= m)%nat -> reads m (pr d (Shown name from to text nodes)) (valueOf (Shown name from to text nodes))).
  { intros name from to text nodes Hn d m Hm sp rest Hs Hr. destruct m as [|m]; [destruct (pr_head d (Shown name from to text nodes)) as [t Et]; rewrite Et in Hm; simpl in Hm; lia|].
    assert (Ha : forall l, nodes = Some l -> (List.length (arrayText d l) <= m)%nat).
    { intros l ->. rewrite <- (app_nil_r (pr d _)), pr_eq in Hm. repeat (rewrite ?app_length in Hm; cbn [List.length] in Hm). lia. }
    assert (H5 : (5 <= m)%nat).
    { rewrite <- (app_nil_r (pr d _)), pr_eq in Hm. unfold key in Hm. repeat (rewrite ?app_length in Hm; cbn [List.length] in Hm). lia. }
    rewrite pr_eq. cbn [readValue]. rewrite skip_spaces by auto. cbn [skipSpace]. change (isSpace 123) with false. cbv iota. change (123 =? 34) with false. change (123 =? 91) with false. change (123 =? 123) with true. cbv iota.
    match goal with |- context [skipSpace (nl (S d) ++ key co "name" ++ ?t)] => assert (E : exists t', skipSpace (nl (S d) ++ key co "name" ++ t) = 34 :: t') end.
    { rewrite skip_spaces by auto. eexists. reflexivity. }
    destruct E as [t' ->]. cbv iota. assert (E5 : exists m', m = S (S (S (S (S m'))))) by (destruct m as [|[|[|[|[|m]]]]]; try lia; eauto). destruct E5 as [m' E5].
    replace (readMembers (readValue m) m) with (readMembers (readValue m) (S (S (S (S (S m')))))) by (rewrite <- E5; auto). rename m into mm.
    assert (Rs : forall s, reads mm (jsonString modern s) (JString (cleaned s))) by (intros; rewrite E5; apply reads_string).
    assert (Rn : forall k, reads mm (bytesOf (itoaNat k)) (JNumber (Z.of_nat k))) by (intros; rewrite E5; apply reads_number).
    rewrite (member_more _ mm co "name" (jsonString modern name) (JString (cleaned name)) (nl (S d)) [] _ eq_refl (Hnl _) Hco eq_refl (Rs name)).
    rewrite (member_more _ mm co "from" (bytesOf (itoaNat from)) _ (nl (S d)) [] _ eq_refl (Hnl _) Hco eq_refl (Rn from)).
    assert (Hn' : match nodes with None => True | Some l => reads mm (arrayText d l) (JArray (map valueOf l)) end).
    { destruct nodes as [l|]; auto. destruct Hn as [N Hl]. apply reads_array; auto. }
    destruct text as [t|].
    - rewrite <- app_assoc, <- app_comm_cons.
      rewrite (member_more _ mm co "to" (bytesOf (itoaNat to)) _ (nl (S d)) [] _ eq_refl (Hnl _) Hco eq_refl (Rn to)). rewrite <- !app_assoc.
      rewrite (nodes_tail _ mm d "text" _ _ nodes rest eq_refl (Rs t) Hn'). reflexivity.
    - cbn [app]. rewrite (nodes_tail _ mm d "to" _ _ nodes rest eq_refl (Rn to) Hn'). reflexivity. }
  induction n as [name from to text|name from to text l IH] using shown_ind'; intros Hp; apply B; auto.
  inversion Hp as [|? ? ? ? ? N Hl]; subst. split; auto. rewrite Forall_forall in *. auto.
Qed.
Theorem read_render n sp : proper n -> spaces sp -> readJson (pr 0 n ++ sp) = Some (valueOf n).
Proof.
  intros Hp Hs. unfold readJson. assert (R : reads (S (List.length (pr 0 n ++ sp))) (pr 0 n) (valueOf n)) by (apply reads_render; [auto|rewrite app_length; lia]).
  assert (N : noDigit sp). { destruct sp as [|c sp]; [exact I|]. change (c :: sp) with ([] ++ c :: sp). apply space_noDigit; [reflexivity|]. unfold spaces in Hs. simpl in Hs. apply andb_true_iff in Hs. destruct Hs as [Hs _].
    unfold isSpace in Hs. unfold isDigit. rewrite !orb_true_iff, !Z.eqb_eq in Hs. apply andb_false_iff. rewrite !Z.leb_gt. lia. }
  pose proof (R [] sp eq_refl N) as R'. cbn [app] in R'. rewrite R'. pose proof (skip_spaces sp [] Hs) as K. rewrite app_nil_r in K. rewrite K. auto.
Qed.
End Read.


(** ** the printed tree *)
Lemma clean_runes w : inUtf8 (runesString w) = runesString w.
Proof.
  unfold inUtf8. rewrite sane_string. unfold runesString, encodeUtf8. do 2 f_equal. rewrite map_map. apply map_ext, sane_encode.
Qed.
Fixpoint jnodeOf (n : shown) : jnode :=
  match n with
  | Shown name from to text nodes =>
    JNode (inUtf8 name) (Z.of_nat from) (Z.of_nat to) (option_map inUtf8 text) match nodes with Some l => Some (map jnodeOf l) | None => None end
  end.
Lemma value_describes n : describes (valueOf n) (jnodeOf n).
Proof.
  induction n as [name from to text|name from to text l IH] using shown_ind'.
  - cbn [jnodeOf]. apply describes_leaf; destruct text; repeat split.
  - cbn [jnodeOf]. apply describes_node with (vs := map valueOf l); [destruct text; repeat split|destruct text; reflexivity|].
    induction IH; cbn [map]; constructor; auto.
Qed.
Section NodeInd.
Variable P : node -> Prop.
Hypothesis H : forall name from to nodes, Forall P nodes -> P (Node name from to nodes).
Fixpoint node_ind' (n : node) : P n :=
  match n with
  | Node name from to nodes => H name from to nodes ((fix go l := match l return Forall P l with [] => Forall_nil P | x :: l' => Forall_cons x (node_ind' x) (go l') end) nodes)
  end.
End NodeInd.
Lemma nodeText_empty w : runesString w = "" <-> w = [].
Proof.
  split; [|intros ->; reflexivity]. destruct w as [|r w]; auto. unfold runesString, encodeUtf8. cbn [List.map List.concat]. pose proof (encode_len r) as L.
  destruct (encodeRune r) as [|b l]; [simpl in L; lia|discriminate].
Qed.
Lemma map_described toks n : described toks n (jnodeOf (mapNode toks n)) /\ proper (mapNode toks n).
Proof.
  induction n as [name from to nodes IH] using node_ind'. destruct nodes as [|x nodes].
  - cbn [mapNode]. set (n := Node name from to []). split; [|constructor].
    destruct (String.eqb_spec (nodeText toks n) "") as [E|E]; cbn [jnodeOf option_map].
    + apply (described_empty toks n); [reflexivity|]. apply nodeText_empty. exact E.
    + unfold nodeText at 1. rewrite clean_runes. apply (described_leaf toks n); [reflexivity|]. intros X. apply E. apply nodeText_empty. exact X.
  - change (mapNode toks (Node name from to (x :: nodes))) with (Shown name from to None (Some (map (mapNode toks) (x :: nodes)))). split.
    + cbn [jnodeOf option_map]. rewrite map_map. apply (described_node toks (Node name from to (x :: nodes))); [discriminate|]. cbn [nNodes].
      induction IH as [|y l Hy _ IHl]; cbn [map]; constructor; [apply Hy|auto].
    + constructor; [discriminate|]. apply Forall_map. eapply Forall_impl; [|exact IH]. intros a Ha. apply Ha.
Qed.
Theorem marshal_read modern pretty indent toks n : blank indent ->
  exists v d, readJson (marshal modern pretty indent (mapNode toks n) ++ [10]) = Some v /\ describes v d /\ described toks n d.
Proof.
  intros B. destruct (map_described toks n) as [Hd Hp]. exists (valueOf (mapNode toks n)), (jnodeOf (mapNode toks n)). split; [|split; [apply value_describes|exact Hd]].
  unfold marshal. destruct (pretty || negb (String.eqb indent "")).
  - set (ind := bytesOf _). assert (Si : spaces ind) by (unfold ind; destruct (String.eqb_spec indent ""); [reflexivity|exact B]).
    pose proof (indent_node modern ind (mapNode toks n) Hp false 0 []) as E. rewrite <- compact_render, app_nil_r in E. rewrite E. cbn [app indentJson]. rewrite app_nil_r.
    apply read_render; auto; try reflexivity. intros d. unfold newline, spaces. cbn [forallb]. apply andb_true_iff. split; [reflexivity|].
    induction d as [|d IH]; [reflexivity|]. cbn [repeat List.concat]. rewrite forallb_app, IH. unfold spaces in Si. now rewrite Si.
  - rewrite (compact_render modern (mapNode toks n) 0). apply read_render; auto; reflexivity.
Qed.
(** a description is read in one way *)
Lemma describes_one : forall v a, describes v a -> forall b, describes v b -> a = b.
Proof.
  fix rec 3. intros v a Ha b Hb. destruct Ha as [v name from to text (A1 & A2 & A3 & A4) A5|v name from to text vs nodes (A1 & A2 & A3 & A4) A5 A6].
  - inversion Hb as [v' n' f' t' x' (B1 & B2 & B3 & B4) B5|v' n' f' t' x' vs' l' (B1 & B2 & B3 & B4) B5 B6]; subst; [|congruence].
    rewrite A1 in B1. rewrite A2 in B2. rewrite A3 in B3. rewrite A4 in B4. inversion B1; inversion B2; inversion B3. subst. f_equal. destruct text, x'; simpl in B4; congruence.
  - inversion Hb as [v' n' f' t' x' (B1 & B2 & B3 & B4) B5|v' n' f' t' x' vs' l' (B1 & B2 & B3 & B4) B5 B6]; subst; [congruence|].
    rewrite A1 in B1. rewrite A2 in B2. rewrite A3 in B3. rewrite A4 in B4. rewrite A5 in B5. inversion B1; inversion B2; inversion B3; inversion B5. subst. f_equal; [destruct text, x'; simpl in B4; congruence|].
    f_equal. clear - A6 B6 rec. revert l' B6. induction A6 as [|v d vs l Hv A6 IH]; intros l' B6; inversion B6; subst; [auto|]. f_equal; [eapply rec; eauto|apply IH; auto].
Qed.
(** the show command *)
Theorem show_text modern w args v rest code text : isHelp args = false -> parseFlags showFlags args [] = Some (v, rest) -> blank (flagValue "indent" v) ->
  (exists fuel, showText modern fuel w args = Ok (code, Some text)) ->
  exists t toks j d, parsesWith w v rest t toks /\ code = 0 /\ readJson text = Some j /\ describes j d /\ described toks t d.
Proof.
  intros Hh Hv B [fuel H]. unfold showText in H. binv H. rewrite Hv in H. destruct x as [c [n|]]; [|discriminate]. injection H as Hc Ht.
  assert (E' : exists t toks, parsesWith w v rest t toks /\ n = mapNode toks t /\ c = 0).
  { unfold show in E. rewrite Hh, Hv in E. apply bind_ok in E. destruct E as (x & Ex & E). destruct x as [[t toks]|]; inversion E; subst. exists t, toks. split; auto. apply parseCommand_spec. eauto. }
  destruct E' as (t & toks & P & -> & ->).
  destruct (marshal_read modern (match parseBool (flagValue "pretty" v) with Some b => b | None => false end) (flagValue "indent" v) toks t B) as (j & d & R & D1 & D2).
  exists t, toks, j, d. rewrite <- Ht. auto.
Qed.
(** and it prints something when the input is parsed *)
Theorem show_text_some modern w args v rest t toks : isHelp args = false -> parseFlags showFlags args [] = Some (v, rest) -> parsesWith w v rest t toks ->
  exists fuel text, showText modern fuel w args = Ok (0, Some text).
Proof.
  intros Hh Hv P. destruct (proj2 (show_prints w args (mapNode toks t) Hh)) as [fuel F]; [eauto 8|]. exists fuel. eexists. unfold showText. rewrite F. cbn [bind]. rewrite Hv. reflexivity.
Qed.
