(** Text(): the bytes of the document. *)
From Verif Require Import TextSpec Base Utf8 IdSet Results Parser Build Syntax ListFacts ResultsFacts ParseFacts BuildFacts RunFacts ApiSpec Utf8Facts ApiFacts.
Local Open Scope Z_scope.

Definition bytes (bs : list Z) : Prop := Forall (fun b => 0 <= b < 256) bs.

Lemma encode_decode_one bs r k : bytes bs -> decodeRune bs = Some (r, k) -> r <> runeError -> encodeRune r = firstn k bs.
Proof.
  intros Hb H Hr. pose proof (decodeRune_scalar bs r k Hb H) as [Hs1 Hs2]. unfold encodeRune.
  replace ((r <? 0) || (1114111 <? r) || ((55296 <=? r) && (r <=? 57343))) with false.
  2:{ symmetry. rewrite !orb_false_iff, andb_false_iff, !Z.ltb_ge, !Z.leb_gt. lia. }
  unfold decodeRune, isCont in H. destruct bs as [|b0 bs]; [discriminate|]. inversion Hb as [|? ? B0 Hb']; subst.
  destruct (Z.ltb_spec b0 128).
  { inversion H; subst. destruct (Z.ltb_spec r 128); [auto|lia]. }
  destruct ((194 <=? b0) && (b0 <=? 223)) eqn:E1.
  { rewrite andb_true_iff, !Z.leb_le in E1. destruct bs as [|b1 bs]; [inversion H; subst; congruence|].
    destruct ((128 <=? b1) && (b1 <=? 191)) eqn:E2; [|inversion H; subst; congruence]. rewrite andb_true_iff, !Z.leb_le in E2.
    injection H as Hr' Hk. subst k. simpl firstn.
    destruct (Z.ltb_spec r 128); [lia|]. destruct (Z.ltb_spec r 2048); [|lia].
    assert (Hq : r / 64 = b0 - 192) by (symmetry; apply (Z.div_unique_pos r 64 _ (b1 - 128)); lia).
    assert (Hm : r mod 64 = b1 - 128) by (symmetry; apply (Z.mod_unique_pos r 64 (b0 - 192)); lia).
    rewrite Hq, Hm. f_equal; [lia|]. f_equal. lia. }
  destruct ((224 <=? b0) && (b0 <=? 239)) eqn:E2.
  { rewrite andb_true_iff, !Z.leb_le in E2. destruct bs as [|b1 [|b2 bs]]; try (inversion H; subst; congruence).
    destruct (_ && _) eqn:E3 in H; [|inversion H; subst; congruence]. rewrite !andb_true_iff, !Z.leb_le in E3. destruct E3 as [[E3 E4] [E5 E6]].
    injection H as Hr' Hk. subst k. simpl firstn.
    assert (128 <= b1 <= 191) by (destruct (b0 =? 224), (b0 =? 237); lia).
    assert (2048 <= r) by (destruct (Z.eqb_spec b0 224); lia).
    destruct (Z.ltb_spec r 128); [lia|]. destruct (Z.ltb_spec r 2048); [lia|]. destruct (Z.ltb_spec r 65536); [|lia].
    assert (Hq : r / 64 = (b0 - 224) * 64 + (b1 - 128)) by (symmetry; apply (Z.div_unique_pos r 64 _ (b2 - 128)); lia).
    assert (Hm : r mod 64 = b2 - 128) by (symmetry; apply (Z.mod_unique_pos r 64 ((b0 - 224) * 64 + (b1 - 128))); lia).
    assert (Hq2 : r / 4096 = b0 - 224) by (symmetry; apply (Z.div_unique_pos r 4096 _ ((b1 - 128) * 64 + (b2 - 128))); lia).
    assert (Hm2 : ((b0 - 224) * 64 + (b1 - 128)) mod 64 = b1 - 128) by (symmetry; apply (Z.mod_unique_pos _ 64 (b0 - 224)); lia).
    rewrite Hq, Hm, Hq2, Hm2. f_equal; [lia|]. f_equal; [lia|]. f_equal. lia. }
  destruct ((240 <=? b0) && (b0 <=? 244)) eqn:E3; [|inversion H; subst; congruence].
  rewrite andb_true_iff, !Z.leb_le in E3. destruct bs as [|b1 [|b2 [|b3 bs]]]; try (inversion H; subst; congruence).
  destruct (_ && _) eqn:E4 in H; [|inversion H; subst; congruence]. rewrite !andb_true_iff, !Z.leb_le in E4. destruct E4 as [[[E4 E5] [E6 E7]] [E8 E9]].
  injection H as Hr' Hk. subst k. simpl firstn.
  assert (128 <= b1 <= 191) by (destruct (b0 =? 240), (b0 =? 244); lia).
  assert (65536 <= r) by (destruct (Z.eqb_spec b0 240); lia).
  destruct (Z.ltb_spec r 128); [lia|]. destruct (Z.ltb_spec r 2048); [lia|]. destruct (Z.ltb_spec r 65536); [lia|].
  assert (Hq : r / 64 = (b0 - 240) * 4096 + (b1 - 128) * 64 + (b2 - 128)) by (symmetry; apply (Z.div_unique_pos r 64 _ (b3 - 128)); lia).
  assert (Hm : r mod 64 = b3 - 128) by (symmetry; apply (Z.mod_unique_pos r 64 ((b0 - 240) * 4096 + (b1 - 128) * 64 + (b2 - 128))); lia).
  assert (Hq2 : r / 4096 = (b0 - 240) * 64 + (b1 - 128)) by (symmetry; apply (Z.div_unique_pos r 4096 _ ((b2 - 128) * 64 + (b3 - 128))); lia).
  assert (Hq3 : r / 262144 = b0 - 240) by (symmetry; apply (Z.div_unique_pos r 262144 _ ((b1 - 128) * 4096 + (b2 - 128) * 64 + (b3 - 128))); lia).
  assert (Hm1 : ((b0 - 240) * 4096 + (b1 - 128) * 64 + (b2 - 128)) mod 64 = b2 - 128) by (symmetry; apply (Z.mod_unique_pos _ 64 ((b0 - 240) * 64 + (b1 - 128))); lia).
  assert (Hm2 : ((b0 - 240) * 64 + (b1 - 128)) mod 64 = b1 - 128) by (symmetry; apply (Z.mod_unique_pos _ 64 (b0 - 240)); lia).
  rewrite Hq, Hm, Hq2, Hq3, Hm1, Hm2. f_equal; [lia|]. f_equal; [lia|]. f_equal; [lia|]. f_equal. lia.
Qed.

Lemma decodeRune_none bs : decodeRune bs = None -> bs = [].
Proof.
  unfold decodeRune. destruct bs as [|b0 bs]; auto. intros E. exfalso.
  repeat match type of E with
  | (if ?c then _ else _) = _ => destruct c
  | (match ?x with _ => _ end) = _ => destruct x
  end; discriminate.
Qed.

Lemma Forall_skip {A} (P : A -> Prop) l : forall k, Forall P l -> Forall P (skipn k l).
Proof. induction l; intros [|k] H; simpl; auto. inversion H; auto. Qed.

Lemma encode_decode bs : bytes bs -> ~ In runeError (decodeUtf8 bs) -> encodeUtf8 (decodeUtf8 bs) = bs.
Proof.
  unfold decodeUtf8. assert (G : forall n bs, (List.length bs <= n)%nat -> bytes bs -> ~ In runeError (decodeFuel n bs) -> encodeUtf8 (decodeFuel n bs) = bs).
  { clear bs. induction n as [|n IH]; intros bs Hl Hb Hn; [destruct bs; [auto|simpl in Hl; lia]|].
    cbn [decodeFuel] in *. destruct (decodeRune bs) as [[r k]|] eqn:E.
    - unfold encodeUtf8. cbn [List.map List.concat].
      rewrite (encode_decode_one bs r k Hb E) by (intros ->; apply Hn; left; auto).
      fold (encodeUtf8 (decodeFuel n (skipn k bs))). rewrite IH.
      + apply firstn_skipn.
      + apply decodeRune_ascii in E. rewrite skipn_length. lia.
      + now apply Forall_skip.
      + intros Hi. apply Hn. right. auto.
    - apply decodeRune_none in E. subst. reflexivity. }
  apply G. auto.
Qed.

Lemma skipn_skipn2 {A} a : forall b (l : list A), skipn a (skipn b l) = skipn (a + b) l.
Proof. induction b; intros l; [now rewrite Nat.add_0_r|]. rewrite Nat.add_succ_r. destruct l; [now rewrite skipn_nil|]. apply IHb. Qed.

Lemma encode_app a b : encodeUtf8 (a ++ b) = encodeUtf8 a ++ encodeUtf8 b.
Proof. unfold encodeUtf8. now rewrite map_app, concat_app. Qed.

Lemma decode_scalars bs : bytes bs -> Forall scalar (decodeUtf8 bs).
Proof.
  unfold decodeUtf8. generalize (List.length bs) as n. intros n. revert bs. induction n as [|n IH]; intros bs Hb; cbn [decodeFuel]; [constructor|].
  destruct (decodeRune bs) as [[r k]|] eqn:E; constructor.
  - eapply decodeRune_scalar; eauto.
  - apply IH. now apply Forall_skip.
Qed.

Local Close Scope Z_scope.

(** a returned tree: the whole input was read, without replacement characters, and all spans are
    in the input *)
Lemma Parses_spans s input e s' t toks : Parses s input e s' (Tree t toks) ->
  e = REof /\ toks = input /\ ~ In runeError input /\
  forall n, inTree n t -> nFrom n <= nTo n /\ nTo n <= List.length input.
Proof.
  intros [fuel H]. unfold Parse in H. ParseFacts.binv H. destruct x as [s1 [err|]]; [discriminate|].
  destruct (sRoot s1) as [root|]; [|discriminate]. ParseFacts.binv H. inversion H; subst. clear H.
  unfold parseInput in E0. apply run_tree in E0. destruct E0 as (-> & -> & Hv & c & ob & c1 & rest & ok & c2 & Hp & _ & Hob & Hst & Ho1 & _ & Hres & Hb & Hbi).
  split; auto. split; auto. split; auto. intros n Hin.
  pose proof (build_spec (parsers s') (List.length input) (cResults c) _ _ _ _ Hbi Hb) as [_ Hok].
  assert (Hno : nodeOk (parsers s') (cResults c) n).
  { assert (X : Forall (nodeOk (parsers s') (cResults c)) (t :: rest)) by (apply Hok; intros o0 i t0 Hst0; rewrite Hres in Hst0; exact Hst0).
    inversion X; subst. eapply nodeOk_inTree; eauto. }
  inversion Hno as [b ob' from to nodes Hb' Hc' Ha' Hst' _]; subst. simpl.
  destruct Hbi as [_ Bs]. apply (Bs from (nodeID ob') to). rewrite Hres. exact Hst'.
Qed.

(** the bytes of Text() *)
Theorem text_bytes s bs e s' t toks n : bytes bs -> Parses s (decodeUtf8 bs) e s' (Tree t toks) -> inTree n t ->
  exists before after,
    bs = before ++ bytesOf (nodeText toks n) ++ after /\
    decodeUtf8 before = firstn (nFrom n) (decodeUtf8 bs) /\
    List.length (decodeUtf8 before) = nFrom n /\
    List.length (decodeUtf8 (bytesOf (nodeText toks n))) = nTo n - nFrom n.
Proof.
  intros Hb HP Hin. destruct (Parses_spans _ _ _ _ _ _ HP) as (_ & -> & Hv & Hspan). specialize (Hspan n Hin).
  set (rs := decodeUtf8 bs) in *. assert (Hsc : Forall scalar rs) by (now apply decode_scalars).
  exists (encodeUtf8 (firstn (nFrom n) rs)), (encodeUtf8 (skipn (nTo n) rs)).
  unfold nodeText, runesString. rewrite bytes_byte by apply encode_bytes.
  assert (Hcut : rs = firstn (nFrom n) rs ++ nodeRunes rs n ++ skipn (nTo n) rs).
  { unfold nodeRunes. rewrite <- (firstn_skipn (nFrom n) rs) at 1. f_equal.
    rewrite <- (firstn_skipn (nTo n - nFrom n) (skipn (nFrom n) rs)) at 1. f_equal.
    rewrite skipn_skipn2. f_equal. lia. }
  assert (S1 : Forall scalar (firstn (nFrom n) rs)) by (rewrite Hcut in Hsc; apply Forall_app in Hsc; tauto).
  assert (S2 : Forall scalar (nodeRunes rs n)) by (rewrite Hcut in Hsc; apply Forall_app in Hsc; destruct Hsc as [_ Hsc]; apply Forall_app in Hsc; tauto).
  split; [|split; [|split]].
  - rewrite <- !encode_app, <- Hcut. symmetry. now apply encode_decode.
  - now apply decode_encode.
  - rewrite decode_encode by auto. rewrite firstn_length. lia.
  - rewrite decode_encode by auto. unfold nodeRunes. rewrite firstn_length, skipn_length. lia.
Qed.

Theorem root_text_bytes calls s bs e s' t toks : bytes bs -> Defined calls s -> wsReady calls ->
  Parses s (decodeUtf8 bs) e s' (Tree t toks) -> bytesOf (nodeText toks t) = bs.
Proof.
  intros Hb Hd Hw HP. destruct (Parses_spans _ _ _ _ _ _ HP) as (_ & -> & Hv & _).
  destruct (tree_root _ _ _ _ _ _ _ Hd Hw HP) as (name & _ & _ & H0 & H1).
  unfold nodeText, runesString. rewrite bytes_byte by apply encode_bytes. unfold nodeRunes. rewrite H0, H1, Nat.sub_0_r. cbn [skipn].
  rewrite firstn_all. now apply encode_decode.
Qed.
