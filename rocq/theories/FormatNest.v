(** Printed groups and choices, read as syntax. *)
From Verif Require Import Base Utf8 Utf8Facts Parser Build Syntax Escape Grammar RefSpec RefFuel RefApi RefCheck LeftCheck ReadSpec SelfGrammar SelfLang ReadLang Format AbsEval AbsText FormatClass FormatWords FormatNum FormatItems FormatSeq FormatDef.
Local Open Scope string_scope.
Local Open Scope list_scope.
Local Open Scope nat_scope.

(** what is printed: atoms, sequences of quantified items and choices *)
Inductive pt := TAtom (a : atom) | TSeq (items : list (pt * (Z * Z))) | TChoice (opts : list pt).
Definition isAtom (t : pt) : bool := match t with TAtom _ => true | _ => false end.
Definition isChoice (t : pt) : bool := match t with TChoice _ => true | _ => false end.
(** in parentheses, unless it is an atom *)
Definition grouped (t : pt) (w : list rune) : list rune := if isAtom t then w else [40%Z] ++ w ++ [41%Z].
Fixpoint ptText (t : pt) : list rune :=
  match t with
  | TAtom a => atomText a
  | TSeq [] => []
  | TSeq ((x, (mn, mx)) :: l) => (grouped x (ptText x) ++ quantText mn mx) ++ flat_map (fun i => 32%Z :: (grouped (fst i) (ptText (fst i)) ++ quantText (fst (snd i)) (snd (snd i)))) l
  | TChoice [] => []
  | TChoice (o :: l) => ptText o ++ flat_map (fun o => [32%Z; 124%Z; 32%Z] ++ ptText o) l
  end.
Definition onceB (b : Z * Z) : bool := Z.eqb (fst b) 1 && Z.eqb (snd b) 1.
Definition boundsB (b : Z * Z) : Z * Z := if onceB b then (0, 0)%Z else b.
Fixpoint ptExpr (t : pt) : expr :=
  match t with
  | TAtom a => atomExpr a
  | TSeq [(x, b)] => if onceB b then ptExpr x else ESequence [(ptExpr x, boundsB b)]
  | TSeq l => ESequence (map (fun i => (ptExpr (fst i), boundsB (snd i))) l)
  | TChoice l => EChoice (map ptExpr l)
  end.
(** a sequence, whatever its length *)
Definition seqExpr (l : list (pt * (Z * Z))) : expr := ESequence (map (fun i => (ptExpr (fst i), boundsB (snd i))) l).
Lemma ptExpr_seq l : (forall x b, l = [(x, b)] -> onceB b = false) -> ptExpr (TSeq l) = seqExpr l.
Proof. destruct l as [|[x b] [|j l]]; intros H; auto. cbn [ptExpr]. rewrite (H x b eq_refl). reflexivity. Qed.
Fixpoint ptSize (t : pt) : nat :=
  match t with
  | TAtom _ => 0
  | TSeq l => S (list_sum (map (fun i => ptSize (fst i)) l))
  | TChoice l => S (list_sum (map ptSize l))
  end.
Definition coreText (x : pt) : list rune := grouped x (ptText x).
Definition itText (i : pt * (Z * Z)) : list rune := coreText (fst i) ++ quantText (fst (snd i)) (snd (snd i)).
Definition itsText (l : list (pt * (Z * Z))) : list rune := flat_map (fun i => 32%Z :: itText i) l.
Definition optsText (l : list pt) : list rune := flat_map (fun o => [32%Z; 124%Z; 32%Z] ++ ptText o) l.
Lemma ptText_seq i l : ptText (TSeq (i :: l)) = itText i ++ itsText l.
Proof. destruct i as [x [mn mx]]. reflexivity. Qed.
Lemma ptText_choice o l : ptText (TChoice (o :: l)) = ptText o ++ optsText l.
Proof. reflexivity. Qed.

(** what can be printed: sequences of one item at least, with groups of two items as items, and choices of two options, which are no choices *)
Fixpoint ok (t : pt) : Prop :=
  match t with
  | TAtom a => atomOk a
  | TSeq l => match l with [] => False | _ => True end /\
      fold_right and True (map (fun i => ok (fst i) /\ fine (fst (snd i)) (snd (snd i)) /\ match fst i with TSeq [_] => False | _ => True end) l)
  | TChoice l => 2 <= List.length l /\ fold_right and True (map (fun o => ok o /\ isChoice o = false) l)
  end.
Lemma fold_and {A} (P : A -> Prop) l : fold_right and True (map P l) <-> Forall P l.
Proof. induction l as [|x l IH]; simpl; [split; auto|]. rewrite IH. split; [intros [H1 H2]; auto|intros H; inversion H; auto]. Qed.

(** the text from [o] to [t] is read as [e] *)
Definition RD (input : list rune) (key : string) (o t : nat) (e : expr) : Prop :=
  exists n, gives input (KDef key) o (Match t [n]) /\ isPart n = true /\ forall k, depth n <= k -> exprOf input k n = Some e.
Definition IR (input : list rune) (o t : nat) (eb : expr * (Z * Z)) : Prop :=
  exists n, gives input (KDef "item") o (Match t [n]) /\ isPart n = true /\ forall k, depth n <= S k -> itemExprs input k n = Some eb.
Definition exprEnd (post : list rune) : Prop := behind (fun r => r = 41%Z) post.
Definition seqEnd (post : list rune) : Prop := match post with [] => True | [r] => r = 41%Z | r :: s :: _ => r = 41%Z \/ (r = 32%Z /\ s = 124%Z) end.
Definition itemEnd (post : list rune) : Prop := behind (fun r => r = 32%Z \/ r = 41%Z) post.
Lemma expr_seqEnd post : exprEnd post -> seqEnd post.
Proof. destruct post as [|r [|s post]]; simpl; auto. Qed.
Lemma seq_itemEnd post : seqEnd post -> itemEnd post.
Proof. destruct post as [|r [|s post]]; simpl; auto. intros [H|[H _]]; auto. Qed.
Lemma item_stops post : itemEnd post -> behind (fun r => In r symbolChars) post.
Proof. destruct post as [|r post]; simpl; auto. intros [-> | ->]; simpl; tauto. Qed.

Definition coreKey (x : pt) : string := match x with TAtom a => atomKey a | _ => "group" end.
Definition coreReads (x : pt) : Prop := forall pre post, behind (fun r => In r symbolChars) post ->
  RD (pre ++ coreText x ++ post) (coreKey x) (List.length pre) (List.length pre + List.length (coreText x)) (ptExpr x).
Definition exprReads (t : pt) : Prop := forall pre post, exprEnd post ->
  RD (pre ++ ptText t ++ post) "expression" (List.length pre) (List.length pre + List.length (ptText t)) (ptExpr t).

(** ** the first character *)
Definition firstOk (w : list rune) : Prop := match w with [] => False | r :: _ => ~ In r wsRunes end.
Lemma firstOk_app w v : firstOk w -> firstOk (w ++ v).
Proof. destruct w; simpl; tauto. Qed.
Lemma first_fits w ks : firstOk w -> fits (A := key) (AWord ks (notIn wsRunes)) w.
Proof. destruct w as [|r w]; [intros []|]. intros H. apply fits_notIn. auto. Qed.
Lemma atom_first a : atomOk a -> firstOk (atomText a).
Proof.
  intros Ha.
  destruct a as [w| |cnot chars ranges|chars]; cbn [atomText atomOk] in *.
  - destruct Ha as [H1 H2]. destruct w as [|r w]; [congruence|]. apply Forall_inv in H1. intros X. apply H1. unfold wsRunes, symbolChars in *. cbn [In] in *. intuition.
  - unfold firstOk, wsRunes. cbn [In]. lia.
  - unfold classText, firstOk, wsRunes. cbn [In app]. lia.
  - unfold literalText, firstOk, wsRunes. cbn [In app]. lia.
Qed.
Lemma core_first x : ok x -> firstOk (coreText x).
Proof.
  destruct x as [a|l|l]; cbn [ok]; intros H; unfold coreText, grouped; cbn [isAtom ptText]; [apply atom_first; auto|..]; unfold firstOk, wsRunes; cbn [In app]; lia.
Qed.
Lemma pt_first t : ok t -> firstOk (ptText t).
Proof.
  destruct t as [a|l|l].
  - apply atom_first.
  - cbn [ok]. intros [H1 H2]. destruct l as [|[x b] l]; [destruct H1|]. rewrite ptText_seq. unfold itText. cbn [fst snd]. apply firstOk_app, firstOk_app, core_first. apply H2.
  - cbn [ok]. intros [H1 H2]. destruct l as [|o l]; [simpl in H1; lia|]. rewrite ptText_choice. apply firstOk_app. destruct H2 as [[Ho Hc] _].
    destruct o as [a|l'|l']; [apply atom_first; auto| |discriminate]. cbn [ok] in Ho. destruct Ho as [H3 H4]. destruct l' as [|[x b] l']; [destruct H3|]. rewrite ptText_seq. unfold itText. cbn [fst snd]. apply firstOk_app, firstOk_app, core_first. apply H4.
Qed.

(** ** groups *)
Lemma group_reads x : ok x -> isAtom x = false -> exprReads x -> coreReads x.
Proof.
  intros Hok Hx He pre post Hp. assert (Ec : coreText x = [40%Z] ++ ptText x ++ [41%Z]) by (unfold coreText, grouped; rewrite Hx; auto).
  assert (Ek : coreKey x = "group") by (destruct x; [discriminate|reflexivity|reflexivity]). rewrite Ec, Ek.
  destruct (He (pre ++ [40%Z]) ([41%Z] ++ post) eq_refl) as (n & Hg & Hn & Hr). rewrite len1 in Hg. exists n.
  assert (E : (pre ++ [40%Z]) ++ ptText x ++ [41%Z] ++ post = pre ++ ([40%Z] ++ ptText x ++ [41%Z]) ++ post) by (rewrite <- !app_assoc; auto).
  rewrite E in Hg, Hr. split; auto.
  absRun pre post [[40%Z]; ptText x; [41%Z]] [runeSym 40%Z; AWord [(KDef "expression", Some 1)] (notIn wsRunes); runeSym 41%Z] false [[]; [[n]]] 30 "group".
  - constructor; [apply fits_exactly|]. constructor; [apply first_fits, pt_first; auto|]. fitting.
  - split; [split; [|exact I]|exact I]. eapply moved; [exact Hg|inputEq|wpEq|wpEq].
Qed.
Lemma atom_reads a : atomOk a -> coreReads (TAtom a).
Proof.
  intros Ha pre post Hp. exists (atomNode (List.length pre) a). split; [apply atom_word; auto|]. split; [apply atom_part|].
  intros k Hk. destruct (depth_S (atomNode (List.length pre) a)) as (k' & E). destruct k as [|k]; [lia|]. apply atom_expr.
Qed.
Lemma core_fits x ks : ok x -> fits (A := key) (AWord ks (match x with TAtom a => atomTests a | _ => exactly 40%Z end)) (coreText x).
Proof. intros H. destruct x as [a|l|l]; [apply atom_fits; auto|apply fits_word_exactly|apply fits_word_exactly]. Qed.
(** ** items *)
Lemma core_option x pre post n : ok x ->
  gives (pre ++ coreText x ++ post) (KDef (coreKey x)) (List.length pre) (Match (List.length pre + List.length (coreText x)) [n]) ->
  gives (pre ++ coreText x ++ post) (KDef "item:0") (List.length pre) (Match (List.length pre + List.length (coreText x)) [n]).
Proof.
  intros Hok Hw. pose proof (fun ks => core_fits x ks Hok) as Hfit.
  assert (Hf : forall kn t, t = (match x with TAtom a => atomTests a | _ => exactly 40%Z end) -> kn = coreKey x ->
    Forall2 (fits (A := key)) [AWord [(KDef kn, Some 1)] t] [coreText x]) by (intros kn t -> _; constructor; [apply Hfit|constructor]).
  clear Hfit.
  destruct x as [a|l|l]; [destruct a as [w| |cnot chars ranges|chars]|..]; cbn [coreKey atomKey atomTests] in Hw, Hf.
  - absRun pre post [coreText (TAtom (PSym w))] [AWord [(KDef "symbol", Some 1)] (notIn symbolChars)] false [[[n]]] 20 "item:0"; [apply Hf; auto|].
    split; [split; [|exact I]|exact I]. eapply moved; [exact Hw|inputEq|wpEq|wpEq].
  - absRun pre post [coreText (TAtom PAny)] [AWord [(KDef "any-char", Some 1)] (exactly 46%Z)] false [[[n]]] 20 "item:0"; [apply Hf; auto|].
    split; [split; [|exact I]|exact I]. eapply moved; [exact Hw|inputEq|wpEq|wpEq].
  - absRun pre post [coreText (TAtom (PClass cnot chars ranges))] [AWord [(KDef "char-class", Some 1)] (exactly 91%Z)] false [[[n]]] 20 "item:0"; [apply Hf; auto|].
    split; [split; [|exact I]|exact I]. eapply moved; [exact Hw|inputEq|wpEq|wpEq].
  - absRun pre post [coreText (TAtom (PText chars))] [AWord [(KDef "char-sequence", Some 1)] (exactly 34%Z)] false [[[n]]] 20 "item:0"; [apply Hf; auto|].
    split; [split; [|exact I]|exact I]. eapply moved; [exact Hw|inputEq|wpEq|wpEq].
  - absRun pre post [coreText (TSeq l)] [AWord [(KDef "group", Some 1)] (exactly 40%Z)] false [[[n]]] 20 "item:0"; [apply Hf; auto|].
    split; [split; [|exact I]|exact I]. eapply moved; [exact Hw|inputEq|wpEq|wpEq].
  - absRun pre post [coreText (TChoice l)] [AWord [(KDef "group", Some 1)] (exactly 40%Z)] false [[[n]]] 20 "item:0"; [apply Hf; auto|].
    split; [split; [|exact I]|exact I]. eapply moved; [exact Hw|inputEq|wpEq|wpEq].
Qed.
Lemma quant_stops pre post : itemEnd post -> gives (pre ++ post) (KDef "quantity") (List.length pre) NoMatch.
Proof.
  intros Hp. destruct post as [|r post]; [apply quant_no; exact I|]. destruct Hp as [-> | ->]; [apply quant_no; reflexivity|].
  absRun pre post [[41%Z]] [runeSym 41%Z] false noNodes 20 "quantity". fitting.
Qed.
Definition itemReady (i : pt * (Z * Z)) : Prop := ok (fst i) /\ coreReads (fst i) /\ fine (fst (snd i)) (snd (snd i)).
Lemma core_nonempty x : ok x -> 0 < List.length (coreText x).
Proof. intros H. apply core_first in H. destruct (coreText x); [destruct H|simpl; lia]. Qed.
Lemma item_reads i pre post : itemReady i -> itemEnd post ->
  IR (pre ++ itText i ++ post) (List.length pre) (List.length pre + List.length (itText i)) (ptExpr (fst i), boundsB (snd i)).
Proof.
  destruct i as [x [mn mx]]. intros (Hok & Hc & Hf) Hp. cbn [fst snd] in *. unfold itText. cbn [fst snd]. set (q := quantText mn mx). set (o := List.length pre). set (o1 := o + List.length (coreText x)).
  assert (Hg : PG (KDef "item") = Some (GSeq (Some "item") false [(KDef "item:0", (1, Some 1)); (KDef "quantity", (0, Some 1))])) by (vm_compute; reflexivity).
  destruct (Hc pre (q ++ post)) as (n & Hn & Hpart & Hr); [apply quant_stop, item_stops; auto|].
  assert (E : pre ++ coreText x ++ q ++ post = pre ++ (coreText x ++ q) ++ post) by (rewrite <- app_assoc; auto).
  apply core_option in Hn; auto. rewrite E in Hn, Hr. set (input := pre ++ (coreText x ++ q) ++ post) in *.
  assert (E1 : o1 = List.length (pre ++ coreText x)) by (rewrite app_length; auto).
  assert (E2 : input = (pre ++ coreText x) ++ q ++ post) by (unfold input; rewrite <- !app_assoc; auto).
  exists (Node "item" o (o + List.length (coreText x ++ q)) (n :: if onceB (mn, mx) then [] else [quantNode o1 mn mx])).
  assert (Hq : Goes PG PK input [(KDef "quantity", (0, Some 1))] 0 o1 (Match (o + List.length (coreText x ++ q)) (if onceB (mn, mx) then [] else [quantNode o1 mn mx]))).
  { unfold q in *. clear q. destruct (onceB (mn, mx)) eqn:Eo.
    - assert (Eq : quantText mn mx = []) by (unfold quantText; unfold onceB in Eo; cbn [fst snd] in Eo; rewrite Eo; auto). rewrite Eq in *. rewrite app_nil_r in *. cbn [app] in *. apply goes_skip; [|lia|apply goes_nil].
      rewrite E2, E1. apply quant_stops; auto.
    - rewrite <- (app_nil_r [quantNode _ _ _]). change (Match ?t (?a ++ [])) with (after a (Match t [])).
      assert (Hne : (mn <> 1 \/ mx <> 1)%Z) by (unfold onceB in Eo; cbn [fst snd] in Eo; lia). pose proof (quant_nonempty _ _ Hf Hne) as Hnn.
      eapply goes_last; [| |apply goes_nil].
      + rewrite E2, E1. pose proof (quant_word (pre ++ coreText x) mn mx post Hf Hne) as X.
        replace (o + List.length (coreText x ++ quantText mn mx)) with (List.length (pre ++ coreText x) + List.length (quantText mn mx)); [exact X|]. unfold o. rewrite !app_length. lia.
      + unfold o1. rewrite app_length. destruct (quantText mn mx); [congruence|]. simpl. lia. }
  split; [|split; [reflexivity|]].
  - pose proof (goes_gives PG PK input (KDef "item") _ _ o (after [n] (Match (o + List.length (coreText x ++ q)) (if onceB (mn, mx) then [] else [quantNode o1 mn mx]))) Hg) as H.
    apply H. eapply goes_last; [exact Hn| |exact Hq]. pose proof (core_nonempty x Hok). unfold o1. lia.
  - intros k Hk. cbn [depth fold_right] in Hk. assert (Hkn : depth n <= k) by lia. unfold itemExprs. rewrite parts_all by (cbn [forallb]; rewrite Hpart; destruct (onceB _); auto; cbn [forallb]; rewrite quant_part; auto).
    unfold boundsB. destruct (onceB (mn, mx)) eqn:Eo; rewrite (Hr k Hkn); auto.
    assert (Hne : (mn <> 1 \/ mx <> 1)%Z) by (unfold onceB in Eo; cbn [fst snd] in Eo; lia).
    rewrite E2, E1. unfold q. rewrite quant_bounds by auto. auto.
Qed.

(** ** sequences *)
Lemma it_first i : itemReady i -> firstOk (itText i).
Proof. intros (H & _). unfold itText. apply firstOk_app, core_first. auto. Qed.
Lemma its_end l post : seqEnd post -> itemEnd (itsText l ++ post).
Proof. destruct l as [|i l]; [apply seq_itemEnd|]. intros _. left. reflexivity. Qed.
Lemma its_step pre i post n : firstOk (itText i) ->
  gives (pre ++ [32%Z] ++ itText i ++ post) (KDef "item") (S (List.length pre)) (Match (S (List.length pre) + List.length (itText i)) [n]) ->
  gives (pre ++ [32%Z] ++ itText i ++ post) (KRest "sequence" 0) (List.length pre) (Match (S (List.length pre) + List.length (itText i)) [n]).
Proof.
  intros Hi Hn. absRunKey pre post [[32%Z]; itText i] [runeSym 32%Z; AWord [(KDef "item", Some 1)] (notIn wsRunes)] false [[]; [[n]]] 20 (KRest "sequence" 0).
  - constructor; [apply fits_exactly|]. constructor; [apply first_fits; auto|constructor].
  - split; [split; [|exact I]|exact I]. eapply moved; [exact Hn|inputEq|wpEq|wpEq].
Qed.
Lemma its_reps l post : Forall itemReady l -> seqEnd post -> forall pre, exists ns,
  reps (pre ++ itsText l ++ post) (KRest "sequence" 0) (List.length l) (List.length pre) (List.length pre + List.length (itsText l)) ns /\
  forallb isPart ns = true /\
  forall k, Forall (fun n => depth n <= S k) ns -> map (itemExprs (pre ++ itsText l ++ post) k) ns = map (fun i => Some (ptExpr (fst i), boundsB (snd i))) l.
Proof.
  intros Hl Hp. induction Hl as [|i l Hi Hl IH]; intros pre.
  - exists []. cbn [itsText flat_map List.length map]. rewrite Nat.add_0_r. split; [constructor|auto].
  - destruct (item_reads i (pre ++ [32%Z]) (itsText l ++ post) Hi (its_end l post Hp)) as (n & Hn & Hpart & Hr). rewrite len1 in Hn.
    destruct (IH (pre ++ [32%Z] ++ itText i)) as (ns & HR & Hps & Hrs).
    assert (E1 : (pre ++ [32%Z]) ++ itText i ++ itsText l ++ post = pre ++ itsText (i :: l) ++ post) by (cbn [itsText flat_map app]; rewrite <- !app_assoc; auto).
    assert (E2 : (pre ++ [32%Z] ++ itText i) ++ itsText l ++ post = pre ++ itsText (i :: l) ++ post) by (cbn [itsText flat_map app]; rewrite <- !app_assoc; auto).
    rewrite E1 in Hn, Hr. rewrite E2 in HR, Hrs. exists ([n] ++ ns). split; [|split].
    + cbn [List.length]. eapply reps_cons.
      * assert (E3 : pre ++ itsText (i :: l) ++ post = pre ++ [32%Z] ++ itText i ++ (itsText l ++ post)) by (cbn [itsText flat_map app]; rewrite <- !app_assoc; auto).
        rewrite E3 in Hn |- *. apply its_step; [apply it_first; auto|exact Hn].
      * natEq.
      * eapply reps_at; [exact HR|natEq|cbn [itsText flat_map]; unfold itsText; natEq].
    + cbn [app forallb]. rewrite Hpart. auto.
    + intros k Hk. inversion Hk; subst. cbn [app map]. f_equal; [apply Hr; auto|apply Hrs; auto].
Qed.
Lemma seq_stop pre post : seqEnd post -> gives (pre ++ post) (KRest "sequence" 0) (List.length pre) NoMatch.
Proof.
  intros Hp. destruct post as [|r post].
  - absRunKey pre (@nil rune) (@nil (list rune)) (@nil (asym (A := key))) true noNodes 20 (KRest "sequence" 0). fitting.
  - assert (H : r = 41%Z \/ r = 32%Z /\ exists q, post = 124%Z :: q) by (destruct post as [|s post]; [left; auto|destruct Hp as [Hp|[Hp ->]]; [auto|right; eauto]]). clear Hp.
    destruct H as [->|[-> (q & ->)]].
    + absRunKey pre post [[41%Z]] [runeSym 41%Z] false noNodes 20 (KRest "sequence" 0). fitting.
    + absRunKey pre q [[32%Z]; [124%Z]] [runeSym 32%Z; runeSym 124%Z] false noNodes 20 (KRest "sequence" 0). fitting.
Qed.
Lemma depths_le ns k o t name : depth (Node name o t ns) <= S k -> Forall (fun n => depth n <= k) ns.
Proof. cbn [depth]. intros H. assert (H' : fold_right (fun x d => Nat.max (depth x) d) 0 ns <= k) by lia. clear H. induction ns as [|n ns IH]; constructor; cbn [fold_right] in H'; [lia|apply IH; lia]. Qed.
Theorem seq_reads i l pre post : Forall itemReady (i :: l) -> seqEnd post ->
  RD (pre ++ ptText (TSeq (i :: l)) ++ post) "sequence" (List.length pre) (List.length pre + List.length (ptText (TSeq (i :: l)))) (seqExpr (i :: l)).
Proof.
  intros Hl Hp. inversion Hl as [|? ? Hi Hls]; subst. rewrite ptText_seq. set (o := List.length pre). set (input := pre ++ (itText i ++ itsText l) ++ post).
  assert (Hg : PG (KDef "sequence") = Some (GSeq (Some "sequence") false [(KDef "item", (1, Some 1)); (KRest "sequence" 0, (0, None))])) by (vm_compute; reflexivity).
  destruct (item_reads i pre (itsText l ++ post) Hi (its_end l post Hp)) as (n & Hn & Hpart & Hr).
  destruct (its_reps l post Hls Hp (pre ++ itText i)) as (ns & HR & Hps & Hrs).
  assert (E1 : pre ++ itText i ++ itsText l ++ post = input) by (unfold input; rewrite <- !app_assoc; auto).
  assert (E2 : (pre ++ itText i) ++ itsText l ++ post = input) by (unfold input; rewrite <- !app_assoc; auto).
  assert (E3 : ((pre ++ itText i) ++ itsText l) ++ post = input) by (unfold input; rewrite <- !app_assoc; auto).
  rewrite E1 in Hn, Hr. rewrite E2 in HR, Hrs. fold o in Hn. rewrite app_length in HR. fold o in HR.
  assert (E4 : o + List.length (itText i ++ itsText l) = o + List.length (itText i) + List.length (itsText l)) by (rewrite app_length; lia).
  exists (Node "sequence" o (o + List.length (itText i ++ itsText l)) (n :: ns)). split; [|split; [reflexivity|]].
  - assert (Hs : Goes PG PK input [(KRest "sequence" 0, (0, None))] 0 (o + List.length (itText i)) (after ns (Match (o + List.length (itText i ++ itsText l)) []))).
    { rewrite E4. eapply goes_star; [exact HR| |apply goes_nil|apply Nat.le_0_l]. rewrite <- E3. replace (o + List.length (itText i) + List.length (itsText l)) with (List.length ((pre ++ itText i) ++ itsText l)) by (rewrite !app_length; unfold o; lia). apply seq_stop; auto. }
    pose proof (goes_gives PG PK input (KDef "sequence") _ _ o (after [n] (after ns (Match (o + List.length (itText i ++ itsText l)) []))) Hg) as H.
    cbn [after labelled app] in H. rewrite app_nil_r in H. apply H. rewrite <- (app_nil_r ns). change (Match ?t (?a :: ?b)) with (after [a] (Match t b)).
    eapply goes_last; [exact Hn| |exact Hs]. pose proof (it_first i Hi). destruct (itText i); [contradiction|simpl; lia].
  - intros k Hk. destruct k as [|k]; [cbn [depth] in Hk; lia|]. pose proof (depths_le _ _ _ _ _ Hk) as Hd. destruct k as [|k]; [inversion Hd; subst; destruct n; cbn [depth] in *; lia|].
    cbn [exprOf nName String.eqb Ascii.eqb Bool.eqb]. rewrite parts_all by (cbn [forallb]; rewrite Hpart; auto).
    change (option_map ESequence (sequenceOpt (map (itemExprs input (S k)) (n :: ns))) = Some (seqExpr (i :: l))). inversion Hd; subst. cbn [map].
    rewrite (Hr (S k)) by lia. rewrite (Hrs (S k)) by (eapply Forall_impl; [|eassumption]; cbv beta; intros; lia).
    change (Some (ptExpr (fst i), boundsB (snd i)) :: map (fun i => Some (ptExpr (fst i), boundsB (snd i))) l) with (map (fun i => Some (ptExpr (fst i), boundsB (snd i))) (i :: l)).
    rewrite <- (map_map (fun i => (ptExpr (fst i), boundsB (snd i))) Some), sequenceOpt_some. reflexivity.
Qed.

(** ** options *)
Lemma once_fine : fine 1 1.
Proof. unfold fine. split; [split; [lia|reflexivity]|right; split; [lia|reflexivity]]. Qed.
Lemma single_text x : ptText (TSeq [(x, (1, 1)%Z)]) = coreText x.
Proof. cbn [ptText quantText Z.eqb Pos.eqb andb flat_map]. rewrite !app_nil_r. auto. Qed.
Definition optReady (t : pt) : Prop :=
  ok t /\ match t with TAtom _ => True | TSeq l => Forall itemReady l | TChoice _ => False end.
(** the text of [t] is that of an atom or a group, [x], alone *)
Inductive bare : pt -> pt -> Prop :=
| bare_atom a : bare (TAtom a) (TAtom a)
| bare_seq x : bare (TSeq [(x, (1, 1)%Z)]) x.
Lemma bare_ready t x : optReady t -> bare t x -> itemReady (x, (1, 1)%Z) /\ ptText t = coreText x /\ ptExpr t = ptExpr x.
Proof.
  intros [Hok Hr] Hb. destruct Hb as [a|y].
  - split; [|split; reflexivity]. split; [exact Hok|]. split; [apply atom_reads; exact Hok|apply once_fine].
  - inversion Hr; subst. split; [auto|]. split; [apply single_text|reflexivity].
Qed.
Lemma sequence_of x pre post : itemReady (x, (1, 1)%Z) -> seqEnd post -> exists n, gives (pre ++ coreText x ++ post) (KDef "sequence") (List.length pre) (Match (List.length pre + List.length (coreText x)) [n]).
Proof.
  intros Ha Hp. destruct (seq_reads (x, (1, 1)%Z) [] pre post (Forall_cons _ Ha (Forall_nil _)) Hp) as (n & Hn & _).
  rewrite single_text in Hn. eauto.
Qed.
(** the text of a sequence behind its first core *)
Definition tailOf (i : pt * (Z * Z)) (l : list (pt * (Z * Z))) : list rune := quantText (fst (snd i)) (snd (snd i)) ++ itsText l.
Lemma tail_text i l : ptText (TSeq (i :: l)) = coreText (fst i) ++ tailOf i l.
Proof. rewrite ptText_seq. unfold itText, tailOf. rewrite <- app_assoc. auto. Qed.
Lemma tail_nonempty i l : ok (TSeq (i :: l)) -> (l = [] -> onceB (snd i) = false) -> tailOf i l <> [].
Proof.
  cbn [ok]. intros [_ H2] H1. unfold tailOf. destruct l as [|j l]; [|destruct (quantText _ _); discriminate]. destruct i as [x [mn mx]]. cbn [map fold_right] in H2. destruct H2 as [(_ & Hf & _) _]. cbn [fst snd] in *.
  cbn [itsText flat_map]. rewrite app_nil_r. specialize (H1 eq_refl). apply quant_nonempty; auto. unfold onceB in H1. cbn [fst snd] in H1. lia.
Qed.
Lemma bare_cases t : ok t -> isChoice t = false -> (exists x, bare t x) \/ exists i l, t = TSeq (i :: l) /\ tailOf i l <> [] /\ ptExpr t = seqExpr (i :: l).
Proof.
  intros Hok Hc. destruct t as [a|[|i l]|l]; [left; eexists; constructor|destruct Hok as [[] _]| |discriminate].
  assert (D : (l = [] /\ onceB (snd i) = true) \/ (l = [] -> onceB (snd i) = false)) by (destruct l; [destruct (onceB (snd i)); auto|right; discriminate]).
  destruct D as [[-> Ho]|D].
  - left. exists (fst i). destruct i as [x [mn mx]]. unfold onceB in Ho. cbn [fst snd] in *. apply andb_true_iff in Ho. destruct Ho as [H1 H2]. apply Z.eqb_eq in H1, H2. subst. constructor.
  - right. exists i, l. split; auto. split; [apply tail_nonempty; auto|]. apply ptExpr_seq. intros x b E. inversion E; subst. apply D. auto.
Qed.
Lemma any_fits w ks : w <> [] -> fits (A := key) (AWord ks unknown) w.
Proof. destruct w; [congruence|]. intros _. split; [discriminate|exact I]. Qed.
Lemma opt_reads t pre post : optReady t -> seqEnd post ->
  RD (pre ++ ptText t ++ post) "option" (List.length pre) (List.length pre + List.length (ptText t)) (ptExpr t).
Proof.
  intros Hor Hp. assert (Hnc : isChoice t = false) by (destruct Hor as [_ Hr]; destruct t; auto; destruct Hr). destruct (bare_cases t (proj1 Hor) Hnc) as [(x & Hb)|(i & l & -> & Hne & Ex)].
  - destruct (bare_ready t x Hor Hb) as (Hx & -> & ->). destruct (sequence_of x pre post Hx Hp) as (m & Hm). destruct Hx as (Hok & Hcr & _). destruct (Hcr pre post (item_stops _ (seq_itemEnd _ Hp))) as (n & Hn & Hpart & He).
    exists n. split; [|split; auto]. clear He Hpart Hcr Hb Hor Hnc. pose proof (fun ks => core_fits x ks Hok) as Hfit. clear Hok. cbn [fst] in *. generalize dependent (coreText x). intros core Hm Hn Hfit.
    destruct x as [[w| |cn ch rs|cs]|l'|l']; cbn [coreKey atomKey atomTests] in *.
    + absRun pre post [core] [AWord [(KDef "symbol", Some 1); (KDef "sequence", Some 1)] (notIn symbolChars)] false [[[n]; [m]]] 20 "option"; [constructor; [apply Hfit|constructor]|].
      split; [split; [|split; [|exact I]]|exact I]; [eapply moved; [exact Hn|inputEq|wpEq|wpEq]|eapply moved; [exact Hm|inputEq|wpEq|wpEq]].
    + absRun pre post [core] [AWord [(KDef "any-char", Some 1); (KDef "sequence", Some 1)] (exactly 46%Z)] false [[[n]; [m]]] 20 "option"; [constructor; [apply Hfit|constructor]|].
      split; [split; [|split; [|exact I]]|exact I]; [eapply moved; [exact Hn|inputEq|wpEq|wpEq]|eapply moved; [exact Hm|inputEq|wpEq|wpEq]].
    + absRun pre post [core] [AWord [(KDef "char-class", Some 1); (KDef "sequence", Some 1)] (exactly 91%Z)] false [[[n]; [m]]] 20 "option"; [constructor; [apply Hfit|constructor]|].
      split; [split; [|split; [|exact I]]|exact I]; [eapply moved; [exact Hn|inputEq|wpEq|wpEq]|eapply moved; [exact Hm|inputEq|wpEq|wpEq]].
    + absRun pre post [core] [AWord [(KDef "char-sequence", Some 1); (KDef "sequence", Some 1)] (exactly 34%Z)] false [[[n]; [m]]] 20 "option"; [constructor; [apply Hfit|constructor]|].
      split; [split; [|split; [|exact I]]|exact I]; [eapply moved; [exact Hn|inputEq|wpEq|wpEq]|eapply moved; [exact Hm|inputEq|wpEq|wpEq]].
    + absRun pre post [core] [AWord [(KDef "group", Some 1); (KDef "sequence", Some 1)] (exactly 40%Z)] false [[[n]; [m]]] 20 "option"; [constructor; [apply Hfit|constructor]|].
      split; [split; [|split; [|exact I]]|exact I]; [eapply moved; [exact Hn|inputEq|wpEq|wpEq]|eapply moved; [exact Hm|inputEq|wpEq|wpEq]].
    + absRun pre post [core] [AWord [(KDef "group", Some 1); (KDef "sequence", Some 1)] (exactly 40%Z)] false [[[n]; [m]]] 20 "option"; [constructor; [apply Hfit|constructor]|].
      split; [split; [|split; [|exact I]]|exact I]; [eapply moved; [exact Hn|inputEq|wpEq|wpEq]|eapply moved; [exact Hm|inputEq|wpEq|wpEq]].
  - destruct Hor as [Hok Hr]. rewrite Ex.
    destruct (seq_reads i l pre post Hr Hp) as (m & Hm & Hpart & He). exists m. split; [|split; auto]. clear He Hpart.
    inversion Hr as [|? ? (Hc & Hcr & Hf) Hrs]; subst. rewrite tail_text in *. rewrite <- app_assoc in Hm |- *.
    assert (Hb : behind (fun r => In r symbolChars) (tailOf i l ++ post)) by (unfold tailOf; rewrite <- app_assoc; apply quant_stop, item_stops, its_end; auto).
    destruct (Hcr pre (tailOf i l ++ post) Hb) as (n & Hn & _). pose proof (fun ks => core_fits (fst i) ks Hc) as Hfit. pose proof (any_fits (tailOf i l) [] Hne) as Hu.
    clear Hok Hr Hcr Hf Hrs Hb. generalize dependent (tailOf i l). intros tail Hne Hm Hn Hu. generalize dependent (coreText (fst i)). intros core Hfit Hm Hn.
    assert (Hg : gives (pre ++ core ++ tail ++ post) (KDef "option") (List.length pre) (Match (List.length pre + List.length (core ++ tail)) [m])); [|exact Hg].
    destruct (fst i) as [[w| |cn ch rs|cs]|l'|l']; cbn [coreKey atomKey atomTests] in *.
    + absRun pre post [core; tail] [AWord [(KDef "symbol", Some 1); (KDef "sequence", Some 2)] (notIn symbolChars); AWord [] unknown] false [[[n]; [m]]] 20 "option"; [constructor; [apply Hfit|constructor; [exact Hu|constructor]]|].
      split; [split; [|split; [|exact I]]|split; exact I]; [eapply moved; [exact Hn|inputEq|wpEq|wpEq]|eapply moved; [exact Hm|inputEq|wpEq|wpEq]].
    + absRun pre post [core; tail] [AWord [(KDef "any-char", Some 1); (KDef "sequence", Some 2)] (exactly 46%Z); AWord [] unknown] false [[[n]; [m]]] 20 "option"; [constructor; [apply Hfit|constructor; [exact Hu|constructor]]|].
      split; [split; [|split; [|exact I]]|split; exact I]; [eapply moved; [exact Hn|inputEq|wpEq|wpEq]|eapply moved; [exact Hm|inputEq|wpEq|wpEq]].
    + absRun pre post [core; tail] [AWord [(KDef "char-class", Some 1); (KDef "sequence", Some 2)] (exactly 91%Z); AWord [] unknown] false [[[n]; [m]]] 20 "option"; [constructor; [apply Hfit|constructor; [exact Hu|constructor]]|].
      split; [split; [|split; [|exact I]]|split; exact I]; [eapply moved; [exact Hn|inputEq|wpEq|wpEq]|eapply moved; [exact Hm|inputEq|wpEq|wpEq]].
    + absRun pre post [core; tail] [AWord [(KDef "char-sequence", Some 1); (KDef "sequence", Some 2)] (exactly 34%Z); AWord [] unknown] false [[[n]; [m]]] 20 "option"; [constructor; [apply Hfit|constructor; [exact Hu|constructor]]|].
      split; [split; [|split; [|exact I]]|split; exact I]; [eapply moved; [exact Hn|inputEq|wpEq|wpEq]|eapply moved; [exact Hm|inputEq|wpEq|wpEq]].
    + absRun pre post [core; tail] [AWord [(KDef "group", Some 1); (KDef "sequence", Some 2)] (exactly 40%Z); AWord [] unknown] false [[[n]; [m]]] 20 "option"; [constructor; [apply Hfit|constructor; [exact Hu|constructor]]|].
      split; [split; [|split; [|exact I]]|split; exact I]; [eapply moved; [exact Hn|inputEq|wpEq|wpEq]|eapply moved; [exact Hm|inputEq|wpEq|wpEq]].
    + absRun pre post [core; tail] [AWord [(KDef "group", Some 1); (KDef "sequence", Some 2)] (exactly 40%Z); AWord [] unknown] false [[[n]; [m]]] 20 "option"; [constructor; [apply Hfit|constructor; [exact Hu|constructor]]|].
      split; [split; [|split; [|exact I]]|split; exact I]; [eapply moved; [exact Hn|inputEq|wpEq|wpEq]|eapply moved; [exact Hm|inputEq|wpEq|wpEq]].
Qed.

(** ** choices *)
Ltac lenEq := first [reflexivity|repeat match goal with E : ?o = _ |- context [?o] => is_var o; rewrite E end; natEq].
Ltac assocEq := cbn [optsText flat_map]; repeat (cbn [app]; rewrite <- app_assoc); cbn [app]; reflexivity.
Lemma opts_end l post : exprEnd post -> seqEnd (optsText l ++ post).
Proof. destruct l as [|o l]; [apply expr_seqEnd|]. intros _. right. auto. Qed.
Lemma bar_step pre w post n : firstOk w ->
  gives (pre ++ [32%Z; 124%Z; 32%Z] ++ w ++ post) (KDef "option") (List.length pre + 3) (Match (List.length pre + 3 + List.length w) [n]) ->
  gives (pre ++ [32%Z; 124%Z; 32%Z] ++ w ++ post) (KRest "choice" 1) (List.length pre) (Match (List.length pre + 3 + List.length w) [n]).
Proof.
  intros Hw Hn. absRunKey pre post [[32%Z]; [124%Z]; [32%Z]; w] [runeSym 32%Z; runeSym 124%Z; runeSym 32%Z; AWord [(KDef "option", Some 1)] (notIn wsRunes)] false [[]; []; []; [[n]]] 20 (KRest "choice" 1).
  - constructor; [apply fits_exactly|]. constructor; [apply fits_exactly|]. constructor; [apply fits_exactly|]. constructor; [apply first_fits; auto|constructor].
  - split; [split; [|exact I]|exact I]. eapply moved; [exact Hn|inputEq|wpEq|wpEq].
Qed.
Lemma bar_first pre w post n : firstOk w ->
  gives (pre ++ [32%Z; 124%Z; 32%Z] ++ w ++ post) (KDef "option") (List.length pre + 3) (Match (List.length pre + 3 + List.length w) [n]) ->
  gives (pre ++ [32%Z; 124%Z; 32%Z] ++ w ++ post) (KDef "choice:1") (List.length pre + 1) (Match (List.length pre + 3 + List.length w) [n]).
Proof.
  intros Hw Hn. pose (pre1 := pre ++ [32%Z]).
  assert (H : gives (pre1 ++ [124%Z; 32%Z] ++ w ++ post) (KDef "choice:1") (List.length pre1) (Match (List.length pre1 + 2 + List.length w) [n])).
  { absRun pre1 post [[124%Z]; [32%Z]; w] [runeSym 124%Z; runeSym 32%Z; AWord [(KDef "option", Some 1)] (notIn wsRunes)] false [[]; []; [[n]]] 20 "choice:1".
    - constructor; [apply fits_exactly|]. constructor; [apply fits_exactly|]. constructor; [apply first_fits; auto|constructor].
    - split; [split; [|exact I]|exact I]. eapply moved; [exact Hn|unfold pre1; inputEq|unfold pre1; wpEq|unfold pre1; wpEq]. }
  eapply moved; [exact H|unfold pre1; inputEq|unfold pre1; wpEq|unfold pre1; wpEq].
Qed.
Lemma opts_reps l post : Forall optReady l -> exprEnd post -> forall pre, exists ns,
  reps (pre ++ optsText l ++ post) (KRest "choice" 1) (List.length l) (List.length pre) (List.length pre + List.length (optsText l)) ns /\
  forallb isPart ns = true /\
  forall k, Forall (fun n => depth n <= k) ns -> map (exprOf (pre ++ optsText l ++ post) k) ns = map (fun o => Some (ptExpr o)) l.
Proof.
  intros Hl Hp. induction Hl as [|i l Hi Hl IH]; intros pre.
  - exists []. cbn [optsText flat_map List.length map]. rewrite Nat.add_0_r. split; [constructor|auto].
  - destruct (opt_reads i (pre ++ [32%Z; 124%Z; 32%Z]) (optsText l ++ post) Hi (opts_end l post Hp)) as (n & Hn & Hpart & Hr). rewrite app_length in Hn. cbn [List.length] in Hn.
    destruct (IH (pre ++ [32%Z; 124%Z; 32%Z] ++ ptText i)) as (ns & HR & Hps & Hrs).
    assert (E1 : (pre ++ [32%Z; 124%Z; 32%Z]) ++ ptText i ++ optsText l ++ post = pre ++ optsText (i :: l) ++ post) by (assocEq).
    assert (E2 : (pre ++ [32%Z; 124%Z; 32%Z] ++ ptText i) ++ optsText l ++ post = pre ++ optsText (i :: l) ++ post) by (assocEq).
    rewrite E1 in Hn, Hr. rewrite E2 in HR, Hrs. exists ([n] ++ ns). split; [|split].
    + cbn [List.length]. eapply reps_cons.
      * assert (E3 : pre ++ optsText (i :: l) ++ post = pre ++ [32%Z; 124%Z; 32%Z] ++ ptText i ++ (optsText l ++ post)) by (assocEq).
        rewrite E3 in Hn |- *. apply bar_step; [apply pt_first, Hi|exact Hn].
      * natEq.
      * eapply reps_at; [exact HR|natEq|cbn [optsText flat_map]; unfold optsText; natEq].
    + cbn [app forallb]. rewrite Hpart. auto.
    + intros k Hk. inversion Hk; subst. cbn [app map]. f_equal; [apply Hr; auto|apply Hrs; auto].
Qed.
Lemma choice_stop pre post : exprEnd post -> gives (pre ++ post) (KRest "choice" 1) (List.length pre) NoMatch.
Proof.
  intros Hp. destruct post as [|r post].
  - absRunKey pre (@nil rune) (@nil (list rune)) (@nil (asym (A := key))) true noNodes 20 (KRest "choice" 1). fitting.
  - cbn in Hp. subst. absRunKey pre post [[41%Z]] [runeSym 41%Z] false noNodes 20 (KRest "choice" 1). fitting.
Qed.
Theorem choice_reads o1 o2 l pre post : Forall optReady (o1 :: o2 :: l) -> exprEnd post ->
  RD (pre ++ ptText (TChoice (o1 :: o2 :: l)) ++ post) "choice" (List.length pre) (List.length pre + List.length (ptText (TChoice (o1 :: o2 :: l)))) (ptExpr (TChoice (o1 :: o2 :: l))).
Proof.
  intros Hl Hp. inversion Hl as [|? ? Hi Hls]; subst. inversion Hls as [|? ? Hj Hls']; subst. rewrite ptText_choice. set (o := List.length pre). set (input := pre ++ (ptText o1 ++ optsText (o2 :: l)) ++ post).
  assert (Hg : PG (KDef "choice") = Some (GSeq (Some "choice") false [(KDef "option", (1, Some 1)); (KWs, (0, None)); (KDef "choice:1", (1, Some 1)); (KRest "choice" 1, (0, None))])) by (vm_compute; reflexivity).
  destruct (opt_reads o1 pre (optsText (o2 :: l) ++ post) Hi (opts_end _ post Hp)) as (n & Hn & Hpart & Hr).
  destruct (opt_reads o2 (pre ++ ptText o1 ++ [32%Z; 124%Z; 32%Z]) (optsText l ++ post) Hj (opts_end _ post Hp)) as (n2 & Hn2 & Hpart2 & Hr2).
  destruct (opts_reps l post Hls' Hp (pre ++ ptText o1 ++ [32%Z; 124%Z; 32%Z] ++ ptText o2)) as (ns & HR & Hps & Hrs).
  set (o' := o + List.length (ptText o1)).
  assert (E1 : pre ++ ptText o1 ++ optsText (o2 :: l) ++ post = input) by (unfold input; rewrite <- !app_assoc; auto).
  assert (E2 : (pre ++ ptText o1 ++ [32%Z; 124%Z; 32%Z]) ++ ptText o2 ++ optsText l ++ post = input) by (unfold input; assocEq).
  assert (E3 : (pre ++ ptText o1 ++ [32%Z; 124%Z; 32%Z] ++ ptText o2) ++ optsText l ++ post = input) by (unfold input; assocEq).
  assert (E4 : (pre ++ ptText o1) ++ [32%Z; 124%Z; 32%Z] ++ ptText o2 ++ optsText l ++ post = input) by (unfold input; assocEq).
  rewrite E1 in Hn, Hr. rewrite E2 in Hn2, Hr2. rewrite E3 in HR, Hrs. fold o in Hn.
  set (t := o + List.length (ptText o1 ++ optsText (o2 :: l))).
  assert (L1 : List.length (pre ++ ptText o1 ++ [32%Z; 124%Z; 32%Z]) = o' + 3) by (unfold o', o; natEq).
  assert (L2 : List.length (pre ++ ptText o1 ++ [32%Z; 124%Z; 32%Z] ++ ptText o2) = o' + 3 + List.length (ptText o2)) by (unfold o', o; natEq).
  assert (L3 : o' + 3 + List.length (ptText o2) + List.length (optsText l) = t) by (unfold t, o', o; cbn [optsText flat_map]; fold (optsText l); natEq).
  pose proof (eq_refl : o' = List.length pre + List.length (ptText o1)) as L4.
  rewrite L1 in Hn2. rewrite L2, L3 in HR.
  exists (Node "choice" o t (n :: n2 :: ns)). split; [|split; [reflexivity|]].
  - assert (Hs : Goes PG PK input [(KRest "choice" 1, (0, None))] 0 (o' + 3 + List.length (ptText o2)) (after ns (Match t []))).
    { eapply goes_star; [exact HR| |apply goes_nil|apply Nat.le_0_l]. rewrite <- E3, app_assoc. replace t with (List.length ((pre ++ ptText o1 ++ [32%Z; 124%Z; 32%Z] ++ ptText o2) ++ optsText l)) by (rewrite app_length, L2; auto). apply choice_stop; auto. }
    assert (Hb : gives input (KDef "choice:1") (o' + 1) (Match (o' + 3 + List.length (ptText o2)) [n2])).
    { eapply moved; [apply (bar_first (pre ++ ptText o1) (ptText o2) (optsText l ++ post) n2 (pt_first _ (proj1 Hj)))|symmetry; exact E4|lenEq|f_equal; lenEq].
      eapply moved; [exact Hn2|exact E4|lenEq|f_equal; lenEq]. }
    assert (Hw : reps input KWs 1 o' (o' + 1) ([] ++ [])).
    { eapply (reps_cons _ _ _ _ _ _ (o' + 1)); [|lia|constructor].
      assert (X : gives ((pre ++ ptText o1) ++ [32%Z] ++ [124%Z; 32%Z] ++ ptText o2 ++ optsText l ++ post) KWs (List.length (pre ++ ptText o1)) (Match (List.length (pre ++ ptText o1) + 1) [])) by (absRunKey (pre ++ ptText o1) ([124%Z; 32%Z] ++ ptText o2 ++ optsText l ++ post) [[32%Z]] [runeSym 32%Z] false noNodes 20 KWs; fitting).
      eapply moved; [exact X|symmetry; exact E4|lenEq|f_equal; lenEq]. }
    assert (Hno : gives input KWs (o' + 1) NoMatch).
    { pose (pre1 := pre ++ ptText o1 ++ [32%Z]). assert (X : gives (pre1 ++ [124%Z] ++ [32%Z] ++ ptText o2 ++ optsText l ++ post) KWs (List.length pre1) NoMatch) by (absRunKey pre1 ([32%Z] ++ ptText o2 ++ optsText l ++ post) [[124%Z]] [runeSym 124%Z] false noNodes 20 KWs; fitting).
      replace (o' + 1) with (List.length pre1) by (unfold pre1, o', o; natEq). replace input with (pre1 ++ [124%Z] ++ [32%Z] ++ ptText o2 ++ optsText l ++ post); [exact X|]. rewrite <- E4. unfold pre1. rewrite <- !app_assoc. auto. }
    pose proof (goes_gives PG PK input (KDef "choice") _ _ o (after [n] (after ([] ++ []) (after [n2] (after ns (Match t []))))) Hg) as H.
    cbn [after labelled app] in H. rewrite app_nil_r in H. apply H. rewrite <- (app_nil_r ns).
    change (Match t (n :: n2 :: ns ++ [])) with (after [n] (after ([] ++ []) (after [n2] (after ns (Match t []))))).
    eapply goes_last; [exact Hn| |].
    + pose proof (pt_first _ (proj1 Hi)). destruct (ptText o1); [contradiction|simpl; lia].
    + fold o'. eapply goes_star; [exact Hw|exact Hno| |apply Nat.le_0_l]. eapply goes_last; [exact Hb| |exact Hs]. lia.
  - intros k Hk. destruct k as [|k]; [cbn [depth] in Hk; lia|]. pose proof (depths_le _ _ _ _ _ Hk) as Hd.
    cbn [exprOf nName String.eqb Ascii.eqb Bool.eqb]. rewrite parts_all by (cbn [forallb]; rewrite Hpart, Hpart2; auto).
    inversion Hd as [|? ? Hd1 Hd']; subst. inversion Hd' as [|? ? Hd2 Hd3]; subst. cbn [map].
    rewrite (Hr k Hd1), (Hr2 k Hd2), (Hrs k Hd3).
    change (Some (ptExpr o1) :: Some (ptExpr o2) :: map (fun o => Some (ptExpr o)) l) with (map (fun o => Some (ptExpr o)) (o1 :: o2 :: l)).
    rewrite <- (map_map ptExpr Some), sequenceOpt_some. reflexivity.
Qed.

(** ** expressions *)
Ltac twoFacts Hn Hm := split; [split; [|split; [|exact I]]|repeat split]; [eapply moved; [exact Hn|inputEq|wpEq|wpEq]|eapply moved; [exact Hm|inputEq|wpEq|wpEq]].
Ltac threeFacts Hn Hm Hc := split; [split; [|split; [|split; [|exact I]]]|repeat split]; [eapply moved; [exact Hn|inputEq|wpEq|wpEq]|eapply moved; [exact Hm|inputEq|wpEq|wpEq]|eapply moved; [exact Hc|inputEq|wpEq|wpEq]].
Section EXPR.
Variables (x : pt) (core : list rune) (n m : node) (pre : list rune).
Hypothesis Hfit : forall ks, fits (A := key) (AWord ks (match x with TAtom a => atomTests a | _ => exactly 40%Z end)) core.
(** nothing but the core *)
Lemma expr_core post : exprEnd post ->
  gives (pre ++ core ++ post) (KDef (coreKey x)) (List.length pre) (Match (List.length pre + List.length core) [n]) ->
  gives (pre ++ core ++ post) (KDef "sequence") (List.length pre) (Match (List.length pre + List.length core) [m]) ->
  gives (pre ++ core ++ post) (KDef "expression") (List.length pre) (Match (List.length pre + List.length core) [n]).
Proof.
  intros Hp Hn Hm. destruct post as [|r post]; [|cbn in Hp; subst r].
  - Ltac go1 pre core n m Hn Hm Hfit k ts := absRun pre (@nil rune) [core] [AWord [(KDef k, Some 1); (KDef "sequence", Some 1)] ts] true [[[n]; [m]]] 20 "expression"; [constructor; [apply Hfit|constructor]|twoFacts Hn Hm].
    destruct x as [[w| |cn ch rs|cs]|l'|l']; cbn [coreKey atomKey atomTests] in *;
    [go1 pre core n m Hn Hm Hfit "symbol" (notIn symbolChars)|go1 pre core n m Hn Hm Hfit "any-char" (exactly 46%Z)|go1 pre core n m Hn Hm Hfit "char-class" (exactly 91%Z)|go1 pre core n m Hn Hm Hfit "char-sequence" (exactly 34%Z)|go1 pre core n m Hn Hm Hfit "group" (exactly 40%Z)|go1 pre core n m Hn Hm Hfit "group" (exactly 40%Z)].
  - Ltac go2 pre post core n m Hn Hm Hfit k ts := absRun pre post [core; [41%Z]] [AWord [(KDef k, Some 1); (KDef "sequence", Some 1)] ts; runeSym 41%Z] false [[[n]; [m]]] 20 "expression"; [constructor; [apply Hfit|fitting]|twoFacts Hn Hm].
    destruct x as [[w| |cn ch rs|cs]|l'|l']; cbn [coreKey atomKey atomTests] in *;
    [go2 pre post core n m Hn Hm Hfit "symbol" (notIn symbolChars)|go2 pre post core n m Hn Hm Hfit "any-char" (exactly 46%Z)|go2 pre post core n m Hn Hm Hfit "char-class" (exactly 91%Z)|go2 pre post core n m Hn Hm Hfit "char-sequence" (exactly 34%Z)|go2 pre post core n m Hn Hm Hfit "group" (exactly 40%Z)|go2 pre post core n m Hn Hm Hfit "group" (exactly 40%Z)].
Qed.

(** a sequence *)
Lemma expr_seq tail post : exprEnd post -> tail <> [] ->
  gives (pre ++ core ++ tail ++ post) (KDef (coreKey x)) (List.length pre) (Match (List.length pre + List.length core) [n]) ->
  gives (pre ++ core ++ tail ++ post) (KDef "sequence") (List.length pre) (Match (List.length pre + List.length (core ++ tail)) [m]) ->
  gives (pre ++ core ++ tail ++ post) (KDef "expression") (List.length pre) (Match (List.length pre + List.length (core ++ tail)) [m]).
Proof.
  intros Hp Hne Hn Hm. pose proof (any_fits tail [] Hne) as Hu. destruct post as [|r post]; [|cbn in Hp; subst r].
  - Ltac go3 pre core tail n m Hn Hm Hfit Hu k ts := absRun pre (@nil rune) [core; tail] [AWord [(KDef k, Some 1); (KDef "sequence", Some 2)] ts; AWord [] unknown] true [[[n]; [m]]] 20 "expression"; [constructor; [apply Hfit|constructor; [exact Hu|constructor]]|twoFacts Hn Hm].
    destruct x as [[w| |cn ch rs|cs]|l'|l']; cbn [coreKey atomKey atomTests] in *;
    [go3 pre core tail n m Hn Hm Hfit Hu "symbol" (notIn symbolChars)|go3 pre core tail n m Hn Hm Hfit Hu "any-char" (exactly 46%Z)|go3 pre core tail n m Hn Hm Hfit Hu "char-class" (exactly 91%Z)|go3 pre core tail n m Hn Hm Hfit Hu "char-sequence" (exactly 34%Z)|go3 pre core tail n m Hn Hm Hfit Hu "group" (exactly 40%Z)|go3 pre core tail n m Hn Hm Hfit Hu "group" (exactly 40%Z)].
  - Ltac go4 pre post core tail n m Hn Hm Hfit Hu k ts := absRun pre post [core; tail; [41%Z]] [AWord [(KDef k, Some 1); (KDef "sequence", Some 2)] ts; AWord [] unknown; runeSym 41%Z] false [[[n]; [m]]] 20 "expression"; [constructor; [apply Hfit|constructor; [exact Hu|fitting]]|twoFacts Hn Hm].
    destruct x as [[w| |cn ch rs|cs]|l'|l']; cbn [coreKey atomKey atomTests] in *;
    [go4 pre post core tail n m Hn Hm Hfit Hu "symbol" (notIn symbolChars)|go4 pre post core tail n m Hn Hm Hfit Hu "any-char" (exactly 46%Z)|go4 pre post core tail n m Hn Hm Hfit Hu "char-class" (exactly 91%Z)|go4 pre post core tail n m Hn Hm Hfit Hu "char-sequence" (exactly 34%Z)|go4 pre post core tail n m Hn Hm Hfit Hu "group" (exactly 40%Z)|go4 pre post core tail n m Hn Hm Hfit Hu "group" (exactly 40%Z)].
Qed.
(** a choice, its first option an atom *)
Lemma expr_choice1 rest post c : rest <> [] ->
  gives (pre ++ core ++ rest ++ post) (KDef (coreKey x)) (List.length pre) (Match (List.length pre + List.length core) [n]) ->
  gives (pre ++ core ++ rest ++ post) (KDef "sequence") (List.length pre) (Match (List.length pre + List.length core) [m]) ->
  gives (pre ++ core ++ rest ++ post) (KDef "choice") (List.length pre) (Match (List.length pre + List.length (core ++ rest)) [c]) ->
  gives (pre ++ core ++ rest ++ post) (KDef "expression") (List.length pre) (Match (List.length pre + List.length (core ++ rest)) [c]).
Proof.
  intros Hne Hn Hm Hc. pose proof (any_fits rest [] Hne) as Hu.
  Ltac go5 pre post core rest n m c Hn Hm Hc Hfit Hu k ts := absRun pre post [core; rest] [AWord [(KDef k, Some 1); (KDef "sequence", Some 1); (KDef "choice", Some 2)] ts; AWord [] unknown] false [[[n]; [m]; [c]]] 20 "expression"; [constructor; [apply Hfit|constructor; [exact Hu|constructor]]|threeFacts Hn Hm Hc].
  destruct x as [[w| |cn ch rs|cs]|l'|l']; cbn [coreKey atomKey atomTests] in *;
  [go5 pre post core rest n m c Hn Hm Hc Hfit Hu "symbol" (notIn symbolChars)|go5 pre post core rest n m c Hn Hm Hc Hfit Hu "any-char" (exactly 46%Z)|go5 pre post core rest n m c Hn Hm Hc Hfit Hu "char-class" (exactly 91%Z)|go5 pre post core rest n m c Hn Hm Hc Hfit Hu "char-sequence" (exactly 34%Z)|go5 pre post core rest n m c Hn Hm Hc Hfit Hu "group" (exactly 40%Z)|go5 pre post core rest n m c Hn Hm Hc Hfit Hu "group" (exactly 40%Z)].
Qed.
(** a choice, its first option a sequence *)
Lemma expr_choice2 tail rest post c : tail <> [] -> rest <> [] ->
  gives (pre ++ core ++ tail ++ rest ++ post) (KDef (coreKey x)) (List.length pre) (Match (List.length pre + List.length core) [n]) ->
  gives (pre ++ core ++ tail ++ rest ++ post) (KDef "sequence") (List.length pre) (Match (List.length pre + List.length (core ++ tail)) [m]) ->
  gives (pre ++ core ++ tail ++ rest ++ post) (KDef "choice") (List.length pre) (Match (List.length pre + List.length (core ++ tail ++ rest)) [c]) ->
  gives (pre ++ core ++ tail ++ rest ++ post) (KDef "expression") (List.length pre) (Match (List.length pre + List.length (core ++ tail ++ rest)) [c]).
Proof.
  intros Hne Hne' Hn Hm Hc. pose proof (any_fits tail [] Hne) as Hu. pose proof (any_fits rest [] Hne') as Hu'.
  Ltac go6 pre post core tail rest n m c Hn Hm Hc Hfit Hu Hu' k ts := absRun pre post [core; tail; rest] [AWord [(KDef k, Some 1); (KDef "sequence", Some 2); (KDef "choice", Some 3)] ts; AWord [] unknown; AWord [] unknown] false [[[n]; [m]; [c]]] 20 "expression"; [constructor; [apply Hfit|constructor; [exact Hu|constructor; [exact Hu'|constructor]]]|threeFacts Hn Hm Hc].
  destruct x as [[w| |cn ch rs|cs]|l'|l']; cbn [coreKey atomKey atomTests] in *;
  [go6 pre post core tail rest n m c Hn Hm Hc Hfit Hu Hu' "symbol" (notIn symbolChars)|go6 pre post core tail rest n m c Hn Hm Hc Hfit Hu Hu' "any-char" (exactly 46%Z)|go6 pre post core tail rest n m c Hn Hm Hc Hfit Hu Hu' "char-class" (exactly 91%Z)|go6 pre post core tail rest n m c Hn Hm Hc Hfit Hu Hu' "char-sequence" (exactly 34%Z)|go6 pre post core tail rest n m c Hn Hm Hc Hfit Hu Hu' "group" (exactly 40%Z)|go6 pre post core tail rest n m c Hn Hm Hc Hfit Hu Hu' "group" (exactly 40%Z)].
Qed.
End EXPR.

Lemma size_item (i : pt * (Z * Z)) l : In i l -> ptSize (fst i) < ptSize (TSeq l).
Proof. cbn [ptSize]. induction l as [|j l IH]; intros []; [subst; simpl; lia|]. apply IH in H. simpl in *. lia. Qed.
Lemma size_opt (o : pt) l : In o l -> ptSize o < ptSize (TChoice l).
Proof. cbn [ptSize]. induction l as [|j l IH]; intros []; [subst; simpl; lia|]. apply IH in H. simpl in *. lia. Qed.
Lemma items_ready l : (forall t, ptSize t < ptSize (TSeq l) -> ok t -> exprReads t) -> ok (TSeq l) -> Forall itemReady l.
Proof.
  intros IH [_ H]. apply fold_and in H. rewrite Forall_forall in *. intros i Hi. destruct (H i Hi) as (H1 & H2 & _). split; auto. split; auto.
  destruct (isAtom (fst i)) eqn:Ea; [destruct (fst i); try discriminate; apply atom_reads; auto|].
  apply group_reads; auto. apply IH; auto. apply size_item; auto.
Qed.
Lemma opt_ready o N : (forall t, ptSize t < N -> ok t -> exprReads t) -> ptSize o <= N -> ok o -> isChoice o = false -> optReady o.
Proof.
  intros IH Hs Ho Hc. split; auto. destruct o as [a|l|l]; auto; [|discriminate]. apply items_ready; auto. intros t Ht. apply IH. lia.
Qed.
(** every printed text is read as what was printed *)
Theorem expr_reads t : ok t -> exprReads t.
Proof.
  remember (ptSize t) as N eqn:EN. revert t EN. induction N as [N IHN] using lt_wf_ind. intros t -> Hok.
  assert (IH : forall u, ptSize u < ptSize t -> ok u -> exprReads u) by (intros u Hu; apply (IHN (ptSize u)); auto). clear IHN.
  intros pre post Hp. destruct (isChoice t) eqn:Hnc.
  - destruct t as [a|l|l]; try discriminate. assert (Hr : Forall optReady l).
    { destruct Hok as [_ H]. apply fold_and in H. rewrite Forall_forall in *. intros o Ho. destruct (H o Ho) as [H1 H2]. eapply opt_ready; [exact IH| |auto|auto]. apply Nat.lt_le_incl, size_opt; auto. }
    destruct Hok as [Hlen Hf]. apply fold_and in Hf. destruct l as [|o1 [|o2 l]]; [simpl in Hlen; lia|simpl in Hlen; lia|]. clear Hlen IH.
    destruct (choice_reads o1 o2 l pre post Hr Hp) as (c & Hc & Hpart & He). exists c. split; [|split; auto]. clear He Hpart.
    inversion Hf as [|? ? [Ho1 Hnc1] _]; subst. inversion Hr as [|? ? Hor _]; subst. rewrite ptText_choice in *. set (rest := optsText (o2 :: l)) in *.
    assert (Hne : rest <> []) by discriminate. assert (Hend : seqEnd (rest ++ post)) by (apply opts_end; auto). clearbody rest. clear Hr Hf Hp Hnc. rewrite <- app_assoc in Hc |- *.
    destruct (bare_cases o1 Ho1 Hnc1) as [(x & Hb)|(i & k & -> & Hnt & _)].
    + destruct (bare_ready o1 x Hor Hb) as (Hx & E & _). rewrite E in *. destruct (sequence_of x pre (rest ++ post) Hx Hend) as (m & Hm). destruct Hx as (Hox & Hcr & _).
      destruct (Hcr pre (rest ++ post) (item_stops _ (seq_itemEnd _ Hend))) as (n & Hn & _).
      apply (expr_choice1 x (coreText x) n m pre); auto. intros ks. apply (core_fits x ks Hox).
    + destruct Hor as [_ Hr1]. destruct (seq_reads i k pre (rest ++ post) Hr1 Hend) as (m & Hm & _).
      inversion Hr1 as [|? ? (Hcc & Hcr & Hf) Hrs]; subst. rewrite tail_text in *. rewrite <- !app_assoc in Hm, Hc |- *.
      assert (Hb : behind (fun r => In r symbolChars) (tailOf i k ++ rest ++ post)) by (unfold tailOf; rewrite <- app_assoc; apply quant_stop, item_stops, its_end; auto).
      destruct (Hcr pre (tailOf i k ++ rest ++ post) Hb) as (n & Hn & _).
      replace (List.length ((coreText (fst i) ++ tailOf i k) ++ rest)) with (List.length (coreText (fst i) ++ tailOf i k ++ rest)) in Hc |- * by natEq.
      eapply (expr_choice2 (fst i)); eauto. intros ks. apply core_fits; auto.
  - assert (Hor : optReady t) by (eapply opt_ready; [exact IH|auto|auto|auto]). destruct (bare_cases t Hok Hnc) as [(x & Hb)|(i & l & -> & Hne & Ex)].
    + destruct (bare_ready t x Hor Hb) as (Hx & -> & ->). destruct (sequence_of x pre post Hx (expr_seqEnd _ Hp)) as (m & Hm). destruct Hx as (Hox & Hcr & _).
      destruct (Hcr pre post (item_stops _ (seq_itemEnd _ (expr_seqEnd _ Hp)))) as (n & Hn & Hpart & He).
      exists n. split; [|split; auto]. apply (expr_core x (coreText x) n m); auto. intros ks. apply (core_fits x ks Hox).
    + destruct Hor as [_ Hr]. rewrite Ex. destruct (seq_reads i l pre post Hr (expr_seqEnd _ Hp)) as (m & Hm & Hpart & He). exists m. split; [|split; auto]. clear He Hpart.
      inversion Hr as [|? ? (Hc & Hcr & Hf) Hrs]; subst. rewrite tail_text in *. rewrite <- app_assoc in Hm |- *.
      assert (Hb : behind (fun r => In r symbolChars) (tailOf i l ++ post)) by (unfold tailOf; rewrite <- app_assoc; apply quant_stop, item_stops, its_end, expr_seqEnd; auto).
      destruct (Hcr pre (tailOf i l ++ post) Hb) as (n & Hn & _).
      eapply (expr_seq (fst i)); eauto. intros ks. apply core_fits; auto.
Qed.

(** ** definitions *)
Theorem spells_pt name t : Forall symbolRune name /\ name <> [] -> ok t -> ~ In runeError (name ++ [61%Z] ++ ptText t) ->
  spells (name ++ [61%Z] ++ ptText t) [mkTextDef (runesString name) 0%N (ptExpr t)].
Proof.
  intros Hname Ht Hv. split; auto. destruct (expr_reads t Ht (name ++ [61%Z]) [] I) as (x & Hx & Hpart & He).
  rewrite !app_nil_r in Hx, He. rewrite <- app_assoc in He, Hx. rewrite len1 in Hx.
  exists (defTree name (ptText t) x). split; [|apply defTree_defs; auto].
  unfold Means, defTree. pose proof (name_word name Hname (ptText t)) as Hn.
  absRun (@nil rune) (@nil rune) [name; [61%Z]; ptText t] [AWord [(KDef "symbol", Some 1)] (notIn symbolChars); runeSym 61%Z; AWord [(KDef "expression", Some 1)] (notIn wsRunes)] true
      [[[symbolNode 0 name]]; []; [[x]]] 60 "syntax".
  - constructor; [apply name_fits; auto|]. constructor; [apply fits_exactly|]. constructor; [apply first_fits, pt_first; auto|constructor].
  - split; [split; [|exact I]|split; [split; [|exact I]|exact I]]; [eapply moved; [exact Hn|inputEq|wpEq|wpEq]|eapply moved; [exact Hx|inputEq|wpEq|wpEq]].
Qed.
