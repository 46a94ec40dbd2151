(** Printed definitions, read as syntax. *)
From Verif Require Import Base Utf8 Utf8Facts Parser Build Syntax Escape Grammar RefSpec RefFuel RefApi RefCheck LeftCheck ReadSpec SelfGrammar SelfLang ReadLang Format AbsEval AbsText FormatClass FormatWords FormatNum FormatItems FormatSeq.
Local Open Scope string_scope.
Local Open Scope list_scope.
Local Open Scope nat_scope.

Definition defTree (name text : list rune) (x : node) : node :=
  let t := List.length name + 1 + List.length text in
  Node "syntax" 0 t [Node "definition" 0 t [symbolNode 0 name; x]].
Lemma defTree_defs (name text : list rune) x e : isPart x = true -> exprOf (name ++ [61%Z] ++ text) (depth x) x = Some e ->
  defsOf (name ++ [61%Z] ++ text) (defTree name text x) = Some [mkTextDef (runesString name) 0%N e].
Proof.
  intros Hx He. unfold defTree, defsOf. rewrite parts_all by auto. cbn [map]. unfold defOf. rewrite parts_all by (cbn [forallb]; rewrite Hx; auto).
  change (rev [x]) with [x]. cbv iota. rewrite He. cbn [map sequenceOpt fold_right]. unfold symbolNode.
  pose proof (textOf_word [] name ([61%Z] ++ text) "symbol" []) as E. change ([] ++ ?l) with l in E. cbn [List.length Nat.add] in *. rewrite E. auto.
Qed.

Section DEF.
Variable name : list rune.
Hypothesis Hname : Forall symbolRune name /\ name <> [].
Lemma name_fits ks : fits (A := key) (AWord ks (notIn symbolChars)) name.
Proof. destruct Hname as [H1 H2]. destruct name as [|r w]; [congruence|]. apply fits_notIn. apply Forall_inv in H1. auto. Qed.
Lemma name_word text : gives (name ++ [61%Z] ++ text) (KDef "symbol") 0 (Match (List.length name) [symbolNode 0 name]).
Proof. apply (symbol_word [] name ([61%Z] ++ text)); try tauto. simpl. tauto. Qed.

Ltac knownTwo Hn Hw := split; [split; [|exact I]|split; [split; [|exact I]|exact I]];
  [eapply moved; [exact Hn|inputEq|wpEq|wpEq]|eapply moved; [exact Hw|inputEq|wpEq|wpEq]].
Theorem def_atom a : atomOk a -> Means published (name ++ [61%Z] ++ atomText a) "syntax" 0
  (Match (List.length (name ++ [61%Z] ++ atomText a)) [defTree name (atomText a) (atomNode (List.length name + 1) a)]).
Proof.
  intros Ha. unfold Means, defTree. pose proof (atom_word (name ++ [61%Z]) a [] Ha I) as Hw. rewrite len1 in Hw. rewrite !app_nil_r in Hw.
  replace (S (List.length name)) with (List.length name + 1) in Hw by lia.
  pose proof (fun ks => atom_fits a ks Ha) as Hfit. pose proof (name_word (atomText a)) as Hn.
  destruct a as [w| |cnot chars ranges|chars]; cbn [atomTests atomKey atomText] in Hw, Hfit, Hn |- *.
  - absRun (@nil rune) (@nil rune) [name; [61%Z]; w] [AWord [(KDef "symbol", Some 1)] (notIn symbolChars); runeSym 61%Z; AWord [(KDef "symbol", Some 1)] (notIn symbolChars)] true
      [[[symbolNode 0 name]]; []; [[atomNode (List.length name + 1) (PSym w)]]] 60 "syntax".
    + constructor; [apply name_fits|]. constructor; [apply fits_exactly|]. constructor; [apply Hfit|constructor].
    + knownTwo Hn Hw.
  - absRun (@nil rune) (@nil rune) [name; [61%Z]; [46%Z]] [AWord [(KDef "symbol", Some 1)] (notIn symbolChars); runeSym 61%Z; AWord [(KDef "any-char", Some 1)] (exactly 46%Z)] true
      [[[symbolNode 0 name]]; []; [[atomNode (List.length name + 1) (PAny)]]] 60 "syntax".
    + constructor; [apply name_fits|]. constructor; [apply fits_exactly|]. constructor; [apply Hfit|constructor].
    + knownTwo Hn Hw.
  - absRun (@nil rune) (@nil rune) [name; [61%Z]; classText cnot chars ranges] [AWord [(KDef "symbol", Some 1)] (notIn symbolChars); runeSym 61%Z; AWord [(KDef "char-class", Some 1)] (exactly 91%Z)] true
      [[[symbolNode 0 name]]; []; [[atomNode (List.length name + 1) (PClass cnot chars ranges)]]] 60 "syntax".
    + constructor; [apply name_fits|]. constructor; [apply fits_exactly|]. constructor; [apply Hfit|constructor].
    + knownTwo Hn Hw.
  - absRun (@nil rune) (@nil rune) [name; [61%Z]; literalText chars] [AWord [(KDef "symbol", Some 1)] (notIn symbolChars); runeSym 61%Z; AWord [(KDef "char-sequence", Some 1)] (exactly 34%Z)] true
      [[[symbolNode 0 name]]; []; [[atomNode (List.length name + 1) (PText chars)]]] 60 "syntax".
    + constructor; [apply name_fits|]. constructor; [apply fits_exactly|]. constructor; [apply Hfit|constructor].
    + knownTwo Hn Hw.
Qed.
(** what comes behind the first atom of a sequence *)
Definition tailText (p : pitem) (l : list pitem) : list rune := quantText (pMin p) (pMax p) ++ restText l.
Theorem def_seq p l : itemOk p -> Forall itemOk l -> tailText p l <> [] -> Means published (name ++ [61%Z] ++ seqText p l) "syntax" 0
  (Match (List.length (name ++ [61%Z] ++ seqText p l)) [defTree name (seqText p l) (seqNode (List.length name + 1) p l)]).
Proof.
  intros Hp Hl Ht. unfold Means, defTree. pose proof (proj1 Hp) as Ha.
  assert (Et : seqText p l = atomText (pAtom p) ++ tailText p l) by (unfold seqText, itemText, tailText; rewrite <- app_assoc; auto).
  assert (Hb : behind (fun r => In r symbolChars) (tailText p l)) by (apply quant_stop, space_stops, rest_space).
  pose proof (atom_word (name ++ [61%Z]) (pAtom p) (tailText p l) Ha Hb) as Hw. rewrite len1 in Hw.
  pose proof (seq_word (name ++ [61%Z]) p l Hp Hl) as Hs. rewrite len1 in Hs.
  replace (S (List.length name)) with (List.length name + 1) in Hw, Hs by lia.
  pose proof (fun ks => atom_fits (pAtom p) ks Ha) as Hfit. pose proof (name_word (seqText p l)) as Hn.
  assert (Hu : fits (A := key) (AWord [] unknown) (tailText p l)) by (destruct (tailText p l); [congruence|]; split; [discriminate|exact I]).
  set (sn := seqNode (List.length name + 1) p l) in *. clearbody sn. rewrite Et in *. clear Et Hl.
  destruct p as [a mn mx]. cbn [pAtom] in *. generalize dependent (tailText (mkP a mn mx) l). intros tail Ht Hb Hw Hs Hn Hu.
  destruct a as [w| |cnot chars ranges|chars]; cbn [atomTests atomKey atomText] in Hw, Hs, Hfit, Hn |- *.
  - absRun (@nil rune) (@nil rune) [name; [61%Z]; w; tail] [AWord [(KDef "symbol", Some 1)] (notIn symbolChars); runeSym 61%Z; AWord [(KDef "symbol", Some 1); (KDef "sequence", Some 2)] (notIn symbolChars); AWord [] unknown] true
      [[[symbolNode 0 name]]; []; [[atomNode (List.length name + 1) (PSym w)]; [sn]]] 60 "syntax".
    + constructor; [apply name_fits|]. constructor; [apply fits_exactly|]. constructor; [apply Hfit|]. constructor; [apply Hu|constructor].
    + split; [split; [|exact I]|split; [split; [|split; [|exact I]]|split; exact I]].
      * eapply moved; [exact Hn|inputEq|wpEq|wpEq].
      * eapply moved; [exact Hw|inputEq|wpEq|wpEq].
      * eapply moved; [exact Hs|inputEq|wpEq|wpEq].
  - absRun (@nil rune) (@nil rune) [name; [61%Z]; [46%Z]; tail] [AWord [(KDef "symbol", Some 1)] (notIn symbolChars); runeSym 61%Z; AWord [(KDef "any-char", Some 1); (KDef "sequence", Some 2)] (exactly 46%Z); AWord [] unknown] true
      [[[symbolNode 0 name]]; []; [[atomNode (List.length name + 1) (PAny)]; [sn]]] 60 "syntax".
    + constructor; [apply name_fits|]. constructor; [apply fits_exactly|]. constructor; [apply Hfit|]. constructor; [apply Hu|constructor].
    + split; [split; [|exact I]|split; [split; [|split; [|exact I]]|split; exact I]].
      * eapply moved; [exact Hn|inputEq|wpEq|wpEq].
      * eapply moved; [exact Hw|inputEq|wpEq|wpEq].
      * eapply moved; [exact Hs|inputEq|wpEq|wpEq].
  - absRun (@nil rune) (@nil rune) [name; [61%Z]; classText cnot chars ranges; tail] [AWord [(KDef "symbol", Some 1)] (notIn symbolChars); runeSym 61%Z; AWord [(KDef "char-class", Some 1); (KDef "sequence", Some 2)] (exactly 91%Z); AWord [] unknown] true
      [[[symbolNode 0 name]]; []; [[atomNode (List.length name + 1) (PClass cnot chars ranges)]; [sn]]] 60 "syntax".
    + constructor; [apply name_fits|]. constructor; [apply fits_exactly|]. constructor; [apply Hfit|]. constructor; [apply Hu|constructor].
    + split; [split; [|exact I]|split; [split; [|split; [|exact I]]|split; exact I]].
      * eapply moved; [exact Hn|inputEq|wpEq|wpEq].
      * eapply moved; [exact Hw|inputEq|wpEq|wpEq].
      * eapply moved; [exact Hs|inputEq|wpEq|wpEq].
  - absRun (@nil rune) (@nil rune) [name; [61%Z]; literalText chars; tail] [AWord [(KDef "symbol", Some 1)] (notIn symbolChars); runeSym 61%Z; AWord [(KDef "char-sequence", Some 1); (KDef "sequence", Some 2)] (exactly 34%Z); AWord [] unknown] true
      [[[symbolNode 0 name]]; []; [[atomNode (List.length name + 1) (PText chars)]; [sn]]] 60 "syntax".
    + constructor; [apply name_fits|]. constructor; [apply fits_exactly|]. constructor; [apply Hfit|]. constructor; [apply Hu|constructor].
    + split; [split; [|exact I]|split; [split; [|split; [|exact I]]|split; exact I]].
      * eapply moved; [exact Hn|inputEq|wpEq|wpEq].
      * eapply moved; [exact Hw|inputEq|wpEq|wpEq].
      * eapply moved; [exact Hs|inputEq|wpEq|wpEq].
Qed.
End DEF.

(** ** the definitions that the texts spell *)
Lemma depth_S n : exists k, depth n = S k.
Proof. destruct n. simpl. eauto. Qed.
Theorem spells_atom name a : Forall symbolRune name /\ name <> [] -> atomOk a -> ~ In runeError (name ++ [61%Z] ++ atomText a) ->
  spells (name ++ [61%Z] ++ atomText a) [mkTextDef (runesString name) 0%N (atomExpr a)].
Proof.
  intros Hn Ha Hv. split; auto. exists (defTree name (atomText a) (atomNode (List.length name + 1) a)). split; [apply def_atom; auto|].
  apply defTree_defs; [apply atom_part|]. destruct (depth_S (atomNode (List.length name + 1) a)) as (k & ->).
  pose proof (atom_expr k (name ++ [61%Z]) a []) as X. rewrite app_length, app_nil_r, <- app_assoc in X. exact X.
Qed.
Definition itemExprs (input : list rune) (k : nat) (it : node) : option (expr * (Z * Z)) :=
  match parts it with
  | [x] => option_map (fun e => (e, (0, 0)%Z)) (exprOf input k x)
  | [x; q] => match exprOf input k x, boundsOf input q with Some e, Some b => Some (e, b) | _, _ => None end
  | _ => None
  end.
Definition pexpr (p : pitem) : expr * (Z * Z) := (atomExpr (pAtom p), itemBounds p).
Lemma rest_exprs k l : Forall itemOk l -> forall pre, map (itemExprs (pre ++ restText l) (S k)) (restNodes (List.length pre) l) = map Some (map pexpr l).
Proof.
  induction 1 as [|p l Hp Hl IH]; intros pre; auto. cbn [restNodes restText map]. f_equal.
  - pose proof (item_expr k (pre ++ [32%Z]) p (restText l) Hp) as X. rewrite len1, <- app_assoc in X. exact X.
  - specialize (IH (pre ++ [32%Z] ++ itemText p)). rewrite <- !app_assoc in IH.
    replace (List.length (pre ++ [32%Z] ++ itemText p)) with (S (List.length pre) + List.length (itemText p)) in IH by natEq. exact IH.
Qed.
Lemma rest_part l : forall o, forallb isPart (restNodes o l) = true.
Proof. induction l as [|p l IH]; intros o; auto. cbn [restNodes forallb]. rewrite IH. auto. Qed.
Theorem spells_seq name p l : Forall symbolRune name /\ name <> [] -> itemOk p -> Forall itemOk l -> tailText p l <> [] -> ~ In runeError (name ++ [61%Z] ++ seqText p l) ->
  spells (name ++ [61%Z] ++ seqText p l) [mkTextDef (runesString name) 0%N (ESequence (map pexpr (p :: l)))].
Proof.
  intros Hn Hp Hl Ht Hv. split; auto. exists (defTree name (seqText p l) (seqNode (List.length name + 1) p l)). split; [apply def_seq; auto|].
  apply defTree_defs; [reflexivity|]. unfold seqNode.
  assert (Hd : exists k, depth (Node "sequence" (List.length name + 1) (List.length name + 1 + List.length (seqText p l)) (itemNode (List.length name + 1) p :: restNodes (List.length name + 1 + List.length (itemText p)) l)) = S (S k)).
  { cbn [depth fold_right]. destruct (depth_S (itemNode (List.length name + 1) p)) as (k & ->). match goal with |- context [Nat.max (S k) ?m] => exists (pred (Nat.max (S k) m)); lia end. }
  destruct Hd as (k & ->). cbn [exprOf nName String.eqb Ascii.eqb Bool.eqb]. rewrite parts_all by (cbn [forallb]; rewrite rest_part; auto).
  change (option_map ESequence (sequenceOpt (itemExprs (name ++ [61%Z] ++ seqText p l) (S k) (itemNode (List.length name + 1) p) ::
    map (itemExprs (name ++ [61%Z] ++ seqText p l) (S k)) (restNodes (List.length name + 1 + List.length (itemText p)) l))) = Some (ESequence (map pexpr (p :: l)))).
  pose proof (item_expr k (name ++ [61%Z]) p (restText l) Hp) as X. rewrite app_length, <- app_assoc in X.
  pose proof (rest_exprs k l Hl ((name ++ [61%Z]) ++ itemText p)) as Y. rewrite (app_length (name ++ _)), (app_length name), <- !app_assoc in Y. change (List.length [61%Z]) with 1 in Y.
  transitivity (option_map ESequence (sequenceOpt (map Some (map pexpr (p :: l))))); [|rewrite sequenceOpt_some; auto].
  do 2 f_equal. cbn [map]. f_equal; [exact X|exact Y].
Qed.
