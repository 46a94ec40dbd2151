(** Syntaxes made by the calls of a syntax text: their names, and what is known about their parsers. *)
From Verif Require Import Base Utf8 Parser Build Syntax ListFacts Lang Sound RunFacts Grammar WsLang ApiSpec InitSpec Rep Live LangGen Api WsObjs WsGen WsShape WsNames WsDistinct Utf8Facts WsApi ApiFacts ReadSpec.
Local Open Scope string_scope.
Local Open Scope list_scope.

Lemma raw_names calls s : rawAll emptySyntax calls = (s, None) -> NoDup (map fst (flat_map callRules calls)).
Proof.
  intros Hd. apply (rep_rawAll _ [] _ _ rep_empty), rep_nodup in Hd. simpl in Hd. rewrite <- (samePair_names _ _ (callsRules_same _)).
  replace (map fst (map objPair (flat_map callObjs calls))) with (map dName (flat_map callObjs calls)) by (rewrite map_map; auto). auto.
Qed.
Theorem raw_usable calls s : rawAll emptySyntax calls = (s, None) ->
  (hasWhitespaceDef calls -> allDefined calls /\ keywordsPlain calls /\ properNames calls) -> usable calls s.
Proof.
  intros Hd Hw. split; [eapply raw_names; eauto|]. intros fuel s' HI. destruct (hasWs_dec calls) as [Hws|Hno].
  - destruct (Hw Hws) as (Ha & Hk & Hp).
    destruct (setup_raw_ws calls s fuel s') as (PL & root & name & R1 & H1 & H2 & H3 & H4 & H5 & H6 & H7 & H8 & H9 & R0 & H10 & H11); auto.
    exists PL, root, name, R1. constructor; auto. right. split; auto. exists R0. auto.
  - destruct (setup_raw_noWs calls s fuel s' Hd Hno HI) as (PL & root & name & H1 & H2 & H3 & H4 & H5 & H6).
    exists PL, root, name, (grammarOf calls). constructor; auto.
    + intros K n w _. rewrite noWs_names by auto. symmetry. apply wgen_plain.
    + apply rootName_defined; auto.
    + intros n r. apply grammar_alias. auto.
Qed.

(** ** induction over expressions *)
Section EXPRIND.
Variable Q : expr -> Prop.
Hypothesis Hany : Q EAny.
Hypothesis Hclass : forall cn cs rs, Q (EClass cn cs rs).
Hypothesis Htext : forall cs, Q (EText cs).
Hypothesis Hsym : forall n, Q (ESymbol n).
Hypothesis Hseq : forall items, Forall (fun p => Q (fst p)) items -> Q (ESequence items).
Hypothesis Hchoice : forall options, Forall Q options -> Q (EChoice options).
Fixpoint expr_rec' (e : expr) : Q e :=
  match e with
  | EAny => Hany
  | EClass cn cs rs => Hclass cn cs rs
  | EText cs => Htext cs
  | ESymbol n => Hsym n
  | ESequence items => Hseq items ((fix go l : Forall (fun p => Q (fst p)) l := match l with [] => Forall_nil _ | x :: l' => Forall_cons x (expr_rec' (fst x)) (go l') end) items)
  | EChoice options => Hchoice options ((fix go l : Forall Q l := match l with [] => Forall_nil _ | x :: l' => Forall_cons x (expr_rec' x) (go l') end) options)
  end.
End EXPRIND.

(** ** the names of the calls *)
Definition isSymbol (e : expr) : bool := match e with ESymbol _ => true | _ => false end.
Fixpoint innerItems (name : string) (ct : commitType) (i : nat) (l : list (expr * (Z * Z))) : list defcall :=
  match l with
  | [] => []
  | (x, _) :: l' => (if isSymbol x then [] else callsOf (childName name i) (innerFlags ct) x) ++ innerItems name ct (S i) l'
  end.
Fixpoint itemRefs (name : string) (i : nat) (l : list (expr * (Z * Z))) : list seqItem :=
  match l with [] => [] | (x, (mn, mx)) :: l' => mkItem (refTo name i x) mn mx :: itemRefs name (S i) l' end.
Fixpoint innerOptions (name : string) (ct : commitType) (i : nat) (l : list expr) : list defcall :=
  match l with
  | [] => []
  | x :: l' => (if isSymbol x then [] else callsOf (childName name i) (innerFlags ct) x) ++ innerOptions name ct (S i) l'
  end.
Fixpoint optionRefs (name : string) (i : nat) (l : list expr) : list string :=
  match l with [] => [] | x :: l' => refTo name i x :: optionRefs name (S i) l' end.
Lemma callsOf_eq name ct e : callsOf name ct e =
  match e with
  | EAny => [DAnyChar name ct]
  | EClass cnot chars ranges => [DClass name ct cnot chars ranges]
  | EText chars => [DCharSequence name ct chars]
  | ESymbol n => [DSequence name ct [mkItem n 0 0]]
  | ESequence items => innerItems name ct 0 items ++ [DSequence name ct (itemRefs name 0 items)]
  | EChoice options => innerOptions name ct 0 options ++ [DChoice name ct (optionRefs name 0 options)]
  end.
Proof.
  destruct e as [| | | |items|options]; auto; cbn [callsOf].
  - f_equal; [|do 2 f_equal].
    + generalize 0. induction items as [|[x b] l IH]; intros i; [reflexivity|]. cbn [innerItems]. rewrite <- IH. destruct x; reflexivity.
    + generalize 0. induction items as [|[x [mn mx]] l IH]; intros i; [reflexivity|]. cbn [itemRefs]. rewrite <- IH. reflexivity.
  - f_equal; [|do 2 f_equal].
    + generalize 0. induction options as [|x l IH]; intros i; [reflexivity|]. cbn [innerOptions]. rewrite <- IH. destruct x; reflexivity.
    + generalize 0. induction options as [|x l IH]; intros i; [reflexivity|]. cbn [optionRefs]. rewrite <- IH. reflexivity.
Qed.

Lemma callsOf_names e : forall name ct c, comps name c -> forall d, In d (callsOf name ct e) -> exists ds, comps (callName d) (c ++ ds).
Proof.
  assert (Hone : forall name c d, comps name c -> callName d = name -> exists ds, comps (callName d) (c ++ ds)).
  { intros name c d Hc ->. exists []. rewrite app_nil_r. auto. }
  induction e as [|cn cs rs|cs|n|items IH|options IH] using expr_rec'; intros name ct c Hc d Hd; rewrite callsOf_eq in Hd;
    try (destruct Hd as [<-|[]]; eapply Hone; [exact Hc|reflexivity]).
  - apply in_app_or in Hd. destruct Hd as [Hd|[<-|[]]]; [|eapply Hone; [exact Hc|reflexivity]]. revert Hd. generalize 0.
    induction IH as [|[x b] l Hx _ IHl]; intros i Hd; [destruct Hd|]. cbn [innerItems fst] in *. apply in_app_or in Hd. destruct Hd as [Hd|Hd]; [|eauto].
    destruct (isSymbol x); [destruct Hd|]. destruct (Hx _ _ _ (comps_child _ i _ Hc) _ Hd) as [ds H]. exists (itoaNat i :: ds). rewrite <- app_assoc in H. exact H.
  - apply in_app_or in Hd. destruct Hd as [Hd|[<-|[]]]; [|eapply Hone; [exact Hc|reflexivity]]. revert Hd. generalize 0.
    induction IH as [|x l Hx _ IHl]; intros i Hd; [destruct Hd|]. cbn [innerOptions] in *. apply in_app_or in Hd. destruct Hd as [Hd|Hd]; [|eauto].
    destruct (isSymbol x); [destruct Hd|]. destruct (Hx _ _ _ (comps_child _ i _ Hc) _ Hd) as [ds H]. exists (itoaNat i :: ds). rewrite <- app_assoc in H. exact H.
Qed.
Lemma comps_single n : colonFree n -> comps n [n].
Proof. intros H. exists n, []. repeat split; auto. Qed.

(** the calls of definitions whose names have no colon and are no numbers *)
Theorem text_proper defs : (forall d, In d defs -> colonFree (tdName d) /\ ~ isItoa (tdName d)) -> properNames (flat_map textCalls defs).
Proof.
  intros H. split.
  - intros d Hd. apply in_flat_map in Hd. destruct Hd as (x & Hx & Hd). destruct (H x Hx) as [Hf _].
    destruct (callsOf_names _ _ _ _ (comps_single _ Hf) _ Hd) as [ds Hc]. eauto.
  - right. intros n l (d & Hd & <-) Hl. apply in_flat_map in Hd. destruct Hd as (x & Hx & Hd). destruct (H x Hx) as [Hf Hi].
    destruct (callsOf_names _ _ _ _ (comps_single _ Hf) _ Hd) as [ds Hc]. rewrite (comps_fun _ _ _ Hl Hc). simpl. auto.
Qed.
