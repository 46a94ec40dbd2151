(** C36: comment nodes do not change what a syntax tree defines. *)
From Verif Require Import Base Utf8 Parser Build Syntax Define ParseFacts.
Local Open Scope string_scope.
Local Open Scope list_scope.

(** the second tree is the first one with comment nodes inserted, anywhere below the root *)
Inductive withComments : node -> node -> Prop :=
| wc_node name from to l l' : withCommentsIn l l' -> withComments (Node name from to l) (Node name from to l')
with withCommentsIn : list node -> list node -> Prop :=
| wc_nil : withCommentsIn [] []
| wc_comment c l l' : nName c = "comment" -> withCommentsIn l l' -> withCommentsIn l (c :: l')
| wc_keep n n' l l' : withComments n n' -> withCommentsIn l l' -> withCommentsIn (n :: l) (n' :: l').
Scheme wc_ind2 := Induction for withComments Sort Prop with wcIn_ind2 := Induction for withCommentsIn Sort Prop.
Combined Scheme wc_mutind from wc_ind2, wcIn_ind2.

Definition dropCommentsIn : list node -> list node :=
  fix go (l : list node) : list node :=
    match l with
    | [] => []
    | x :: l' => if String.eqb (nName x) "comment" then go l' else dropComments x :: go l'
    end.
Lemma dropComments_eq name from to nodes : dropComments (Node name from to nodes) = Node name from to (dropCommentsIn nodes).
Proof. reflexivity. Qed.

Lemma wc_drop :
  (forall t t', withComments t t' -> dropComments t = dropComments t') /\
  (forall l l', withCommentsIn l l' -> dropCommentsIn l = dropCommentsIn l').
Proof.
  apply (wc_mutind (fun t t' _ => dropComments t = dropComments t') (fun l l' _ => dropCommentsIn l = dropCommentsIn l')).
  - intros. rewrite !dropComments_eq. now f_equal.
  - reflexivity.
  - intros c l l' Hc _ IH. cbn [dropCommentsIn]. rewrite Hc, String.eqb_refl. exact IH.
  - intros n n' l l' Hn IHn Hl IHl. cbn [dropCommentsIn].
    assert (Hname : nName n = nName n') by (inversion Hn; auto). rewrite Hname.
    destruct (String.eqb (nName n') "comment"); [exact IHl|]. now rewrite IHn, IHl.
Qed.

(** the definitions made from a tree, and the error returned, do not depend on comment nodes *)
Theorem C36_comments : forall t t' tokens s, withComments t t' -> define tokens s t = define tokens s t'.
Proof. intros t t' tokens s H. unfold define. now rewrite (proj1 wc_drop _ _ H). Qed.
(** no comment node is left for the definitions to see *)
Inductive hasComment : node -> Prop :=
| hc_here name from to l c : In c l -> nName c = "comment" -> hasComment (Node name from to l)
| hc_below name from to l c : In c l -> hasComment c -> hasComment (Node name from to l).
Theorem C36_none_left : forall t, ~ hasComment (dropComments t).
Proof.
  fix IH 1. intros [name from to nodes]. rewrite dropComments_eq.
  assert (H : forall c, In c (dropCommentsIn nodes) -> nName c <> "comment" /\ ~ hasComment c).
  { induction nodes as [|x l IHl]; intros c Hc; [destruct Hc|]. cbn [dropCommentsIn] in Hc.
    destruct (String.eqb_spec (nName x) "comment"); [auto|]. destruct Hc as [<-|Hc]; [|auto].
    split; [destruct x; auto|apply IH]. }
  intros Hh. inversion Hh as [? ? ? ? c Hc Hn|? ? ? ? c Hc Hn]; subst; apply H in Hc; tauto.
Qed.

(** the two texts differ by comments only; their trees differ in positions, the definitions do not *)
Definition outcomeOf (text : string) : option (list (string * commitType)) :=
  match ReadSyntax 300 emptySyntax (runesOf text) REof with Ok (s, None) => Some (map (fun d => (dName d, dCommit d)) (sHeap s)) | _ => None end.
Example C36_example :
  outcomeOf "a=b;b=.;" = Some [("a", 256%N); ("b:0", 2%N); ("b", 384%N)] /\
  outcomeOf "a=/*x*/b;b=.;//" = Some [("a", 256%N); ("b:0", 2%N); ("b", 384%N)].
Proof. split; vm_compute; reflexivity. Qed.
Example C36_inserted : withComments (Node "syntax" 0 9 [Node "definition" 2 9 []])
  (Node "syntax" 0 9 [Node "comment" 0 1 []; Node "definition" 2 9 [Node "comment" 3 4 [Node "line" 3 4 []]]]).
Proof.
  apply wc_node, wc_comment; [reflexivity|]. apply wc_keep; [|constructor].
  apply wc_node, wc_comment; [reflexivity|constructor].
Qed.

Print Assumptions C36_comments.
Print Assumptions C36_none_left.
