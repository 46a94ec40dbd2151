(** The names of the children in the tree of a syntax text. *)
From Verif Require Import Base Utf8 Parser Build Syntax Grammar WsLang RefSpec RefCheck ReadSpec SelfGrammar SelfLang Shape.
Local Open Scope string_scope.
Local Open Scope list_scope.
Local Open Scope nat_scope.

Definition expressionNames : list string := ["any-char"; "char-class"; "char-sequence"; "symbol"; "sequence"; "choice"].
Definition quantityNames : list string := ["count-quantifier"; "range-quantifier"; "one-or-more"; "zero-or-more"; "zero-or-one"].
Definition flagNames : list string := ["alias"; "ws"; "nows"; "kw"; "nokw"; "failpass"; "root"].

(** the children of a node with this name, comments aside *)
Definition contents : list (string * re) := [
  ("char-range", Cat (Sym "class-char") (Sym "class-char"));
  ("char-class", Cat (Alt Eps (Sym "class-not")) (Star (oneOf ["class-char"; "char-range"])));
  ("char-sequence", Star (Sym "sequence-char"));
  ("count-quantifier", Sym "count");
  ("range-quantifier", Cat (Alt Eps (Sym "range-from")) (Alt Eps (Sym "range-to")));
  ("item", Cat (oneOf expressionNames) (Alt Eps (oneOf quantityNames)));
  ("sequence", Cat (Sym "item") (Star (Sym "item")));
  ("choice", Cat (oneOf expressionNames) (Cat (oneOf expressionNames) (Star (oneOf expressionNames))));
  ("definition", Cat (Cat (Sym "symbol") (Star (oneOf flagNames))) (oneOf expressionNames));
  ("syntax", Alt Eps (Cat (Sym "definition") (Alt Eps (Cat (Sym "definition") (Star (Sym "definition"))))))
].
Definition content (n : string) : re := match find (fun p => String.eqb n (fst p)) contents with Some p => snd p | None => Eps end.

(** the nodes of a key, from the table of the graph *)
Fixpoint expand (n : nat) (k : key) : re :=
  match n with
  | O => Eps
  | S n' =>
    if key_eq k (KDef "expression") then oneOf expressionNames else
    match look selfGraph k with
    | Some (Some (GSeq (Some l) _ _)) | Some (Some (GChoice (Some l) _)) => symbolRe l
    | Some (Some (GSeq None _ items)) => itemsRe (expand n') items
    | Some (Some (GChoice None options)) => optionsRe (expand n') options
    | _ => Eps
    end
  end.
Definition selfRes : list (key * re) := Eval vm_compute in map (fun p => (fst p, expand 12 (fst p))) selfGraph.
Definition reOf (k : key) : re := match look selfRes k with Some r => r | None => Eps end.
Lemma self_objs : forallb (fun p => match snd p with Some g => objOk reOf content (fst p) g | None => true end) selfGraph = true.
Proof. vm_compute. reflexivity. Qed.
Lemma self_ok k g : graphOf published k = Some g -> objOk reOf content k g = true.
Proof.
  intros H. pose proof self_objs as X. rewrite <- selfGraph_eq in X. rewrite forallb_forall in X.
  assert (In (k, graphOf published k) (map (fun k => (k, graphOf published k)) (keysOf published))) as Hin.
  { apply in_map_iff. exists k. split; auto. apply keys_cover. congruence. }
  apply X in Hin. cbn [fst snd] in Hin. rewrite H in Hin. exact Hin.
Qed.
Theorem self_shaped input o t n : Means published input "syntax" o (Match t [n]) -> nName n = "syntax" /\ shaped content n.
Proof.
  intros (_ & f & H). pose proof (eval_good _ _ _ _ _ self_ok f _ _ _ _ H) as [H1 H2]. inversion H2; subst. split; auto.
  apply (within_ok _ (Sym "syntax")) in H1; [|vm_compute; reflexivity]. unfold heard in H1. simpl in H1. destruct (String.eqb (nName n) "comment"); simpl in H1; inversion H1; auto.
Qed.
