(** Bootstrapping on the model: reading syntax.treerack with the tables of self/self.go, defining
    and initializing it gives, entry by entry, the tables of self/self.go again. *)
From Verif Require Import Base Utf8 Results Parser Build Syntax SelfData SelfText Define SelfTree.
Local Open Scope string_scope.

Definition idAt (P : pheap) (a : addr) : nat :=
  match nth_error P a with Some o => nodeID o | None => 0 end.

(** what Generate writes for a parser: references become ids, the name is written for user
    definitions only (sequencedefine.go:315, choicedefine.go:174), a char has none *)
Definition writtenParser (P : pheap) (o : pobj) : pobj :=
  match o with
  | PChar _ i a b c => PChar "" i a b c
  | PSeq n i ct it rs gs ac => PSeq (if hasFlag ct CUserDefined then n else "") i ct (map (idAt P) it) rs gs ac
  | PChoice n i ct os gs => PChoice (if hasFlag ct CUserDefined then n else "") i ct (map (idAt P) os) gs
  end.
(** and for a builder: the name is written unless it is an alias (sequencedefine.go:380,
    choicedefine.go:226), a charBuilder has no fields (chardefine.go:114) *)
Definition writtenBuilder (P : pheap) (o : pobj) : pobj :=
  match o with
  | PChar _ _ _ _ _ => PChar "" 0 false [] []
  | PSeq n i ct it rs gs ac => PSeq (if hasFlag ct CAlias then "" else n) i ct (map (idAt P) it) rs gs ac
  | PChoice n i ct os gs => PChoice (if hasFlag ct CAlias then "" else n) i ct (map (idAt P) os) gs
  end.

Definition tableEntry (f : pheap -> pobj -> pobj) (P : pheap) (a : addr) : pobj :=
  match nth_error P a with Some o => f P o | None => PChar "" 0 true [] [] end.

(** the tables that Generate writes for an initialized syntax, in the order of the ids *)
Definition tablesOf (s : syntax) : option (pheap * pheap * nat) :=
  match sRegistry s, sRoot s with
  | Some reg, Some root =>
    Some (map (tableEntry writtenParser (parsers s)) (gDefinitions reg),
          map (tableEntry writtenBuilder (parsers s)) (gDefinitions reg),
          idAt (parsers s) root)
  | _, _ => None
  end.

Definition bootstrap (fuel : nat) (text : string) : option (pheap * pheap * nat) :=
  match ReadSyntax fuel emptySyntax (stringRunes text) REof with
  | Ok (s, None) =>
    match Init fuel s with
    | Ok (s, None) => tablesOf s
    | _ => None
    end
  | _ => None
  end.

Fixpoint listEqb {A} (e : A -> A -> bool) (a b : list A) : bool :=
  match a, b with
  | [], [] => true
  | x :: a', y :: b' => e x y && listEqb e a' b'
  | _, _ => false
  end.
Lemma listEqb_eq {A} (e : A -> A -> bool) (He : forall x y, e x y = true -> x = y) a :
  forall b, listEqb e a b = true -> a = b.
Proof.
  induction a as [|x a IH]; intros [|y b] H; simpl in H; try discriminate; auto.
  apply andb_true_iff in H. destruct H. f_equal; auto.
Qed.
Definition pairEqb (x y : Z * Z) : bool := Z.eqb (fst x) (fst y) && Z.eqb (snd x) (snd y).
Lemma pairEqb_eq x y : pairEqb x y = true -> x = y.
Proof.
  destruct x, y; unfold pairEqb; simpl; rewrite andb_true_iff; intros [H1 H2].
  apply Z.eqb_eq in H1, H2. subst; auto.
Qed.
Definition pobjEqb (a b : pobj) : bool :=
  match a, b with
  | PChar n i c ch r, PChar n' i' c' ch' r' =>
    String.eqb n n' && Nat.eqb i i' && Bool.eqb c c' && listEqb Z.eqb ch ch' && listEqb pairEqb r r'
  | PSeq n i c it r g al, PSeq n' i' c' it' r' g' al' =>
    String.eqb n n' && Nat.eqb i i' && N.eqb c c' && listEqb Nat.eqb it it' && listEqb pairEqb r r'
    && listEqb Nat.eqb g g' && Bool.eqb al al'
  | PChoice n i c o g, PChoice n' i' c' o' g' =>
    String.eqb n n' && Nat.eqb i i' && N.eqb c c' && listEqb Nat.eqb o o' && listEqb Nat.eqb g g'
  | _, _ => false
  end.
Lemma pobjEqb_eq a b : pobjEqb a b = true -> a = b.
Proof.
  destruct a, b; cbn [pobjEqb]; intros H; try discriminate;
    repeat (apply andb_true_iff in H; destruct H as [H ?]);
    repeat match goal with
           | H : String.eqb _ _ = true |- _ => apply String.eqb_eq in H
           | H : Nat.eqb _ _ = true |- _ => apply Nat.eqb_eq in H
           | H : N.eqb _ _ = true |- _ => apply N.eqb_eq in H
           | H : Bool.eqb _ _ = true |- _ => apply Bool.eqb_prop in H
           | H : listEqb Nat.eqb _ _ = true |- _ => apply listEqb_eq in H; [|apply Nat.eqb_eq]
           | H : listEqb Z.eqb _ _ = true |- _ => apply listEqb_eq in H; [|apply Z.eqb_eq]
           | H : listEqb pairEqb _ _ = true |- _ => apply listEqb_eq in H; [|apply pairEqb_eq]
           end; subst; reflexivity.
Qed.
Definition tablesEqb (a : option (pheap * pheap * nat)) (p q : pheap) (r : nat) : bool :=
  match a with
  | Some (p', q', r') => listEqb pobjEqb p' p && listEqb pobjEqb q' q && Nat.eqb r' r
  | None => false
  end.
Lemma tablesEqb_eq a p q r : tablesEqb a p q r = true -> a = Some (p, q, r).
Proof.
  destruct a as [[[p' q'] r']|]; simpl; intros H; [|discriminate].
  apply andb_true_iff in H; destruct H as [H H3]. apply andb_true_iff in H; destruct H as [H1 H2].
  apply listEqb_eq in H1; [|apply pobjEqb_eq]. apply listEqb_eq in H2; [|apply pobjEqb_eq].
  apply Nat.eqb_eq in H3. subst; auto.
Qed.

Theorem bootstrap_fixpoint :
  bootstrap 3000 selfText = Some (tl selfParsers, tl selfBuilders, selfRoot).
Proof. unfold bootstrap. rewrite self_read. apply tablesEqb_eq. vm_compute. reflexivity. Qed.
