(** Model of the lazily created parsers and builders, and of Parse calls that run concurrently:
    syntax.go:347-354, 442-448, sequencedefine.go:129-188, choicedefine.go:85-135, chardefine.go:34-41.

    [D] holds the definitions of an initialized syntax in the form of Syntax.parsers: the object at
    address [d] has the fields of the definition, and the addresses of its item or option
    definitions.  The shared memory holds the fields sparser, sbuilder, cparser and cbuilder of the
    definitions, and the parsers and builders.  A step of a thread is one read or write of such a
    field, or an append to items or options.  Simplifications: memory is sequentially consistent;
    an append is one step; charParser is its own parser; the charBuilder objects, which builder()
    allocates at every call, are never changed or compared, and one object per definition stands
    for them; parsing the input, which only reads the shared memory, is one step. *)
From Verif Require Import Base Utf8 Parser Build Syntax.

(** the cached pointers (false: parser, true: builder), the last assignment first; the objects *)
Record shared := mkShared { shCache : list ((bool * addr) * addr); shObjs : pheap }.
(** model only: which definition and which of its two fields *)
Definition keyEqb (a b : bool * addr) : bool := (Bool.eqb (fst a) (fst b) && (snd a =? snd b))%bool.
(** the last value assigned to a field *)
Fixpoint lookup (l : list ((bool * addr) * addr)) (k : bool * addr) : option addr :=
  match l with [] => None | (k', p) :: l' => if keyEqb k' k then Some p else lookup l' k end.
(** sequencedefine.go:147-148, 175-176, choicedefine.go:102-103, 127-128: the value of the field, nil is None *)
Definition cached (sh : shared) (b : bool) (d : addr) : option addr := lookup (shCache sh) (b, d).

(** the object that createParser and createBuilder make: no items or options yet *)
Definition emptied (o : pobj) : pobj :=
  match o with
  | PChar n i x cs rs => PChar n i x cs rs
  | PSeq n i c _ rs gs ac => PSeq n i c [] rs gs ac
  | PChoice n i c _ gs => PChoice n i c [] gs
  end.
(** append to items or options *)
Definition addKid (p : addr) (o : pobj) : pobj :=
  match o with
  | PChar n i x cs rs => PChar n i x cs rs
  | PSeq n i c it rs gs ac => PSeq n i c (it ++ [p]) rs gs ac
  | PChoice n i c os gs => PChoice n i c (os ++ [p]) gs
  end.
(** itemDefs, sequencedefine.go:140-145, 168-173, or optionDefs, choicedefine.go:95-100, 120-125 *)
Definition subDefs (o : pobj) : list addr :=
  match o with PChar _ _ _ _ _ => [] | PSeq _ _ _ items _ _ _ => items | PChoice _ _ _ options _ => options end.

(** after Init and before the first Parse: only the character parsers exist *)
Definition freshMemory (D : pheap) : shared := mkShared [] (map emptied D).

(** a frame: the definition whose items or options are being created, and the index reached *)
Definition frame := (addr * nat)%type.
(** where a thread is in parser() or builder(): sequencedefine.go:129-183, choicedefine.go:86-135 *)
Inductive control :=
| Idle
| Enter (b : bool) (d : addr) (st : list frame)       (* parser() or builder() of d is called *)
| Create (b : bool) (d : addr) (st : list frame)      (* the field was nil *)
| Loop (b : bool) (d : addr) (i : nat) (st : list frame) (* the i-th item or option is next *)
| Return (b : bool) (p : addr) (st : list frame)      (* p is returned to the frame *)
| Finished (out : res parseOut).
(** a call of Parse: its input, the calls of parser() and builder() that are left, the pointers
    they have returned *)
Record thread := mkThread { tInput : list rune; tEnd : rend; tTodo : list (bool * addr); tGot : list addr; tCtl : control }.
(** the thread goes on at another place *)
Definition goto (t : thread) (c : control) : thread := mkThread (tInput t) (tEnd t) (tTodo t) (tGot t) c.

(** syntax.go:447: root.parser(), root.builder(), then the keywords *)
Definition parseThread (root : addr) (kws : list addr) (input : list rune) (e : rend) : thread :=
  mkThread input e ((false, root) :: (true, root) :: map (fun k => (false, k)) kws) [] Idle.

(** one step of a thread: sequencedefine.go:129-183, choicedefine.go:86-135, and syntax.go:442-448 at its end *)
Definition tstep (D : pheap) (fuel : nat) (sh : shared) (t : thread) : option (shared * thread) :=
  match tCtl t with
  | Finished _ => None
  | Idle =>
    match tTodo t with
    | (b, d) :: todo => Some (sh, mkThread (tInput t) (tEnd t) todo (tGot t) (Enter b d []))
    | [] =>
      match tGot t with
      | p :: b :: kws => Some (sh, goto t (Finished (parseInputPB (shObjs sh) (shObjs sh) kws p b fuel (tInput t) (tEnd t))))
      | _ => None
      end
    end
  | Enter b d st =>
    match nth_error D d with
    | None => Some (sh, goto t (Finished (Panic PanicNil)))
    | Some (PChar _ _ _ _ _) => Some (sh, goto t (Return b d st))
    | Some _ =>
      match cached sh b d with
      | Some p => Some (sh, goto t (Return b p st))
      | None => Some (sh, goto t (Create b d st))
      end
    end
  | Create b d st =>
    match nth_error D d with
    | None => Some (sh, goto t (Finished (Panic PanicNil)))
    | Some o =>
      Some (mkShared (((b, d), List.length (shObjs sh)) :: shCache sh) (shObjs sh ++ [emptied o]), goto t (Loop b d 0 st))
    end
  | Loop b d i st =>
    match nth_error D d with
    | None => Some (sh, goto t (Finished (Panic PanicNil)))
    | Some o =>
      match nth_error (subDefs o) i with
      | Some x => Some (sh, goto t (Enter b x ((d, i) :: st)))
      | None =>
        match cached sh b d with
        | Some p => Some (sh, goto t (Return b p st))
        | None => Some (sh, goto t (Finished (Panic PanicNil)))
        end
      end
    end
  | Return b p [] => Some (sh, mkThread (tInput t) (tEnd t) (tTodo t) (tGot t ++ [p]) Idle)
  | Return b p ((d, i) :: st) =>
    match cached sh b d with
    | Some q => Some (mkShared (shCache sh) (updNth q (addKid p) (shObjs sh)), goto t (Loop b d (S i) st))
    | None => Some (sh, goto t (Finished (Panic PanicNil)))
    end
  end.

(** a step of one of the threads *)
Inductive cstep (D : pheap) (fuel : nat) : shared * list thread -> shared * list thread -> Prop :=
| cstep_one sh ts i t sh' t' : nth_error ts i = Some t -> tstep D fuel sh t = Some (sh', t') ->
    cstep D fuel (sh, ts) (sh', updNth i (fun _ => t') ts).
(** any number of steps *)
Inductive csteps (D : pheap) (fuel : nat) : shared * list thread -> shared * list thread -> Prop :=
| csteps_refl x : csteps D fuel x x
| csteps_more x y z : cstep D fuel x y -> csteps D fuel y z -> csteps D fuel x z.
