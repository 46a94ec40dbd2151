(** Model of the slices of idset.go and results.go with their capacity.

    The other files use plain lists.  Here a slice has a length and a backing array; [append]
    allocates a new array of any sufficient capacity when the old one is full, and the elements
    behind the appended ones are zero (runtime growslice).  The operations are relations because
    the runtime is free to choose the capacity. *)
From Verif Require Import Base IdSet Results.

Record slice (A : Type) := mkSlice { slLen : nat; slArr : list A }.
Arguments mkSlice {A}. Arguments slLen {A}. Arguments slArr {A}.
Definition nilSlice {A} : slice A := mkSlice 0 [].
Definition capOf {A} (s : slice A) : nat := List.length (slArr s).
(** s[:n] *)
Definition reslice {A} (n : nat) (s : slice A) : slice A := mkSlice n (slArr s).
(** s[i] = f(s[i]) *)
Definition setAt {A} (i : nat) (f : A -> A) (s : slice A) : slice A := mkSlice (slLen s) (updNth i f (slArr s)).
(** s[i], for i < len(s) *)
Definition getAt {A} (s : slice A) (i : nat) : option A := if i <? slLen s then nth_error (slArr s) i else None.

Section APPEND.
Context {A : Type} (zero : A).
(** append(s, xs...) *)
Inductive appended (s : slice A) (xs : list A) : slice A -> Prop :=
| app_fits : slLen s + List.length xs <= capOf s ->
    appended s xs (mkSlice (slLen s + List.length xs) (firstn (slLen s) (slArr s) ++ xs ++ skipn (slLen s + List.length xs) (slArr s)))
| app_grows c : capOf s < slLen s + List.length xs -> slLen s + List.length xs <= c ->
    appended s xs (mkSlice (slLen s + List.length xs)
                           (firstn (slLen s) (slArr s) ++ xs ++ repeat zero (c - (slLen s + List.length xs)))).
(** [k] times append(s, zero) *)
Inductive appendTimes : nat -> slice A -> slice A -> Prop :=
| at_done s : appendTimes 0 s s
| at_step k s s1 s2 : appended s [zero] s1 -> appendTimes k s1 s2 -> appendTimes (S k) s s2.
(** results.go:9-25, 27-43 ensureOffsetInts, ensureOffsetIDs; idset.go:15-24 is the same *)
Inductive ensured (s : slice A) (offset : nat) : slice A -> Prop :=
| en_long : offset < slLen s -> ensured s offset s
| en_cap : slLen s <= offset -> offset < capOf s -> ensured s offset (reslice (S offset) s)
| en_grow s' : slLen s <= offset -> capOf s <= offset ->
    appendTimes (S offset - capOf s) (reslice (capOf s) s) s' -> ensured s offset s'.
End APPEND.

(** idset.go:5-7, 13-27 *)
Definition cIdSet := slice N.
Inductive cSet (s : cIdSet) (id : nat) : cIdSet -> Prop :=
| c_set s' : ensured 0%N s (id / 64) s' ->
    cSet s id (setAt (id / 64) (fun w => N.lor w (N.shiftl 1 (N.of_nat (id mod 64)))) s').
(** idset.go:29-36 *)
Definition cUnset (s : cIdSet) (id : nat) : cIdSet :=
  if slLen s <=? id / 64 then s
  else setAt (id / 64) (fun w => N.ldiff w (N.shiftl 1 (N.of_nat (id mod 64)))) s.
(** idset.go:38-45 *)
Definition cHas (s : cIdSet) (id : nat) : bool :=
  match getAt s (id / 64) with
  | None => false
  | Some w => negb (N.eqb (N.land w (N.shiftl 1 (N.of_nat (id mod 64)))) 0)
  end.

(** results.go:3-7; the rows are flat lists of integers, -1 marks a dropped pair or a free slot *)
Record cResults := mkC {
  cNoMatch : slice (option cIdSet);
  cMatch : slice (slice Z);
  cPending : slice (slice Z) }.
Definition cEmpty : cResults := mkC nilSlice nilSlice nilSlice.
(** the visible elements of a slice *)
Definition elems {A} (s : slice A) : list A := firstn (slLen s) (slArr s).
Definition rowAt (s : slice (slice Z)) (i : nat) : list Z := match getAt s i with Some row => elems row | None => [] end.

(** the loops over pairs: results.go:48-54, 83-91 *)
Fixpoint rowHas (id to : Z) (row : list Z) : bool :=
  match row with
  | i :: t :: row' => if (i =? id)%Z && (t =? to)%Z then true else rowHas id to row'
  | _ => false
  end.
(** results.go:61-67 *)
Fixpoint rowHasId (id : Z) (row : list Z) : bool :=
  match row with
  | i :: _ :: row' => if (i =? id)%Z then true else rowHasId id row'
  | _ => false
  end.
(** results.go:101-115; [to] and [found] are the loop variables *)
Fixpoint rowLongest (id : Z) (row : list Z) (to : Z) (found : bool) : Z * bool :=
  match row with
  | i :: t :: row' => if (i =? id)%Z then rowLongest id row' (if (to <? t)%Z then t else to) true else rowLongest id row' to found
  | _ => (to, found)
  end.
(** results.go:128-137 *)
Fixpoint rowDrop (id to : Z) (row : list Z) : list Z :=
  match row with
  | i :: t :: row' => if (i =? id)%Z && (t =? to)%Z then (-1)%Z :: t :: row' else i :: t :: rowDrop id to row'
  | _ => row
  end.
(** results.go:160-165 and 171-176, on the visible elements; [None] when no slot is free *)
Fixpoint slotMark (offset : Z) (row : list Z) : option (list Z) :=
  match row with
  | [] => None
  | x :: row' => if (x =? -1)%Z then Some (offset :: row') else option_map (cons x) (slotMark offset row')
  end.
Fixpoint slotUnmark (offset : Z) (row : list Z) : list Z :=
  match row with
  | [] => []
  | x :: row' => if (x =? offset)%Z then (-1)%Z :: row' else x :: slotUnmark offset row'
  end.
(** a change of the visible elements in place *)
Definition overwrite {A} (l : list A) (s : slice A) : slice A := mkSlice (slLen s) (l ++ skipn (slLen s) (slArr s)).

(** results.go:45-57 *)
Inductive cSetMatch (r : cResults) (offset id to : nat) : cResults -> Prop :=
| c_match_old m : ensured nilSlice (cMatch r) offset m -> rowHas (Z.of_nat id) (Z.of_nat to) (rowAt m offset) = true ->
    cSetMatch r offset id to (mkC (cNoMatch r) m (cPending r))
| c_match_new m row row' : ensured nilSlice (cMatch r) offset m -> rowHas (Z.of_nat id) (Z.of_nat to) (rowAt m offset) = false ->
    getAt m offset = Some row -> appended 0%Z row [Z.of_nat id; Z.of_nat to] row' ->
    cSetMatch r offset id to (mkC (cNoMatch r) (setAt offset (fun _ => row') m) (cPending r)).
(** results.go:59-76 *)
Inductive cSetNoMatch (r : cResults) (offset id : nat) : cResults -> Prop :=
| c_nomatch_old : rowHasId (Z.of_nat id) (rowAt (cMatch r) offset) = true -> cSetNoMatch r offset id r
| c_nomatch_new nm p s' : rowHasId (Z.of_nat id) (rowAt (cMatch r) offset) = false -> ensured None (cNoMatch r) offset nm ->
    getAt nm offset = Some p -> cSet (match p with Some s => s | None => nilSlice end) id s' ->
    cSetNoMatch r offset id (mkC (setAt offset (fun _ => Some s') nm) (cMatch r) (cPending r)).
(** results.go:78-94 *)
Definition cHasMatchTo (r : cResults) (offset id to : nat) : bool := rowHas (Z.of_nat id) (Z.of_nat to) (rowAt (cMatch r) offset).
(** results.go:96-116 *)
Definition cLongestMatch (r : cResults) (offset id : nat) : Z * bool :=
  match getAt (cMatch r) offset with
  | None => (0%Z, false)
  | Some row => rowLongest (Z.of_nat id) (elems row) (-1)%Z false
  end.
(** results.go:118-125: (to, matched, known) *)
Definition cLongestResult (r : cResults) (offset id : nat) : Z * bool * bool :=
  if match getAt (cNoMatch r) offset with Some (Some s) => cHas s id | _ => false end then (0%Z, false, true)
  else let (to, ok) := cLongestMatch r offset id in (to, ok, ok).
(** results.go:127-138 *)
Definition cDropMatchTo (r : cResults) (offset id to : nat) : res cResults :=
  match getAt (cMatch r) offset with
  | None => Panic PanicIndex
  | Some row => Ok (mkC (cNoMatch r) (setAt offset (fun _ => overwrite (rowDrop (Z.of_nat id) (Z.of_nat to) (elems row)) row) (cMatch r)) (cPending r))
  end.
(** results.go:140-142 *)
Definition cResetPending (r : cResults) : cResults := mkC (cNoMatch r) (cMatch r) nilSlice.
(** results.go:144-156 *)
Definition cPendingAt (r : cResults) (offset id : nat) : bool := existsb (Z.eqb (Z.of_nat offset)) (rowAt (cPending r) id).
(** results.go:158-168 *)
Inductive cMarkPending (r : cResults) (offset id : nat) : cResults -> Prop :=
| c_mark_free p row l : ensured nilSlice (cPending r) id p -> getAt p id = Some row -> slotMark (Z.of_nat offset) (elems row) = Some l ->
    cMarkPending r offset id (mkC (cNoMatch r) (cMatch r) (setAt id (fun _ => overwrite l row) p))
| c_mark_new p row row' : ensured nilSlice (cPending r) id p -> getAt p id = Some row -> slotMark (Z.of_nat offset) (elems row) = None ->
    appended 0%Z row [Z.of_nat offset] row' ->
    cMarkPending r offset id (mkC (cNoMatch r) (cMatch r) (setAt id (fun _ => row') p)).
(** results.go:170-177 *)
Definition cUnmarkPending (r : cResults) (offset id : nat) : res cResults :=
  match getAt (cPending r) id with
  | None => Panic PanicIndex
  | Some row => Ok (mkC (cNoMatch r) (cMatch r) (setAt id (fun _ => overwrite (slotUnmark (Z.of_nat offset) (elems row)) row) (cPending r)))
  end.
