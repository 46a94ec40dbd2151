(** Model of results.go.
    [match[offset]] is a flat []int of (id, to) pairs, dropped pairs have id -1: here a list of
    [(option id * to)].  [isPending[id]] is a []int of offsets with -1 for free slots: here a list
    of [option offset].  Slices have no capacity here (see Cap.v). *)
From Verif Require Import Base IdSet.

(** results.go:3-7 results *)
Record results := mkResults {
  rNoMatch : list (option idSet);
  rMatch : list (list (option nat * nat));
  rPending : list (list (option nat)) }.

(** context.go:29: [&results{}] *)
Definition emptyResults : results := mkResults [] [] [].

(** results.go:9-25 and 27-43 ensureOffsetInts, ensureOffsetIDs: make the slice long enough *)
Definition ensureOffset {A} (d : A) (l : list A) (offset : nat) : list A :=
  l ++ repeat d (S offset - List.length l).

(** the comparison of results.go:49, 84-88 and 129-133 *)
Definition entryIs (id to : nat) (e : option nat * nat) : bool :=
  match fst e with
  | Some i => (i =? id) && (snd e =? to)
  | None => false
  end.
(** the comparison of results.go:62 and 103 *)
Definition entryId (id : nat) (e : option nat * nat) : bool :=
  match fst e with
  | Some i => i =? id
  | None => false
  end.

(** the row [r.match[offset]], empty when the slice is shorter *)
Definition matchRow (r : results) (offset : nat) : list (option nat * nat) :=
  nth offset (rMatch r) [].

(** results.go:45-57 setMatch *)
Definition setMatch (r : results) (offset id to : nat) : results :=
  let m := ensureOffset [] (rMatch r) offset in
  if existsb (entryIs id to) (nth offset m [])
  then mkResults (rNoMatch r) m (rPending r)
  else mkResults (rNoMatch r) (updNth offset (fun row => row ++ [(Some id, to)]) m) (rPending r).

(** results.go:59-76 setNoMatch *)
Definition setNoMatch (r : results) (offset id : nat) : results :=
  if existsb (entryId id) (matchRow r offset) then r
  else
    let nm := ensureOffset None (rNoMatch r) offset in
    mkResults
      (updNth offset (fun s => Some (idset_set (match s with Some s => s | None => [] end) id)) nm)
      (rMatch r) (rPending r).

(** results.go:78-94 hasMatchTo *)
Definition hasMatchTo (r : results) (offset id to : nat) : bool :=
  existsb (entryIs id to) (matchRow r offset).

(** results.go:96-116 longestMatch: [Some to] is (to, true), [None] is (_, false) *)
Fixpoint longestIn (id : nat) (row : list (option nat * nat)) (acc : option nat) : option nat :=
  match row with
  | [] => acc
  | e :: row' =>
    if entryId id e
    then longestIn id row'
           (match acc with
            | None => Some (snd e)
            | Some t => if t <? snd e then Some (snd e) else Some t
            end)
    else longestIn id row' acc
  end.
(** results.go:96-116 *)
Definition longestMatch (r : results) (offset id : nat) : option nat :=
  longestIn id (matchRow r offset) None.

(** results.go:118-125 longestResult: the three answers (0,false,true), (to,true,true), (_,false,false) *)
Inductive lresult := LNoMatch | LMatch (to : nat) | LUnknown.

(** the condition of results.go:119 *)
Definition noMatchHas (r : results) (offset id : nat) : bool :=
  match nth_error (rNoMatch r) offset with
  | Some (Some s) => idset_has s id
  | _ => false
  end.

(** results.go:118-125 *)
Definition longestResult (r : results) (offset id : nat) : lresult :=
  if noMatchHas r offset id then LNoMatch
  else match longestMatch r offset id with
       | Some to => LMatch to
       | None => LUnknown
       end.

(** results.go:127-138 dropMatchTo: only the first such pair is dropped *)
Fixpoint dropIn (id to : nat) (row : list (option nat * nat)) : list (option nat * nat) :=
  match row with
  | [] => []
  | e :: row' => if entryIs id to e then (None, snd e) :: row' else e :: dropIn id to row'
  end.
(** results.go:127-138; r.match[offset] panics when there is no such row *)
Definition dropMatchTo (r : results) (offset id to : nat) : res results :=
  if List.length (rMatch r) <=? offset then Panic PanicIndex
  else Ok (mkResults (rNoMatch r) (updNth offset (dropIn id to) (rMatch r)) (rPending r)).

(** results.go:140-142 resetPending *)
Definition resetPending (r : results) : results := mkResults (rNoMatch r) (rMatch r) [].

(** the comparison of results.go:150 and 172 *)
Definition slotIs (offset : nat) (s : option nat) : bool :=
  match s with Some o => o =? offset | None => false end.

(** results.go:144-156 pending *)
Definition pending (r : results) (offset id : nat) : bool :=
  existsb (slotIs offset) (nth id (rPending r) []).

(** results.go:160-167: the first free slot gets the offset, otherwise it is appended *)
Fixpoint markIn (offset : nat) (slots : list (option nat)) : list (option nat) :=
  match slots with
  | [] => [Some offset]
  | None :: slots' => Some offset :: slots'
  | Some o :: slots' => Some o :: markIn offset slots'
  end.

(** results.go:158-168 markPending *)
Definition markPending (r : results) (offset id : nat) : results :=
  mkResults (rNoMatch r) (rMatch r) (updNth id (markIn offset) (ensureOffset [] (rPending r) id)).

(** the loop of results.go:171-176 *)
Fixpoint unmarkIn (offset : nat) (slots : list (option nat)) : list (option nat) :=
  match slots with
  | [] => []
  | s :: slots' => if slotIs offset s then None :: slots' else s :: unmarkIn offset slots'
  end.

(** results.go:170-177 unmarkPending *)
Definition unmarkPending (r : results) (offset id : nat) : res results :=
  if List.length (rPending r) <=? id then Panic PanicIndex
  else Ok (mkResults (rNoMatch r) (rMatch r) (updNth id (unmarkIn offset) (rPending r))).
