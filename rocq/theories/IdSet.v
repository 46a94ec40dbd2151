(** Model of idset.go.  strconv.IntSize is 64.  Words are [N]; all of them stay below 2^64
    (theorem C28_words), so no wrap-around is written. *)
From Verif Require Import Base.

(** idset.go: the words of the set *)
Definition idSet := list N.

(** idset.go:9-11 divModBits *)
Definition divModBits (id : nat) : nat * nat := (id / 64, id mod 64)%nat.

(** idset.go:13-27 set.  Growth: the slice gets length d+1 at least, new words are zero.  The
    capacity dependent length is modelled in Cap.v. *)
Definition idset_set (s : idSet) (id : nat) : idSet :=
  let (d, m) := divModBits id in
  let s := s ++ repeat 0%N (S d - List.length s) in
  updNth d (fun w => N.lor w (N.shiftl 1 (N.of_nat m))) s.

(** idset.go:29-36 unset *)
Definition idset_unset (s : idSet) (id : nat) : idSet :=
  let (d, m) := divModBits id in
  if List.length s <=? d then s
  else updNth d (fun w => N.ldiff w (N.shiftl 1 (N.of_nat m))) s.

(** idset.go:38-45 has *)
Definition idset_has (s : idSet) (id : nat) : bool :=
  let (d, m) := divModBits id in
  match nth_error s d with
  | None => false
  | Some w => negb (N.eqb (N.land w (N.shiftl 1 (N.of_nat m))) 0)
  end.
