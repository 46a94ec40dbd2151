(** Specification of the memo store: a set of matches, a set of failures and counted pending marks,
    and the answers the parser and the tree builder may rely on. *)
From Verif Require Import Base Cap.

(** a history of an id set: [true] is set, [false] is unset *)
Inductive idRun : list (nat * bool) -> cIdSet -> Prop :=
| run_nil : idRun [] nilSlice
| run_set h s id s' : idRun h s -> cSet s id s' -> idRun (h ++ [(id, true)]) s'
| run_unset h s id : idRun h s -> idRun (h ++ [(id, false)]) (cUnset s id).
(** the last operation on the id *)
Fixpoint lastOp (id : nat) (h : list (nat * bool)) (acc : bool) : bool :=
  match h with
  | [] => acc
  | (i, b) :: h' => lastOp id h' (if i =? id then b else acc)
  end.

Inductive memoOp :=
| OpMatch (offset id to : nat)
| OpNoMatch (offset id : nat)
| OpDrop (offset id to : nat)
| OpMark (offset id : nat)
| OpUnmark (offset id : nat)
| OpReset.

(** one call on the table of results.go, with any capacity chosen by the runtime *)
Inductive memoCall : memoOp -> cResults -> cResults -> Prop :=
| mc_match o id t c c' : cSetMatch c o id t c' -> memoCall (OpMatch o id t) c c'
| mc_noMatch o id c c' : cSetNoMatch c o id c' -> memoCall (OpNoMatch o id) c c'
| mc_drop o id t c c' : cDropMatchTo c o id t = Ok c' -> memoCall (OpDrop o id t) c c'
| mc_mark o id c c' : cMarkPending c o id c' -> memoCall (OpMark o id) c c'
| mc_unmark o id c c' : cUnmarkPending c o id = Ok c' -> memoCall (OpUnmark o id) c c'
| mc_reset c : memoCall OpReset c (cResetPending c).
(** a history of calls on a new table *)
Inductive memoRun : list memoOp -> cResults -> Prop :=
| mr_nil : memoRun [] cEmpty
| mr_call h c op c' : memoRun h c -> memoCall op c c' -> memoRun (h ++ [op]) c'.

(** the same history on sets *)
Record store := mkStore { sMatch : nat -> nat -> nat -> Prop; sFail : nat -> nat -> Prop; sMarks : nat -> nat -> nat }.
Definition emptyStore : store := mkStore (fun _ _ _ => False) (fun _ _ => False) (fun _ _ => 0).
Definition storeCall (op : memoOp) (s : store) : store :=
  match op with
  | OpMatch o id t => mkStore (fun o' id' t' => sMatch s o' id' t' \/ (o' = o /\ id' = id /\ t' = t)) (sFail s) (sMarks s)
  | OpNoMatch o id => mkStore (sMatch s) (fun o' id' => sFail s o' id' \/ (o' = o /\ id' = id /\ forall t, ~ sMatch s o id t)) (sMarks s)
  | OpDrop o id t => mkStore (fun o' id' t' => sMatch s o' id' t' /\ ~ (o' = o /\ id' = id /\ t' = t)) (sFail s) (sMarks s)
  | OpMark o id => mkStore (sMatch s) (sFail s) (fun o' id' => sMarks s o' id' + (if (id =? id') && (o =? o') then 1 else 0))
  | OpUnmark o id => mkStore (sMatch s) (sFail s) (fun o' id' => sMarks s o' id' - (if (id =? id') && (o =? o') then 1 else 0))
  | OpReset => mkStore (sMatch s) (sFail s) (fun _ _ => 0)
  end.
Definition storeRun (h : list memoOp) : store := fold_left (fun s op => storeCall op s) h emptyStore.

(** the answers of the table are those of the sets *)
Record answers (c : cResults) (s : store) : Prop := {
  an_has : forall o id t, cHasMatchTo c o id t = true <-> sMatch s o id t;
  an_longest : forall o id t, cLongestMatch c o id = (Z.of_nat t, true) <-> sMatch s o id t /\ forall t', sMatch s o id t' -> t' <= t;
  an_none : forall o id, snd (cLongestMatch c o id) = false <-> forall t, ~ sMatch s o id t;
  an_fail : forall o id, cLongestResult c o id = (0%Z, false, true) <-> sFail s o id;
  an_result : forall o id t, cLongestResult c o id = (Z.of_nat t, true, true) <->
    ~ sFail s o id /\ sMatch s o id t /\ forall t', sMatch s o id t' -> t' <= t;
  an_unknown : forall o id, snd (cLongestResult c o id) = false <-> ~ sFail s o id /\ forall t, ~ sMatch s o id t;
  an_pending : forall o id, cPendingAt c o id = true <-> 0 < sMarks s o id }.
