(** Specification of the calls of Parse of one initialized syntax, in turn or at the same time. *)
From Verif Require Import Base Utf8 Parser Build Syntax Grammar ApiSpec DefSpec GenSpec Conc.

(** a syntax on which some calls of the API, the last one a successful Init, have been made *)
Definition Ready (s : syntax) : Prop := exists s0, apiSteps emptySyntax s0 /\ Inits s0 s None.
(** the calls of Parse with the given inputs, none of them has made a step *)
Definition startAll (s : syntax) (inputs : list (list rune * rend)) : list thread :=
  match sRoot s with
  | Some root => map (fun i => parseThread root (sKeywords s) (fst i) (snd i)) inputs
  | None => []
  end.
(** the steps of calls of Parse from one state of the shared memory and the calls to another *)
Definition Steps (s : syntax) (fuel : nat) := csteps (parsers s) fuel.
Definition returned (t : thread) (out : res parseOut) : Prop := tCtl t = Finished out.
(** a call of Parse, with no other call at the same time *)
Definition Lone (s : syntax) (fuel : nat) (sh : shared) (input : list rune) (e : rend) (sh' : shared) (out : res parseOut) : Prop :=
  exists t, Steps s fuel (sh, startAll s [(input, e)]) (sh', [t]) /\ returned t out.
(** the memory after a number of calls of Parse, one after the other *)
Inductive inTurn (s : syntax) : nat -> shared -> Prop :=
| turn_none : inTurn s 0 (freshMemory (parsers s))
| turn_one k sh fuel input e sh' out : inTurn s k sh -> Lone s fuel sh input e sh' out -> inTurn s (S k) sh'.

(** the steps of a schedule: the index of the call that makes the next step *)
Fixpoint follow (D : pheap) (fuel : nat) (schedule : list nat) (x : shared * list thread) : option (shared * list thread) :=
  match schedule with
  | [] => Some x
  | i :: schedule' =>
    match nth_error (snd x) i with
    | None => None
    | Some t =>
      match tstep D fuel (fst x) t with
      | None => None
      | Some (sh, t') => follow D fuel schedule' (sh, updNth i (fun _ => t') (snd x))
      end
    end
  end.
