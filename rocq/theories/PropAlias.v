(** C44: slices that the caller and the syntax share.  Histories: AliasSpec.v. *)
From Verif Require Import Base Utf8 Parser Build Syntax Alias AliasSpec AliasFacts.

(** A definition call leaves the memory of the caller as it was: every history, every call, also one
    that returns an error. *)
Theorem C44_define_partial : forall st c st' e, history st -> sliceDefine st c = (st', e) -> aMemory st' = aMemory st.
Proof. exact define_memory. Qed.
(** Init and Parse change nothing but items of sequences, and those only to their normal form
    (normalizeItemRange).  Full statement: they change nothing; false by C44_refuted. *)
Theorem C44_init_partial : forall st fuel st' e, history st -> sliceInit fuel st = Ok (st', e) ->
  normalizedSome (aMemory st) (aMemory st').
Proof. exact init_memory. Qed.
Theorem C44_parse_partial : forall st fuel input r st' o, history st -> sliceParse fuel st input r = Ok (st', o) ->
  normalizedSome (aMemory st) (aMemory st').
Proof. exact parse_memory. Qed.
(** When the caller changes nothing, a syntax defined with slices behaves as the one defined with
    their contents: errors of the definitions, of Init, results of Parse, before and after Init. *)
Theorem C44_unchanged : forall m calls st es, sliceDefines (mkShared emptySyntax [] m) calls = (st, es) ->
  aMemory st = m /\
  exists s, valueDefines emptySyntax (map (contents m) calls) = (s, es) /\
    (forall fuel, errorOf (sliceInit fuel st) = errorOf (Init fuel s)) /\
    (forall fuel input r, parseOf (sliceParse fuel st input r) = parseOf (Parse fuel s input r)) /\
    (forall fuel st1, sliceInit fuel st = Ok (st1, None) -> exists s1, Init fuel s = Ok (s1, None) /\
       forall fuel' input r, parseOf (sliceParse fuel' st1 input r) = parseOf (Parse fuel' s1 input r)).
Proof. exact unchanged. Qed.
(** After an Init without an error the caller may change items of sequences, names of options and
    everything that is not an array of characters or ranges: no Parse gives another result, and
    Parse does not write to the memory.  Full statement: and characters too; false by
    C44_later_refuted. *)
Theorem C44_later_partial : forall st fuel st1 m input r fuel', history st -> sliceInit fuel st = Ok (st1, None) ->
  sameChars (aMemory st1) m ->
  parseOf (sliceParse fuel' (withMemory st1 m) input r) = parseOf (sliceParse fuel' st1 input r) /\
  forall st2 o, sliceParse fuel' (withMemory st1 m) input r = Ok (st2, o) -> aMemory st2 = m.
Proof. exact later. Qed.

(** ** a = [x]; b = [y]; s = a, with the items in an array of two, the second of which is b *)
Definition mem0 : memory := [ARunes [120%Z; 121%Z]; ARanges []; AItems [mkItem "a" 0 0; mkItem "b" 2 (-7)]; ANames ["a"; "b"]%string].
Definition cls : list slicecall :=
  [SClass "a" 0%N false (mkSlice 0 0 1) (mkSlice 1 0 0);
   SClass "b" 0%N false (mkSlice 0 1 1) (mkSlice 1 0 0);
   SChoice "c" 0%N (mkSlice 3 0 2);
   SSequence "s" CRoot (mkSlice 2 0 1)]%string.
Definition st0 : shared := fst (sliceDefines (mkShared emptySyntax [] mem0) cls).
Definition st1 : shared := match sliceInit 50 st0 with Ok (st, _) => st | _ => st0 end.
Definition isTree (x : res parseOut) : bool := match x with Ok (Tree _ _) => true | _ => false end.
Definition accepts (st : shared) (input : list rune) : bool := isTree (parseOf (sliceParse 50 st input REof)).

Lemma st0_history : history st0.
Proof. apply (defines_history cls (mkShared emptySyntax [] mem0) st0 (snd (sliceDefines (mkShared emptySyntax [] mem0) cls))); [apply hi_new|]. unfold st0. destruct (sliceDefines _ cls). reflexivity. Qed.
Example C44_example_defined : snd (sliceDefines (mkShared emptySyntax [] mem0) cls) = [None; None; None; None].
Proof. vm_compute. reflexivity. Qed.
Example C44_example_init : sliceInit 50 st0 = Ok (st1, None) /\ accepts st1 [120%Z] = true /\ accepts st1 [121%Z] = false /\
  aMemory st1 = [ARunes [120%Z; 121%Z]; ARanges []; AItems [mkItem "a" 1 1; mkItem "b" 2 (-7)]; ANames ["a"; "b"]%string].
Proof. vm_compute. auto. Qed.
Example C44_example_later : let m := [ARunes [120%Z; 121%Z]; ARanges []; AItems [mkItem "b" 5 5]; ANames []] in
  sameChars (aMemory st1) m /\ accepts (withMemory st1 m) [120%Z] = true.
Proof. split; [|vm_compute; auto]. intros [|[|[|[|[|i]]]]]; vm_compute; auto. Qed.

(** Init writes to the slice of the caller: {0, 0} in the items of a sequence becomes {1, 1}. *)
Theorem C44_refuted : exists st fuel st', history st /\ sliceInit fuel st = Ok (st', None) /\ aMemory st' <> aMemory st.
Proof. exists st0, 50, st1. split; [apply st0_history|]. split; [apply C44_example_init|]. vm_compute. discriminate. Qed.
(** The caller changes a character of a class after Init: Parse takes another language. *)
Theorem C44_later_refuted : exists st fuel st' m input fuel', history st /\ sliceInit fuel st = Ok (st', None) /\
  isTree (parseOf (sliceParse fuel' st' input REof)) = true /\
  isTree (parseOf (sliceParse fuel' (withMemory st' m) input REof)) = false.
Proof.
  exists st0, 50, st1, [ARunes [122%Z; 121%Z]; ARanges []; AItems [mkItem "a" 1 1; mkItem "b" 2 (-7)]; ANames ["a"; "b"]%string], [120%Z], 50.
  split; [apply st0_history|]. split; [apply C44_example_init|]. vm_compute. auto.
Qed.
(** The caller uses the slice of the items again, before Init: the sequence defined first changes. *)
Theorem C44_before_refuted : exists st m input fuel, history st /\
  isTree (parseOf (sliceParse fuel st input REof)) = true /\
  isTree (parseOf (sliceParse fuel (withMemory st m) input REof)) = false.
Proof.
  exists st0, [ARunes [120%Z; 121%Z]; ARanges []; AItems [mkItem "b" 0 0; mkItem "b" 2 (-7)]; ANames ["a"; "b"]%string], [120%Z], 50.
  split; [apply st0_history|]. vm_compute. auto.
Qed.

Print Assumptions C44_define_partial.
Print Assumptions C44_init_partial.
Print Assumptions C44_parse_partial.
Print Assumptions C44_unchanged.
Print Assumptions C44_later_partial.
Print Assumptions C44_refuted.
Print Assumptions C44_later_refuted.
Print Assumptions C44_before_refuted.
