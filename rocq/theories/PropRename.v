(** C59: the names of the definitions. *)
From Verif Require Import Base Utf8 Parser Build Syntax Grammar ApiSpec PropRef PropRefuted PropDefine PropOrder RenameSpec RenameRun RenameApi.

(** C59: when the definitions of a syntax get other names, different ones for different ones, and
    the references follow, the definitions are accepted again, Init has the same error or none, the
    same inputs are accepted with the same tokens, and the trees and the errors are the same but
    for the names. *)
Theorem C59_renaming : forall f calls s, Defined calls s ->
  (forall n, In n (namesIn calls) -> n <> "" /\ isValidSymbol n = true /\ f n <> "" /\ isValidSymbol (f n) = true)%string ->
  (forall n m, In n (namesIn calls) -> In m (namesIn calls) -> f n = f m -> n = m) ->
  exists s', Defined (map (renameCall f) calls) s' /\
  (forall err', (exists s1, Inits s' s1 err') <-> (exists err s1, Inits s s1 err /\ err' = option_map (renameErr f) err)) /\
  forall input e,
    (forall t' toks, (exists s1, Parses s' input e s1 (Tree t' toks)) <-> (exists t s1, Parses s input e s1 (Tree t toks) /\ t' = renameNode f t)) /\
    (forall err', (exists s1, Parses s' input e s1 (Failed err')) <-> (exists err s1, Parses s input e s1 (Failed err) /\ err' = renameErr f err)) /\
    (ParsePanics s' input e <-> ParsePanics s input e).
Proof.
  intros f calls s Hd Hv Hi. destruct (renames f calls s Hd Hv Hi) as (s' & D & I1 & I2 & P). exists s'. split; auto. split.
  - intros err'. split; [auto|]. intros (err & s1 & H & ->). eauto.
  - intros input e. destruct (P input e) as (P1 & P2 & P3). split; [|split; [|tauto]].
    + intros t' toks. split.
      * intros H. destruct (P2 _ H) as ([t toks2|er] & s1 & H1 & E); [|discriminate]. injection E as -> ->. eauto.
      * intros (t & s1 & H & ->). destruct (P1 (Tree t toks)) as (s2 & H2); eauto.
    + intros err'. split.
      * intros H. destruct (P2 _ H) as ([t toks2|er] & s1 & H1 & E); [discriminate|]. injection E as ->. eauto.
      * intros (er & s1 & H & ->). destruct (P1 (Failed er)) as (s2 & H2); eauto.
Qed.

(** the left-recursive sums, with whitespace and a keyword; the new name of one is the old name of another *)
Definition newName (n : string) : string :=
  (if String.eqb n "sum" then "word" else if String.eqb n "word" then "name" else if String.eqb n "doc" then "sum" else n ++ "-2")%string.
Definition sums2 : list defcall := map (renameCall newName) sums.
Example C59_example : Defined sums (defined sums) /\ Defined sums2 (defined sums2) /\
  (forall n, In n (namesIn sums) -> n <> "" /\ isValidSymbol n = true /\ newName n <> "" /\ isValidSymbol (newName n) = true)%string /\
  (forall n m, In n (namesIn sums) -> In m (namesIn sums) -> newName n = newName m -> n = m) /\
  (exists s1, Parses (defined sums) (runesOf "a + b") REof s1 (Tree (Node "doc" 0 5 [Node "sum" 0 5 [Node "word" 0 1 []; Node "word" 4 5 []]]) (runesOf "a + b"))) /\
  (exists s1, Parses (defined sums2) (runesOf "a + b") REof s1 (Tree (Node "sum" 0 5 [Node "word" 0 5 [Node "name" 0 1 []; Node "name" 4 5 []]]) (runesOf "a + b"))).
Proof.
  split; [vm_compute; reflexivity|]. split; [vm_compute; reflexivity|].
  split; [intros n H; vm_compute in H; repeat (destruct H as [<-|H]; [vm_compute; repeat split; congruence|]); destruct H|].
  split.
  - assert (K : forall l, NoDup (map newName (nodup string_dec l)) -> forall n m, In n l -> In m l -> newName n = newName m -> n = m).
    { intros l H n m Hn Hm E. apply (nodup_In string_dec) in Hn. apply (nodup_In string_dec) in Hm. revert H Hn Hm. generalize (nodup string_dec l). clear l. intros l. induction l as [|x l IH]; simpl; intros H Hn Hm; [contradiction|].
      inversion H as [|? ? H1 H2]; subst. destruct Hn as [->|Hn], Hm as [->|Hm]; auto; exfalso; apply H1; [rewrite E|rewrite <- E]; apply in_map; auto. }
    apply K. vm_compute. repeat constructor; simpl; intuition congruence.
  - split; apply run_parse; vm_compute; reflexivity.
Qed.
(** a new name that is taken already is not possible: a definition is refused *)
Theorem C59_different_names : exists f calls s, Defined calls s /\
  (forall n, In n (namesIn calls) -> n <> "" /\ isValidSymbol n = true /\ f n <> "" /\ isValidSymbol (f n) = true)%string /\
  ~ exists s', Defined (map (renameCall f) calls) s'.
Proof.
  set (cs := [lit "a" "a"; DSequence "doc" CNone [one "a"]]%string). exists (fun _ => "x"%string), cs, (defined cs). split; [vm_compute; reflexivity|].
  split; [intros n H; vm_compute in H; repeat (destruct H as [<-|H]; [vm_compute; repeat split; congruence|]); destruct H|].
  intros (s' & H). vm_compute in H. discriminate.
Qed.

Print Assumptions C59_renaming.
Print Assumptions C59_different_names.
