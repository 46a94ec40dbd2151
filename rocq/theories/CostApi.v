(** The number of calls of parser.parse, for definition calls and for syntax texts. *)
From Verif Require Import Base Utf8 IdSet Results Parser Build ListFacts ResultsFacts ReaderFacts ParseFacts
  FuelFacts TermFacts BuildFacts Lang Sound RunFacts ErrFacts NoPanic Syntax Restrict Grammar WsLang ApiSpec InitWalk InitRun InitOk SyntaxFacts InitCore InitSpec InitFuel Rep Live LangGen Api
  WsNames WsApi ApiFacts GenFacts RefSpec RefFuel RefParse RefBuild RefRun RefTotal RefSim RefApi RefCheck Cost CostFacts CostBound CostSpec.
Local Open Scope string_scope.

Section RANK.
Variable calls : list defcall.
Hypothesis Hnd : NoDup (map fst (flat_map callRules calls)).
Variable rank : string -> nat.
Hypothesis Hrank : forall n ct items it, In (DSequence n ct items) calls -> In it items ->
  (exists ct' options, In (DChoice (siName it) ct' options) calls) \/ rank (siName it) < rank n.

Lemma rule_of n r : In (n, r) (flat_map callRules calls) -> grammarOf calls n = Some r.
Proof. apply ruleIn_unique. auto. Qed.

Lemma charRules_names n chars : forall i j, j < List.length chars -> exists r cn ch rs, In (childName n (i + j), r) (charRules n i chars) /\ r = RChar cn ch rs.
Proof.
  induction chars as [|c chars IH]; intros i j Hj; simpl in Hj; [lia|]. destruct j as [|j].
  - rewrite Nat.add_0_r. simpl. eexists _, _, _, _. split; [left; reflexivity|reflexivity].
  - destruct (IH (S i) j) as (r & cn & ch & rs & H1 & H2); [lia|]. exists r, cn, ch, rs. split; auto. simpl. right. replace (i + S j) with (S i + j) by lia. auto.
Qed.
Lemma item_rank n ct items it : grammarOf calls n = Some (RSeq ct items) -> In it items ->
  match grammarOf calls (siName it) with Some (RSeq _ _) => rank (siName it) < rank n | _ => True end.
Proof.
  intros H Hit. assert (Hchar : forall d m cn ch rs, In d calls -> In (m, RChar cn ch rs) (callRules d) -> grammarOf calls m = Some (RChar cn ch rs)).
  { intros d m cn ch rs Hd Hm. apply rule_of. apply in_flat_map. eauto. }
  apply ruleIn_pair in H. apply in_flat_map in H. destruct H as (d & Hd & Hin).
  destruct d as [n1 c1|n1 c1 cn ch rs|n1 c1 chars|n1 c1 items'|n1 c1 opts]; simpl in Hin.
  - destruct Hin as [H|[H|[]]]; [discriminate|]. injection H as <- <- <-. destruct Hit as [<-|[]]. simpl. rewrite (Hchar _ _ _ _ _ Hd (or_introl eq_refl)). exact I.
  - destruct Hin as [H|[H|[]]]; [discriminate|]. injection H as <- <- <-. destruct Hit as [<-|[]]. simpl. rewrite (Hchar _ _ _ _ _ Hd (or_introl eq_refl)). exact I.
  - apply in_app_or in Hin. destruct Hin as [Hin|[H|[]]]; [apply charRules_kind in Hin; destruct Hin as (? & ? & ? & Hin); discriminate|]. injection H as <- <- <-.
    apply in_map_iff in Hit. destruct Hit as (i & <- & Hi). apply in_seq in Hi. simpl in *. destruct (charRules_names n1 chars 0 i) as (r & cn & ch & rs & H1 & ->); [lia|].
    change (0 + i) with i in H1. rewrite (Hchar _ (childName n1 i) cn ch rs Hd); [exact I|]. simpl. apply in_or_app. left. auto.
  - destruct Hin as [H|[]]. injection H as <- <- <-. destruct (Hrank _ _ _ _ Hd Hit) as [(ct' & options & Hc)|Hlt].
    + rewrite (rule_of _ (RChoice ct' options)); [exact I|]. apply in_flat_map. exists (DChoice (siName it) ct' options). split; auto. left; auto.
    + destruct (grammarOf calls (siName it)) as [[]|]; auto.
  - destruct Hin as [H|[]]. discriminate.
Qed.

Definition isRSeq (n : string) : bool := match grammarOf calls n with Some (RSeq _ _) => true | _ => false end.
Definition keyRank (k : key) : nat :=
  match k with
  | KDef n => if isRSeq n then 4 * rank n + 5 else 1
  | KBody n => if isRSeq n then 4 * rank n + 4 else 0
  | KWs => 0
  | KRest n _ => 4 * rank n + 2
  | KOpt n _ => 4 * rank n + 3
  end.
Lemma keyRank_item n ct items it : grammarOf calls n = Some (RSeq ct items) -> In it items -> keyRank (KDef (siName it)) < 4 * rank n + 2.
Proof.
  intros H Hi. pose proof (item_rank _ _ _ _ H Hi) as Hr. simpl. unfold isRSeq. destruct (grammarOf calls (siName it)) as [[]|]; lia.
Qed.
Lemma spaced_rank n ct items0 : grammarOf calls n = Some (RSeq ct items0) -> forall items i, incl items items0 ->
  forall x b, In (x, b) (spacedItems n i items) -> keyRank x < 4 * rank n + 4.
Proof.
  intros H. induction items as [|it items IH]; intros i Hi x b Hx; [destruct Hx|]. cbn [spacedItems] in Hx. apply in_app_or in Hx. destruct Hx as [Hx|Hx].
  2:{ eapply IH; eauto. intros y Hy. apply Hi. right; auto. }
  pose proof (keyRank_item _ _ _ _ H (Hi it (or_introl eq_refl))) as Hk.
  assert (Hw : keyRank KWs < 4 * rank n + 4) by (simpl; lia). assert (Hr : keyRank (KRest n i) < 4 * rank n + 4) by (simpl; lia). assert (Ho : keyRank (KOpt n i) < 4 * rank n + 4) by (simpl; lia).
  destruct (bounds it) as [[|mn] [[|[|mx]]|]]; repeat (apply in_app_or in Hx || cbn [In] in Hx); destruct (Nat.eqb i 0); cbn [In spaces] in Hx;
    repeat match type of Hx with
    | _ \/ _ => destruct Hx as [Hx|Hx]
    | False => destruct Hx
    | _ = (x, b) => injection Hx as Hx _; subst x; try assumption; try lia
    end.
Qed.
Lemma keyRank_seq k l kw items x b : graphOf calls k = Some (GSeq l kw items) -> In (x, b) items -> keyRank x < keyRank k.
Proof.
  assert (Hbody : forall n, bodyOf calls n = Some (GSeq l kw items) -> In (x, b) items -> isRSeq n = true /\ keyRank x < 4 * rank n + 4).
  { intros n H Hx. unfold bodyOf in H. unfold isRSeq. destruct (grammarOf calls n) as [[|ct its|]|] eqn:Eg; try discriminate. split; auto.
    injection H as _ _ <-. destruct (_ && _)%bool.
    - eapply spaced_rank; eauto. apply incl_refl.
    - apply in_map_iff in Hx. destruct Hx as (it & E & Hit). injection E as <- _. pose proof (keyRank_item _ _ _ _ Eg Hit). lia. }
  destruct k as [n|n| |n i|n i]; cbn [graphOf]; intros H Hx.
  - destruct (_ && _)%bool.
    + injection H as _ _ <-. destruct Hx as [E|[E|[E|[]]]]; injection E as <- _; simpl; destruct (isRSeq n); lia.
    + destruct (Hbody n H Hx) as [E Hlt]. cbn [keyRank]. rewrite E. lia.
  - destruct (Hbody n H Hx) as [E Hlt]. cbn [keyRank]. rewrite E. lia.
  - discriminate.
  - unfold itemOf in H. destruct (grammarOf calls n) as [[|ct its|]|] eqn:Eg; try discriminate. destruct (nth_error its i) as [it|] eqn:Ei; [|discriminate]. cbn [option_map] in H. injection H as _ _ <-.
    destruct Hx as [E|[E|[]]]; injection E as <- _; [simpl; lia|]. exact (keyRank_item _ _ _ _ Eg (nth_error_In _ _ Ei)).
  - unfold itemOf in H. destruct (grammarOf calls n) as [[|ct its|]|] eqn:Eg; try discriminate. destruct (nth_error its i) as [it|] eqn:Ei; [|discriminate]. cbn [option_map] in H. injection H as _ _ <-.
    pose proof (keyRank_item _ _ _ _ Eg (nth_error_In _ _ Ei)) as Hk. apply in_app_or in Hx.
    assert (Hx' : x = KWs \/ x = KDef (siName it) \/ x = KRest n i).
    { destruct Hx as [Hx|[E|[E|[]]]]; [destruct (Nat.eqb i 0); [destruct Hx|destruct Hx as [E|[]]]; injection E as <- _; auto|injection E as <- _; auto|injection E as <- _; auto]. }
    change (keyRank (KOpt n i)) with (4 * rank n + 3). destruct Hx' as [H1 | [H1 | H1]]; rewrite H1; [simpl; lia|lia|simpl; lia].
Qed.
Definition topRank : nat := 4 * list_max (map rank (map fst (flat_map callRules calls))) + 5.
Lemma rank_top n : grammarOf calls n <> None -> 4 * rank n + 5 <= topRank.
Proof.
  intros H. unfold topRank. destruct (grammarOf calls n) as [r|] eqn:E; [|congruence]. apply ruleIn_pair in E. apply (in_map fst) in E. apply (in_map rank) in E. simpl in E.
  pose proof (list_max_le (map rank (map fst (flat_map callRules calls))) (list_max (map rank (map fst (flat_map callRules calls))))) as [Hm _].
  specialize (Hm (Nat.le_refl _)). rewrite Forall_forall in Hm. apply Hm in E. lia.
Qed.
Lemma keyRank_top k : graphOf calls k <> None -> keyRank k <= topRank.
Proof.
  assert (H5 : 5 <= topRank) by (unfold topRank; lia).
  assert (Hs : forall n, isRSeq n = true -> 4 * rank n + 5 <= topRank). { intros n Hn. apply rank_top. unfold isRSeq in Hn. destruct (grammarOf calls n); [discriminate|congruence]. }
  assert (Hi : forall n i (f : seqItem -> gobj key), option_map f (itemOf calls n i) <> None -> 4 * rank n + 5 <= topRank).
  { intros n i f H. apply rank_top. unfold itemOf in H. destruct (grammarOf calls n); [discriminate|elim H; reflexivity]. }
  destruct k as [n|n| |n i|n i]; cbn [keyRank]; intros H.
  - pose proof (Hs n). destruct (isRSeq n); [auto|lia].
  - pose proof (Hs n). destruct (isRSeq n); [specialize (H0 eq_refl); lia|lia].
  - lia.
  - apply Hi in H. lia.
  - apply Hi in H. lia.
Qed.
End RANK.

Section SETUP.
Variables (calls : list defcall) (s' : syntax) (PL : pheap) (root : addr) (name : string) (R1 : string -> option rule).
Hypothesis Hnd : NoDup (map fst (flat_map callRules calls)).
Hypothesis Hws : wsReady calls.
Hypothesis Su : setup calls s' PL root name R1.
Hypothesis Hkw : literalKeywords calls.
Let A := su_ok _ _ _ _ _ _ Su.

Theorem setup_bound : choiceInEveryCycle calls -> exists C d, forall fuel input e k, parseCalls fuel s' input e = Ok k -> k <= C * S (List.length input) ^ d.
Proof.
  intros (rank & Hrank). destruct (setup_keys _ _ _ _ _ _ Su Hws) as (rel & RK).
  set (Rk := fun a r => exists n k, heapRel R1 PL a n /\ rel n k /\ r = keyRank calls rank k).
  assert (Hsim : forall a n k, heapRel R1 PL a n -> rel n k ->
    match nth_error PL a with
    | None => False
    | Some (PChar _ _ _ _ _) => True
    | Some (PSeq _ _ _ items _ _ _) => exists l kw gits, graphOf calls k = Some (GSeq l kw gits) /\ forall x, In x items -> exists n' k' b, heapRel R1 PL x n' /\ rel n' k' /\ In (k', b) gits
    | Some (PChoice _ _ _ options _) => forall x, In x options -> exists n' k', heapRel R1 PL x n' /\ rel n' k'
    end /\ graphOf calls k <> None).
  { intros a n k Hr Hnk. pose proof (heap_sim R1 PL (ao_rule _ _ _ _ _ A) a n Hr) as H1. pose proof (rk_sim _ _ _ _ RK n k Hnk) as H2.
    destruct Hr as [(ob & Hob & _) _]. destruct (ao_pwf _ _ _ _ _ A) as [_ _ (W3 & _) _]. specialize (W3 a). rewrite Hob in W3.
    unfold sameObj, heapGraph in H1. rewrite Hob in *. unfold sameObj in H2.
    destruct ob as [nm i cn ch rs|nm i ct items ranges gs ac|nm i ct options gs]; destruct (ruleGraph R1 n) as [[cn' ch' rs'|l' kw' its'|l' os']|]; try contradiction;
      destruct (graphOf calls k) as [[cn2 ch2 rs2|l2 kw2 its2|l2 os2]|]; try contradiction; (split; [|discriminate]).
    - exact I.
    - destruct H1 as (_ & _ & H1), H2 as (_ & _ & H2). exists l2, kw2, its2. split; auto. intros x Hx.
      destruct (W3 _ _ _ _ _ _ _ eq_refl) as [_ Hlen].
      assert (Hc : exists b, In (x, b) (combine items (map toBounds ranges))).
      { clear - Hx Hlen. revert ranges Hlen. induction items as [|y items IH]; intros [|r ranges] Hlen; simpl in *; try lia; try contradiction.
        destruct Hx as [<-|Hx]; [eauto|]. destruct (IH Hx ranges ltac:(lia)) as (b & Hb). eauto. }
      destruct Hc as (b & Hc). unfold sameItems in *. revert its2 H2. induction H1 as [|p q l0 l1 [Hp _] H1 IH]; intros its2 H2; [destruct Hc|].
      inversion H2 as [|? z ? ? [Hz _] H2']; subst. destruct Hc as [->|Hc].
      + simpl in Hp. exists (fst q), (fst z), (snd z). split; auto. split; auto. left. destruct z; auto.
      + destruct (IH Hc _ H2') as (n' & k' & b' & I1 & I2 & I3). exists n', k', b'. split; auto. split; auto. right; auto.
    - destruct H1 as (_ & H1), H2 as (_ & H2). intros x Hx. clear - H1 H2 Hx. revert os2 H2. induction H1 as [|p q l0 l1 Hp H1 IH]; intros os2 H2; [destruct Hx|].
      inversion H2 as [|? z ? ? Hz H2']; subst. destruct Hx as [<-|Hx]; [eauto|]. eapply IH; eauto. }
  destruct (bound_poly PL (sKeywords s') (topRank calls rank)) as (C & d & Hbound). exists C, d. intros fuel input e k Hk.
  etransitivity; [|apply Hbound]. unfold parseCalls, parseMeasure in Hk. rewrite (su_root _ _ _ _ _ _ Su) in Hk. binv Hk. destruct x as [c k1]. injection Hk as <-.
  destruct (su_live _ _ _ _ _ _ Su) as (live & EPL & Hcl & Hroot). rewrite (parseN_restrict _ _ _ _ _ Hcl _ _ Hroot) in E. rewrite <- EPL in E.
  eapply (calls_le PL (sKeywords s') input e (ao_ids _ _ _ _ _ A)) with (Rk := Rk) (r := keyRank calls rank (KDef name)); eauto.
  - intros kw Hin. destruct (proj2 (kws_in calls s' PL root name R1 Hkw Su) kw Hin) as (w & _ & Hw). eauto.
  - intros a r (n & k & Hr & Hnk & ->). apply keyRank_top. apply (Hsim a n k); auto.
  - intros p r nm id ct items ranges gs ac Hp (n & k & Hr & Hnk & ->) a Ha. destruct (Hsim p n k Hr Hnk) as [H _]. rewrite Hp in H. destruct H as (l & kw & gits & Eg & H).
    destruct (H a Ha) as (n' & k' & b & H1 & H2 & H3). exists (keyRank calls rank k'). split; [exists n', k'; auto|]. eapply keyRank_seq; eauto.
  - intros p r nm id ct options gs Hp (n & k & Hr & Hnk & ->) a Ha. destruct (Hsim p n k Hr Hnk) as [H _]. rewrite Hp in H. destruct (H a Ha) as (n' & k' & H1 & H2).
    exists (keyRank calls rank k'), n', k'. auto.
  - exists name, (KDef name). split; [exact (root_heapRel calls s' PL root name R1 Su)|]. split; auto. apply RK.
Qed.

Theorem setup_calls input e : ~ In runeError input -> exists k, Calls s' input e k.
Proof.
  intros Hv. pose proof (ao_pwf _ _ _ _ _ A) as [W1 W2 W3 W4]. pose proof (su_root _ _ _ _ _ _ Su) as Hroot.
  set (f := parseFuel PL input). assert (H1 : parse PL (sKeywords s') f root (newContext input e) <> NoFuel) by (eapply parse_terminates; eauto).
  pose proof (parse_noPanic PL (sKeywords s') input e W3 Hv f root W4) as H2. unfold np in H2.
  destruct (parse PL (sKeywords s') f root (newContext input e)) as [c|w|] eqn:E; [|exfalso; eapply H2; eauto|congruence].
  apply (parse_runN Nat.add) in E. destruct E as (k & E). exists k, f. intros f' Hf.
  apply (parseCalls_mono f f'); auto. unfold parseCalls, parseMeasure. rewrite Hroot.
  destruct (su_live _ _ _ _ _ _ Su) as (live & EPL & Hcl & Hr). rewrite (parseN_restrict _ _ _ _ _ Hcl _ _ Hr), <- EPL, E. reflexivity.
Qed.
End SETUP.

Theorem Calls_unique s input e k k' : Calls s input e k -> Calls s input e k' -> k = k'.
Proof. intros (f & H) (f' & H'). specialize (H (f + f') ltac:(lia)). specialize (H' (f + f') ltac:(lia)). congruence. Qed.

Theorem u_calls_bound calls s s' : usable calls s -> wsReady calls -> literalKeywords calls -> choiceInEveryCycle calls -> Inits s s' None ->
  exists C d, forall input e k, Calls s' input e k -> k <= C * S (List.length input) ^ d.
Proof.
  intros Hu Hw Hk Hc (f & HI). destruct (proj2 Hu _ _ HI) as (PL & root & name & R1 & Su).
  destruct (setup_bound calls s' PL root name R1 (proj1 Hu) Hw Su Hk Hc) as (C & d & H). exists C, d. intros input e k (f1 & HC).
  apply (H f1 input e k). apply HC. auto.
Qed.

Theorem u_calls calls s s' input e : usable calls s -> Inits s s' None -> ~ In runeError input -> exists k, Calls s' input e k.
Proof.
  intros Hu (f & HI) Hv. destruct (proj2 Hu _ _ HI) as (PL & root & name & R1 & Su). exact (setup_calls calls s' PL root name R1 Su input e Hv).
Qed.

(** a check of [choiceInEveryCycle]: the longest chain of sequences without a choice is the rank *)
Definition isChoiceCall (calls : list defcall) (n : string) : bool :=
  existsb (fun d => match d with DChoice m _ _ => String.eqb m n | _ => false end) calls.
Fixpoint chainRank (fuel : nat) (calls : list defcall) (n : string) : nat :=
  match fuel with
  | O => 0
  | S fuel =>
    list_max (flat_map (fun d => match d with
                                 | DSequence m _ items =>
                                   if String.eqb m n
                                   then map (fun it => if isChoiceCall calls (siName it) then 0 else S (chainRank fuel calls (siName it))) items
                                   else []
                                 | _ => [] end) calls)
  end.
Definition checkRanks (calls : list defcall) (rank : string -> nat) : bool :=
  forallb (fun d => match d with
                    | DSequence n _ items => forallb (fun it => isChoiceCall calls (siName it) || (rank (siName it) <? rank n)%nat) items
                    | _ => true end) calls.
Lemma checkRanks_ok calls rank : checkRanks calls rank = true -> choiceInEveryCycle calls.
Proof.
  intros H. exists rank. intros n ct items it Hd Hi. unfold checkRanks in H. rewrite forallb_forall in H. specialize (H _ Hd). simpl in H.
  rewrite forallb_forall in H. specialize (H _ Hi). apply orb_true_iff in H. destruct H as [H|H]; [left|right; apply Nat.ltb_lt; auto].
  unfold isChoiceCall in H. apply existsb_exists in H. destruct H as (d & Hin & H). destruct d; try discriminate. apply String.eqb_eq in H. subst. eauto.
Qed.
