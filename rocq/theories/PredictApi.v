(** A predictive syntax accepts the texts of its language, and a check for predictive syntaxes. *)
From Verif Require Import Base Utf8 IdSet Results Parser Build Syntax ListFacts Lang Grammar WsLang ApiSpec InitSpec Api ApiFacts RefSpec RefFuel RefTotal RefCheck InlineSim PredictSpec PredictFacts.

Lemma classHas_inClass cn ch rs r : inClass cn ch rs r -> classHas cn ch rs r = true.
Proof.
  unfold inClass, classHas. intros H. assert (X : existsb (Z.eqb r) ch || existsb (fun lh => Z.leb (fst lh) r && Z.leb r (snd lh))%bool rs = true <-> (In r ch \/ exists lo hi, In (lo, hi) rs /\ (lo <= r <= hi)%Z)).
  { rewrite orb_true_iff, !existsb_exists. split.
    - intros [(x & Hx & E)|((lo, hi) & Hx & E)]; [apply Z.eqb_eq in E; subst; auto|]. apply andb_true_iff in E. simpl in E. right. exists lo, hi. split; auto. lia.
    - intros [Hx|(lo & hi & Hx & E)]; [left; exists r; split; auto; apply Z.eqb_refl|right; exists (lo, hi); split; auto; simpl]. apply andb_true_iff. lia. }
  destruct (existsb (Z.eqb r) ch || _)%bool; destruct cn; simpl; auto.
  - exfalso. apply H, X. auto.
  - apply X in H. discriminate.
Qed.
Lemma isOneOf_not w K : ~ In w K -> isOneOf w K = false.
Proof. intros H. destruct (isOneOf w K) eqn:E; auto. exfalso. apply H. unfold isOneOf in E. apply existsb_exists in E. destruct E as (k & Hk & E). destruct (list_eq_dec Z.eq_dec w k); [subst; auto|discriminate]. Qed.
Lemma quantity_bounds it k : quantity (siMin it) (siMax it) k -> fst (bounds it) <= k /\ match snd (bounds it) with Some m => k <= m | None => True end.
Proof.
  intros H. unfold bounds. destruct (Z.eqb_spec (siMin it) 0) as [E1|E1]; destruct (Z.eqb_spec (siMax it) 0) as [E2|E2]; simpl; destruct H as [(A1 & A2 & ->)|(A1 & A2 & A3)]; try lia; try (exfalso; tauto);
    destruct (Z.ltb_spec 0 (siMax it)) as [L|L]; simpl; split; auto; try lia.
Qed.
Lemma no_spacing calls : noWhitespaceDefs calls -> spacing calls = false.
Proof. intros H. unfold spacing. destruct (existsb _ calls) eqn:E; auto. apply existsb_exists in E. destruct E as (d & Hd & E). rewrite (H d Hd) in E. discriminate. Qed.
Lemma no_wsNames calls : noWhitespaceDefs calls -> whitespaceNames calls = [].
Proof. intros H. unfold whitespaceNames. induction calls as [|d calls IH]; auto. simpl. rewrite (H d) by (left; auto). apply IH. intros x Hx. apply H. right; auto. Qed.

Section LANG.
Variables (calls : list defcall) (root : string).
Hypothesis Hws : noWhitespaceDefs calls.
Notation G := (graphOf calls). Notation K := (keywordTexts calls).
Lemma graph_body n : G (KDef n) = bodyOf calls n.
Proof. cbn [graphOf]. rewrite (no_spacing calls Hws). auto. Qed.
Definition repeats (n : string) (k : nat) (w : list rune) : Prop :=
  forall mn mx l c v, match mx with Some m => c + k <= m | None => True end -> glist G K ((KDef n, (mn, mx)) :: l) (c + k) v -> glist G K ((KDef n, (mn, mx)) :: l) c (w ++ v).
Lemma item_list it l k u v : quantity (siMin it) (siMax it) k -> repeats (siName it) k u -> glist G K l 0 v -> glist G K (plainItem it :: l) 0 (u ++ v).
Proof.
  intros Hq Hu Hv. apply quantity_bounds in Hq. unfold plainItem. destruct (bounds it) as [mn mx]. simpl in Hq. apply Hu; [simpl; apply Hq|]. apply gl_next; simpl; [lia|auto].
Qed.
Lemma lang_graph :
  (forall n w, wgen (grammarOf calls) K (whitespaceNames calls) root n w -> glang G K (KDef n) w) /\
  (forall n w, wbody (grammarOf calls) K (whitespaceNames calls) root n w -> glang G K (KDef n) w) /\
  (forall l w, witems (grammarOf calls) K (whitespaceNames calls) root l w -> glist G K (map plainItem l) 0 w) /\
  (forall n k w, wrep (grammarOf calls) K (whitespaceNames calls) root n k w -> repeats n k w) /\
  (forall b l w, wspaced (grammarOf calls) K (whitespaceNames calls) root b l w -> glist G K (map plainItem l) 0 w) /\
  (forall n k w, wmore (grammarOf calls) K (whitespaceNames calls) root n k w -> repeats n k w) /\
  (forall w, wspace (grammarOf calls) K (whitespaceNames calls) root w -> w = []).
Proof.
  assert (Hrep0 : forall n, repeats n 0 []) by (intros n mn mx l c v _ H; rewrite Nat.add_0_r in H; auto).
  assert (HrepS : forall n k u v, glang G K (KDef n) u -> repeats n k v -> repeats n (S k) (u ++ v)).
  { intros n k u v Hu Hv mn mx l c z Hm Hz. rewrite <- app_assoc. apply gl_occ; auto; [destruct mx; auto; lia|]. apply Hv; [destruct mx; auto; lia|]. replace (S c + k) with (c + S k) by lia. auto. }
  assert (Hsp : spacing calls = false) by (apply no_spacing; auto).
  apply wgen_mutind; auto.
  - intros u v w _ -> _ H _ ->. simpl. rewrite app_nil_r. auto.
  - intros n cn ch rs r HR Hr. eapply gl_char; [rewrite graph_body; unfold bodyOf; rewrite HR; reflexivity|]. apply classHas_inClass; auto.
  - intros n ct items w HR Hc Hk _ IH. eapply gl_seq; [rewrite graph_body; unfold bodyOf; rewrite HR, Hsp; reflexivity| |exact IH].
    destruct (hasFlag ct CNoKeyword); auto. simpl. apply isOneOf_not; auto.
  - intros n ct items w HR Hc Hk _ IH. eapply gl_seq; [rewrite graph_body; unfold bodyOf; rewrite HR, Hsp; reflexivity| |exact IH].
    destruct (hasFlag ct CNoKeyword); auto. simpl. apply isOneOf_not; auto.
  - intros n ct options o w HR Ho _ IH. eapply gl_choice; [rewrite graph_body; unfold bodyOf; rewrite HR; reflexivity| |exact IH]. apply in_map. auto.
  - intros. apply gl_nil.
  - intros it items k u v Hq _ Hu _ Hv. apply (item_list it _ k); auto.
  - intros. apply gl_nil.
  - intros first it items v Hq _ Hv. apply (item_list it _ 0 []); auto.
  - intros it items u v Hq _ _ -> _ Hv. apply (item_list it _ 0 []); auto.
  - intros it items k u v w Hq _ Hu _ Hv _ Hw. rewrite app_assoc. apply (item_list it _ (S k)); auto.
  - intros it items k z u v w Hq _ -> _ Hu _ Hv _ Hw. simpl. rewrite app_assoc. apply (item_list it _ (S k)); auto.
  - intros n k z u v _ -> _ Hu _ Hv. simpl. auto.
  - intros n u v Hn. rewrite no_wsNames in Hn by auto. destruct Hn.
Qed.
Lemma reached_def k : reached G (KDef root) k -> exists n, k = KDef n.
Proof.
  induction 1 as [|a lb nk items x b _ (n & ->) HG Hx|a lb options x _ (n & ->) HG Hx]; eauto; rewrite graph_body in HG; unfold bodyOf in HG; destruct (grammarOf calls n) as [[| |]|]; try discriminate.
  - rewrite no_spacing in HG by auto. injection HG as _ _ <-. apply in_map_iff in Hx. destruct Hx as (it & E & _). unfold plainItem in E. injection E as <- _. eauto.
  - injection HG as _ <-. apply in_map_iff in Hx. destruct Hx as (o & <- & _). eauto.
Qed.
End LANG.

Theorem u_predictive_accepts calls s s' root input :
  usable calls s -> noWhitespaceDefs calls -> refersToDefs calls -> literalKeywords calls -> nokwOnSequences calls -> noLeftRecursion calls ->
  predictive calls root -> rootName calls = Some root -> Inits s s' None -> ~ In runeError input ->
  texts calls root root input -> exists t, Parses s input REof s' (Tree t input).
Proof.
  intros Hd Hws Hr Hk Hn Hl (E & F & N & HE & HF & HN & HD) Hroot Hi Hv Ht. apply (u_accepts_iff calls s s' root input Hd Hr Hk Hn Hl Hroot Hi Hv).
  apply (proj1 (lang_graph calls root Hws)) in Ht. pose proof (refers_all _ Hr) as Hall.
  assert (Total : forall a o, graphOf calls a <> None -> exists r, Gives (graphOf calls) (keywordTexts calls) input a o r).
  { intros a o Ha. destruct Hl as (E' & rank & HE' & Hrank).
    destruct (eval_total (graphOf calls) (keywordTexts calls) input E' rank HE' Hrank (graph_closed calls Hall) (List.length input - o) o (Nat.le_refl _) (rank a) a (Nat.le_refl _) Ha) as (m & Hm).
    eexists. split; [exact Hm|]. eauto. }
  destruct (proj1 (matches (graphOf calls) (keywordTexts calls) (KDef root) E F N HE HF HN HD input Total (graph_closed calls Hall)
    ltac:(idtac; intros a lb nk items x mn Ra HG Hx; destruct (reached_def calls root Hws a Ra) as (n & ->); rewrite (graph_body calls Hws) in HG; unfold bodyOf in HG; destruct (grammarOf calls n) as [[| |]|]; try discriminate;
      rewrite no_spacing in HG by auto; injection HG as _ _ <-; apply in_map_iff in Hx; destruct Hx as (it & X & _); unfold plainItem, bounds in X;
      destruct (Z.eqb (siMin it) 0 && Z.eqb (siMax it) 0)%bool; [discriminate|]; injection X as _ _ X; destruct (Z.ltb_spec 0 (siMax it)); [injection X; lia|discriminate]))
    (KDef root) input Ht (reached_root _ _) 0 []) as (ns & J).
  - rewrite app_nil_r. reflexivity.
  - discriminate.
  - exists ns. exact J.
Qed.
Theorem u_predictive_language calls s s' root input :
  usable calls s -> noWhitespaceDefs calls -> sensibleRanges calls -> refersToDefs calls -> literalKeywords calls -> nokwOnSequences calls -> noLeftRecursion calls ->
  predictive calls root -> rootName calls = Some root -> Inits s s' None -> ~ In runeError input ->
  ((exists t, Parses s input REof s' (Tree t input)) <-> texts calls root root input).
Proof.
  intros Hd Hws Hs Hr Hk Hn Hl Hp Hroot Hi Hv. split.
  - intros (t & HP). destruct (u_tree_text calls s s' input REof t input Hd HP Hs) as (name & E & H). rewrite Hroot in E. injection E as <-. auto.
  - intros H. eapply u_predictive_accepts; eauto.
Qed.
Theorem predictive_language calls s s' root input :
  Defined calls s -> noWhitespaceDefs calls -> sensibleRanges calls -> refersToDefs calls -> literalKeywords calls -> nokwOnSequences calls -> noLeftRecursion calls ->
  predictive calls root -> rootName calls = Some root -> Inits s s' None -> ~ In runeError input ->
  ((exists t, Parses s input REof s' (Tree t input)) <-> texts calls root root input).
Proof. intros Hd Hw Hs Hr Hk. apply u_predictive_language; auto. apply defined_usable; auto. apply literal_ready; auto. Qed.
