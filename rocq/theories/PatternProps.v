(** C69: a list of patterns, compiled and matched, answers with the first rule that fits. *)
From Verif Require Import Base CompressionModel AlphabetModel AlphabetProofs TransducerModel TransducerSpec MatchModel MatchProps PatternModel PatternSpec PatternBuildProofs PatternPathProofs PatternRunProofs PatternMatchProofs PatternRoomProofs.
From Coq Require String Ascii.
From Verif Require Import StreamProps.
Import String.StringSyntax.

(** A client's calls: the rules are inserted, the automaton is built, a MatchState is taken
    over the word. *)
Definition reply_without (banned : list Z) (rules : list rule) (w : list sym) : outcome Z :=
  let! p := run_rules rules in
  let! (t, ft) := buildTransducer p in
  let! s := m_run BUF_LIMIT (match_exe t) (m_new BUF_LIMIT) (MInit (initial t) :: map MStep (map (step_of (pl_alpha p)) w)) in
  classifyFinals BUF_LIMIT ft banned s.
Definition reply := reply_without [].

(** Whatever the MatchState was used for before, after the word the answer is the least
    number among the rules that fit, when the ring of the MatchState has room. *)
Theorem C69_match : forall rules, rules_ok [] rules -> compatible (patterns_of rules) ->
  (forall id al, In (id, al) (patterns_of rules) -> id < 2 ^ 31 - 1) ->
  exists p t ft, run_rules rules = Ok p /\ buildTransducer p = Ok (t, ft) /\ tables (match_exe t)
    /\ forall before s w, m_run BUF_LIMIT (match_exe t) (m_new BUF_LIMIT) before = Ok s -> Forall sym_ok w ->
       room BUF_LIMIT (match_exe t) [initial t] (map (step_of (pl_alpha p)) w) ->
       exists s' r, m_run BUF_LIMIT (match_exe t) s (MInit (initial t) :: map MStep (map (step_of (pl_alpha p)) w)) = Ok s'
         /\ classifyFinals BUF_LIMIT ft [] s' = Ok r /\ answer (patterns_of rules) w r.
Proof.
  intros rules Hr Hc Hid. destruct (run_rules_ok rules Hr) as (p & Ep & H). destruct (built_ok p _ H Hc) as (ks & t & ft & Et & HB).
  exists p, t, ft. split; [exact Ep|]. split; [exact Et|]. pose proof (tables_ok p _ H Hc ks t ft HB) as Tb. split; [exact Tb|].
  intros before s w Hb Hw Rm. pose proof (tr_init _ _ _ _ (proj1 HB)) as E0. rewrite E0 in *.
  assert (L0 : (0 < length (match_exe t))%nat).
  { assert (Hl : length (match_exe t) = nstates t) by (unfold match_exe; apply map_length). rewrite Hl, <- (tr_len _ _ _ _ (proj1 HB)).
    pose proof (tr_root _ _ _ _ (proj1 HB)) as X. destruct ks; [discriminate|cbn; lia]. }
  destruct (C48_live (match_exe t) before s 0 _ Tb Hb L0 Rm) as (s' & L & E1 & _ & E2 & E3). destruct (E3 ft []) as (r & E4 & E5).
  exists s', r. split; [exact E1|]. split; [exact E4|]. apply (report_ok p _ H ks t ft HB w L r); auto.
Qed.

(** Up to 512 simple patterns: no condition on the word. *)
Theorem C69_simple : forall rules w, rules_ok [] rules -> compatible (patterns_of rules) ->
  (forall id al, In (id, al) (patterns_of rules) -> id < 2 ^ 31 - 1) ->
  (forall id al, In (id, al) (patterns_of rules) -> simple al) -> (length (patterns_of rules) <= 512)%nat ->
  Forall sym_ok w -> exists r, reply rules w = Ok r /\ answer (patterns_of rules) w r.
Proof.
  intros rules w Hr Hc Hid Hs Hl Hw. destruct (run_rules_ok rules Hr) as (p & Ep & H). destruct (built_ok p _ H Hc) as (ks & t & ft & Et & HB).
  destruct (C69_match rules Hr Hc Hid) as (p' & t' & ft' & Ep' & Et' & _ & M). assert (p' = p) by congruence. subst p'. assert ((t', ft') = (t, ft)) by congruence. assert (t' = t) by congruence. assert (ft' = ft) by congruence. subst t' ft'.
  destruct (M [] (m_new BUF_LIMIT) w eq_refl Hw) as (s' & r & E1 & E2 & E3).
  { rewrite (tr_init _ _ _ _ (proj1 HB)). apply (room_ok p _ H Hc Hs ks t ft HB); [|exact Hw]. apply Nat.le_trans with (2 * 512)%nat; [apply Nat.mul_le_mono_l, Nat.max_lub; [apply Nat.leb_le; vm_compute; reflexivity|exact Hl]|apply Nat.leb_le; vm_compute; reflexivity]. }
  exists r. split; [|exact E3]. unfold reply, reply_without. rewrite Ep. cbn [obind]. rewrite Et. cbn [obind]. rewrite E1. exact E2.
Qed.

(** * A list of rules *)
Definition P (lemma : String.string) (tags : list ustr) : part := mkPart (txt lemma) tags.
Arguments P lemma%string_scope tags.
Definition word_of (l : String.string) : list sym := map SChar (txt l).
Arguments word_of l%string_scope.
Definition tag_of_ (l : String.string) : sym := STag (txt l).
Arguments tag_of_ l%string_scope.
Definition grammar : list rule :=
  [RPart 4 (P "" [txt "n"]); RPart 2 (P "ab*" [txt "n"; txt "*"]); RSequence 3 [EPart (P "a" [txt "v"]); EPart (P "" [])]].
Lemma nth_two : forall {A} (x y : list A) d e, nth_error (x ++ d :: e :: y) (length x) = Some d /\ nth_error (x ++ d :: e :: y) (S (length x)) = Some e.
Proof. intros A x y d e. induction x as [|z x IH]; [split; reflexivity|exact IH]. Qed.
Lemma grammar_ok : rules_ok [] grammar /\ compatible (patterns_of grammar)
  /\ (forall id al, In (id, al) (patterns_of grammar) -> id < 2 ^ 31 - 1) /\ (forall id al, In (id, al) (patterns_of grammar) -> simple al).
Proof.
  assert (ND : forall {A} (d : A) (l x y : list A), l = x ++ [d; d] ++ y -> exists i, nth_error l i = Some d /\ nth_error l (S i) = Some d).
  { intros A d l x y ->. exists (length x). apply (nth_two x y d d). }
  assert (PO : forall l ts, Forall (fun c => 0 < c) l -> (forall i, ~ (nth_error l i = Some 42 /\ nth_error l (S i) = Some 42)) ->
    Forall (fun n => ~ In 46 n /\ ~ In n reserved) ts -> (forall i, ~ (nth_error ts i = Some [42] /\ nth_error ts (S i) = Some [42])) -> hd_error ts <> Some [] -> ts <> [[]] -> part_ok (mkPart l ts)).
  { intros l ts H1 H2 H3 H4 H5 H6. split; [exact H1|]. cbn [pt_lemma pt_tags]. split; [intros x y E; apply ND in E as (i & E); now apply (H2 i)|]. split; [exact H3|].
    split; [intros x y E; apply ND in E as (i & E); now apply (H4 i)|]. auto. }
  split; [|split; [|split]].
  - cbn [rules_ok grammar rule_ok]. repeat match goal with |- _ /\ _ => split | |- True => exact I | |- Forall (element_ok _) _ => constructor end; cbn [element_ok];
    (apply PO; [vm_compute; repeat constructor|intros [|[|[|[|i]]]] [X Y]; vm_compute in X, Y; discriminate|vm_compute; repeat constructor; intuition discriminate|intros [|[|[|[|i]]]] [X Y]; vm_compute in X, Y; discriminate|discriminate|discriminate]).
  - intros k (id & r & Hi) _. vm_compute in Hi.
    assert (NQ : forall l : list atom, (forall i, ~ (nth_error l i = Some AQueue /\ nth_error l (S i) <> None)) -> l <> (k ++ [AQueue; AChar 43]) ++ r).
    { intros l Hn E. apply (Hn (length k)). rewrite E, <- app_assoc. cbn [app]. destruct (nth_two k r AQueue (AChar 43)) as [X Y]. rewrite X, Y. split; [reflexivity|discriminate]. }
    destruct Hi as [Hi|[Hi|[Hi|[]]]]; injection Hi as _ Hi; revert Hi; apply NQ; intros [|[|[|[|[|[|[|i]]]]]]] [X Y]; cbn in X, Y; try discriminate; try congruence; destruct i; congruence.
  - intros id al Hi. vm_compute in Hi. destruct Hi as [Hi|[Hi|[Hi|[]]]]; injection Hi as <- _; reflexivity.
  - intros id al Hi u x y v E. assert (Hx : nth_error al (length u) = Some x /\ nth_error al (S (length u)) = Some y).
    { rewrite E. apply nth_two. }
    destruct Hx as [Hx Hy]. clear E. generalize dependent (length u). intros i Hx Hy. vm_compute in Hi.
    destruct Hi as [Hi|[Hi|[Hi|[]]]]; injection Hi as _ <-; destruct i as [|[|[|[|[|[|[|i]]]]]]]; cbn in Hx, Hy; try discriminate; try (injection Hx as <-; injection Hy as <-; cbn; eauto); destruct i; discriminate.
Qed.
(** A word, one with a queue, the wildcards, a sequence, and nothing *)
Example C69_example :
  map (reply grammar)
    [ word_of "dog" ++ [tag_of_ "n"]; word_of "dog" ++ [tag_of_ "n"] ++ word_of "# up";
      word_of "abx" ++ [tag_of_ "n"; tag_of_ "pl"]; word_of "a" ++ [tag_of_ "v"] ++ word_of "+be" ++ [tag_of_ "x"; tag_of_ "y"];
      word_of "dog" ++ [tag_of_ "v"] ]
  = [Ok 4; Ok 4; Ok 2; Ok 3; Ok (-1)].
Proof. vm_compute. reflexivity. Qed.
(** The theorem for this list: any word *)
Example C69_example_simple : forall w, Forall sym_ok w -> exists r, reply grammar w = Ok r /\ answer (patterns_of grammar) w r.
Proof. intros w Hw. destruct grammar_ok as (A & B & C & D). apply C69_simple; auto. apply Nat.leb_le. vm_compute. reflexivity. Qed.

(** * What is not so *)
Lemma no_char_tag : forall cs w n r, map SChar cs ++ w = STag n :: r -> cs = [].
Proof. intros [|c cs] w n r E; [reflexivity|discriminate]. Qed.
(** Two '*' in a lemma are taken for one. *)
Theorem C69_stars_refuted : exists rules w, reply rules w = Ok 7 /\ forall id, ~ fitting (patterns_of rules) w id.
Proof.
  exists [RPart 7 (P "**" [txt "n"])], (word_of "a" ++ [tag_of_ "n"]). split; [vm_compute; reflexivity|]. intros id (al & Hi & F). vm_compute in Hi. destruct Hi as [Hi|[]]. injection Hi as _ <-. vm_compute in F.
  inversion F as [| | |cs a w Hn F1 E1 E2| | |]; subst. destruct cs as [|c cs]; [congruence|]. cbn [map app] in E2. injection E2 as _ E2. apply no_char_tag in E2 as E3. subst cs. cbn in E2. subst w.
  inversion F1 as [| | |cs a' w Hn' F2 E1 E2| | |]; subst. apply no_char_tag in E2. congruence.
Qed.
(** A word after which '+' comes both directly and through a label: one rule is lost. *)
Theorem C69_label_refuted : exists rules w, rules_ok [] rules /\ fitting (patterns_of rules) w 3 /\ reply rules w = Ok (-1).
Proof.
  exists [RPart 1 (P "a" [txt "n"]); RSequence 2 [EPart (P "a" [txt "n"]); EPart (P "b" [txt "n"])]; RSequence 3 [ELabel 1; EPart (P "c" [txt "n"])]],
    (word_of "a" ++ [tag_of_ "n"] ++ word_of "+c" ++ [tag_of_ "n"]).
  split; [|split; [|vm_compute; reflexivity]].
  - assert (PO : forall c, 0 < c -> part_ok (mkPart [c] [txt "n"])).
    { intros c Hc. split; [now repeat constructor|]. split; [intros [|? [|? x]] y E; discriminate|]. split; [vm_compute; repeat constructor; intuition discriminate|].
      split; [intros [|? [|? x]] y E; discriminate|]. split; discriminate. }
    cbn [rules_ok rule_ok]. split; [apply PO; reflexivity|]. split; [constructor; [apply PO; reflexivity|constructor; [apply PO; reflexivity|constructor]]|]. split; [|exact I]. constructor; [vm_compute; discriminate|]. constructor; [apply PO; reflexivity|constructor].
  - exists (map AChar (txt "a") ++ [ATag (txt "n"); AQueue] ++ map AChar (txt "+c") ++ [ATag (txt "n"); AQueue]). split; [vm_compute; auto|]. vm_compute. repeat constructor.
Qed.
(** An unknown label inside a sequence: what came before it is forgotten. *)
Theorem C69_unknown_label_refuted : exists rules w, reply rules w = Ok 2 /\ forall id, ~ fitting (patterns_of rules) w id.
Proof.
  exists [RSequence 2 [EPart (P "a" [txt "n"]); ELabel 9; EPart (P "b" [txt "n"])]], (word_of "b" ++ [tag_of_ "n"]).
  split; [vm_compute; reflexivity|]. intros id (al & Hi & _). vm_compute in Hi. exact Hi.
Qed.
(** With a rule banned, another rule with the same pattern is not found. *)
Theorem C69_banned_refuted : exists rules w, fitting (patterns_of rules) w 2 /\ reply_without [1] rules w = Ok (-1).
Proof.
  exists [RPart 1 (P "a" [txt "n"]); RPart 2 (P "a" [txt "n"])], (word_of "a" ++ [tag_of_ "n"]). split; [|vm_compute; reflexivity].
  exists [AChar 97; ATag (txt "n"); AQueue]. split; [vm_compute; auto|]. vm_compute. repeat constructor.
Qed.
(** Without room in the ring a rule that fits is lost. *)
Theorem C69_room_refuted : exists rules w, fitting (patterns_of rules) w 3 /\ reply rules w = Ok (-1).
Proof.
  exists [RPart 7 (P "*a*a*a*a*a*" [txt "n"]); RPart 3 (P "aaaaaaaaaaaaaaaa" [txt "m"])], (word_of "aaaaaaaaaaaaaaaa" ++ [tag_of_ "m"]). split; [|vm_compute; reflexivity].
  exists (repeat (AChar 97) 16 ++ [ATag (txt "m"); AQueue]). split; [vm_compute; auto|]. vm_compute. repeat constructor.
Qed.

Print Assumptions C69_match.
Print Assumptions C69_simple.
Print Assumptions C69_stars_refuted.
Print Assumptions C69_label_refuted.
Print Assumptions C69_unknown_label_refuted.
Print Assumptions C69_banned_refuted.
Print Assumptions C69_room_refuted.
