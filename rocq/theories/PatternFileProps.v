(** C79: a list of patterns written to a file and read back matches as before. *)
From Verif Require Import Base CompressionModel AlphabetModel AlphabetProofs TransducerModel TransducerSpec FileModel FileProps LoadModel MatchModel MatchProps PatternModel PatternSpec PatternBuildProofs
  PatternPathProofs PatternRunProofs PatternMatchProofs PatternProps PatternFileModel PatternFileProofs.
From Coq Require String Ascii.
From Verif Require Import StreamProps.
Import String.StringSyntax.

(** * What is asked of a list of patterns *)
(** Symbols and numbers are within what the format can write, and there are not too many. *)
Record list_fits (p : plist) : Prop := {
  lf_alpha : alphabet_fits (pl_alpha p);
  lf_symbols : forall id v c, In (id, v) (pl_patterns p) -> In c v ->
    - alphabet_size (pl_alpha p) <= c /\ c + 2 * alphabet_size (pl_alpha p) < 2 ^ 30;
  lf_small : 2 * alphabet_size (pl_alpha p) + 95 < 2 ^ 30;
  lf_numbers : forall id v, In (id, v) (pl_patterns p) -> 0 <= id < 2 ^ 30;
  lf_volume : 4 * Z.of_nat (length (flat_map snd (pl_patterns p))) + 1 < 2 ^ 30
}.

(** The alphabet of a client's list *)
Lemma tag_symbols_inv : forall n i tags a l b, alph_inv a -> tag_symbols n i tags a = Ok (l, b) -> alph_inv b.
Proof.
  induction n as [|n IH]; intros i tags a l b Ha E; cbn [tag_symbols] in E; [injection E as _ <-; exact Ha|].
  destruct (tagAt tags i) as [t| | | |]; try discriminate. cbn [obind] in E. destruct (ustr_eq_dec _ _).
  - destruct (tag_symbols n (i + 1) tags a) as [[r x]| | | |] eqn:E1; try discriminate. cbn [obind] in E. injection E as _ <-. eapply IH; eauto.
  - destruct (tag_symbols n (i + 1) tags (includeSymbol _ a)) as [[r x]| | | |] eqn:E1; try discriminate. cbn [obind] in E. injection E as _ <-. eapply IH; [|exact E1]. now apply include_inv.
Qed.
Lemma insertOut_inv : forall l tags a x b, alph_inv a -> insertOutOfSequence l tags a = Ok (x, b) -> alph_inv b.
Proof.
  intros l tags a x b Ha E. unfold insertOutOfSequence in E. destruct tags as [|c tags].
  - cbn [obind] in E. injection E as _ <-. exact Ha.
  - destruct (tag_symbols _ _ _ _) as [[r y]| | | |] eqn:E1; try discriminate. cbn [obind] in E. injection E as _ <-. eapply tag_symbols_inv; eauto.
Qed.
Lemma into_each_inv : forall lemma tags l a x b, alph_inv a -> into_each lemma tags l a = Ok (x, b) -> alph_inv b.
Proof.
  intros lemma tags. induction l as [|v l IH]; intros a x b Ha E; cbn [into_each] in E; [injection E as _ <-; exact Ha|].
  destruct (insertOutOfSequence lemma tags a) as [[r y]| | | |] eqn:E1; try discriminate. cbn [obind] in E.
  destruct (into_each lemma tags l y) as [[r' z]| | | |] eqn:E2; try discriminate. cbn [obind] in E. injection E as _ <-.
  eapply IH; [|exact E2]. eapply insertOut_inv; eauto.
Qed.
Lemma insert_inv : forall id lemma tags p q, alph_inv (pl_alpha p) -> insert id lemma tags p = Ok q -> alph_inv (pl_alpha q).
Proof.
  intros id lemma tags p q Ha E. unfold insert, insertIntoSequence in E. destruct (pl_sequence p).
  - destruct (pl_data p) as [|d ds].
    + destruct (insertOutOfSequence lemma tags (pl_alpha p)) as [[r y]| | | |] eqn:E1; try discriminate. cbn [obind] in E. injection E as <-. eapply insertOut_inv; eauto.
    + destruct (into_each lemma tags (d :: ds) (pl_alpha p)) as [[r y]| | | |] eqn:E1; try discriminate. cbn [obind] in E. injection E as <-. eapply into_each_inv; eauto.
  - destruct (insertOutOfSequence lemma tags (pl_alpha p)) as [[r y]| | | |] eqn:E1; try discriminate. cbn [obind] in E. injection E as <-. eapply insertOut_inv; eauto.
Qed.
Lemma run_inv : forall rules p, run_rules rules = Ok p -> alph_inv (pl_alpha p).
Proof.
  assert (Ee : forall id l x q, (forall p, x = Ok p -> alph_inv (pl_alpha p)) -> fold_left (run_element id) l x = Ok q -> alph_inv (pl_alpha q)).
  { intros id l. induction l as [|e l IH]; intros x q Hx E; cbn [fold_left] in E; [auto|]. eapply IH; [|exact E]. intros p Ep. unfold run_element in Ep.
    destruct x as [y| | | |]; try discriminate. cbn [obind] in Ep. specialize (Hx y eq_refl). destruct e as [pt|k].
    - eapply insert_inv; eauto.
    - unfold insert_label in Ep. destruct (pl_sequence y); [|discriminate]. injection Ep as <-. exact Hx. }
  assert (K : forall l x q, (forall p, x = Ok p -> alph_inv (pl_alpha p)) -> fold_left run_rule l x = Ok q -> alph_inv (pl_alpha q)).
  { intros l. induction l as [|r l IH]; intros x q Hx E; cbn [fold_left] in E; [auto|]. eapply IH; [|exact E]. intros p Ep. unfold run_rule in Ep.
    destruct x as [y| | | |]; try discriminate. cbn [obind] in Ep. specialize (Hx y eq_refl). destruct r as [id pt|id es].
    - eapply insert_inv; eauto.
    - destruct (beginSequence y) as [y1| | | |] eqn:E1; try discriminate. cbn [obind] in Ep.
      destruct (fold_left (run_element id) es (Ok y1)) as [y2| | | |] eqn:E2; try discriminate. cbn [obind] in Ep.
      unfold beginSequence in E1. destruct (pl_sequence y); [discriminate|]. injection E1 as <-.
      assert (A2 : alph_inv (pl_alpha y2)) by (eapply Ee; [|exact E2]; intros p' Ep'; injection Ep' as <-; exact Hx).
      unfold endSequence in Ep. destruct (pl_sequence y2); [|discriminate]. injection Ep as <-. exact A2. }
  intros rules p E. eapply K; [|exact E]. intros q Eq. injection Eq as <-. pose proof new_inv as [N _].
  unfold new_plist. cbn [pl_alpha]. apply include_inv, include_inv, include_inv. exact N.
Qed.

(** * The file *)
(** Whatever the client has inserted: what is written is read back into any list, which then has
    the same alphabet, the same nodes and the same final types. *)
Theorem C79_file : forall rules p t ft to_file, run_rules rules = Ok p -> buildTransducer p = Ok (t, ft) -> list_fits p -> to_file 0 = WFin 0 0 ->
  exists bs t', plist_write to_file (pl_alpha p) t ft = Ok bs
    /\ (forall old rest, plist_read old (bs ++ rest) = Ok (pl_alpha p, t', ft, rest))
    /\ file_exe t' = match_exe t /\ f_initial t' = initial t.
Proof.
  intros rules p t ft to_file Ep Et [F1 F2 F3 F4 F5] H0. pose proof (run_inv rules p Ep) as Ia. set (n := alphabet_size (pl_alpha p)) in *.
  assert (N0 : 0 <= n) by (unfold n, alphabet_size; lia).
  assert (Cd : forall s, symbol_fits n (symbol_code s (pl_alpha p))).
  { intros s. unfold symbol_fits, symbol_code. destruct (map_find ustr_eq_dec s (slexic (pl_alpha p))) as [c|] eqn:Ec; [|lia].
    assert (- n <= c < 0); [|lia]. unfold n, alphabet_size. destruct Ia as (I1 & _). rewrite I1 in Ec |- *. rewrite zidx_length.
    apply find_zidx_some in Ec as (j & Ej & ->). assert (j < length (slexicinv (pl_alpha p)))%nat by (apply nth_error_Some; congruence). unfold tag_of. lia. }
  destruct (buildTransducer_sized (pl_alpha p) (symbol_fits n) ltac:(unfold symbol_fits; repeat split; try lia; apply Cd) (fun c => 0 <= c < 2 ^ 30) p t ft eq_refl) as [Sz Ty]; [|exact Et|].
  { intros id v H. split; [|eauto]. apply Forall_forall. intros c Hc. exact (F2 id v c H Hc). }
  destruct (plist_rt (pl_alpha p) to_file t ft (S (volume (pl_patterns p))) (4 * volume (pl_patterns p)) H0 Sz) as (bs & E & R); auto.
  - unfold volume. lia.
  - unfold volume. lia.
  - exists bs, (file_trans to_file t). split; [exact E|]. split; [exact R|]. split; [apply exe_same|reflexivity].
Qed.

(** A client that writes its list, and one that reads it and matches *)
Definition reply_file (to_file : Z -> weight) (banned : list Z) (rules : list rule) (w : list sym) : outcome Z :=
  let! p := run_rules rules in
  let! (t, ft) := buildTransducer p in
  let! bs := plist_write to_file (pl_alpha p) t ft in
  let! (a, t, ft, _) := plist_read (mkF 0 [] [[]]) bs in
  let! s := m_run BUF_LIMIT (file_exe t) (m_new BUF_LIMIT) (MInit (f_initial t) :: map MStep (map (step_of a) w)) in
  classifyFinals BUF_LIMIT ft banned s.
Theorem C79_reply : forall rules p to_file banned w, run_rules rules = Ok p -> list_fits p -> to_file 0 = WFin 0 0 ->
  reply_file to_file banned rules w = reply_without banned rules w.
Proof.
  intros rules p to_file banned w Ep F H0. unfold reply_file, reply_without. rewrite Ep. cbn [obind]. destruct (buildTransducer p) as [[t ft]| | | |] eqn:Et; try reflexivity. cbn [obind].
  destruct (C79_file rules p t ft to_file Ep Et F H0) as (bs & t' & E & R & X & I). rewrite E. cbn [obind]. specialize (R (mkF 0 [] [[]]) []). rewrite app_nil_r in R. rewrite R. cbn [obind]. rewrite X, I. reflexivity.
Qed.
(** With C69: the list that was read answers with the least number of a rule that fits. *)
Theorem C79_match : forall rules p to_file w, rules_ok [] rules -> compatible (patterns_of rules) ->
  (forall id al, In (id, al) (patterns_of rules) -> simple al) -> (length (patterns_of rules) <= 512)%nat ->
  run_rules rules = Ok p -> list_fits p -> to_file 0 = WFin 0 0 -> Forall sym_ok w ->
  exists r, reply_file to_file [] rules w = Ok r /\ answer (patterns_of rules) w r.
Proof.
  intros rules p to_file w Hr Hc Hs Hl Ep F H0 Hw. rewrite (C79_reply rules p to_file [] w Ep F H0). apply C69_simple; auto.
  intros id al Hi. destruct (run_rules_ok rules Hr) as (p' & Ep' & St). assert (p' = p) by congruence. subst p'.
  destruct (proj2 (st_stored _ _ St) _ _ Hi) as (l & Hx & _). pose proof (lf_numbers p F id l Hx). lia.
Qed.

(** The list of rules of C69 *)
Definition weight_of (w : Z) : weight := WFin w 0.
Lemma grammar_fits : exists p, run_rules grammar = Ok p /\ list_fits p.
Proof.
  eexists. split; [vm_compute; reflexivity|]. constructor.
  - split; [vm_compute; reflexivity|]. split; [vm_compute; reflexivity|]. split; cbn [pl_alpha slexicinv spairinv length].
    + intros x H. repeat (destruct H as [<-|H]; [match goal with |- exists body, ?l = _ /\ _ => exists (removelast (tl l)) end; split; [reflexivity|];
        split; [apply Forall_forall; intros c Hc; vm_compute in Hc; repeat (destruct Hc as [<-|Hc]; [lia|]); destruct Hc|vm_compute; reflexivity]|]). destruct H.
    + intros x y H. cbn in H. repeat (destruct H as [H|H]; [injection H as <- <-; lia|]). destruct H.
  - intros id v c H Hc. cbn [pl_patterns pl_alpha] in *. repeat (destruct H as [H|H]; [injection H as <- <-; cbn in Hc; unfold alphabet_size; cbn; repeat (destruct Hc as [<-|Hc]; [lia|]); destruct Hc|]). destruct H.
  - vm_compute. reflexivity.
  - intros id v H. cbn in H. repeat (destruct H as [H|H]; [injection H as <- _; lia|]). destruct H.
  - vm_compute. reflexivity.
Qed.
Example C79_example :
  (exists p, run_rules grammar = Ok p /\ list_fits p)
  /\ (forall w, Forall sym_ok w -> exists r, reply_file weight_of [] grammar w = Ok r /\ answer (patterns_of grammar) w r)
  /\ map (reply_file weight_of [] grammar)
       [ word_of "dog" ++ [tag_of_ "n"]; word_of "abx" ++ [tag_of_ "n"; tag_of_ "pl"]; word_of "a" ++ [tag_of_ "v"] ++ word_of "+be" ++ [tag_of_ "x"; tag_of_ "y"];
         word_of "dog" ++ [tag_of_ "v"] ]
     = [Ok 4; Ok 2; Ok 3; Ok (-1)].
Proof.
  split; [exact grammar_fits|]. split; [|vm_compute; reflexivity]. intros w Hw. destruct grammar_fits as (p & Ep & F). destruct grammar_ok as (A & B & C & D).
  apply (C79_match grammar p weight_of w); auto. apply Nat.leb_le. vm_compute. reflexivity.
Qed.

(** * What is not so *)
(** Rules are numbered as the client likes, but numbers from 2^30 on, or negative ones, are not written. *)
Theorem C79_number_refuted : reply [RPart (2 ^ 30) (P "a" [txt "n"])] (word_of "a" ++ [tag_of_ "n"]) = Ok (2 ^ 30)
  /\ reply_file weight_of [] [RPart (2 ^ 30) (P "a" [txt "n"])] (word_of "a" ++ [tag_of_ "n"]) = Exit
  /\ reply [RPart (-2) (P "a" [txt "n"])] (word_of "a" ++ [tag_of_ "n"]) = Ok (-2)
  /\ reply_file weight_of [] [RPart (-2) (P "a" [txt "n"])] (word_of "a" ++ [tag_of_ "n"]) = Exit.
Proof. split; [vm_compute; reflexivity|]. split; [vm_compute; reflexivity|]. split; vm_compute; reflexivity. Qed.
(** A file that was cut is read without complaint: here the final types are lost, or everything but
    the alphabet, and the list keeps the transducer that it had. *)
Theorem C79_cut_refuted : exists p t ft bs, run_rules grammar = Ok p /\ buildTransducer p = Ok (t, ft) /\ plist_write weight_of (pl_alpha p) t ft = Ok bs /\ ft <> []
  /\ (exists k, (k < length bs)%nat /\ plist_read (mkF 0 [] [[]]) (firstn k bs) = Ok (pl_alpha p, file_trans weight_of t, [], []))
  /\ (exists k, (k < length bs)%nat /\ forall old, plist_read old (firstn k bs) = Ok (pl_alpha p, old, [], [])).
Proof.
  eexists _, _, _, _. split; [vm_compute; reflexivity|]. split; [vm_compute; reflexivity|]. split; [vm_compute; reflexivity|]. split; [discriminate|]. split.
  - exists 164%nat. split; [cbn; lia|vm_compute; reflexivity].
  - exists 53%nat. split; [cbn; lia|]. intros old. vm_compute. reflexivity.
Qed.

Print Assumptions C79_file.
Print Assumptions C79_reply.
Print Assumptions C79_match.
Print Assumptions C79_number_refuted.
Print Assumptions C79_cut_refuted.
