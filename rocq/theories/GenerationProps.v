(** C59: morphological generation. *)
From Coq Require String Ascii.
From Coq Require Import Sorted.
From Verif Require Import Base CompressionModel AlphabetModel AlphabetProofs StateModel StateSpec StatePathProofs
  StateProps FinalsModel FinalsProps InputModel InputProps StreamModel StreamProps ProcessorModel ProcessorProofs
  CompoundProofs CompoundProps LookupProps GenerationModel GenerationSpec GenerationProofs.

(** Each part of the stream is written as it should be, in order, and nothing else. *)
Theorem C59_stream : forall P cs m l tail out,
  (forall c, c <> 0 -> p_tolower P c <> 0) -> is_sort (p_sort P) ->
  0 < p_maxAnalyses P -> 0 < p_maxClasses P ->
  Forall item_ok l -> gap true tail -> Forall scalar (stream_text l tail) ->
  Forall (item_calm P cs m) l ->
  generation P m (open_file (utf8_text (stream_text l tail))) = Ok out ->
  exists outs, Forall2 (item_out P cs m) l outs /\ out = concat outs ++ utf16_text tail.
Proof.
  intros P cs m l tail out Htl Hs HA HC Hl Ht Hsc Hc H. rewrite generation_words in H by auto.
  destruct (words P m l) as [x| | | |] eqn:E; try discriminate. cbn [obind] in H.
  destruct (words_spec P cs m Htl Hs HA HC l x Hl (stream_scalar l tail Hsc) Hc E) as (outs & F & ->).
  exists outs. split; [exact F|congruence].
Qed.

(** And it does return, for every stream of units. *)
Theorem C59_returns : forall P m l tail,
  eps_acyclic (p_find P) -> tags_known P -> is_sort (p_sort P) -> p_toupper P 0 = 0 -> p_weights P = false ->
  0 < p_maxAnalyses P -> 0 < p_maxClasses P ->
  Forall item_ok l -> gap true tail -> Forall scalar (stream_text l tail) ->
  exists out N, forall n, (N <= n)%nat ->
    generation (with_fuel P n) m (open_file (utf8_text (stream_text l tail))) = Ok out.
Proof.
  intros P m l tail Ha Ht Hs H0 Hw HA HC Hl Hg Hsc.
  destruct (words_settle P m Ha Ht Hs H0 Hw HA HC l) as (x & N & K). exists (x ++ utf16_text tail), N.
  intros n Hn. rewrite generation_words by auto. rewrite K by auto. reflexivity.
Qed.

(** Letter case is either never or always folded. *)
Lemma calm_sensitive : forall P m l, p_caseSensitive P = true -> Forall (item_calm P true m) l.
Proof.
  intros P m l H. apply Forall_forall. intros [b w [|r rs]|b] _; cbn [item_calm]; auto. intros init _.
  generalize (piece_symbols (p_alpha P) (t_pieces r)). intros w'. generalize init. clear init.
  induction w' as [|c w' IH]; intros st; cbn [calm]; [exact I|]. split; [|intros st' _; apply IH].
  unfold beCaseSensitive. rewrite H. reflexivity.
Qed.
Theorem C59_case_sensitive : forall P m l tail out,
  p_caseSensitive P = true ->
  (forall c, c <> 0 -> p_tolower P c <> 0) -> is_sort (p_sort P) ->
  0 < p_maxAnalyses P -> 0 < p_maxClasses P ->
  Forall item_ok l -> gap true tail -> Forall scalar (stream_text l tail) ->
  generation P m (open_file (utf8_text (stream_text l tail))) = Ok out ->
  (exists outs, Forall2 (item_out P true m) l outs /\ out = concat outs ++ utf16_text tail)
  /\ forall careful w, has_word P true careful w <-> accepted P w.
Proof.
  intros P m l tail out Hcs Htl Hs HA HC Hl Ht Hsc H. split.
  - eapply C59_stream; eauto. now apply calm_sensitive.
  - intros careful w. unfold has_word, accepted.
    assert (K : forall p w s d q, run P true careful p w s d q <-> d = false /\ rpath (p_find P) p w s q).
    { clear. intros p w s d q. split.
      - intros H. induction H as [p|p o q w l s d r Ho Hp IH|p c o q w l s d r Hc Ho Hp IH|p c o q w l s d r Hc [Hf _]]; [| | |discriminate].
        + split; constructor.
        + destruct IH as [-> IH]. split; auto. econstructor; eauto.
        + destruct IH as [-> IH]. split; auto. econstructor; eauto.
      - intros [-> H]. induction H; econstructor; eauto. }
    split; intros (s & H1).
    + destruct H1 as (d & q & Hr & Hf). apply K in Hr as [-> Hr]. exists s, q. auto.
    + destruct H1 as (q & Hr & Hf). exists s, false, q. split; [now apply K|exact Hf].
Qed.

(** ** What is written for words not generated is fixed by the mode and the word. *)
Lemma quote_unique : forall t u u', quote t u -> quote t u' -> u = u'.
Proof.
  intros t u u' H. revert u'. induction H as [|c t u Hc H IH|c t u Hc H IH]; intros u' H'.
  - now inversion H'.
  - inversion H'; subst; [f_equal; auto|contradiction].
  - inversion H'; subst; [contradiction|]. do 2 f_equal. auto.
Qed.
Lemma lemma_unique : forall t a b a' b', lemma_rest t a b -> lemma_rest t a' b' -> a = a' /\ b = b'.
Proof.
  intros t a b a' b' (E & N & B) (E' & N' & B').
  assert (L : length a = length a').
  { destruct (lt_eq_lt_dec (length a) (length a')) as [[L|L]|L]; auto; exfalso.
    - apply (N' _ L). apply B. intros ->. rewrite E in E'. apply (f_equal (@length Z)) in E'. rewrite !app_length in E'. cbn in E'. lia.
    - apply (N _ L). apply B'. intros ->. rewrite E in E'. apply (f_equal (@length Z)) in E'. rewrite !app_length in E'. cbn in E'. lia. }
  rewrite E in E'. clear - E' L. revert a' L E'. induction a as [|x a IH]; intros [|y a'] L E; try discriminate; auto.
  cbn in *. injection E as -> E. destruct (IH a' ltac:(lia) E) as [-> ->]. auto.
Qed.
Lemma quote_lemma_unique : forall t u u', quote_lemma t u -> quote_lemma t u' -> u = u'.
Proof.
  intros t u u' (a & b & q & Hl & Hq & ->) (a' & b' & q' & Hl' & Hq' & ->).
  destruct (lemma_unique _ _ _ _ _ Hl Hl') as [-> ->]. f_equal. eapply quote_unique; eauto.
Qed.
Lemma marked_all_unique : forall k t u u', marked_all k t u -> marked_all k t u' -> u = u'.
Proof. intros k t u u' (q & Hq & ->) (q' & Hq' & ->). f_equal. eapply quote_unique; eauto. Qed.
Lemma marked_lemma_unique : forall k t u u', marked_lemma k t u -> marked_lemma k t u' -> u = u'.
Proof.
  intros k t u u' (a & b & q & Hl & Hq & ->) (a' & b' & q' & Hl' & Hq' & ->).
  destruct (lemma_unique _ _ _ _ _ Hl Hl') as [-> ->]. f_equal. eapply quote_unique; eauto.
Qed.
Lemma pair_unique : forall k t u u', pair_of k t u -> pair_of k t u' -> u = u'.
Proof.
  intros k t u u' (a & b & q & v & Hl & Hq & Hv & ->) (a' & b' & q' & v' & Hl' & Hq' & Hv' & ->).
  destruct (lemma_unique _ _ _ _ _ Hl Hl') as [-> ->]. rewrite (quote_unique _ _ _ Hq Hq'), (quote_lemma_unique _ _ _ Hv Hv').
  reflexivity.
Qed.
Theorem C59_unique : forall m t,
  (forall k u u', passed_on m k t u -> passed_on m k t u' -> u = u')
  /\ (forall u u', not_generated m t u -> not_generated m t u' -> u = u')
  /\ exists u, not_generated m t u.
Proof.
  intros m t. split; [|split].
  - intros k u u' H H'. destruct m; cbn [passed_on] in *; try destruct (k =? at_sign);
      first [eapply marked_lemma_unique; eassumption | eapply marked_all_unique; eassumption | eapply pair_unique; eassumption | congruence].
  - intros u u' H H'. destruct m; cbn [not_generated] in *;
      first [eapply marked_lemma_unique; eassumption | eapply marked_all_unique; eassumption | eapply pair_unique; eassumption].
  - assert (L : forall k, exists u, marked_lemma k t u).
    { intros k. exists (k ++ writeEscaped (removeTags t)), (removeTags t), (removed None t), (writeEscaped (removeTags t)).
      split; [apply remove_lemma|]. split; [apply quote_written|reflexivity]. }
    destruct m; cbn [not_generated]; auto.
    + exists ([hash] ++ writeEscaped t), (writeEscaped t). split; [apply quote_written|reflexivity].
    + exists (94 :: writeEscaped (removeTags t) ++ 47 :: hash :: (writeEscaped (removeTags t) ++ removed None t) ++ [36]).
      exists (removeTags t), (removed None t), (writeEscaped (removeTags t)), (writeEscaped (removeTags t) ++ removed None t).
      split; [apply remove_lemma|]. split; [apply quote_written|]. split; [|reflexivity].
      exists (removeTags t), (removed None t), (writeEscaped (removeTags t)). split; [apply remove_lemma|].
      split; [apply quote_written|reflexivity].
Qed.

(** For the usual words, a lemma of characters without a meaning and tags, this is the lemma. *)
Theorem C59_lemma : forall lemma tags, lemma <> [] -> Forall (fun c => ~ meta c) lemma ->
  (tags = [] \/ hd 0 tags = 60) ->
  lemma_rest (lemma ++ tags) lemma tags /\ quote lemma lemma.
Proof.
  intros lemma tags Hne Hp Ht. split.
  - split; [reflexivity|]. split.
    + intros i Hi (H & _). rewrite nth_error_app1 in H by auto. apply nth_error_In in H.
      rewrite Forall_forall in Hp. apply (Hp 60 H). vm_compute. tauto.
    + intros Hn. destruct Ht as [->|Ht]; [congruence|]. destruct tags as [|c tags]; [congruence|]. cbn [hd] in Ht. subst c.
      split.
      * rewrite nth_error_app2 by auto. now rewrite Nat.sub_diag.
      * destruct lemma as [|x lemma] using rev_ind; [congruence|]. clear IHlemma.
        rewrite app_length. cbn [length]. exists (length lemma). split; [lia|].
        rewrite <- app_assoc. rewrite app_nth2 by lia. rewrite Nat.sub_diag. cbn [app nth].
        apply Forall_app in Hp as [_ Hp]. inversion Hp as [|? ? Hx _]; subst. intros ->. apply Hx. vm_compute. tauto.
  - clear Hne Ht. induction Hp; constructor; auto.
Qed.

Import String.StringSyntax.
(** * A dictionary *)
(** ab<n> is generated as ab and as a~b, AB<n> as Ab, c/d<n> as c^d; the tag <n> is -3. *)
Definition gen_arcs : list (nat * Z * Z * nat) :=
  [(0%nat, 97, 97, 1%nat); (1%nat, 98, 98, 2%nat); (2%nat, -3, 0, 3%nat);
   (1%nat, 98, 126, 4%nat); (4%nat, -3, 98, 3%nat);
   (0%nat, 65, 65, 5%nat); (5%nat, 66, 98, 2%nat);
   (0%nat, 99, 99, 6%nat); (6%nat, 47, 94, 7%nat); (7%nat, 100, 100, 2%nat)].
Definition gen_dix (cs : bool) : processor := sample gen_arcs [3%nat] cs.
Definition word (mark : option Z) (ps : list piece) : rtext := mkT mark ps.
Definition letters_of (s : list Z) : list piece := map PChar s.
Definition noun (lemma : list Z) : list piece := letters_of lemma ++ [PTag (txt "n")].
Definition gen_stream : list item :=
  [Unit (txt "x ") [] [word None (noun (txt "ab"))];
   Unit (txt " ") (txt "[[t:b]]") [word None (noun (txt "Ab")); word None (noun (txt "q"))];
   Unit (txt "[<i>]") [] [word (Some 61) (noun (txt "aB"))];
   Unit (txt " ") [] [word (Some 35) [PChar 99; PEsc 47; PChar 100; PTag (txt "n"); PChunk (txt "y")]];
   Null (txt ".");
   Unit [] [] [word (Some 42) (letters_of (txt "zz"))];
   Unit (txt " ") [] [word (Some 64) (noun (txt "zz"))];
   Unit (txt " ") [] [word None (letters_of (txt "zz") ++ [PTag (txt "n"); PTag (txt "m")])]].
Ltac text_ok := repeat (first [apply bl_nil | apply bl_char; try (unfold U_EOF; lia)]).
Ltac all_lia := repeat (apply Forall_cons; [lia|]); apply Forall_nil.
Lemma gen_stream_ok : Forall item_ok gen_stream /\ gap true (txt " end")
  /\ Forall scalar (stream_text gen_stream (txt " end")).
Proof.
  split; [|split].
  - assert (U : forall b w rs, gap false b -> wordblank w -> Forall rtext_ok rs -> rs <> [] -> item_ok (Unit b w rs))
      by (intros b w rs A B C D; exact (conj A (conj B (conj C D)))).
    assert (W : forall k ps, Forall piece_ok ps ->
      match k with Some c => marks c | None => forall c, hd_error (pieces_text ps) = Some c -> ~ marks c end ->
      rtext_ok (word k ps)) by (intros k ps A B; exact (conj A B)).
    assert (T : forall b, block_body 62 b -> piece_ok (PTag b)) by auto.
    assert (C : forall c, c <> 47 /\ c <> 36 /\ c <> 0 /\ c <> 60 /\ c <> 123 /\ c <> 92 -> piece_ok (PChar c)) by auto.
    assert (N : forall x, x = txt "n" \/ x = txt "m" -> block_body 62 x).
    { intros x [->| ->]; vm_compute txt; apply bb_char; try lia; apply bb_nil. }
    assert (L : forall s, Forall (fun c => 97 <= c <= 122 \/ 65 <= c <= 90) s -> Forall piece_ok (letters_of s)).
    { intros s H. apply Forall_map. eapply Forall_impl; [|exact H]. intros c Hc. cbv beta in Hc. apply C. lia. }
    assert (No : forall s, Forall (fun c => 97 <= c <= 122 \/ 65 <= c <= 90) s -> Forall piece_ok (noun s)).
    { intros s H. apply Forall_app. split; [now apply L|]. apply Forall_cons; [apply T, N; now left|apply Forall_nil]. }
    assert (G : forall b, blank false b -> gap false b) by (intros b Hb; now apply gap_blank).
    repeat apply Forall_cons; try apply Forall_nil.
    + apply U; [apply G; vm_compute txt; text_ok|now left| |discriminate]. apply Forall_cons; [|apply Forall_nil].
      apply W; [apply No; vm_compute txt; all_lia|]. intros c E; vm_compute in E; injection E as <-; unfold marks; cbn [In]; lia.
    + apply U; [apply G; vm_compute txt; text_ok| | |discriminate].
      * right. exists (txt "t:b"). split; [reflexivity|]. vm_compute txt. repeat (apply wb_char; [lia|lia|lia|]). apply wb_nil.
      * apply Forall_cons; [|apply Forall_cons; [|apply Forall_nil]]; (apply W; [apply No; vm_compute txt; all_lia|]); intros c E; vm_compute in E; injection E as <-; unfold marks; cbn [In]; lia.
    + apply U; [|now left| |discriminate].
      * apply G. change (txt "[<i>]") with (91 :: txt "<i>" ++ 93 :: []). apply bl_block; [|cbn; intros x E; injection E; lia|apply bl_nil].
        vm_compute txt. repeat (apply bb_char; [lia|lia|lia|]). apply bb_nil.
      * apply Forall_cons; [|apply Forall_nil]. apply W; [apply No; vm_compute txt; all_lia|]. unfold marks. cbn [In]. lia.
    + apply U; [apply G; vm_compute txt; text_ok|now left| |discriminate]. apply Forall_cons; [|apply Forall_nil]. apply W.
      * repeat apply Forall_cons; try apply Forall_nil; try (apply C; lia); try exact I; try (apply T, N; auto).
        vm_compute txt. cbn [piece_ok]. apply bb_char; try lia. apply bb_nil.
      * unfold marks. cbn [In]. lia.
    + apply gap_blank. vm_compute txt. text_ok.
    + apply U; [apply G; apply bl_nil|now left| |discriminate]. apply Forall_cons; [|apply Forall_nil].
      apply W; [apply L; vm_compute txt; all_lia|]. unfold marks. cbn [In]. lia.
    + apply U; [apply G; vm_compute txt; text_ok|now left| |discriminate]. apply Forall_cons; [|apply Forall_nil].
      apply W; [apply No; vm_compute txt; all_lia|]. unfold marks. cbn [In]. lia.
    + apply U; [apply G; vm_compute txt; text_ok|now left| |discriminate]. apply Forall_cons; [|apply Forall_nil].
      apply W; [|intros c E; vm_compute in E; injection E as <-; unfold marks; cbn [In]; lia]. apply Forall_app. split; [apply L; vm_compute txt; all_lia|].
      repeat apply Forall_cons; try apply Forall_nil; apply T, N; auto.
  - apply gap_blank. vm_compute txt. text_ok.
  - vm_compute stream_text. repeat (apply Forall_cons; [split; lia|]). apply Forall_nil.
Qed.
Lemma gen_stream_calm : forall m, Forall (item_calm (gen_dix false) false m) gen_stream.
Proof.
  intros m. unfold gen_stream. repeat apply Forall_cons; try apply Forall_nil; cbn [item_calm]; try exact I;
    intros init E; vm_compute in E; injection E as <-;
    match goal with |- calm _ _ _ _ ?l => let l' := eval vm_compute in l in change l with l' end;
    destruct m; repeat (cbn [calm]; first [exact I | split; [vm_compute; reflexivity|]; intros st' E; vm_compute in E; injection E as <-]).
Qed.
Example C59_example :
  stream_text gen_stream (txt " end")
    = txt "x ^ab<n>$ [[t:b]]^Ab<n>/q<n>$[<i>]^=aB<n>$ ^#c\/d<n>{y}$." ++ [0] ++ txt "^*zz$ ^@zz<n>$ ^zz<n><m>$ end"
  /\ generation (gen_dix false) gm_unknown (open_file (utf8_text (stream_text gen_stream (txt " end"))))
    = Ok (txt "x ab/a~b [[t:b]]Ab/A~b[<i>]=AB/A~B c\^d." ++ [0] ++ txt "*zz @zz #zz end")
  /\ generation (gen_dix false) gm_tagged_nm (open_file (utf8_text (stream_text gen_stream (txt " end"))))
    = Ok (txt "x ^ab/a~b/ab<n>$ [[t:b]]^Ab/A~b/Ab<n>$[<i>]=^AB/A~B/aB<n>$ ^c\^d/c\\\/d<n>$." ++ [0]
          ++ txt "^zz/*zz$ ^zz/@zz<n>$ ^zz/#zz<n><m>$ end")
  /\ generation (gen_dix false) gm_all (open_file (utf8_text (stream_text gen_stream (txt " end"))))
    = Ok (txt "x ab/a~b [[t:b]]Ab/A~b[<i>]=AB/A~B c\^d." ++ [0] ++ txt "*zz @zz\<n\> #zz\<n\>\<m\> end").
Proof. split; [reflexivity|]. split; [vm_compute; reflexivity|]. split; vm_compute; reflexivity. Qed.
Example C59_stream_example : forall m, exists outs out,
  generation (gen_dix false) m (open_file (utf8_text (stream_text gen_stream (txt " end")))) = Ok out
  /\ Forall2 (item_out (gen_dix false) false m) gen_stream outs /\ out = concat outs ++ txt " end".
Proof.
  intros m. destruct gen_stream_ok as (A & B & C).
  assert (E : exists out, generation (gen_dix false) m (open_file (utf8_text (stream_text gen_stream (txt " end")))) = Ok out).
  { destruct m; eexists; vm_compute; reflexivity. }
  destruct E as (out & E).
  destruct (C59_stream (gen_dix false) false m gen_stream (txt " end") out) as (outs & F & Eo); auto.
  - intros c Hc. cbn. unfold ascii_up. destruct ((65 <=? c) && (c <=? 90)) eqn:Eq; lia.
  - exact isort_is_sort.
  - reflexivity.
  - reflexivity.
  - apply gen_stream_calm.
  - exists outs, out. auto.
Qed.

(** * What does not hold *)
(** With lt-proc -C a word the bilingual dictionary did not have is lost (fst_processor.cc:1299-1322
    has no case for gm_carefulcase). *)
Theorem C59_careful_refuted : forall P,
  generation P gm_carefulcase (open_file (txt "a ^@house<n>$ b")) = Ok (txt "a  b").
Proof. intros P. vm_compute. reflexivity. Qed.
(** Escaped characters of unknown words are escaped twice: what is written says that the
    word has a backslash. *)
Theorem C59_escapes_refuted : forall P,
  generation P gm_unknown (open_file (txt "^*a\/b$")) = Ok (42 :: txt "a\\\/b")
  /\ says (txt "a\/b") (txt "a/b") /\ says (txt "a\\\/b") (txt "a\/b").
Proof.
  intros P. split; [vm_compute; reflexivity|]. vm_compute txt.
  split; repeat first [apply says_nil | apply says_esc | apply says_char; [vm_compute; lia|]].
Qed.
(** The second letter alone makes a word all upper case. *)
Theorem C59_case_refuted :
  generation (gen_dix false) gm_unknown (open_file (txt "^aB<n>$")) = Ok (txt "AB/A~B")
  /\ ascii_up 97 = false.
Proof. split; vm_compute; reflexivity. Qed.
(** The tags of a word whose lemma ends in a backslash are not removed. *)
Theorem C59_backslash_refuted : forall cs,
  generation (gen_dix cs) gm_clean (open_file (txt "^a\\<n>$")) = Ok (txt "a\\\\\<n\>")
  /\ generation (gen_dix cs) gm_clean (open_file (txt "^b<n>$")) = Ok (txt "b").
Proof. intros [|]; split; vm_compute; reflexivity. Qed.
(** Careful mode prefers the upper-case entry, the others do not. *)
Example C59_careful_example :
  generation (gen_dix false) gm_carefulcase (open_file (txt "^AB<n>$ ^Ab<n>$")) = Ok (txt "Ab #Ab")
  /\ generation (gen_dix false) gm_unknown (open_file (txt "^AB<n>$ ^Ab<n>$")) = Ok (txt "Ab/AB/A~B Ab/A~b")
  /\ generation (gen_dix true) gm_unknown (open_file (txt "^AB<n>$ ^Ab<n>$")) = Ok (txt "Ab #Ab").
Proof. repeat split; vm_compute; reflexivity. Qed.
Example C59_lemma_example : not_generated gm_unknown (txt "zz<n>") (txt "#zz").
Proof.
  destruct (C59_lemma (txt "zz") (txt "<n>")) as [A B]; [discriminate| |now right|].
  - vm_compute txt. repeat constructor; vm_compute; lia.
  - exists (txt "zz"), (txt "<n>"), (txt "zz"). split; [exact A|]. split; [exact B|reflexivity].
Qed.

Print Assumptions C59_stream.
Print Assumptions C59_returns.
Print Assumptions C59_case_sensitive.
Print Assumptions C59_unique.
Print Assumptions C59_lemma.
Print Assumptions C59_careful_refuted.
Print Assumptions C59_escapes_refuted.
Print Assumptions C59_case_refuted.
Print Assumptions C59_backslash_refuted.
