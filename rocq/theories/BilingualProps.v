(** C60: bilingual look-up of a stream; C39: look-up without a queue. *)
From Coq Require String Ascii.
From Coq Require Import Sorted.
From Verif Require Import Base CompressionModel AlphabetModel AlphabetProofs StateModel StateSpec StatePathProofs
  StateProps FinalsModel FinalsProps BufferModel StringModel StringProps InputModel InputProps StreamModel StreamProps
  ProcessorModel ProcessorProofs CompoundProofs CompoundProps LookupProps GenerationModel GenerationSpec
  GenerationProofs GenerationProps BilingualModel BilingualSpec BilingualProofs.

Lemma any_nonzero : forall P, alph_inv (p_alpha P) -> known ANY_CHAR (p_alpha P) -> any_char P <> 0.
Proof.
  intros P Hi Hk. destruct (tag_known P Hi ANY_CHAR Hk) as [H _]. unfold any_char. lia.
Qed.
(** Each part of the stream is written as it should be, in order, and nothing else. *)
Theorem C60_stream : forall P cs m forms keep l tail out,
  alph_inv (p_alpha P) -> known ANY_CHAR (p_alpha P) ->
  (forall c, c <> 0 -> p_tolower P c <> 0) -> is_sort (p_sort P) ->
  0 < p_maxAnalyses P -> 0 < p_maxClasses P ->
  Forall item_ok l -> gap true tail -> Forall scalar (stream_text l tail) -> Forall item_no_nul l ->
  stream_calm P cs (p_alpha P) l ->
  bilingual P forms keep m (open_file (utf8_text (stream_text l tail))) = Ok out ->
  exists outs, stream_result P cs m forms keep (p_alpha P) l outs /\ out = concat outs ++ utf16_text tail.
Proof.
  intros P cs m forms keep l tail out Hi Hk Htl Hs HA HC Hl Ht Hsc Hn Hc H. rewrite bilingual_items in H by auto.
  destruct (bil_items P m forms keep (p_alpha P) l) as [x| | | |] eqn:E; try discriminate. cbn [obind] in H.
  destruct (items_spec P cs m forms keep (any_nonzero P Hi Hk) Htl Hs HA HC l (p_alpha P) x Hi Hl (stream_scalar l tail Hsc) Hn Hc E)
    as (outs & F & ->).
  exists outs. split; [exact F|congruence].
Qed.

(** And it does return, for every stream of units. *)
Theorem C60_returns : forall P m forms keep l tail,
  alph_inv (p_alpha P) -> (forall c, 0 <= c -> 0 <= p_tolower P c) ->
  eps_acyclic (p_find P) -> tags_known P -> is_sort (p_sort P) -> p_toupper P 0 = 0 -> p_weights P = false ->
  Forall item_ok l -> gap true tail -> Forall scalar (stream_text l tail) ->
  exists out N, forall n, (N <= n)%nat ->
    bilingual (with_fuel P n) forms keep m (open_file (utf8_text (stream_text l tail))) = Ok out.
Proof.
  intros P m forms keep l tail Hi Hlow Ha Ht Hs H0 Hw Hl Hg Hsc.
  destruct (items_settle P m forms keep Ha Ht Hs H0 Hw Hlow l (p_alpha P) Hi (le_n _) Hl (stream_scalar l tail Hsc)) as (x & N & K).
  exists (x ++ utf16_text tail), N. intros n Hn. rewrite bilingual_items by auto.
  change (p_alpha (with_fuel P n)) with (p_alpha P). rewrite K by auto. reflexivity.
Qed.

(** Letter case is either never or always folded. *)
Lemma bil_calm_sensitive : forall P pick l st, p_caseSensitive P = true -> bil_calm P pick true st l.
Proof.
  intros P pick l. induction l as [|c l IH]; intros st H; cbn [bil_calm]; [exact I|]. split; [|intros st' _; now apply IH].
  unfold beCaseSensitive. now rewrite H.
Qed.
Lemma stream_calm_sensitive : forall P l a, p_caseSensitive P = true -> stream_calm P true a l.
Proof.
  intros P l. induction l as [|[b w rs|b] l IH]; intros a H; cbn [stream_calm]; [exact I| |now apply IH].
  split; [|now apply IH]. apply Forall_forall. intros r _ st _. split; apply bil_calm_sensitive; exact H.
Qed.
Theorem C60_case_sensitive : forall P m forms keep l tail out,
  p_caseSensitive P = true ->
  alph_inv (p_alpha P) -> known ANY_CHAR (p_alpha P) ->
  (forall c, c <> 0 -> p_tolower P c <> 0) -> is_sort (p_sort P) ->
  0 < p_maxAnalyses P -> 0 < p_maxClasses P ->
  Forall item_ok l -> gap true tail -> Forall scalar (stream_text l tail) -> Forall item_no_nul l ->
  bilingual P forms keep m (open_file (utf8_text (stream_text l tail))) = Ok out ->
  (exists outs, stream_result P true m forms keep (p_alpha P) l outs /\ out = concat outs ++ utf16_text tail)
  /\ ((forall n, p_find P n (any_char P) = []) -> forall w, has_entry P (any_char P) true (map Free w) <-> accepted P w).
Proof.
  intros P m forms keep l tail out Hcs Hi Hk Htl Hs HA HC Hl Ht Hsc Hn H. split.
  - eapply C60_stream; eauto. now apply stream_calm_sensitive.
  - intros Hfree w. unfold has_entry, accepted. split.
    + intros (s & d & q & Hr & Hf).
      assert (K : forall p x s d q, brun P (any_char P) true p x s d q -> forall w, x = map Free w ->
        exists s', rpath (p_find P) p w s' q).
      { clear - Hfree. intros p x s d q H. induction H as [p|p o q w l s d r Ho Hp IH|p c o q w l s d r Hc Ho Hp IH|p c o q w l s d r Hc Ho Hp IH
          |p c o q w l s d r Hc Hf|p c o q w l s d r Hc Ho]; intros v E.
        - destruct v; [|discriminate]. exists []. constructor.
        - destruct (IH v E) as (s' & K). eexists. eapply rp_eps; eauto.
        - destruct v; discriminate.
        - destruct v as [|c' v]; [discriminate|]. cbn [map] in E. assert (c = c') by congruence. subst c'.
          destruct (IH v ltac:(congruence)) as (s' & K). eexists. eapply rp_sym; eauto.
        - discriminate.
        - rewrite Hfree in Ho. destruct Ho. }
      destruct (K _ _ _ _ _ Hr w eq_refl) as (s' & Hp). eauto.
    + intros (s & q & Hr & Hf).
      assert (K : forall p w s q, rpath (p_find P) p w s q -> exists s', brun P (any_char P) true p (map Free w) s' false q).
      { clear. intros p w s q H. induction H as [p|p o q w l s r Ho Hp (s' & IH)|p c o q w l s r Hc Ho Hp (s' & IH)]; cbn [map].
        - eexists. constructor.
        - eexists. eapply br_eps; eauto.
        - eexists. eapply br_same; eauto. }
      destruct (K _ _ _ _ Hr) as (s' & Hb). eauto.
Qed.

(** ** One dictionary, one result *)
(** Whether a word has an entry and how much of it is looked up is fixed. *)
Theorem C60_one_reading : forall P any cs m before w k k', found_first P any cs m before w k -> found_first P any cs m before w k' -> k = k'.
Proof.
  intros P any cs m before w k k' ((A & B & C) & _) ((A' & B' & C') & _).
  destruct (lt_eq_lt_dec k k') as [[L|L]|L]; auto; exfalso.
  - apply (C k'); [lia|exact B'].
  - apply (C' k); [lia|exact B].
Qed.
Theorem C60_exclusive : forall P any cs m before w k res, translated P any cs m before w k res ->
  ~ untranslated P any cs m before w.
Proof.
  intros P any cs m before w k res H (U1 & U2).
  assert (K : forall cs' x up fu r, entries_of P any cs' x up fu r -> has_entry P any cs' x).
  { intros cs' x up fu r (rep & _ & Hne & _ & _ & Hrep & _). destruct rep as [|[t c] rep]; [congruence|].
    destruct (Hrep t c) as (s & d & q & Hb & (fw & t0 & Hf & _)); [now left|]. exists s, d, q. split; [exact Hb|].
    cbn [v_where] in Hf. congruence. }
  destruct H as [k up fu res F _ _|res _ Hm E].
  - exact (U1 k F).
  - exact (U2 Hm (K _ _ _ _ _ E)).
Qed.

(** ** Without a queue *)
(** biltransWithoutQueue prints the translations of the word if nothing of it is left over,
    and the word with '@' otherwise.  [c] is the unit left out, as in C39_output. *)
Theorem C39_without_queue : forall P w c (delim mark : bool) r,
  let open : ustr := if delim then [94] else [] in
  let close : ustr := if delim then [36] else [] in
  let m : ustr := if mark then [61] else [] in
  w <> [] -> hd 0 w <> 42 -> (mark = false -> hd 0 w <> 61) -> Z.of_nat (length w) < 2 ^ 31 ->
  step_biltrans P (c :: close) w = Ok r ->
  exists out, biltransWithoutQueue P (open ++ m ++ w ++ [c] ++ close) delim = Ok out
  /\ match r with
     | Some (res, []) => exists body, out = open ++ m ++ body ++ close
         /\ (res <> [] -> 47 :: body = flat_map (fun t => 47 :: t) res)
     | _ => out = open ++ [64] ++ m ++ w ++ [c] ++ close
     end.
Proof.
  intros P w c delim mark r open close m Hne H42 H61 Hlen H.
  set (input := open ++ m ++ w ++ [c] ++ close). set (n := Z.of_nat (length input)). set (k := Z.of_nat (length w)).
  set (d := if delim then 1 else 0). set (e := if mark then 1 else 0).
  assert (En : n = k + 1 + d + d + e).
  { unfold n, k, d, e, input, open, close, m. rewrite !app_length. destruct delim, mark; cbn [length]; lia. }
  assert (Hk : 1 <= k) by (unfold k; destruct w; [congruence|cbn [length]; lia]).
  assert (Eskip : skipn (Z.to_nat (d + e)) input = w ++ [c] ++ close).
  { unfold d, e, input, open, m. destruct delim, mark; reflexivity. }
  assert (Enth : nth (Z.to_nat d) input 0 = if mark then 61 else hd 0 w).
  { unfold d, input, open, m. destruct w; [congruence|]. destruct delim, mark; reflexivity. }
  assert (J : forall res, res <> [] -> 47 :: join_forms res [] = flat_map (fun t => 47 :: t) res).
  { intros res Hres. rewrite join_slashes. induction res as [|x [|y res] IH]; [congruence| |].
    - cbn [map slashes flat_map]. reflexivity.
    - change (slashes (map (fun t => t ++ []) (x :: y :: res))) with ((x ++ []) ++ 47 :: slashes (map (fun t => t ++ []) (y :: res))).
      rewrite IH by discriminate. change (flat_map (fun t => 47 :: t) (x :: y :: res)) with ((47 :: x) ++ flat_map (fun t => 47 :: t) (y :: res)).
      rewrite app_nil_r. reflexivity. }
  exists (match r with Some (res, []) => open ++ m ++ join_forms res [] ++ close | _ => open ++ [64] ++ m ++ w ++ [c] ++ close end).
  split; [|destruct r as [[res [|q queue]]|]; [exists (join_forms res []); split; [reflexivity|apply J]|reflexivity|reflexivity]].
  assert (Hd : 0 <= d <= 1) by (unfold d; destruct delim; lia). assert (He : 0 <= e <= 1) by (unfold e; destruct mark; lia).
  assert (Hk2 : k < 2 ^ 31) by exact Hlen. assert (Ed : d = if delim then 1 else 0) by reflexivity.
  unfold biltransWithoutQueue. fold n. fold d. clearbody n.
  replace (n <=? d) with false by lia. rewrite Enth.
  replace ((if mark then 61 else hd 0 w) =? 42) with false by (destruct mark; lia).
  replace ((if mark then 61 else hd 0 w) =? 61) with mark by (destruct mark; [reflexivity|]; specialize (H61 eq_refl); lia).
  replace (if mark then d + 1 else d) with (d + e) by (unfold e; destruct mark; lia).
  replace (n <? d + e) with false by lia.
  assert (Ecount : Z.min (u32 (u32 (if delim then n - 2 else n - 1) - (d + e))) (n - (d + e)) = k).
  { replace (if delim then n - 2 else n - 1) with (k + d + e) by (rewrite Ed; destruct delim; lia).
    assert (E1 : u32 (k + d + e) = k + d + e) by (unfold u32; rewrite Z.mod_small; lia).
    rewrite E1. replace (k + d + e - (d + e)) with k by lia.
    assert (E2 : u32 k = k) by (unfold u32; rewrite Z.mod_small; lia). rewrite E2.
    lia. }
  cbv zeta. rewrite Ecount, Eskip. replace (Z.to_nat k) with (length w) by (unfold k; lia).
  rewrite firstn_app, firstn_all, Nat.sub_diag, firstn_O, app_nil_r.
  rewrite skipn_app, skipn_all, Nat.sub_diag. cbn [skipn]. rewrite app_nil_l. cbn [app]. rewrite H. cbn [obind].
  destruct r as [[res [|q queue]]|]; [reflexivity| |]; unfold input, open; destruct delim; reflexivity.
Qed.
Theorem C39_without_queue_marked : forall P w (delim : bool),
  biltransWithoutQueue P ((if delim then [94] else []) ++ 42 :: w) delim = Ok ((if delim then [94] else []) ++ 42 :: w).
Proof.
  intros P w delim. unfold biltransWithoutQueue. destruct delim; cbn [app length].
  - replace (_ <=? 1) with false by (cbn [length]; lia). reflexivity.
  - replace (_ <=? 0) with false by lia. reflexivity.
Qed.

(** * What does not hold *)
(** Marks other than '*' and '#' are lost. *)
Theorem C60_marks_refuted : forall P m b w ps k tail, In k [64; 61; 37] ->
  let marked := [Unit b w [mkT (Some k) ps]] in let plain := [Unit b w [mkT None ps]] in
  Forall item_ok marked -> Forall item_ok plain -> gap true tail -> Forall scalar (stream_text marked tail) ->
  bilingual P false false m (open_file (utf8_text (stream_text marked tail)))
  = bilingual P false false m (open_file (utf8_text (stream_text plain tail))).
Proof.
  intros P m b w ps k tail Hk marked plain Hm Hp Ht Hsc.
  assert (Hsc' : Forall scalar (stream_text plain tail)).
  { rewrite Forall_forall in *. intros x Hx. apply Hsc. unfold marked, plain, stream_text in *. cbn [map concat item_text] in *.
    cbn [readings_text] in *. unfold r_text in *. cbn [t_mark t_pieces] in *. rewrite !in_app_iff in *. tauto. }
  rewrite !bilingual_items by auto. unfold marked, plain. cbn [bil_items map].
  change (tags_added [mkT (Some k) ps] (p_alpha P)) with (tags_added [mkT None ps] (p_alpha P)).
  set (a := tags_added [mkT None ps] (p_alpha P)). unfold bil_unit, bil_word, expected. cbn [nth_error orb r_mark r_content r_symbols t_mark t_pieces].
  cbn [In] in Hk. destruct Hk as [<-|[<-|[<-|[]]]]; reflexivity.
Qed.
(** With the surface forms in the stream (lt-proc -o) a unit with one reading vanishes. *)
Theorem C60_single_refuted : forall P m b w r tail,
  let s := [Unit b w [r]] in
  Forall item_ok s -> gap true tail -> Forall scalar (stream_text s tail) ->
  bilingual P true false m (open_file (utf8_text (stream_text s tail))) = Ok (utf16_text (b ++ w ++ tail)).
Proof.
  intros P m b w r tail s Hs Ht Hsc. rewrite bilingual_items by auto. unfold s. cbn [bil_items map]. unfold bil_unit.
  cbn [nth_error orb obind]. rewrite !utf16_text_app, !app_nil_r, app_assoc. reflexivity.
Qed.
(** With them also in the output (lt-proc -O) such a unit loses its mark. *)
Theorem C60_keep_refuted : forall P forms m b w k ps tail,
  let s := [Unit b w [mkT (Some k) ps]] in
  Forall item_ok s -> gap true tail -> Forall scalar (stream_text s tail) ->
  bilingual P forms true m (open_file (utf8_text (stream_text s tail)))
  = Ok (utf16_text b ++ utf16_text w ++ [94] ++ utf16_text (pieces_content ps) ++ [36] ++ utf16_text tail).
Proof.
  intros P forms m b w k ps tail s Hs Ht Hsc. rewrite bilingual_items by auto. unfold s. cbn [bil_items map]. unfold bil_unit.
  rewrite orb_true_r. cbn [nth_error obind expected r_content t_pieces app]. rewrite !app_nil_r, <- !app_assoc. cbn [app].
  rewrite <- !app_assoc. reflexivity.
Qed.

Import String.StringSyntax.
(** * A dictionary *)
(** ab<n> is xy<n> and zz<n>, <n> standing behind; #c<n> is d; q with any symbol is q with
    the same symbol.  The tag <n> is -1, <ANY_CHAR> -2. *)
Definition bil_alphabet : alphabet := includeSymbol ANY_CHAR (includeSymbol (txt "<n>") (mkAlphabet [] [] [] [])).
Definition bil_arcs : list (nat * Z * Z * nat) :=
  [(0%nat, 97, 120, 1%nat); (1%nat, 98, 121, 2%nat); (2%nat, -1, -1, 3%nat);
   (0%nat, 97, 122, 4%nat); (4%nat, 98, 122, 2%nat);
   (0%nat, 113, 113, 5%nat); (5%nat, -2, -2, 3%nat);
   (0%nat, 35, 35, 6%nat); (6%nat, 99, 100, 2%nat)].
Definition bil_dix (cs : bool) : processor := with_alpha (sample bil_arcs [3%nat] cs) bil_alphabet.
Definition bil_text : list item :=
  [Unit (txt "x ") [] [word None (noun (txt "ab") ++ [PTag (txt "m")])];
   Unit (txt " ") (txt "[[t:b]]") [word None (noun (txt "Ab")); word None (noun (txt "q"))];
   Unit (txt " ") [] [word None (noun (txt "q"))];
   Unit (txt " ") [] [word None [PChar 113; PEsc 47; PTag (txt "m"); PChunk (txt "y")]];
   Null (txt ".");
   Unit [] [] [word (Some 42) (letters_of (txt "zz"))];
   Unit (txt " ") [] [word None (noun (txt "zz"))];
   Unit (txt " ") [] [word (Some 35) (noun (txt "c"))]].
Example C60_example :
  stream_text bil_text (txt " end")
    = txt "x ^ab<n><m>$ [[t:b]]^Ab<n>/q<n>$ ^q<n>$ ^q\/<m>{y}$." ++ [0] ++ txt "^*zz$ ^zz<n>$ ^#c<n>$ end"
  /\ bilingual (bil_dix false) false false gm_unknown (open_file (utf8_text (stream_text bil_text (txt " end"))))
    = Ok (txt "x ^ab<n><m>/xy<n><m>/zz<n><m>$ [[t:b]]^Ab<n>/Xy<n>/Zz<n>$ ^q<n>/q<n>$ ^q\/<m>/q\/<m>$." ++ [0]
            ++ txt "^*zz/*zz$ ^zz<n>/@zz<n>$ ^#c<n>/#d<n>$ end")
  /\ bilingual (bil_dix false) false true gm_unknown (open_file (utf8_text (stream_text bil_text (txt " end"))))
    = Ok (txt "x ^ab<n><m>$ [[t:b]]^Ab<n>/q<n>/q<n>$ ^q<n>$ ^q\/<m>$." ++ [0]
            ++ txt "^zz$ ^zz<n>$ ^c<n>$ end")
  /\ bilingual (bil_dix true) false false gm_all (open_file (utf8_text (stream_text bil_text (txt " end"))))
    = Ok (txt "x ^ab<n><m>/#ab<n><m>$ [[t:b]]^Ab<n>/#Ab<n>$ ^q<n>/q<n>$ ^q\/<m>/#q\/<m>$." ++ [0]
            ++ txt "^*zz/*zz$ ^zz<n>/#zz<n>$ ^#c<n>/#d<n>$ end").
Proof. split; [reflexivity|]. split; [vm_compute; reflexivity|]. split; vm_compute; reflexivity. Qed.
Lemma bil_text_ok : Forall item_ok bil_text /\ gap true (txt " end") /\ Forall scalar (stream_text bil_text (txt " end"))
  /\ Forall item_no_nul bil_text.
Proof.
  split; [|split; [|split]].
  - assert (U : forall b w rs, gap false b -> wordblank w -> Forall rtext_ok rs -> rs <> [] -> item_ok (Unit b w rs))
      by (intros b w rs A B C D; exact (conj A (conj B (conj C D)))).
    assert (W : forall k ps, Forall piece_ok ps ->
      match k with Some c => marks c | None => forall c, hd_error (pieces_text ps) = Some c -> ~ marks c end ->
      rtext_ok (word k ps)) by (intros k ps A B; exact (conj A B)).
    assert (T : forall b, block_body 62 b -> piece_ok (PTag b)) by auto.
    assert (C : forall c, c <> 47 /\ c <> 36 /\ c <> 0 /\ c <> 60 /\ c <> 123 /\ c <> 92 -> piece_ok (PChar c)) by auto.
    assert (N : forall x, x = txt "n" \/ x = txt "m" -> block_body 62 x).
    { intros x [->| ->]; vm_compute txt; apply bb_char; try lia; apply bb_nil. }
    assert (L : forall s, Forall (fun c => 97 <= c <= 122 \/ 65 <= c <= 90) s -> Forall piece_ok (letters_of s)).
    { intros s H. apply Forall_map. eapply Forall_impl; [|exact H]. intros c Hc. cbv beta in Hc. apply C. lia. }
    assert (No : forall s, Forall (fun c => 97 <= c <= 122 \/ 65 <= c <= 90) s -> Forall piece_ok (noun s)).
    { intros s H. apply Forall_app. split; [now apply L|]. apply Forall_cons; [apply T, N; now left|apply Forall_nil]. }
    assert (G : forall b, blank false b -> gap false b) by (intros b Hb; now apply gap_blank).
    repeat apply Forall_cons; try apply Forall_nil.
    + apply U; [apply G; vm_compute txt; text_ok|now left| |discriminate]. apply Forall_cons; [|apply Forall_nil].
      apply W; [apply Forall_app; split; [apply No; vm_compute txt; all_lia|apply Forall_cons; [apply T, N; now right|apply Forall_nil]]|].
      intros c E; vm_compute in E; injection E as <-; unfold marks; cbn [In]; lia.
    + apply U; [apply G; vm_compute txt; text_ok| | |discriminate].
      * right. exists (txt "t:b"). split; [reflexivity|]. vm_compute txt. repeat (apply wb_char; [lia|lia|lia|]). apply wb_nil.
      * apply Forall_cons; [|apply Forall_cons; [|apply Forall_nil]]; (apply W; [apply No; vm_compute txt; all_lia|]); intros c E; vm_compute in E; injection E as <-; unfold marks; cbn [In]; lia.
    + apply U; [apply G; vm_compute txt; text_ok|now left| |discriminate]. apply Forall_cons; [|apply Forall_nil].
      apply W; [apply No; vm_compute txt; all_lia|]. intros c E; vm_compute in E; injection E as <-; unfold marks; cbn [In]; lia.
    + apply U; [apply G; vm_compute txt; text_ok|now left| |discriminate]. apply Forall_cons; [|apply Forall_nil]. apply W.
      * repeat apply Forall_cons; try apply Forall_nil; try (apply C; lia); try exact I; try (apply T, N; auto).
        vm_compute txt. cbn [piece_ok]. apply bb_char; try lia. apply bb_nil.
      * intros c E; vm_compute in E; injection E as <-; unfold marks; cbn [In]; lia.
    + apply gap_blank. vm_compute txt. text_ok.
    + apply U; [apply G; apply bl_nil|now left| |discriminate]. apply Forall_cons; [|apply Forall_nil].
      apply W; [apply L; vm_compute txt; all_lia|]. unfold marks. cbn [In]. lia.
    + apply U; [apply G; vm_compute txt; text_ok|now left| |discriminate]. apply Forall_cons; [|apply Forall_nil].
      apply W; [apply No; vm_compute txt; all_lia|]. intros c E; vm_compute in E; injection E as <-; unfold marks; cbn [In]; lia.
    + apply U; [apply G; vm_compute txt; text_ok|now left| |discriminate]. apply Forall_cons; [|apply Forall_nil].
      apply W; [apply No; vm_compute txt; all_lia|]. unfold marks. cbn [In]. lia.
  - apply gap_blank. vm_compute txt. text_ok.
  - vm_compute stream_text. repeat (apply Forall_cons; [split; lia|]). apply Forall_nil.
  - unfold bil_text. repeat apply Forall_cons; try apply Forall_nil; cbn [item_no_nul]; try exact I;
      repeat apply Forall_cons; try apply Forall_nil; unfold no_nul; vm_compute; intuition discriminate.
Qed.
Lemma bil_text_calm : stream_calm (bil_dix false) false bil_alphabet bil_text.
Proof.
  unfold bil_text. cbn [stream_calm]. repeat match goal with |- _ /\ _ => split end; try exact I;
    repeat apply Forall_cons; try apply Forall_nil; intros st E; vm_compute in E; injection E as <-;
    (split; match goal with |- bil_calm _ _ _ _ ?l => let l' := eval vm_compute in l in change l with l' end;
     repeat (cbn [bil_calm]; first [exact I | split; [vm_compute; reflexivity|]; intros st' E; vm_compute in E; injection E as <-])).
Qed.
Lemma bil_alphabet_inv : alph_inv bil_alphabet.
Proof. apply include_inv, include_inv. repeat split; constructor. Qed.
Example C60_stream_example : forall m forms keep, exists outs out,
  bilingual (bil_dix false) forms keep m (open_file (utf8_text (stream_text bil_text (txt " end")))) = Ok out
  /\ stream_result (bil_dix false) false m forms keep bil_alphabet bil_text outs /\ out = concat outs ++ txt " end".
Proof.
  intros m forms keep. destruct bil_text_ok as (A & B & C & D).
  assert (E : exists out, bilingual (bil_dix false) forms keep m (open_file (utf8_text (stream_text bil_text (txt " end")))) = Ok out).
  { destruct m, forms, keep; eexists; vm_compute; reflexivity. }
  destruct E as (out & E).
  destruct (C60_stream (bil_dix false) false m forms keep bil_text (txt " end") out) as (outs & F & Eo); auto.
  - exact bil_alphabet_inv.
  - unfold known. vm_compute. discriminate.
  - intros c Hc. cbn. unfold ascii_up. destruct ((65 <=? c) && (c <=? 90)) eqn:Eq; lia.
  - exact isort_is_sort.
  - reflexivity.
  - reflexivity.
  - exact bil_text_calm.
  - exists outs, out. auto.
Qed.
Example C60_case_sensitive_example :
  bilingual (bil_dix true) false false gm_unknown (open_file (txt "^ab<n>$ ^Ab<n>$"))
    = Ok (txt "^ab<n>/xy<n>/zz<n>$ ^Ab<n>/@Ab<n>$")
  /\ bilingual (bil_dix false) false false gm_bilgen (open_file (txt "^ab<n>$ ^ab<n><m>$ ^AB<n>$"))
    = Ok (txt "^ab<n>/xy<n>/zz<n>$ ^ab<n><m>/@ab<n><m>$ ^AB<n>/XY<n>/ZZ<n>$").
Proof. split; vm_compute; reflexivity. Qed.
Example C39_without_queue_example :
  biltransWithoutQueue (small_dix true) (txt "^abce$") true = biltrans (small_dix true) false (txt "^abce$") true
  /\ biltransWithoutQueue (small_dix true) (txt "^abcde$") true = Ok (txt "^@abcde$")
  /\ biltrans (small_dix true) false (txt "^abcde$") true = Ok (txt "^xd$").
Proof. repeat split; vm_compute; reflexivity. Qed.

(** ** More that does not hold *)
(** An escaped '=' at the beginning is written without the escape, so that the left side,
    read again, is another word. *)
Theorem C60_escape_refuted : forall cs,
  bilingual (bil_dix cs) false false gm_unknown (open_file (txt "^\=ab<n>$")) = Ok (txt "^=ab<n>/@=ab<n>$")
  /\ bilingual (bil_dix cs) false false gm_unknown (open_file (txt "^=ab<n>$")) = Ok (txt "^ab<n>/xy<n>/zz<n>$").
Proof. intros [|]; split; vm_compute; reflexivity. Qed.
(** The part of a unit in braces is lost. *)
Theorem C60_chunk_refuted : forall cs,
  bilingual (bil_dix cs) false false gm_unknown (open_file (txt "^ab<n>{^x$}$")) = Ok (txt "^ab<n>/xy<n>/zz<n>$").
Proof. intros [|]; vm_compute; reflexivity. Qed.

Print Assumptions C60_stream.
Print Assumptions C60_returns.
Print Assumptions C60_case_sensitive.
Print Assumptions C60_one_reading.
Print Assumptions C60_exclusive.
Print Assumptions C39_without_queue.
Print Assumptions C39_without_queue_marked.
Print Assumptions C60_marks_refuted.
Print Assumptions C60_single_refuted.
Print Assumptions C60_keep_refuted.
Print Assumptions C60_escape_refuted.
Print Assumptions C60_chunk_refuted.
