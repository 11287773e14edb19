(** C68: transliteration and post-generation. *)
From Coq Require String Ascii.
From Verif Require Import Base CompressionModel AlphabetModel StateModel StateSpec FinalsModel FinalsProps StringModel
  InputModel InputProps StreamModel StreamProps ProcessorModel ProcessorProofs CompoundProps TranslitModel TranslitSpec
  TranslitReadProofs TranslitMatchProofs TranslitScanProofs TranslitEndProofs.
Import String.StringSyntax.

(** Letter case is either never or always folded. *)
Definition steady (P : processor) (cs : bool) : Prop := forall w st, reached P w st -> beCaseSensitive P st = cs.

Lemma sections_spec : forall P cs drop init, usable P -> is_sort (p_sort P) -> initial_state P = Ok init -> steady P cs ->
  forall l last, Forall (section_ok P true) l -> section_ok P false last ->
  forall fuel f res out, at_text f (source_text l last) -> scan_loop P fuel drop init (fresh_start init f out) = Ok res ->
  exists outs o, Forall2 (section_out P cs drop) l outs /\ section_out P cs drop last o
  /\ res = out ++ concat (map (fun x => x ++ [0]) outs) ++ o.
Proof.
  intros P cs drop init U Hsort Hinit Hst l last Hl Hlast. induction Hl as [|s l (H1 & H2 & H3) Hl IH]; intros fuel f res out Ha H.
  - destruct Hlast as (H1 & H2 & H3). unfold source_text in Ha. cbn [map concat app] in Ha. unfold section_text in Ha.
    assert (Et : end_text ended []) by (left; auto).
    assert (Hi : idle P cs init (sec_tail last) [] ended (map (unit_of_item P) (sec_items last)) (fresh_start init f out)).
    { eapply (section_start P cs U init Hst (sec_tail last) [] ended H2 Et _ false); auto; [discriminate|]. now rewrite app_nil_r. }
    destruct (section_spec P cs drop U Hsort init Hinit Hst (sec_tail last) [] ended H2 Et fuel _ res H) as [_ K].
    destruct (K _ Hi) as (d & Hd & [[_ Hg]|(rest & ? & ? & X & _)]); [|discriminate].
    exists [], (d ++ utf16_text (sec_tail last)). split; [constructor|]. split; [exists d; auto|]. exact Hg.
  - unfold source_text in Ha. cbn [map concat] in Ha. rewrite <- !app_assoc in Ha. cbn [app] in Ha. fold (source_text l last) in Ha.
    unfold section_text at 1 in Ha. rewrite <- app_assoc in Ha. set (t := 0 :: source_text l last) in *.
    assert (Et : end_text (fun f => at_text f t) t) by (right; exists (source_text l last); split; reflexivity).
    assert (Hi : idle P cs init (sec_tail s) t (fun f => at_text f t) (map (unit_of_item P) (sec_items s)) (fresh_start init f out)).
    { eapply (section_start P cs U init Hst (sec_tail s) t _ H2 Et _ true); auto. intros _. unfold t. eauto. }
    destruct (section_spec P cs drop U Hsort init Hinit Hst (sec_tail s) t _ H2 Et fuel _ res H) as [_ K].
    destruct (K _ Hi) as (d & Hd & [[X _]|(rest & f2 & fuel2 & X & A2 & _ & Hg)]); [discriminate|].
    unfold t in X. injection X as <-. destruct (IH _ _ _ _ A2 Hg) as (outs & o & O1 & O2 & ->).
    exists ((d ++ utf16_text (sec_tail s)) :: outs), o. split; [constructor; [exists d; auto|exact O1]|]. split; [exact O2|].
    cbn [fresh_start x_out map concat]. rewrite <- !app_assoc. reflexivity.
Qed.

(** Each section is rewritten as it should be. *)
Theorem C68_text : forall P cs drop l last fuel out,
  usable P -> is_sort (p_sort P) -> steady P cs ->
  Forall (section_ok P true) l -> section_ok P false last -> Forall scalar (source_text l last) ->
  transliteration P fuel drop (open_file (utf8_text (source_text l last))) = Ok out ->
  exists outs o, Forall2 (section_out P cs drop) l outs /\ section_out P cs drop last o
  /\ out = concat (map (fun x => x ++ [0]) outs) ++ o.
Proof.
  intros P cs drop l last fuel out U Hsort Hst Hl Hlast Hsc H. unfold transliteration in H.
  destruct (initial_state P) as [init| | | |] eqn:Ei; cbn [obind] in H; try discriminate.
  exact (sections_spec P cs drop init U Hsort Ei Hst l last Hl Hlast fuel _ out [] (at_text_open _ Hsc) H).
Qed.
(** In particular when letter case matters *)
Theorem C68_case_sensitive : forall P drop l last fuel out,
  usable P -> is_sort (p_sort P) -> p_caseSensitive P = true ->
  Forall (section_ok P true) l -> section_ok P false last -> Forall scalar (source_text l last) ->
  transliteration P fuel drop (open_file (utf8_text (source_text l last))) = Ok out ->
  exists outs o, Forall2 (section_out P true drop) l outs /\ section_out P true drop last o
  /\ out = concat (map (fun x => x ++ [0]) outs) ++ o.
Proof.
  intros P drop l last fuel out U Hsort Hc. apply C68_text; auto. intros w st _. unfold beCaseSensitive. now rewrite Hc.
Qed.

(** It comes to an end if nothing is replaced by something longer. *)
Theorem C68_ends : forall P cs drop l last,
  usable P -> is_sort (p_sort P) -> steady P cs -> eps_acyclic (p_find P) ->
  (forall w r, translates P cs w r -> (length r <= length w)%nat) ->
  Forall (section_ok P true) l -> section_ok P false last -> Forall scalar (source_text l last) ->
  exists N M out, forall n k, (N <= n)%nat -> (M <= k)%nat ->
    transliteration (with_fuel P n) k drop (open_file (utf8_text (source_text l last))) = Ok out.
Proof.
  intros P cs drop l last U Hsort Hst Ha NL Hl Hlast Hsc. destruct (initial_settles P Ha) as (init & N0 & Hinit).
  assert (G : forall f out, at_text f (source_text l last) -> exists N j res, forall n k, (N <= n)%nat ->
    scan_loop (with_fuel P n) (j + k) drop init (fresh_start init f out) = Ok res).
  { clear Hsc. induction Hl as [|s l (H1 & H2 & H3) Hl IH]; intros f out A.
    - destruct Hlast as (H1 & H2 & H3). unfold source_text in A. cbn [map concat app] in A. unfold section_text in A.
      assert (Et : end_text ended []) by (left; auto).
      assert (Hi : idle P cs init (sec_tail last) [] ended (map (unit_of_item P) (sec_items last)) (fresh_start init f out)).
      { eapply (section_start P cs U init Hst (sec_tail last) [] ended H2 Et _ false); auto; [discriminate|]. now rewrite app_nil_r. }
      destruct (ends_idle P cs drop U Hsort init N0 Hinit Hst Ha NL _ _ _ H2 Et _ _ Hi) as (res & [(_ & N & j & K)|(rest & ? & X & _)]); [|discriminate].
      exists N, j, res. exact K.
    - unfold source_text in A. cbn [map concat] in A. rewrite <- !app_assoc in A. cbn [app] in A. fold (source_text l last) in A.
      unfold section_text at 1 in A. rewrite <- app_assoc in A. set (t := 0 :: source_text l last) in *.
      assert (Et : end_text (fun f => at_text f t) t) by (right; exists (source_text l last); split; reflexivity).
      assert (Hi : idle P cs init (sec_tail s) t (fun f => at_text f t) (map (unit_of_item P) (sec_items s)) (fresh_start init f out)).
      { eapply (section_start P cs U init Hst (sec_tail s) t _ H2 Et _ true); auto. intros _. unfold t. eauto. }
      destruct (ends_idle P cs drop U Hsort init N0 Hinit Hst Ha NL _ _ _ H2 Et _ _ Hi) as (res & [(X & _)|(rest & f2 & X & A2 & N & j & K)]); [discriminate|].
      unfold t in X. injection X as <-. destruct (IH f2 res A2) as (N' & j' & res' & K').
      exists (N + N')%nat, (j + j')%nat, res'. intros n k Hn. rewrite <- Nat.add_assoc, K by lia. apply K'. lia. }
  destruct (G _ [] (at_text_open _ Hsc)) as (N & j & res & K). exists (N0 + N)%nat, j, res. intros n k Hn Hk.
  unfold transliteration. rewrite Hinit by lia. cbn [obind]. replace k with (j + (k - j))%nat by lia. apply K. lia.
Qed.

(** ** Nothing to replace *)
Lemma ahead_later : forall u us n, firstn n (ahead us) = firstn n (skipn (S (length (u_syms u))) (ahead (u :: us))) .
Proof.
  intros u us n. f_equal. unfold ahead at 2. destruct us as [|v us]; cbn [map concat].
  - rewrite app_nil_r, skipn_all2 by lia. reflexivity.
  - rewrite skipn_app, skipn_all2 by lia. replace (S (length (u_syms u)) - length (u_syms u))%nat with 1%nat by lia. reflexivity.
Qed.
Lemma rewrites_unknown : forall P cs drop us start out, rewrites P cs drop us start out ->
  (forall i n, unknown P cs (firstn n (skipn i (ahead us)))) -> out = concat (map (shown P drop) us).
Proof.
  intros P cs drop us start out H. induction H as [|u us start out Hle H IH|u us start out Hlt Hu H IH|u us start n r v vs e r' i out Hlt Hle Htr _ _ _ _ _]; intros K.
  - reflexivity.
  - cbn [map concat]. f_equal. apply IH. intros i n.
    assert (E : skipn i (ahead us) = skipn (S (length (u_syms u)) + i) (ahead (u :: us))).
    { assert (E : ahead us = skipn (S (length (u_syms u))) (ahead (u :: us))).
      { pose proof (ahead_later u us (length (ahead us) + length (ahead (u :: us)))) as E. rewrite !firstn_all2 in E; [exact E| |lia]. rewrite skipn_length. lia. }
      rewrite E at 1. generalize (ahead (u :: us)) as L. generalize (S (length (u_syms u))) as m. clear.
      induction m as [|m IH]; intros L; [reflexivity|]. destruct L as [|x L]; [cbn [skipn]; now destruct i|]. cbn [skipn Nat.add]. apply IH. }
    rewrite E. apply K.
  - now apply IH.
  - exfalso. destruct Htr as (s & d & c & Ha & _). exact (K start n s d c Ha).
Qed.
Lemma utf16_text_app : forall a b, utf16_text (a ++ b) = utf16_text a ++ utf16_text b.
Proof. intros a b. unfold utf16_text. now rewrite map_app, concat_app. Qed.
Lemma existsb_meta : forall c, existsb (Z.eqb c) [91; 93; 123; 125; 94; 36; 47; 92; 64; 60; 62] = true <-> meta c.
Proof. intros c. apply meta_iff. Qed.
Lemma inner_text_as_read : forall P drop ls, usable P -> Forall (letter_ok P) ls -> Forall (letter_canonical P drop) ls ->
  Forall (fun l => Forall scalar (letter_text l)) ls ->
  inner_text P drop (gaps ls) (map (letter_symbol P) ls) = (utf16_text (concat (map letter_text ls)), []).
Proof.
  intros P drop ls U Hok Hc Hs. induction ls as [|l ls IH]; [reflexivity|].
  inversion Hok as [|? ? L1 Hok']; inversion Hc as [|? ? L2 Hc']; inversion Hs as [|? ? L3 Hs']; subst.
  specialize (IH Hok' Hc' Hs'). unfold gaps in *. cbn [map concat]. rewrite utf16_text_app.
  destruct l as [c|c|b|b]; cbn [letter_ok letter_canonical letter_text letter_symbol app inner_text] in *.
  - destruct L1 as [_ L1]. cbn [In] in L1. replace (c =? 32) with false by lia. rewrite IH. f_equal. f_equal.
    inversion L3 as [|? ? [S1 _] _]; subst. unfold shown_symbol. replace (drop && (c =? 126)) with false.
    2: { symmetry. destruct drop; [|reflexivity]. cbn [andb]. destruct L2 as [_ L2]. specialize (L2 eq_refl). lia. }
    replace (c =? 0) with false by lia. replace (c <? 0) with false by lia.
    destruct (existsb (Z.eqb c) _) eqn:E; [exfalso; apply existsb_meta in E; tauto|]. cbn [app utf16_text map concat]. now rewrite app_nil_r.
  - destruct L1 as [L0 L1]. replace (c =? 32) with false by lia. rewrite IH. f_equal. f_equal.
    inversion L3 as [|? ? _ L3']; subst. inversion L3' as [|? ? [S1 _] _]; subst. unfold shown_symbol.
    assert (Hm : c <> 126). { intros ->. apply existsb_meta in L2. discriminate L2. }
    replace (drop && (c =? 126)) with false by (symmetry; apply andb_false_iff; right; lia).
    replace (c =? 0) with false by lia. replace (c <? 0) with false by lia. apply existsb_meta in L2. rewrite L2.
    cbn [app utf16_text map concat]. now rewrite app_nil_r.
  - unfold symbol_code. destruct (map_find ustr_eq_dec _ (slexic (p_alpha P))) as [c|] eqn:Ef; [|congruence].
    apply (us_tags P U) in Ef as [Hc0 Hn]. replace (c =? 32) with false by lia. rewrite IH. f_equal. f_equal. unfold shown_symbol.
    replace (drop && (c =? 126)) with false by (symmetry; apply andb_false_iff; right; lia).
    replace (c =? 0) with false by lia. replace (c <? 0) with true by lia. now apply nth_error_nth.
  - rewrite Z.eqb_refl. rewrite IH. reflexivity.
Qed.
Lemma shown_as_read : forall P drop i, usable P -> titem_ok P i -> titem_canonical P drop i -> Forall scalar (titem_text i) ->
  shown P drop (unit_of_item P i) = utf16_text (titem_text i).
Proof.
  intros P drop i U (Hb & Hne & Hl & Hp & Hi) [C1 C2] Hs.
  assert (Hs' : Forall (fun l => Forall scalar (letter_text l)) (ti_letters i)).
  { assert (K : Forall scalar (concat (map letter_text (ti_letters i)))).
    { unfold titem_text in Hs. apply Forall_app in Hs as [_ Hs]. destruct (ti_bound i); [|exact Hs].
      apply Forall_app in Hs as [_ Hs]. apply Forall_app in Hs as [_ Hs]. apply Forall_app in Hs as [_ Hs]. apply Forall_app in Hs as [Hs _]. exact Hs. }
    clear -K. induction (ti_letters i) as [|l ls IH]; [constructor|]. cbn [map concat] in K. apply Forall_app in K as [K1 K2]. constructor; auto. }
  unfold shown, unit_of_item. cbn [u_inner u_syms u_blank u_bound]. rewrite (inner_text_as_read P drop _ U Hl C1 Hs').
  unfold titem_text. cbn [filter concat]. rewrite app_nil_r, utf16_text_app. f_equal. destruct (ti_bound i) as [b|]; cbn [option_map].
  - rewrite C2 by discriminate. rewrite !utf16_text_app. cbn [app]. rewrite <- !app_assoc. reflexivity.
  - cbn [app]. now rewrite app_nil_r.
Qed.
Lemma source_scalar : forall l last, Forall scalar (source_text l last) ->
  Forall (fun s => Forall scalar (section_text s)) (l ++ [last]).
Proof.
  intros l last. unfold source_text. induction l as [|s l IH]; cbn [map concat app]; intros H.
  - constructor; [exact H|constructor].
  - rewrite <- !app_assoc in H. apply Forall_app in H as [H1 H]. apply Forall_app in H as [_ H]. constructor; auto.
Qed.
Lemma section_as_read : forall P cs drop s o, usable P -> (exists null, section_ok P null s) -> section_canonical P drop s -> section_unknown P cs s ->
  Forall scalar (section_text s) -> section_out P cs drop s o -> o = utf16_text (section_text s).
Proof.
  intros P cs drop s o U (null & Hok & _) Hc Hu Hs (t & Hr & ->). rewrite (rewrites_unknown _ _ _ _ _ _ Hr Hu).
  unfold section_text in *. rewrite utf16_text_app. f_equal. apply Forall_app in Hs as [Hs _]. clear Hr Hu. unfold section_canonical in Hc.
  induction (sec_items s) as [|i its IH]; [reflexivity|]. inversion Hok; inversion Hc; subst. cbn [map concat] in *.
  apply Forall_app in Hs as [S1 S2]. rewrite utf16_text_app, <- IH by auto. f_equal. now apply shown_as_read.
Qed.
(** If nothing in the text is in the dictionary, the text comes out as it went in. *)
Theorem C68_unchanged : forall P cs drop l last fuel out,
  usable P -> is_sort (p_sort P) -> steady P cs ->
  Forall (section_ok P true) l -> section_ok P false last -> Forall scalar (source_text l last) ->
  Forall (section_canonical P drop) (l ++ [last]) -> Forall (section_unknown P cs) (l ++ [last]) ->
  transliteration P fuel drop (open_file (utf8_text (source_text l last))) = Ok out ->
  out = utf16_text (source_text l last).
Proof.
  intros P cs drop l last fuel out U Hsort Hst Hl Hlast Hsc Hca Hun H.
  destruct (C68_text P cs drop l last fuel out U Hsort Hst Hl Hlast Hsc H) as (outs & o & O1 & O2 & ->). clear H.
  pose proof (source_scalar _ _ Hsc) as Hss. clear Hsc. unfold source_text. rewrite utf16_text_app.
  apply Forall_app in Hss as [Hs1 Hs2], Hca as [Hc1 Hc2], Hun as [Hu1 Hu2].
  inversion Hs2; inversion Hc2; inversion Hu2; subst.
  rewrite (section_as_read P cs drop last o) by eauto. apply (f_equal (fun x => x ++ utf16_text (section_text last))).
  clear - O1 Hl Hs1 Hc1 Hu1 U. induction O1 as [|s o l outs Ho O1 IH]; [reflexivity|].
  inversion Hl; inversion Hs1; inversion Hc1; inversion Hu1; subst. cbn [map concat]. rewrite !utf16_text_app, IH by auto.
  rewrite (section_as_read P cs drop s o) by eauto. reflexivity.
Qed.

(** ** Letter by letter *)
Lemma glues_longer : forall k us u rest v vs, glues k us u rest -> us = v :: vs -> (length (u_syms v) <= length (u_syms u))%nat.
Proof.
  intros k us u rest v vs G. revert v vs. induction G as [u us|k u v' us w ws G IH]; intros v vs E; injection E as <- <-; [lia|].
  specialize (IH _ _ eq_refl). cbn [glue u_syms] in IH. rewrite app_length in IH. lia.
Qed.
Lemma rewrites_letters : forall P cs drop m, letterwise P cs m -> forall us start out, rewrites P cs drop us start out ->
  match us with
  | [] => out = []
  | u :: r => out = shown P drop (mkU (u_blank u) (u_bound u) (firstn start (u_syms u) ++ map m (skipn start (u_syms u))) (u_inner u))
                    ++ concat (map (fun v => shown P drop (mapped m v)) r)
  end.
Proof.
  intros P cs drop m Hm us start out H.
  induction H as [|u us start out Hle H IH|u us start out Hlt Hu H IH|u us start n r v vs e r' i out Hlt Hle Htr Hmax Hsp Hce H IH].
  - reflexivity.
  - rewrite skipn_all2, firstn_all2 by lia. cbn [map]. rewrite app_nil_r.
    replace (mkU (u_blank u) (u_bound u) (u_syms u) (u_inner u)) with u by (destruct u; reflexivity). f_equal.
    destruct us as [|u' us]; [exact IH|]. rewrite IH. cbn [firstn skipn app map concat]. reflexivity.
  - rewrite IH. f_equal. f_equal. f_equal.
    assert (E : exists c, nth_error (u_syms u) start = Some c).
    { destruct (nth_error (u_syms u) start) eqn:E; [eauto|]. apply nth_error_None in E. lia. }
    destruct E as (c & E).
    assert (Es : skipn start (u_syms u) = c :: skipn (S start) (u_syms u)).
    { clear -E. revert E. generalize (u_syms u) as L. induction start as [|k IH]; intros [|x L] E; try discriminate; cbn [nth_error skipn] in *.
      - now injection E as ->.
      - apply IH, E. }
    assert (Ew : firstn 1 (skipn start (ahead (u :: us))) = [c]).
    { unfold ahead. rewrite skipn_app, Es. reflexivity. }
    assert (Ec : m c = c).
    { destruct (Hm [c]) as [[_ K]|(c' & _ & _ & (s & d & k & K & _) & _)]; [now apply K|]. exfalso. apply (Hu 1%nat s d k). now rewrite Ew. }
    rewrite Es. cbn [map]. rewrite Ec. rewrite <- (firstn_skipn start (u_syms u)) at 1. rewrite Es.
    assert (Hl : length (firstn start (u_syms u)) = start) by (apply firstn_length_le; lia).
    rewrite firstn_app, Hl, firstn_all2 by lia. replace (S start - start)%nat with 1%nat by lia. cbn [firstn]. rewrite <- app_assoc. reflexivity.
  - destruct (Hm (firstn n (skipn start (ahead (u :: us))))) as [[K _]|(c & Ew & Hc & _ & K)].
    { exfalso. destruct Htr as (s & d & k & Ha & _). exact (K s d k Ha). }
    rewrite (K r Htr) in *. clear K Htr.
    assert (En : n = 1%nat).
    { apply (f_equal (@length Z)) in Ew. rewrite firstn_length, skipn_length in Ew. cbn [length] in Ew. lia. }
    subst n.
    assert (Es : skipn start (u_syms u) = c :: skipn (S start) (u_syms u)).
    { unfold ahead in Ew. rewrite skipn_app in Ew. destruct (skipn start (u_syms u)) as [|x L] eqn:E.
      - apply (f_equal (@length Z)) in E. rewrite skipn_length in E. cbn [length] in E. lia.
      - cbn [app firstn] in Ew. injection Ew as ->. f_equal.
        clear -E. revert E. generalize (u_syms u) as l. induction start as [|k IH]; intros [|y l] E; try discriminate; cbn [skipn] in *.
        + now injection E as _ ->.
        + now apply IH. }
    assert (Hsp' : v = u /\ vs = us /\ e = S start /\ r' = [m c]).
    { remember [m c] as rr eqn:Er. destruct Hsp as [r0 v vs G He|k v0 vs0 r0 v vs G0 Hlt0 G He Hn|k r0 v v0 vs G He].
      - inversion G; subst. repeat split; auto. lia.
      - exfalso. apply (fun X => glues_longer _ _ _ _ u us X eq_refl) in G0. lia.
      - exfalso. apply (fun X => glues_longer _ _ _ _ u us X eq_refl) in G. lia. }
    destruct Hsp' as (-> & -> & -> & ->).
    assert (Ei : (if (S start - i =? start)%nat then S start else S start - i)%nat = S start).
    { destruct Hce as (x & y & z & E1 & E2 & -> & _). assert (length z <= 1)%nat by (apply (f_equal (@length Z)) in E1; rewrite app_length in E1; cbn [length] in E1; lia).
      destruct (Nat.eqb_spec (S start - length z) start); lia. }
    rewrite Ei in IH. rewrite IH. cbn [u_blank u_bound u_syms u_inner]. f_equal. f_equal. f_equal. clear IH H Hce Ei Hmax Ew.
    assert (Hl : length (firstn start (u_syms u)) = start) by (apply firstn_length_le; lia).
    rewrite Es. cbn [map]. rewrite firstn_app, Hl, skipn_app, Hl, (firstn_all2 (firstn start (u_syms u))), (skipn_all2 (firstn start (u_syms u))) by lia.
    replace (S start - start)%nat with 1%nat by lia. cbn [firstn skipn app]. rewrite <- app_assoc. reflexivity.
Qed.
(** A dictionary of single letters maps the letters of every word and leaves everything else alone. *)
Theorem C68_letter_by_letter : forall P cs drop m l last fuel out,
  usable P -> is_sort (p_sort P) -> steady P cs -> letterwise P cs m ->
  Forall (section_ok P true) l -> section_ok P false last -> Forall scalar (source_text l last) ->
  transliteration P fuel drop (open_file (utf8_text (source_text l last))) = Ok out ->
  let written s := concat (map (fun i => shown P drop (mapped m (unit_of_item P i))) (sec_items s)) ++ utf16_text (sec_tail s) in
  out = concat (map (fun s => written s ++ [0]) l) ++ written last.
Proof.
  intros P cs drop m l last fuel out U Hsort Hst Hm Hl Hlast Hsc H written.
  destruct (C68_text P cs drop l last fuel out U Hsort Hst Hl Hlast Hsc H) as (outs & o & O1 & O2 & ->).
  assert (K : forall s o, section_out P cs drop s o -> o = written s).
  { intros s x (t & Hr & ->). apply (rewrites_letters P cs drop m Hm) in Hr. unfold written. apply (f_equal (fun y => y ++ utf16_text (sec_tail s))).
    destruct (sec_items s) as [|i its]; [exact Hr|]. cbn [map concat] in *. rewrite Hr. cbn [firstn skipn app]. f_equal. now rewrite map_map. }
  rewrite (K _ _ O2). apply (f_equal (fun y => y ++ written last)). clear -O1 K. induction O1 as [|s o l outs Ho O1 IH]; [reflexivity|].
  cbn [map concat]. rewrite (K _ _ Ho), IH. reflexivity.
Qed.

(** * Concrete cases *)
Lemma sample_usable : forall arcs fins cs,
  Forall (fun a => let '(_, _, o, _) := a in o = 0 \/ 0 < o < 55296 \/ o = -3) arcs -> usable (sample arcs fins cs).
Proof.
  intros arcs fins cs H. constructor; cbn [sample p_find p_alpha p_isspace p_isupper p_tolower p_toupper p_weights p_maxClasses slexic slexicinv].
  - intros p i o q w Hi. unfold arcs_find in Hi. apply in_flat_map in Hi as ([[[x y] z] u] & Ha & Hi). rewrite Forall_forall in H.
    specialize (H _ Ha). cbn beta iota in H. destruct ((x =? p)%nat && (y =? i)); [|destruct Hi]. destruct Hi as [Hi|[]]. injection Hi as <- _ _.
    destruct H as [H|[H|H]]; [now left|right; left; unfold plain_char; lia|right; right]. exists [110]. rewrite H.
    split; [lia|]. split; [reflexivity|]. split; [intros [X|[]]; discriminate X|]. reflexivity.
  - intros s c Hf. unfold map_find in Hf. cbn [find fst snd] in Hf. cbn in Hf.
    destruct (ustr_eq_dec _ _) as [<-|] in Hf; [|discriminate Hf]. injection Hf as <-. split; [lia|reflexivity].
  - intros c Hc. destruct Hc as [<-|[<-|[<-|[<-|[<-|[]]]]]]; reflexivity.
  - intros c Hc. unfold ascii_up in Hc. lia.
  - intros c Hc. unfold ascii_up. destruct ((65 <=? c) && (c <=? 90)) eqn:E; lia.
  - intros c [Hc Hs]. unfold ascii_low, plain_char. destruct ((97 <=? c) && (c <=? 122)) eqn:E; [|split; [split|]; auto; lia].
    split; [split; lia|]. intros Hm. exfalso. unfold meta in Hm. cbn in Hm. lia.
  - intros c Hc. unfold ascii_low. destruct ((97 <=? c) && (c <=? 122)) eqn:E; [|reflexivity]. exfalso. unfold meta in Hc. cbn in Hc. lia.
  - reflexivity.
  - reflexivity.
Qed.

(** A dictionary without epsilon arcs whose states stay small *)
Definition weigh (W : nat -> nat) (l : list nat) : nat := fold_right (fun q n => W q + n)%nat 0%nat l.
Lemma weigh_app : forall W a b, weigh W (a ++ b) = (weigh W a + weigh W b)%nat.
Proof. intros W a b. unfold weigh. induction a as [|x a IH]; cbn [app fold_right]; [reflexivity|]. rewrite IH. lia. Qed.
Definition targets (P : processor) (p : nat) (c : Z) : list nat := map (fun x => fst (snd x)) (p_find P p c).
Lemma small_steady : forall P W, p_caseSensitive P = false -> (forall p, p_find P p 0 = []) -> (forall p, (1 <= W p)%nat) ->
  (forall p c, (3 * weigh W (targets P p c) <= W p)%nat) -> Z.of_nat (W (p_root P)) < 65536 -> steady P false.
Proof.
  intros P W Hcs He H1 H3 Hr w st H.
  assert (Hg : forall fuel i (l l' : analyses), v_closure (p_find P) fuel i l = Ok l' -> l' = l).
  { unfold v_closure. induction fuel as [|fuel IH]; intros i l l' E; cbn [v_grow] in E; destruct (nth_error l i) as [v|].
    - discriminate E.
    - now injection E.
    - apply IH in E. unfold v_eps in E. rewrite He in E. cbn [map] in E. now rewrite app_nil_r in E.
    - now injection E. }
  assert (K : (weigh W (map v_where st) <= W (p_root P))%nat).
  { induction H as [n st Hi|n w c st st' H IH Hs].
    - unfold initial_state in Hi. apply Hg in Hi. subst st. cbn. lia.
    - unfold step_override, offer in Hs. apply Hg in Hs. subst st'. etransitivity; [|exact IH]. clear IH H.
      assert (Hi : forall v ov i d, map v_where (v_into (p_find P) ov i v d) = targets P (v_where v) i).
      { intros v ov i d. unfold v_into, targets. rewrite map_map. reflexivity. }
      assert (Hz : forall o opts, (forall p, (length (opts p) <= 3)%nat) ->
        (weigh W (map v_where (v_choose (p_find P) (Some (o, opts)) st)) <= weigh W (map v_where st))%nat).
      { intros o opts Ho. cbn [v_choose]. induction st as [|v st IH]; [cbn; lia|]. cbn [flat_map map].
        rewrite map_app, weigh_app. cbn [weigh fold_right]. apply Nat.add_le_mono; [|exact IH]. specialize (Ho (v_where v)).
        assert (Q : forall l, (weigh W (map v_where (flat_map (fun x : Z * bool => v_into (p_find P) o (fst x) v (snd x)) l)) * 3 <= length l * W (v_where v))%nat).
        { induction l as [|x l IH']; [cbn; lia|]. cbn [flat_map]. rewrite map_app, weigh_app, Hi. specialize (H3 (v_where v) (fst x)). cbn [length]. lia. }
        specialize (Q (opts (v_where v))). nia. }
      change (p_find (with_fuel P n)) with (p_find P). unfold override_choice.
      destruct (p_isupper (with_fuel P n) c && _).
      + unfold over4, over3, overriding. repeat match goal with |- context [if ?b then _ else _] => destruct b end; try (cbn [v_choose map weigh fold_right]; lia); apply Hz; intros ?; cbn [length]; lia.
      + unfold one, alternatives. destruct (existsb _ _); [cbn [v_choose map weigh fold_right]; lia|]. apply Hz; intros ?; cbn [length]; lia. }
  assert (L : (length st <= weigh W (map v_where st))%nat).
  { clear -H1. induction st as [|v st IH]; [cbn; lia|]. cbn [map weigh fold_right length]. specialize (H1 (v_where v)). unfold weigh in IH. lia. }
  unfold beCaseSensitive, max_case_insensitive_state_size. rewrite Hcs. cbn [orb]. apply negb_false_iff. lia.
Qed.
Lemma no_eps_length : forall P cs, (forall p, p_find P p 0 = []) -> forall w r, translates P cs w r -> (length r <= length w)%nat.
Proof.
  intros P cs He w r (s & d & k & (q & fw & Hr & _) & _ & ->).
  assert (L : length s = length w).
  { revert He Hr. generalize (p_root P) as p. intros p He Hr. induction Hr as [| p o q w l s d r Hi| |]; cbn [length]; auto.
    exfalso. rewrite He in Hi. exact Hi. }
  assert (E : forall a b l, length (recased P a b l) = length l).
  { intros a b l. unfold recased. assert (C : forall l, length (capital P l) = length l).
    { intros [|x [|y t]]; [reflexivity| |]; cbn [capital]; destruct (x =? 126); reflexivity. }
    destruct a, b; rewrite ?C, ?map_length; reflexivity. }
  rewrite E, <- L. clear. rewrite <- (map_length fst s). generalize (map fst s) as l. induction l as [|x l IH]; [reflexivity|]. cbn [filter]. destruct (negb (x =? 0)); cbn [length]; lia.
Qed.
(** plain words *)
Definition plain_item (b s : list Z) : titem := mkTI b None (map LChar s) [].
Lemma plain_item_ok : forall arcs fins cs b s, tblank (fun c => c =? 32) b -> s <> [] -> forallb (fun c => negb (existsb (Z.eqb c) [0; 32; 60; 91; 92])) s = true ->
  titem_ok (sample arcs fins cs) (plain_item b s).
Proof.
  intros arcs fins cs b s Hb Hne Hs. unfold titem_ok, plain_item. cbn [ti_blank ti_letters ti_bound sample p_isspace].
  split; [exact Hb|]. split; [now destruct s|]. rewrite forallb_forall in Hs.
  split; [|split]; apply Forall_forall; intros l Hl; apply in_map_iff in Hl as (c & <- & Hc); specialize (Hs c Hc); cbn [existsb] in Hs.
  - cbn [letter_ok sample p_isspace In]. split; [lia|]. intros H. lia.
  - cbn [letter_plain sample p_isupper]. unfold ascii_up. lia.
  - cbn. tauto.
Qed.

(** ~de el becomes del. *)
Definition post_arcs : list (nat * Z * Z * nat) :=
  [(0%nat, 126, 100, 1%nat); (1%nat, 100, 101, 2%nat); (2%nat, 101, 108, 3%nat); (3%nat, 32, 0, 4%nat); (4%nat, 101, 0, 5%nat); (5%nat, 108, 0, 6%nat)].
Definition post_dix (cs : bool) : processor := sample post_arcs [6%nat] cs.
Lemma post_steady : forall cs, steady (post_dix cs) cs.
Proof.
  intros [|]; [intros w st _; reflexivity|].
  apply (small_steady _ (fun p => 3 ^ (6 - p))%nat); [reflexivity| | | |vm_compute; reflexivity].
  - intros p. do 7 (destruct p as [|p]; [reflexivity|]). reflexivity.
  - intros p. generalize (6 - p)%nat. intros k. induction k; cbn [Nat.pow]; lia.
  - intros p c. unfold targets, post_dix. cbn [sample p_find]. unfold arcs_find, post_arcs. cbn [flat_map].
    do 6 (destruct p as [|p]; [cbn [Nat.eqb andb]; match goal with |- context [if ?b then _ else _] => destruct b end; vm_compute; lia|]).
    cbn [Nat.eqb andb app map weigh fold_right]. lia.
Qed.
Definition post_text : tsection :=
  mkSec [plain_item [] (txt "a"); plain_item [32] (txt "~de"); plain_item (txt "[<b>] ") (txt "el"); plain_item [32] (txt "gos"); plain_item [32] (txt "~De");
         plain_item [32] (txt "el"); plain_item [32] (txt "~la")] [32].
Definition post_start : tsection := mkSec [plain_item [32] (txt "~de"); plain_item [32] (txt "el")] [].
Lemma superblank_ok : tblank (fun c => c =? 32) (txt "[<b>] ").
Proof.
  change (txt "[<b>] ") with (91 :: [60; 98; 62] ++ 93 :: [32]). constructor; [| |constructor; [reflexivity|lia|constructor]].
  - repeat (constructor; [lia|lia|lia|]). constructor.
  - intros x E. injection E as <-. lia.
Qed.
Lemma post_text_ok : forall cs, section_ok (post_dix cs) true post_start /\ section_ok (post_dix cs) false post_text.
Proof.
  assert (B : tblank (fun c => c =? 32) [32]) by (constructor; [reflexivity|lia|constructor]).
  assert (D : forall i (X Y : Prop), ti_blank i <> [] -> ti_blank i <> [] \/ X) by (intros; now left).
  intros cs. split; (split; [|split]).
  - repeat (apply Forall_cons; [apply plain_item_ok; [exact B|intros X; discriminate X|reflexivity]|]). constructor.
  - constructor.
  - cbn [post_start sec_items sec_tail apart plain_item ti_bound ti_blank]. split; [intros _; left; discriminate|]. split; [intros _; now right|exact I].
  - repeat (apply Forall_cons; [apply plain_item_ok; [first [exact B|exact superblank_ok|constructor]|intros X; discriminate X|reflexivity]|]). constructor.
  - exact B.
  - cbn [post_text sec_items sec_tail apart plain_item ti_bound ti_blank].
    repeat (split; [intros _; left; intros X; discriminate X|]). exact I.
Qed.
Example C68_example : forall cs, usable (post_dix cs) /\ is_sort (p_sort (post_dix cs)) /\ steady (post_dix cs) cs /\ eps_acyclic (p_find (post_dix cs))
  /\ (forall w r, translates (post_dix cs) cs w r -> (length r <= length w)%nat)
  /\ Forall (section_ok (post_dix cs) true) [post_start] /\ section_ok (post_dix cs) false post_text
  /\ source_text [post_start] post_text = txt " ~de el" ++ [0] ++ txt "a ~de[<b>] el gos ~De el ~la "
  /\ postgeneration (post_dix cs) 100 (open_file (utf8_text (source_text [post_start] post_text)))
     = Ok (txt " del" ++ [0] ++ if cs then txt "a del[<b>]  gos De el la " else txt "a del[<b>]  gos Del la ").
Proof.
  intros cs. destruct (post_text_ok cs) as [H1 H2].
  assert (E : forall p, p_find (post_dix cs) p 0 = []) by (intros p; do 7 (destruct p as [|p]; [reflexivity|]); reflexivity).
  split; [apply sample_usable; repeat (constructor; [lia|]); constructor|]. split; [exact isort_is_sort|]. split; [apply post_steady|].
  split; [exists (fun _ => 0%nat); intros p o q w Hi; rewrite E in Hi; destruct Hi|]. split; [now apply no_eps_length|].
  split; [constructor; [exact H1|constructor]|]. split; [exact H2|]. split; [vm_compute; reflexivity|]. destruct cs; vm_compute; reflexivity.
Qed.

(** Each a becomes b; a text with an escaped '@', a tag, a superblank and a word-bound blank around two words *)
Definition ab_dix : processor := sample [(0%nat, 97, 98, 1%nat)] [1%nat] true.
Definition ab_text : tsection :=
  mkSec [mkTI [] None [LChar 97; LEsc 64; LTag [110]] [];
         mkTI (txt "[<b>] ") (Some [116; 58; 105]) [LChar 99; LGap [32]; LChar 97; LChar 97] [47]] [32].
Lemma ab_reads : forall l p w s d q, p = 0%nat \/ p = 1%nat -> reads ab_dix true p w s d q -> final_weight q (all_finals ab_dix) = l ->
  (w = [] /\ s = [] /\ d = false /\ q = p) \/ (p = 0%nat /\ w = [97] /\ s = [(98, 0)] /\ d = false /\ q = 1%nat).
Proof.
  intros l p w s d q Hp H Hl.
  assert (E : forall k i o r (x : Z), In (o, (r, x)) (p_find ab_dix k i) -> k = 0%nat /\ i = 97 /\ o = 98 /\ r = 1%nat /\ x = 0).
  { intros k i o r x Hi. cbn [ab_dix sample p_find] in Hi. unfold arcs_find in Hi. cbn [flat_map] in Hi.
    destruct ((0 =? k)%nat && (97 =? i)) eqn:E; [|destruct Hi]. destruct Hi as [Hi|[]]. injection Hi as <- <- <-. apply andb_true_iff in E as [E1 E2].
    apply Nat.eqb_eq in E1. apply Z.eqb_eq in E2. auto. }
  destruct H as [p|p o q w l' s d r Hi H|p c o x q w l' s d r Hc Hi Hw H|p c o x q w l' s d r Hc [Hf _] Hi Hw H].
  - left. auto.
  - apply E in Hi as (_ & X & _). discriminate X.
  - apply E in Hi as (-> & -> & -> & -> & ->). right.
    destruct Hw as [[[X _] _]|[_ ->]]; [discriminate X|].
    remember 1%nat as k eqn:Ek. destruct H as [k|k o q w l' s d r Hi H|k c o x q w l' s d r Hc' Hi Hw H|k c o x q w l' s d r Hc' [Hf _] Hi Hw H]; subst k.
    + auto.
    + apply E in Hi as (X & _). discriminate X.
    + apply E in Hi as (X & _). discriminate X.
    + discriminate Hf.
  - discriminate Hf.
Qed.
Lemma ab_accepts : forall w s d k, accepts ab_dix true w s d k -> w = [97] /\ s = [(98, 0)] /\ d = false /\ k = 0.
Proof.
  intros w s d k (q & fw & H & Hf & ->). apply (ab_reads (Some fw)) in H as [(-> & -> & -> & ->)|(_ & -> & -> & -> & ->)]; auto.
  - discriminate Hf.
  - vm_compute in Hf. injection Hf as <-. auto.
Qed.
Lemma ab_letterwise : letterwise ab_dix true (fun c => if c =? 97 then 98 else c).
Proof.
  assert (A : accepts ab_dix true [97] [(98, 0)] false 0).
  { exists 1%nat, 0. split; [|split; reflexivity]. apply rd_same with (o := 98) (q := 1%nat); [lia|now left| |constructor].
    right. split; [|reflexivity]. intros [[X _] _]. discriminate X. }
  intros w. destruct (list_eq_dec Z.eq_dec w [97]) as [->|Hn].
  - right. exists 97. split; [reflexivity|]. split; [lia|]. split.
    + exists [(98, 0)], false, 0. split; [exact A|]. split; [|reflexivity]. intros s d k H. apply ab_accepts in H as (_ & _ & _ & ->). lia.
    + intros r (s & d & k & H & _ & ->). apply ab_accepts in H as (_ & -> & -> & _). reflexivity.
  - left. split.
    + intros s d k H. apply ab_accepts in H as (-> & _). congruence.
    + intros c ->. destruct (Z.eqb_spec c 97) as [->|]; congruence.
Qed.
Lemma ab_text_ok : forall P, p_isspace P = (fun c => c =? 32) -> p_isupper P = ascii_up -> section_ok P false ab_text.
Proof.
  intros P H1 H2. unfold section_ok. rewrite H1.
  assert (B : tblank (fun c => c =? 32) [32]) by (constructor; [reflexivity|lia|constructor]).
  split; [|split; [exact B|]].
  - constructor; [|constructor; [|constructor]]; unfold titem_ok; rewrite H1; cbn [ti_blank ti_letters ti_bound ti_close].
    + split; [constructor|]. split; [discriminate|].
      split; [|split].
      * repeat apply Forall_cons; try apply Forall_nil; cbn [letter_ok]; rewrite ?H1; [split; [reflexivity|cbn; lia]|lia|].
        repeat (constructor; [lia|lia|lia|]). constructor.
      * repeat apply Forall_cons; try apply Forall_nil; cbn [letter_plain]; rewrite ?H2; auto; unfold ascii_up; lia.
      * repeat apply Forall_cons; try apply Forall_nil; cbn; tauto.
    + split; [exact superblank_ok|]. split; [discriminate|].
      split; [|split; [|split; [|split]]].
      * repeat apply Forall_cons; try apply Forall_nil; cbn [letter_ok]; rewrite ?H1; try (split; [reflexivity|cbn; lia]). split; [exact B|discriminate].
      * repeat apply Forall_cons; try apply Forall_nil; cbn [letter_plain]; rewrite ?H2; auto; unfold ascii_up; lia.
      * repeat (constructor; [lia|lia|lia|]). constructor.
      * repeat (constructor; [lia|lia|lia|]). constructor.
      * cbn. tauto.
  - cbn. split; [|split; [|exact I]]; intros _; [left; discriminate|left; discriminate].
Qed.
Example C68_letter_by_letter_example : usable ab_dix /\ is_sort (p_sort ab_dix) /\ steady ab_dix true
  /\ letterwise ab_dix true (fun c => if c =? 97 then 98 else c) /\ section_ok ab_dix false ab_text
  /\ source_text [] ab_text = txt "a\@<n>[<b>] [[t:i]]c aa[[/]] "
  /\ postgeneration ab_dix 100 (open_file (utf8_text (source_text [] ab_text))) = Ok (txt "b\@<n>[<b>] [[t:i]]c bb[[/]] ").
Proof.
  split; [apply sample_usable; repeat (constructor; [lia|]); constructor|]. split; [exact isort_is_sort|].
  split; [intros w st _; reflexivity|]. split; [exact ab_letterwise|]. split; [now apply ab_text_ok|]. split; vm_compute; reflexivity.
Qed.
(** Nothing of the same text is in the dictionary that makes del. *)
Lemma post_first : forall w s d q p, reads (post_dix true) true p w s d q -> q = 6%nat -> p = 6%nat \/ In 108 w.
Proof.
  intros w s d q p H. induction H as [p|p o q w l s d r Hi H IH|p c o x q w l s d r Hc Hi Hw H IH|p c o x q w l s d r Hc [X _] Hi Hw H IH]; intros E.
  - now left.
  - exfalso. do 7 (destruct p as [|p]; [cbn in Hi; tauto|]). destruct Hi.
  - right. destruct (IH E) as [Eq|K]; [|now right].
    cbn [post_dix sample p_find] in Hi. unfold arcs_find, post_arcs in Hi. cbn [flat_map] in Hi. rewrite Eq in Hi.
    do 6 (destruct p as [|p]; [cbn [Nat.eqb andb app] in Hi; match type of Hi with context [if ?b then _ else _] => destruct b eqn:Eb end;
      cbn [app In] in Hi; [|destruct Hi]; destruct Hi as [Hi|[]]; try (apply (f_equal (fun z => fst (snd z))) in Hi; discriminate Hi); apply Z.eqb_eq in Eb; left; now symmetry|]).
    cbn in Hi. tauto.
  - discriminate X.
Qed.
Example C68_unchanged_example : section_canonical (post_dix true) true ab_text /\ section_unknown (post_dix true) true ab_text
  /\ section_ok (post_dix true) false ab_text
  /\ postgeneration (post_dix true) 100 (open_file (utf8_text (source_text [] ab_text))) = Ok (utf16_text (source_text [] ab_text)).
Proof.
  split; [|split; [|split; [now apply ab_text_ok|vm_compute; reflexivity]]].
  - unfold section_canonical. constructor; [|constructor; [|constructor]]; (split; [|cbn; congruence]); cbn [ti_letters].
    + repeat apply Forall_cons; try apply Forall_nil; cbn [letter_canonical].
      * split; [unfold meta; cbn; lia|lia].
      * unfold meta. cbn. lia.
      * intros X. vm_compute in X. discriminate X.
    + repeat apply Forall_cons; try apply Forall_nil; cbn [letter_canonical]; auto; (split; [unfold meta; cbn; lia|lia]).
  - intros start n s d k (q & fw & H & Hf & _).
    assert (Eq : q = 6%nat). { do 6 (destruct q as [|q]; [discriminate Hf|]). destruct q; [reflexivity|discriminate Hf]. }
    apply post_first in H; [|exact Eq]. destruct H as [X|H]; [discriminate X|].
    assert (G : forall i (L : list Z), In 108 (firstn n (skipn i L)) -> In 108 L).
    { intros i L K. rewrite <- (firstn_skipn i L). apply in_or_app. right. rewrite <- (firstn_skipn n (skipn i L)). apply in_or_app. now left. }
    apply G in H. vm_compute in H. repeat (destruct H as [H|H]; [discriminate H|]). exact H.
Qed.

(** * What fails *)
(** Each sh becomes x. *)
Definition sh_dix : processor := sample [(0%nat, 115, 120, 1%nat); (1%nat, 104, 0, 2%nat)] [2%nat] true.
(** After a replacement that is shorter than what it replaces, letters of the same word are passed over: a
    dictionary entry that stands twice in a word is applied once. *)
Theorem C68_shorter_refuted : ~ (forall P fuel s t a b out outa outb,
  usable P -> p_caseSensitive P = true -> s = a ++ b ->
  (forall w x d k, accepts P true w x d k -> w = t) -> (a = t /\ b = t) ->
  transliteration P fuel false (open_file (utf8_text (a ++ [32]))) = Ok (outa ++ [32]) ->
  transliteration P fuel false (open_file (utf8_text (b ++ [32]))) = Ok (outb ++ [32]) ->
  transliteration P fuel false (open_file (utf8_text (s ++ [32]))) = Ok out ->
  out = outa ++ outb ++ [32]).
Proof.
  intros H. specialize (H sh_dix 100%nat (txt "shsh") (txt "sh") (txt "sh") (txt "sh") (txt "xsh ") (txt "x") (txt "x")).
  assert (K : txt "xsh " = txt "x" ++ txt "x" ++ [32]); [|vm_compute in K; discriminate K].
  apply H; clear H; try reflexivity; try (vm_compute; reflexivity).
  - apply sample_usable. repeat (constructor; [lia|]). constructor.
  - intros w x d k (q & fw & R & Hf & _).
    assert (Eq : q = 2%nat). { do 2 (destruct q as [|q]; [discriminate Hf|]). destruct q; [reflexivity|discriminate Hf]. }
    subst q. clear Hf.
    assert (E : forall p i o r (v : Z), In (o, (r, v)) (p_find sh_dix p i) -> (p = 0%nat /\ i = 115 /\ r = 1%nat) \/ (p = 1%nat /\ i = 104 /\ r = 2%nat)).
    { intros p i o r v Hi. cbn [sh_dix sample p_find] in Hi. unfold arcs_find in Hi. cbn [flat_map] in Hi. rewrite app_nil_r in Hi.
      apply in_app_or in Hi as [Hi|Hi]; (destruct (_ && _) eqn:E in Hi; [|destruct Hi]); destruct Hi as [Hi|[]]; injection Hi as _ <- _;
        apply andb_true_iff in E as [E1 E2]; apply Nat.eqb_eq in E1; apply Z.eqb_eq in E2; auto. }
    assert (G : forall p w x d q, reads sh_dix true p w x d q -> q = 2%nat ->
              (p = 2%nat -> w = []) /\ (p = 1%nat -> w = [104]) /\ (p = 0%nat -> w = [115; 104])).
    { clear -E. intros p w x d q R. induction R as [p|p o q w l s d r Hi H IH|p c o x q w l s d r Hc Hi Hw H IH|p c o x q w l s d r Hc [X _] Hi Hw H IH]; intros Eq.
      - repeat split; intros; try reflexivity; congruence.
      - apply E in Hi as [(_ & X & _)|(_ & X & _)]; discriminate X.
      - destruct (IH Eq) as (I1 & I2 & I3). apply E in Hi as [(-> & -> & ->)|(-> & -> & ->)]; split; [|split| |split]; intros Y; try discriminate Y.
        + now rewrite I2.
        + now rewrite I1.
      - discriminate X. }
    destruct (G _ _ _ _ _ R eq_refl) as (_ & _ & G0). rewrite (G0 eq_refl). reflexivity.
  - split; reflexivity.
Qed.
(** If the input ends right behind a word, a character U+FFFF is written behind it. *)
Theorem C68_end_refuted : exists P fuel, usable P /\ (forall w, unknown P true w) /\ p_caseSensitive P = true
  /\ transliteration P fuel false (open_file (utf8_text (txt "ab"))) = Ok (txt "ab" ++ [65535]).
Proof.
  exists (sample [] [] true), 100%nat. split; [apply sample_usable; constructor|]. split; [|split; [reflexivity|vm_compute; reflexivity]].
  intros w s d k (q & fw & _ & Hf & _). discriminate Hf.
Qed.
(** An escaped space is not among the blanks, and yet a blank is looked up for it. *)
Theorem C68_escaped_space_refuted : exists P fuel, usable P /\ (forall w, unknown P true w) /\ p_caseSensitive P = true
  /\ transliteration P fuel false (open_file (utf8_text (txt "a\ b "))) = UB.
Proof.
  exists (sample [] [] true), 100%nat. split; [apply sample_usable; constructor|]. split; [|split; [reflexivity|vm_compute; reflexivity]].
  intros w s d k (q & fw & _ & Hf & _). discriminate Hf.
Qed.
(** Tags that are not in the alphabet vanish. *)
Theorem C68_unknown_tag_refuted : exists P fuel, usable P /\ (forall w, unknown P true w) /\ p_caseSensitive P = true
  /\ transliteration P fuel false (open_file (utf8_text (txt "a<x>b "))) = Ok (txt "ab ").
Proof.
  exists (sample [] [] true), 100%nat. split; [apply sample_usable; constructor|]. split; [|split; [reflexivity|vm_compute; reflexivity]].
  intros w s d k (q & fw & _ & Hf & _). discriminate Hf.
Qed.
(** A replacement beyond the BMP is lost. *)
Theorem C68_beyond_refuted : exists P fuel, P = sample [(0%nat, 97, 65536, 1%nat)] [1%nat] true
  /\ transliteration P fuel false (open_file (utf8_text (txt "a "))) = Ok (txt " ").
Proof. exists (sample [(0%nat, 97, 65536, 1%nat)] [1%nat] true), 100%nat. split; [reflexivity|]. vm_compute. reflexivity. Qed.
(** a becomes aa. *)
Definition aa_dix (n : nat) : processor := with_fuel (sample [(0%nat, 97, 97, 1%nat); (1%nat, 0, 97, 2%nat)] [2%nat] true) n.
Lemma aa_accepts : forall n w s d k, accepts (aa_dix n) true w s d k <-> w = [97] /\ s = [(97, 0); (97, 0)] /\ d = false /\ k = 0.
Proof.
  intros n w s d k.
  assert (E : forall p i o r (v : Z), In (o, (r, v)) (p_find (aa_dix n) p i) ->
    (p = 0%nat /\ i = 97 /\ o = 97 /\ r = 1%nat /\ v = 0) \/ (p = 1%nat /\ i = 0 /\ o = 97 /\ r = 2%nat /\ v = 0)).
  { intros p i o r v Hi. cbn [aa_dix with_fuel sample p_find] in Hi. unfold arcs_find in Hi. cbn [flat_map] in Hi. rewrite app_nil_r in Hi.
    apply in_app_or in Hi as [Hi|Hi]; (destruct (_ && _) eqn:E in Hi; [|destruct Hi]); destruct Hi as [Hi|[]]; injection Hi as <- <- <-;
      apply andb_true_iff in E as [E1 E2]; apply Nat.eqb_eq in E1; apply Z.eqb_eq in E2; [left|right]; auto. }
  split.
  - intros (q & fw & R & Hf & ->).
    assert (Eq : q = 2%nat /\ fw = 0). { do 2 (destruct q as [|q]; [discriminate Hf|]). destruct q; [injection Hf as <-; auto|discriminate Hf]. }
    destruct Eq as [-> ->]. clear Hf.
    assert (G : forall p w s d q, reads (aa_dix n) true p w s d q -> q = 2%nat ->
      (p = 2%nat -> w = [] /\ s = [] /\ d = false) /\ (p = 1%nat -> w = [] /\ s = [(97, 0)] /\ d = false)
      /\ (p = 0%nat -> w = [97] /\ s = [(97, 0); (97, 0)] /\ d = false)).
    { clear R. intros p w' s' d' q R. induction R as [p|p o q w' l s' d' r Hi H IH|p c o x q w' l s' d' r Hc Hi Hw H IH|p c o x q w' l s' d' r Hc [X _] Hi Hw H IH]; intros Eq.
      - split; [auto|]. split; intros; congruence.
      - destruct (IH Eq) as (I1 & I2 & I3). apply E in Hi as [(_ & X & _)|(-> & _ & -> & -> & ->)]; [discriminate X|].
        destruct (I1 eq_refl) as (-> & -> & ->). split; [discriminate|]. split; [auto|discriminate].
      - destruct (IH Eq) as (I1 & I2 & I3). apply E in Hi as [(-> & -> & -> & -> & ->)|(_ & X & _)]; [|congruence].
        destruct (I2 eq_refl) as (-> & -> & ->). destruct Hw as [[[X _] _]|[_ ->]]; [discriminate X|]. split; [discriminate|]. split; [discriminate|]. auto.
      - discriminate X. }
    destruct (G _ _ _ _ _ R eq_refl) as (_ & _ & G0). destruct (G0 eq_refl) as (-> & -> & ->). auto.
  - intros (-> & -> & -> & ->). exists 2%nat, 0. split; [|split; reflexivity].
    apply rd_same with (o := 97) (q := 1%nat); [lia|now left| |].
    + right. split; [|reflexivity]. intros [[X _] _]. discriminate X.
    + change [(97, 0)] with ((if 97 =? 0 then [] else [(97, 0)]) ++ @nil (Z * Z)). apply rd_eps with (q := 2%nat); [now left|constructor].
Qed.
Lemma aa_no_end : forall n us start out, rewrites (aa_dix n) true false us start out -> forall b k, us = [mkU b None (repeat 97 (k + 1)) []] -> start <> k.
Proof.
  intros n us start out H. induction H as [|u us start out Hle H IH|u us start out Hlt Hu H IH|u us start m r v vs e r' i out Hlt Hle Htr Hmax Hsp Hce H IH]; intros b k E Es.
  - discriminate E.
  - injection E as -> ->. cbn [u_syms] in Hle. rewrite repeat_length in Hle. lia.
  - injection E as -> ->. subst start. apply (Hu 1%nat [(97, 0); (97, 0)] false 0). apply aa_accepts. split; [|auto].
    unfold ahead. cbn [map concat u_syms]. rewrite app_nil_r. rewrite repeat_app, skipn_app, repeat_length, skipn_all2 by (rewrite repeat_length; lia).
    rewrite Nat.sub_diag. reflexivity.
  - injection E as -> ->. subst start. destruct Htr as (s & d & c & Ha & _ & Er). apply aa_accepts in Ha as (Ew & -> & -> & _). cbn in Er.
    assert (Em : m = 1%nat).
    { apply (f_equal (@length Z)) in Ew. rewrite firstn_length, skipn_length in Ew. cbn [length] in Ew. unfold ahead in *. cbn [map concat u_syms] in *.
      rewrite app_nil_r in *. rewrite repeat_length in *. lia. }
    subst m r.
    assert (Hg : forall j v vs, glues j [mkU b None (repeat 97 (k + 1)) []] v vs -> j = 0%nat /\ v = mkU b None (repeat 97 (k + 1)) [] /\ vs = []).
    { intros j v' vs' G. remember [mkU b None (repeat 97 (k + 1)) []] as U eqn:EU. destruct G as [u us|? ? ? ? ? ? G]; [injection EU as -> ->; auto|discriminate EU]. }
    assert (Hv : v = mkU b None (repeat 97 (k + 1)) [] /\ vs = [] /\ e = (k + 1)%nat /\ r' = [97; 97]).
    { remember [97; 97] as rr eqn:Er. destruct Hsp as [r0 v vs G He|j v0 vs0 r0 v vs G0 Hlt0 G He Hn|j r0 v v0 vs G He].
      - apply Hg in G as (_ & -> & ->). subst r0. repeat split; auto.
      - exfalso. apply Hg in G as (X & _). discriminate X.
      - exfalso. apply Hg in G as (_ & _ & X). discriminate X. }
    destruct Hv as (-> & -> & -> & ->). cbn [u_syms u_blank u_bound u_inner] in *.
    assert (Ef : skipn k (firstn (k + 1) (repeat 97 (k + 1))) = [97]).
    { rewrite firstn_all2 by (rewrite repeat_length; lia). rewrite repeat_app, skipn_app, repeat_length, skipn_all2 by (rewrite repeat_length; lia).
      rewrite Nat.sub_diag. reflexivity. }
    rewrite Ef in Hce. destruct Hce as (x & y & z & E1 & E2 & -> & Hn).
    assert (Ez : length z = 1%nat).
    { destruct z as [|z1 [|z2 z]]; cbn [length]; [exfalso|reflexivity|exfalso].
      - rewrite app_nil_r in E1, E2. subst. apply (Hn 97 [97] []); reflexivity.
      - apply (f_equal (@length Z)) in E2. rewrite app_length in E2. cbn [length] in E2. lia. }
    rewrite Ez in *. replace (k + 1 - 1)%nat with k in * by lia. rewrite Nat.eqb_refl in *.
    apply (IH b (S k)); [|reflexivity]. f_equal. f_equal.
    rewrite (skipn_all2 (repeat 97 (k + 1))) by (rewrite repeat_length; lia). rewrite app_nil_r. 
    rewrite repeat_app, firstn_app, repeat_length, Nat.sub_diag, firstn_all2 by (rewrite repeat_length; lia). cbn [firstn]. rewrite app_nil_r.
    change [97; 97] with (repeat 97 2). rewrite <- repeat_app. f_equal. lia.
Qed.
(** If a letter is replaced by two, it never comes to an end. *)
Theorem C68_ends_refuted : exists P, usable P /\ is_sort (p_sort P) /\ p_caseSensitive P = true /\ eps_acyclic (p_find P)
  /\ forall n fuel out, transliteration (with_fuel P n) fuel false (open_file (utf8_text (txt "a "))) <> Ok out.
Proof.
  exists (aa_dix 0).
  assert (U : forall n, usable (aa_dix n)).
  { intros n. apply usable_fuel, sample_usable. repeat (constructor; [lia|]). constructor. }
  split; [apply U|]. split; [exact isort_is_sort|]. split; [reflexivity|]. split.
  - exists (fun p => 2 - p)%nat. intros p o q w Hi. destruct p as [|[|p]]; cbn in Hi; try tauto. destruct Hi as [Hi|[]]. injection Hi as _ <- _. lia.
  - intros n fuel out H. change (with_fuel (aa_dix 0) n) with (aa_dix n) in H.
    assert (S1 : section_ok (aa_dix n) false (mkSec [plain_item [] [97]] [32])).
    { split; [|split].
      - constructor; [|constructor]. apply (plain_item_ok [] [] true); [constructor|discriminate|reflexivity].
      - constructor; [reflexivity|lia|constructor].
      - cbn. split; [|exact I]. intros _. left. discriminate. }
    change (txt "a ") with (source_text [] (mkSec [plain_item [] [97]] [32])) in H.
    destruct (C68_case_sensitive (aa_dix n) false [] _ fuel out (U n) isort_is_sort eq_refl (Forall_nil _) S1) as (outs & o & _ & (t & Hr & _) & _); [|exact H|].
    + repeat constructor; lia.
    + exact (aa_no_end n _ _ _ Hr [] 0%nat eq_refl eq_refl).
Qed.

Print Assumptions C68_text.
Print Assumptions C68_case_sensitive.
Print Assumptions C68_ends.
Print Assumptions C68_unchanged.
Print Assumptions C68_letter_by_letter.
Print Assumptions C68_shorter_refuted.
Print Assumptions C68_end_refuted.
Print Assumptions C68_escaped_space_refuted.
Print Assumptions C68_unknown_tag_refuted.
Print Assumptions C68_beyond_refuted.
Print Assumptions C68_ends_refuted.
