(** C56: morphological analysis cuts the text into the longest words of the dictionary, from
    left to right, and prints each with its analyses. *)
From Coq Require String Ascii.
From Verif Require Import Base CompressionModel AlphabetModel StateModel StateSpec StatePathProofs StateProps
  FinalsModel FinalsProps StringModel InputModel InputProps StreamModel StreamProps ProcessorModel
  ProcessorProofs CompoundProofs CompoundProps LookupProps AnalysisSpec BufferModel BufferProps AnalysisProofs AnalysisScan
  AnalysisLoopProofs.
Notation source := StreamModel.source.

(** The words whose analyses can be asked for when [s] is read: parts of [s], and beginnings
    of lowered parts. *)
Definition used (P : processor) (s w : list Z) : Prop :=
  (exists a b, s = a ++ w ++ b)
  \/ (exists a v b w', s = a ++ v ++ b /\ v <> [] /\ p_strlower P (utf16_text v) = w ++ w').
(** Reading them, letter case is respected ([cs]) or not, throughout: below 65536 live
    analyses this is the setting of the processor. *)
Definition steady (P : processor) (cs : bool) (s : list Z) : Prop :=
  forall n w st, used P s w -> state_of (with_fuel P n) w = Ok st -> beCaseSensitive P st = cs.

Section Settling.
  Context (P : processor) (cs : bool) (HP : plain_dix P cs).
  Lemma with_fuel_plain : forall n, plain_dix (with_fuel P n) cs.
  Proof. intros n. destruct HP. constructor; assumption. Qed.
  Lemma after_settles : forall w st, exists r, settles (fun n => after (with_fuel P n) st w) r.
  Proof.
    intros w. induction w as [|c w IH]; intros st; cbn [after]; [eexists; apply settles_ret|].
    destruct (step_case_settles P (pd_eps _ _ HP) c st) as (st1 & H1). destruct (IH st1) as (r & H2).
    exists r. exact (settles_bind _ _ st1 r H1 H2).
  Qed.
  Lemma state_settles : forall w, exists r, settles (fun n => state_of (with_fuel P n) w) r.
  Proof.
    intros w. destruct (initial_settles P (pd_eps _ _ HP)) as (i & H1). destruct (after_settles w i) as (r & H2).
    exists r. exact (settles_bind _ _ i r H1 H2).
  Qed.
  Lemma settle_all : forall (Q : nat -> nat -> Prop) K, (forall k, (k <= K)%nat -> exists N, forall n, (N <= n)%nat -> Q k n) ->
    exists N, forall k n, (k <= K)%nat -> (N <= n)%nat -> Q k n.
  Proof.
    intros Q K. induction K as [|K IH]; intros H.
    - destruct (H 0%nat (le_n 0)) as (N & HN). exists N. intros k n Hk Hn. assert (k = 0%nat) by lia. subst k. auto.
    - destruct IH as (N & HN); [intros k Hk; apply H; lia|]. destruct (H (S K) (le_n (S K))) as (N' & HN').
      exists (Nat.max N N'). intros k n Hk Hn. destruct (Nat.eq_dec k (S K)) as [->|]; [apply HN'; lia|apply HN; lia].
  Qed.
  Lemma good_settles : forall s w, steady P cs s -> (forall k, used P s (firstn k w)) ->
    exists N, forall n, (N <= n)%nat -> good (with_fuel P n) cs w.
  Proof.
    intros s w Hs Hu. destruct (settle_all (fun k n => exists st, state_of (with_fuel P n) (firstn k w) = Ok st /\ beCaseSensitive P st = cs) (length w)) as (N & HN).
    { intros k _. destruct (state_settles (firstn k w)) as (st & N & HN). exists N. intros n Hn. exists st.
      split; [auto|]. apply (Hs n (firstn k w) st); auto. }
    exists N. intros n Hn k. destruct (le_lt_dec k (length w)) as [L|L]; [exact (HN k n L Hn)|].
    replace (firstn k w) with (firstn (length w) w) by (rewrite !firstn_all2; auto; lia). exact (HN (length w) n (le_n _) Hn).
  Qed.
  Lemma closure_nil : forall st, step_case P st [] = Ok [].
  Proof.
    intros c. unfold step_case, offer. assert (E : v_choose (p_find P) (case_choice P c (beCaseSensitive P [])) [] = []).
    { unfold v_choose. destruct (case_choice P c (beCaseSensitive P [])) as [[? ?]|]; reflexivity. }
    rewrite E. now destruct (p_fuel P).
  Qed.
  Lemma after_nil : forall w, after P [] w = Ok [].
  Proof. intros w. induction w as [|c w IH]; cbn [after]; auto. now rewrite closure_nil. Qed.
  Lemma lowered_after : forall w st r, after P st w = Ok r -> lowered_loop P st w = Ok r.
  Proof.
    intros w. induction w as [|c w IH]; intros st r H; cbn [after lowered_loop] in *; auto.
    destruct (step_case P c st) as [[|x st1]| | | |]; cbn [obind] in *; try discriminate; auto.
    rewrite after_nil in H. exact H.
  Qed.
  Lemma lowers_good : forall w, w <> [] -> good P cs (p_strlower P w) -> lowers P cs w.
  Proof.
    intros w Hw G. destruct (good_here P cs _ G) as (st & Est & _). unfold lowers, compoundAnalysisOrLowering.
    rewrite (pd_decomp _ _ HP). cbn [obind]. pose proof Est as Est'. unfold state_of in Est'.
    destruct (initial_state P) as [i| | | |]; cbn [obind] in *; try discriminate.
    rewrite (lowered_after _ _ _ Est'). cbn [obind]. unfold prune_onlyL. rewrite (pd_decomp _ _ HP). cbn [andb].
    destruct (finals_defined P st (p_strlower P w) (pd_sort _ _ HP) (pd_toupper _ _ HP) (pd_weights _ _ HP)
      (or_introl (pd_strlower _ _ HP w Hw)) (state_named P _ _ (pd_tags _ _ HP) Est)) as (lf & E).
    rewrite E. cbn [obind]. exists lf. split; [destruct lf; reflexivity|].
    destruct (pd_limits _ _ HP) as [L1 L2]. eapply state_analysed; eauto. apply (pd_sort _ _ HP).
  Qed.
End Settling.

Lemma prepared_settles : forall P cs s, plain_dix P cs -> steady P cs s -> fits P cs s ->
  exists N, forall j n, (N <= n)%nat -> prepared (with_fuel P n) cs (skipn j s).
Proof.
  intros P cs s HP Hs Hf.
  assert (Seg : forall j k, exists a b, s = a ++ firstn k (skipn j s) ++ b).
  { intros j k. exists (firstn j s), (skipn k (skipn j s)). now rewrite !firstn_skipn. }
  destruct (settle_all (fun j n => good (with_fuel P n) cs (skipn j s)) (length s)) as (N1 & H1).
  { intros j _. apply (good_settles P cs HP s); auto. intros k. left. apply Seg. }
  destruct (settle_all (fun j n => forall k, (k <= length s)%nat -> (0 < k <= length (skipn j s))%nat ->
    lowers (with_fuel P n) cs (utf16_text (firstn k (skipn j s)))) (length s)) as (N2 & H2).
  { intros j _. destruct (settle_all (fun k n => (0 < k <= length (skipn j s))%nat -> lowers (with_fuel P n) cs (utf16_text (firstn k (skipn j s)))) (length s)) as (N & HN).
    - intros k _. set (v := firstn k (skipn j s)).
      destruct (Nat.eq_dec (length v) 0) as [E|E].
      { exists 0%nat. intros n _ Hk. unfold v in E. rewrite firstn_length in E. lia. }
      assert (Vn : v <> []) by (intros ->; now apply E).
      destruct (good_settles P cs HP s (p_strlower P (utf16_text v))) as (N & HN); auto.
      { intros i. right. destruct (Seg j k) as (a & b & Es). exists a, v, b, (skipn i (p_strlower P (utf16_text v))).
        split; [exact Es|]. split; [exact Vn|]. now rewrite firstn_skipn. }
      exists N. intros n Hn _. apply lowers_good; [now apply with_fuel_plain| |apply HN, Hn].
      intros X. apply utf16_text_empty in X. contradiction.
    - exists N. intros n Hn k Hk Hk2. apply HN; auto. }
  exists (Nat.max N1 N2). intros j n Hn.
  assert (K : forall j, (j <= length s)%nat -> prepared (with_fuel P n) cs (skipn j s)).
  { clear j. intros j Hj. constructor.
    - apply H1; lia.
    - intros k Hk. apply (H2 j n); auto; [lia|]. rewrite skipn_length in Hk. lia.
    - intros k v b E Hl Hv. apply (Hf (firstn j s) (firstn k (skipn j s)) v b); auto.
      rewrite <- E. now rewrite firstn_skipn. }
  destruct (le_lt_dec j (length s)) as [L|L]; [now apply K|].
  replace (skipn j s) with (skipn (length s) s); [apply K; lia|]. rewrite !skipn_all2; auto; lia.
Qed.

(** ** A source that has been read up to the items [its] *)
Definition resting (src : source) (text : list Z) : Prop :=
  s_blanks src = [] /\ at_text (s_file src) text
  /\ exists t, rel Size (s_buf src) t /\ t_at t = t_len t.
Lemma resting_held : forall tail its src, resting src (items_text its ++ tail) ->
  held tail its 0 0 (getPos (s_buf src)) src.
Proof.
  intros tail its src (B & F & t & R & E). constructor.
  - exists t, (t_at t). pose proof (r_cur _ _ _ R) as [C1 C2]. pose proof (r_at _ _ _ R) as [A1 A2].
    split; [exact R|]. split; [lia|]. split; [lia|]. split; [lia|]. split; [|split; [exact C1|exact C2]].
    cbn [firstn]. rewrite E. unfold t_len. rewrite Nat2Z.id. apply skipn_all.
  - lia.
  - cbn [Nat.leb skipn]. exact F.
Qed.
Lemma analysis_from : forall P cs its tail rounds src, plain_dix P cs -> tail_ok tail ->
  Forall (item_ok (p_ignored P)) its -> (forall j, prepared P cs (skipn j (symbols its))) ->
  (S (length its) * S (length its) + length its < rounds)%nat ->
  resting src (items_text its ++ tail) ->
  exists out src', analysis P rounds src = Ok (out, src') /\ analysed P cs its out /\ finished tail src'.
Proof.
  intros P cs its tail rounds src HP Ht Hok Hp Hr Hs. pose proof (pr_good _ _ _ (Hp 0%nat)) as G.
  destruct (good_firstn P cs _ 0%nat G 0%nat) as (init & Ei & _). cbn in Ei. unfold state_of in Ei.
  destruct (initial_state P) as [i| | | |] eqn:Hi; try discriminate. cbn [obind after] in Ei. injection Ei as ->.
  unfold analysis. rewrite Hi. cbn [obind].
  set (a := mkA src init [] [] false (getPos (s_buf src)) 0 0 false false false).
  assert (Fr : fresh P cs tail its 0 a).
  { split.
    - constructor; cbn.
      + constructor; [now apply resting_held|apply Hs|]. intros j Hj. lia.
      + unfold state_of. rewrite Hi. reflexivity.
      + apply (init_alive P cs init Hi). exact (good_firstn P cs _ 0%nat G).
      + reflexivity.
      + auto.
    - left. split; [reflexivity|]. split; [reflexivity|]. intros j Hj. lia. }
  destruct (loop_spec P cs HP tail Ht rounds init Hi (length its) its 0 a (le_n _) Hok Hp ltac:(lia) Fr)
    as (N & out & src' & HN & E & An & Fin).
  exists out, src'. split; [apply E; lia|]. split; auto.
Qed.

Lemma token_fuel : forall P n cs l out k, token (with_fuel P n) cs l out k -> token P cs l out k.
Proof.
  intros P n cs l out k H. destruct H as [k lf L sf A|i r E N X|k lf N R K sf A].
  - exact (tok_word P cs l k lf L A).
  - exact (tok_alone P cs l i r E N X).
  - exact (tok_unknown P cs l k lf N R K A).
Qed.
Lemma analysed_fuel : forall P n cs l out, analysed (with_fuel P n) cs l out -> analysed P cs l out.
Proof.
  intros P n cs l out H. induction H as [|l out k more T X A IH|l out k L T X].
  - constructor.
  - apply (an_more P cs l out k more); auto. eapply token_fuel; eauto.
  - apply (an_last P cs l out k); auto. eapply token_fuel; eauto.
Qed.
Lemma items_scalar : forall ignored l, Forall (item_ok ignored) l -> Forall scalar (items_text l).
Proof.
  intros ignored l H. induction H as [|i l Hi Hl IH]; [constructor|]. unfold items_text. cbn [map concat].
  apply Forall_app. split; [|exact IH].
  assert (A : forall c, In c [91; 92; 93] -> scalar c) by (intros c Hc; apply ascii_scalar; cbn in Hc; lia).
  destruct i; cbn [item_ok item_text] in *.
  - constructor; [tauto|constructor].
  - constructor; [apply A; cbn; auto|]. constructor; [tauto|constructor].
  - constructor; [apply A; cbn; auto|]. apply Forall_app. split; [tauto|]. constructor; [apply A; cbn; auto|constructor].
  - constructor; [apply A; cbn; auto|]. constructor; [apply A; cbn; auto|]. apply Forall_app. split; [tauto|].
    constructor; [apply A; cbn; auto|]. constructor; [apply A; cbn; auto|constructor].
Qed.

(** * Analysis of a text *)
Theorem C56_analysis : forall P cs its, plain_dix P cs -> Forall (item_ok (p_ignored P)) its ->
  steady P cs (symbols its) -> fits P cs (symbols its) ->
  exists N, forall n rounds, (N <= n)%nat -> (N <= rounds)%nat ->
    exists out src, analysis (with_fuel P n) rounds (new_source (open_file (utf8_text (items_text its)))) = Ok (out, src)
      /\ analysed P cs its out /\ eof (s_file src) = true /\ s_blanks src = [].
Proof.
  intros P cs its HP Hok Hst Hf. pose proof (items_scalar _ _ Hok) as Hsc. destruct (prepared_settles P cs _ HP Hst Hf) as (N & HN).
  exists (Nat.max N (S (S (length its) * S (length its) + length its))). intros n rounds Hn Hr.
  destruct (analysis_from (with_fuel P n) cs its [] rounds (new_source (open_file (utf8_text (items_text its)))))
    as (out & src & E & An & B & F & _).
  - now apply with_fuel_plain.
  - exact I.
  - exact Hok.
  - intros j. apply HN. lia.
  - lia.
  - split; [reflexivity|]. split; [cbn [s_file new_source]; rewrite app_nil_r; now apply at_text_open|].
    exists (mkTape [] 0). split; [|reflexivity]. cbn [s_buf new_source]. apply (new_rel Size). cbn. lia.
  - exists out, src. split; [exact E|]. split; [exact (analysed_fuel P n cs its out An)|]. cbn in F. rewrite F. auto.
Qed.

(** In the null-flush mode each part of the input up to a NUL is analysed by itself and
    followed by a NUL in the output; so is what follows the last NUL, even if it is empty. *)
Fixpoint nul_separated (l : list (list item)) : list Z :=
  match l with
  | [] => []
  | [b] => items_text b
  | b :: r => items_text b ++ 0 :: nul_separated r
  end.
Lemma nul_scalar : forall ignored l, Forall (Forall (item_ok ignored)) l -> Forall scalar (nul_separated l).
Proof.
  intros ignored l H. induction H as [|b l Hb Hl IH]; [constructor|]. cbn [nul_separated].
  destruct l; [eapply items_scalar; eauto|]. apply Forall_app. split; [eapply items_scalar; eauto|].
  constructor; [apply ascii_scalar; lia|exact IH].
Qed.
Lemma flush_from : forall P cs blocks, plain_dix P cs -> blocks <> [] ->
  Forall (fun b => Forall (item_ok (p_ignored P)) b /\ forall j, prepared P cs (skipn j (symbols b))) blocks ->
  forall rounds, Forall (fun b => (S (length b) * S (length b) + length b < rounds)%nat) blocks ->
  forall fuel src, (length blocks <= fuel)%nat -> resting src (nul_separated blocks) ->
  exists outs src', null_flush P rounds fuel src = Ok (concat (map (fun o => o ++ [0]) outs), src')
    /\ Forall2 (analysed P cs) blocks outs /\ eof (s_file src') = true.
Proof.
  intros P cs blocks HP. induction blocks as [|b blocks IH]; intros Hne Hok rounds Hr fuel src Hf Hs; [easy|].
  inversion Hok as [|? ? [Hb Hp] Hok']; subst. inversion Hr as [|? ? Hrb Hr']; subst.
  destruct fuel as [|fuel]; [cbn in Hf; lia|]. cbn [null_flush]. destruct Hs as (B & F & T).
  assert (Ee : eof (s_file src) = false) by apply F. rewrite Ee.
  set (tail := match blocks with [] => [] | _ => 0 :: nul_separated blocks end).
  assert (Et : nul_separated (b :: blocks) = items_text b ++ tail).
  { unfold tail. cbn [nul_separated]. destruct blocks; [now rewrite app_nil_r|reflexivity]. }
  rewrite Et in F.
  destruct (analysis_from P cs b tail rounds src HP) as (out & src' & E & An & B' & F' & T'); auto.
  { unfold tail. destruct blocks; cbn; auto. }
  { split; [exact B|]. split; [exact F|exact T]. }
  rewrite E. cbn [obind]. destruct blocks as [|b' blocks].
  - cbn in F'. unfold null_flush.
    assert (Ee' : eof (s_file (empty_buffer src')) = true) by (cbn; now rewrite F').
    exists [out], (empty_buffer src'). split; [|split; [constructor; auto|exact Ee']].
    destruct fuel; rewrite Ee'; cbn [obind map concat app]; rewrite app_nil_r; reflexivity.
  - assert (Hrest : resting (empty_buffer src') (nul_separated (b' :: blocks))).
    { split; [exact B'|]. split; [exact F'|exact T']. }
    cbn [length] in Hf.
    destruct (IH ltac:(discriminate) Hok' rounds Hr' fuel (empty_buffer src') ltac:(cbn [length]; lia) Hrest) as (outs & src'' & En & Fa & Ef).
    rewrite En. cbn [obind]. exists (out :: outs), src''. split; [|split; [constructor; auto|exact Ef]].
    cbn [map concat]. rewrite <- app_assoc. reflexivity.
Qed.
Theorem C56_null_flush : forall P cs blocks, plain_dix P cs -> blocks <> [] ->
  Forall (fun b => Forall (item_ok (p_ignored P)) b /\ steady P cs (symbols b) /\ fits P cs (symbols b)) blocks ->
  exists N, forall n rounds fuel, (N <= n)%nat -> (N <= rounds)%nat -> (length blocks <= fuel)%nat ->
    exists outs src, null_flush (with_fuel P n) rounds fuel (new_source (open_file (utf8_text (nul_separated blocks))))
        = Ok (concat (map (fun o => o ++ [0]) outs), src)
      /\ Forall2 (analysed P cs) blocks outs /\ eof (s_file src) = true.
Proof.
  intros P cs blocks HP Hne Hok.
  assert (K : exists N, forall n, (N <= n)%nat -> Forall (fun b => (forall j, prepared (with_fuel P n) cs (skipn j (symbols b)))
      /\ (S (length b) * S (length b) + length b < n)%nat) blocks).
  { clear Hne. induction Hok as [|b l (Hb & Hs & Hf) Hl IH]; [exists 0%nat; constructor|].
    destruct IH as (N & HN). destruct (prepared_settles P cs _ HP Hs Hf) as (N' & HN').
    exists (Nat.max N (Nat.max N' (S (S (length b) * S (length b) + length b)))). intros n Hn. constructor.
    - split; [intros j; apply HN'; lia|lia].
    - apply HN. lia. }
  destruct K as (N & HN). exists N. intros n rounds fuel Hn Hr Hf.
  destruct (flush_from (with_fuel P n) cs blocks (with_fuel_plain P cs HP n) Hne) with (rounds := rounds) (fuel := fuel)
    (src := new_source (open_file (utf8_text (nul_separated blocks)))) as (outs & src & E & Fa & Ee); auto.
  - specialize (HN n Hn). rewrite Forall_forall in *. intros b Hb. split; [apply Hok, Hb|apply HN, Hb].
  - specialize (HN rounds Hr). rewrite Forall_forall in *. intros b Hb. apply HN, Hb.
  - split; [reflexivity|]. split.
    + apply at_text_open. eapply nul_scalar with (ignored := p_ignored P). rewrite Forall_forall in *. intros b Hb. apply Hok, Hb.
    + exists (mkTape [] 0). split; [|reflexivity]. cbn [s_buf new_source]. apply (new_rel Size). cbn. lia.
  - exists outs, src. split; [exact E|]. split; [|exact Ee]. clear - Fa. induction Fa; constructor; auto. eapply analysed_fuel; eauto.
Qed.

(** * The tokens *)
(** The text determines where each token ends. *)
Theorem C56_tokens : forall P cs l out k out' k', token P cs l out k -> token P cs l out' k' -> k = k' /\ (0 < k <= length l)%nat.
Proof.
  intros P cs l out k out' k' H H'.
  assert (Len : (0 < k <= length l)%nat).
  { destruct H as [k lf [[L _] _] sf A|i r E N X|k lf N [R _] K sf A]; [now rewrite map_length in L|subst l; cbn; lia|].
    rewrite map_length in R. lia. }
  split; [|exact Len]. destruct H as [k lf L sf A|i r E N X|k lf N R K sf A]; destruct H' as [k' lf' L' sf' A'|i' r' E' N' X'|k' lf' N' R' K' sf' A'].
  - destruct L as [L1 L2], L' as [L1' L2']. pose proof (L2 _ L1'). pose proof (L2' _ L1). lia.
  - exfalso. exact (N' k (proj1 L)).
  - exfalso. exact (N' k (proj1 L)).
  - exfalso. exact (N k' (proj1 L')).
  - reflexivity.
  - exfalso. destruct R' as (_ & R' & _). subst l. destruct k'; [lia|]. cbn [map firstn] in R'. now inversion R'.
  - exfalso. exact (N k' (proj1 L')).
  - exfalso. destruct R as (_ & R & _). subst l. destruct k; [lia|]. cbn [map firstn] in R. now inversion R.
  - exact (run_unique P _ _ _ R R').
Qed.

(** All items of the text belong to tokens. *)
Inductive covered (P : processor) (cs : bool) : list item -> ustr -> Prop :=
| cov_end : covered P cs [] []
| cov_more l out k more : token P cs l out k -> covered P cs (skipn k l) more -> covered P cs l (out ++ more).
(** Nothing is lost of a text that ends with white space other than ' ', such as a line. *)
Theorem C56_lines : forall P cs front i out, plain_dix P cs -> p_isspace P (item_symbol i) = true -> item_symbol i <> 32 ->
  analysed P cs (front ++ [i]) out -> covered P cs (front ++ [i]) out.
Proof.
  intros P cs front i out HP Hi Hn H. remember (front ++ [i]) as l eqn:El.
  assert (Hl : l = [] \/ exists f, l = f ++ [i]) by eauto. clear El front. induction H as [|l out k more T X A IH|l out k L T X].
  - constructor.
  - apply (cov_more _ _ l out k more T). apply IH. destruct Hl as [->|(f & ->)]; [left; now destruct k|].
    rewrite skipn_app. destruct (k - length f)%nat eqn:E; cbn [skipn]; [right; eauto|].
    left. rewrite skipn_all2 by lia. now destruct n.
  - exfalso. destruct Hl as [->|(f & ->)]; [easy|]. rewrite map_app in X. cbn [map] in X. destruct X as [X|(_ & j & J1 & J2 & J3 & J4)].
    + exact (pd_white _ _ HP _ _ Hi Hn X).
    + rewrite app_length in J1. cbn in J1. rewrite skipn_app in J4. replace (j - length (symbols f))%nat with 0%nat in J4 by lia.
      cbn [skipn] in J4. apply Forall_app in J4 as [_ J4]. inversion J4 as [|? ? Y]; subst. apply (pd_letters _ _ HP) in Y. destruct Y. congruence.
Qed.

(** * Concrete cases *)
Import String.StringSyntax.
(** A dictionary from arcs; the tags -1 and -2 are <n> and <c>; a to z are letters, the space
    and the line feed are white space. *)
Definition analyser_of (arcs : list (nat * Z * Z * nat)) (fins incond : list nat) (cs : bool) : processor :=
  mkP (arcs_find arcs) 0 100 (map (fun q => (q, 0)) fins) (map (fun q => (q, 0)) incond) [] []
    (mkAlphabet [([60; 110; 62], -1); ([60; 99; 62], -2)] [[60; 110; 62]; [60; 99; 62]] [] [])
    (map Z.of_nat (seq 97 26)) (fun _ => false)
    (fun c => ascii_up c || ascii_low c) (fun c => (c =? 32) || (c =? 10)) ascii_up
    (fun c => if ascii_up c then c + 32 else c) (fun c => if ascii_low c then c - 32 else c)
    (fun c => Ok (if ascii_up c then c + 32 else c)) (map (fun c => if ascii_up c then c + 32 else c))
    isort cs false false (2 ^ 31 - 1) (2 ^ 31 - 1) false 0 0 4 (fun _ => None).

Section PlainArcs.
  Context (arcs : list (nat * Z * Z * nat)) (fins incond : list nat) (cs : bool).
  Let P := analyser_of arcs fins incond cs.
  Lemma arcs_in : forall n i o q w, In (o, (q, w)) (arcs_find arcs n i) -> In (n, i, o, q) arcs.
  Proof.
    intros n i o q w H. unfold arcs_find in H. apply in_flat_map in H as ([[[p x] o'] q'] & Ha & Hb).
    destruct ((p =? n)%nat && (x =? i)) eqn:E; [|destruct Hb]. apply andb_prop in E as [E1 E2].
    apply Nat.eqb_eq in E1. apply Z.eqb_eq in E2. subst. destruct Hb as [Hb|[]].
    assert (o' = o) by congruence. assert (q' = q) by congruence. now subst.
  Qed.
  Lemma path_inputs : forall n l (s : list (Z * Z)) q, rpath (p_find P) n l s q -> forall c, In c l -> exists p o q', In (p, c, o, q') arcs.
  Proof.
    intros n l s q H. induction H as [p|p o q w l s r Hin H IH|p i o q w l s r Hi Hin H IH]; intros c Hc; auto; [destruct Hc|].
    destruct Hc as [<-|Hc]; auto. apply arcs_in in Hin. eauto.
  Qed.
  Lemma reading_same : forall w l d, reading (p_isupper P) (p_tolower P) cs w l d -> forall c, In c w -> ascii_up c = false -> In c l.
  Proof. intros w l d H. induction H; intros x Hx Hu; [destruct Hx| |]; destruct Hx as [<-|Hx]; cbn [In]; auto. cbn in *. congruence. Qed.
  Lemma sample_letter : forall c, letter P c <-> ascii_up c = true \/ ascii_low c = true.
  Proof.
    intros c. unfold letter. cbn [P analyser_of p_isalnum p_letters]. rewrite orb_true_iff. split; [|tauto].
    intros [H|H]; auto. right. apply in_map_iff in H as (x & <- & Hx). apply in_seq in Hx. unfold ascii_low. lia.
  Qed.
  (** What the arcs have to satisfy *)
  Lemma arcs_plain :
    (exists rank : nat -> nat, forall p o q, In (p, 0, o, q) arcs -> (rank q < rank p)%nat) ->
    (forall p i o q, In (p, i, o, q) arcs -> -2 <= o /\ i <> 10 /\ i < 65536) ->
    (forall i o q, In (0%nat, i, o, q) arcs -> i <> 0 /\ i <> 32) ->
    ~ In 0%nat fins -> ~ In 0%nat incond -> plain_dix P cs.
  Proof.
    intros (rank & Hr) Ha H0 Hf Hi. constructor; cbn [P analyser_of p_decomp p_postblank p_preblank p_rcx p_sort p_weights p_toupper p_maxAnalyses p_maxClasses p_isspace p_ignored p_find]; auto.
    - exists rank. intros p o q w H. apply arcs_in in H. eapply Hr; eauto.
    - intros n i o q w H Ho. apply arcs_in in H. apply Ha in H as (H & _). cbn. lia.
    - exact isort_is_sort.
    - lia.
    - intros [|c w] H; [easy|]. discriminate.
    - intros c Hc. apply sample_letter in Hc. unfold ascii_up, ascii_low in Hc. cbn. lia.
    - intros c Hc. cbn [p_letters analyser_of P] in Hc. apply in_map_iff in Hc as (x & <- & Hx). apply in_seq in Hx. split; lia.
    - split; [reflexivity|]. split; [reflexivity|]. intros c Hc M. apply meta_iff in M. unfold is_escaped in M.
      apply orb_prop in Hc as [Hc|Hc]; apply Z.eqb_eq in Hc; subst c; discriminate M.
    - intros (l & d & s & q & R & Rp & F). inversion R; subst. assert (q = 0%nat).
      { clear - Rp H0. cbn [p_root P analyser_of] in Rp. inversion Rp as [|p o q' w l s' r Hin Hp|]; subst; auto.
        exfalso. apply arcs_in in Hin. apply H0 in Hin. tauto. }
      subst q. apply F. cbn [all_finals P analyser_of p_standard p_incond p_postblank p_preblank]. unfold all_finals.
      cbn [all_finals P analyser_of p_standard p_incond p_postblank p_preblank]. rewrite !app_nil_r.
      assert (K : forall l, ~ In 0%nat l -> forall r, final_weight 0 r = None -> final_weight 0 (map (fun q : nat => (q, 0)) l ++ r) = None).
      { intros l. induction l as [|x l IH]; intros Hl r Er; cbn [map app final_weight]; auto.
        destruct (Nat.eqb_spec x 0) as [->|]; [exfalso; apply Hl; now left|]. apply IH; auto. intros X. apply Hl. now right. }
      apply K; auto. rewrite <- (app_nil_r (map _ incond)). now apply K.
    - intros c Hc (l & d & s & q & R & Rp). assert (Hu : ascii_up c = false).
      { unfold ascii_up. lia. }
      inversion R as [|c0 w0 l0 d0 X1 X2 X3|c0 w0 l0 d0 X1 X2 X3]; subst; [|cbn in X2; congruence].
      inversion X3; subst. cbn [p_root P analyser_of] in Rp. inversion Rp as [|p o q' w l s' r Hin Hp|p i o q' w l s' r Hne Hin Hp]; subst.
      + apply arcs_in in Hin. apply H0 in Hin. tauto.
      + apply arcs_in in Hin. pose proof (H0 _ _ _ Hin). pose proof (Ha _ _ _ _ Hin). lia.
    - intros w c Hc Hn (l & d & s & q & R & Rp). assert (c = 10) by lia. subst c.
      assert (In 10 l) by (apply (reading_same _ _ _ R 10); [apply in_or_app; right; now left|reflexivity]).
      destruct (path_inputs _ _ _ _ Rp _ H) as (p & o & q' & Hin). apply Ha in Hin. tauto.
    - intros c Hl (l & d & s & q & R & Rp). assert (Hu : ascii_up c = false).
      { destruct (ascii_up c) eqn:E; [|reflexivity]. exfalso. apply Hl, sample_letter. auto. }
      assert (In c l) by (exact (reading_same _ _ _ R c (or_introl eq_refl) Hu)).
      destruct (path_inputs _ _ _ _ Rp _ H) as (p & o & q' & Hin). apply Ha in Hin. tauto.
  Qed.
  Lemma arcs_steady : cs = true -> forall s, steady P cs s.
  Proof. intros E s n w st _ _. unfold beCaseSensitive, P. cbn [p_caseSensitive analyser_of]. rewrite E. reflexivity. Qed.
End PlainArcs.
Ltac arcs_plain rank := apply arcs_plain;
  [ exists rank; intros p o q H; cbn in H; repeat (destruct H as [H|H]; [first [discriminate H|injection H as <- <- <-; cbn; lia]|]); destruct H
  | intros p i o q H; cbn in H; repeat (destruct H as [H|H]; [first [discriminate H|injection H as <- <- <- <-; lia]|]); destruct H
  | intros i o q H; cbn in H; repeat (destruct H as [H|H]; [first [discriminate H|injection H as <- <- <-; lia]|]); destruct H
  | cbn; lia | cbn; lia ].
Lemma short_fits : forall P cs s, (length s < 2047)%nat -> fits P cs s.
Proof. intros P cs s H a w v b E _ _. subst s. rewrite !app_length in *. lia. Qed.

(** ab:ab<n>, "ab cd":"ab cd<n>" in a standard section, ",":",<c>" in an inconditional one *)
Definition town : list (nat * Z * Z * nat) :=
  [(0%nat, 97, 97, 1%nat); (1%nat, 98, 98, 2%nat); (2%nat, 0, -1, 3%nat);
   (2%nat, 32, 32, 4%nat); (4%nat, 99, 99, 5%nat); (5%nat, 100, 100, 6%nat); (6%nat, 0, -1, 7%nat);
   (0%nat, 44, 44, 8%nat); (8%nat, 0, -2, 9%nat)].
Definition town_dix (cs : bool) : processor := analyser_of town [3; 7]%nat [9]%nat cs.
Lemma town_plain : forall cs, plain_dix (town_dix cs) cs.
Proof. intros cs. arcs_plain (fun n : nat => 20 - n)%nat. Qed.
Definition chars (l : list Z) : list item := map Plain l.
Definition town_text : list item :=
  chars (txt "Ab ab") ++ [Superblank (txt " <b>")] ++ chars (txt "cd, abx e,ab cx ") ++ [Wordbound (txt "t:i:1")]
  ++ chars (txt "ab") ++ [Escaped 47] ++ chars [10].
Lemma chars_ok : forall l, forallb (fun c => (0 <? c) && (c <? 128) && negb (is_escaped c)) l = true ->
  Forall (item_ok (fun _ => false)) (chars l).
Proof.
  intros l H. rewrite forallb_forall in H. apply Forall_forall. intros i Hi. apply in_map_iff in Hi as (c & <- & Hc).
  apply H in Hc. apply andb_prop in Hc as [Hc E]. apply negb_true_iff in E. cbn. split; [split; lia|]. split; [lia|].
  split; [unfold U_EOF; lia|]. split; [|reflexivity]. intros M. apply meta_iff in M. congruence.
Qed.
Ltac scalars := repeat (apply Forall_cons; [apply ascii_scalar; lia|]); apply Forall_nil.
Ltac items := unfold town_text; repeat first [apply Forall_app; split | apply chars_ok; reflexivity | apply Forall_nil
  | apply Forall_cons; [cbn [item_ok]|] ].
Example C56_analysis_example :
  plain_dix (town_dix true) true /\ Forall (item_ok (p_ignored (town_dix true))) town_text
  /\ steady (town_dix true) true (symbols town_text) /\ fits (town_dix true) true (symbols town_text)
  /\ items_text town_text = txt "Ab ab[ <b>]cd, abx e,ab cx [[t:i:1]]ab\/" ++ [10]
  /\ exists src, analysis (town_dix true) 1000 (new_source (open_file (utf8_text (items_text town_text))))
     = Ok (txt "^Ab/ab<n>$ ^ab cd/ab cd<n>$[ <b>]^,/,<c>$ ^abx/*abx$ ^e/*e$^,/,<c>$^ab/ab<n>$ ^cx/*cx$ [[t:i:1]]^ab/ab<n>$\/" ++ [10], src).
Proof.
  split; [apply town_plain|]. split.
  { cbn [p_ignored town_dix analyser_of]. items.
    - vm_compute txt. split; [scalars|]. split; [|cbn; lia]. repeat (apply bb_char; [lia|lia|lia|]). apply bb_nil.
    - vm_compute txt. split; [scalars|]. repeat (apply wb_char; [lia|lia|lia|]). apply wb_nil.
    - unfold U_EOF. split; [split; lia|lia]. }
  split; [now apply arcs_steady|]. split; [apply short_fits; vm_compute; lia|]. split; [reflexivity|].
  eexists. vm_compute. reflexivity.
Qed.
Example C56_null_flush_example :
  exists src, null_flush (town_dix true) 100 3 (new_source (open_file (utf8_text (nul_separated [chars (txt "ab c"); chars (txt "ab"); []]))))
    = Ok (txt "^ab/ab<n>$ " ++ [0] ++ txt "^ab/ab<n>$" ++ [0] ++ [0], src).
Proof. eexists. vm_compute. reflexivity. Qed.

(** * What does not hold *)
Lemma writeEscaped_In : forall l (u : Z), In u l -> In u (writeEscaped l).
Proof.
  intros l u H. induction l as [|c l IH]; [destruct H|]. cbn [writeEscaped]. apply in_or_app.
  destruct H as [->|H]; [|right; auto]. left. destruct (is_escaped u); [right|]; now left.
Qed.
Lemma map_skipn_symbols : forall k l, skipn k (symbols l) = symbols (skipn k l).
Proof. induction k; destruct l; cbn; auto. Qed.
(** A character of a text that tokens cover is in the output. *)
Lemma covered_shown : forall P cs its out, covered P cs its out ->
  forall c u, In c (symbols its) -> c <> 32 -> In u (utf16 c) -> In u out.
Proof.
  intros P cs its out H. induction H as [|l out k more T C IH]; intros c u Hc Hn Hu; [destruct Hc|].
  apply in_or_app. rewrite <- (firstn_skipn k (symbols l)) in Hc. apply in_app_or in Hc as [Hc|Hc].
  2:{ right. apply (IH c); auto. rewrite map_skipn_symbols in Hc. exact Hc. }
  left. assert (W : In u (writeEscaped (utf16_text (firstn k (symbols l))))).
  { apply writeEscaped_In. unfold utf16_text. apply in_concat. exists (utf16 c). split; [now apply in_map|exact Hu]. }
  destruct T as [k lf L sf A|i r E N X|k lf N R K sf A].
  - apply in_or_app. left. unfold printWord. apply in_or_app. right. apply in_or_app. now left.
  - subst l. cbn [map firstn] in W, Hc. destruct Hc as [<-|[]]. unfold utf16_text in W. cbn in W. rewrite app_nil_r in W.
    unfold alone. replace (item_blanks i) with (@nil ustr); auto.
    destruct i as [c|c|b|b]; cbn in *; try congruence. destruct (Z.eqb_spec c 32); congruence.
  - destruct lf; unfold printUnknownWord, printWord; apply in_or_app; right; apply in_or_app; now left.
Qed.

(** The end of the input in the middle of a longer entry: what was read after the last word
    is lost, but for its blanks. *)
Theorem C56_end_refuted : ~ (forall P cs its out src,
  plain_dix P cs -> Forall (item_ok (p_ignored P)) its -> steady P cs (symbols its) -> fits P cs (symbols its) ->
  analysis P 1000 (new_source (open_file (utf8_text (items_text its)))) = Ok (out, src) -> covered P cs its out).
Proof.
  intros H. assert (E : exists src, analysis (town_dix true) 1000 (new_source (open_file (utf8_text (items_text (chars (txt "ab c"))))))
    = Ok (txt "^ab/ab<n>$ ", src)) by (eexists; vm_compute; reflexivity).
  destruct E as (src & E).
  assert (C : covered (town_dix true) true (chars (txt "ab c")) (txt "^ab/ab<n>$ ")).
  { apply (H _ _ _ _ src); auto; [apply town_plain|apply chars_ok; reflexivity|now apply arcs_steady|apply short_fits; vm_compute; lia]. }
  pose proof (covered_shown _ _ _ _ C 99 99) as K. assert (X : In 99 (txt "^ab/ab<n>$ ")).
  { apply K; [vm_compute; tauto|lia|now left]. }
  vm_compute in X. repeat (destruct X as [X|X]; [discriminate X|]). destruct X.
Qed.

(** A dictionary with an entry that starts with a space: the analysis of a space before
    anything else never ends. *)
Definition space_dix : processor :=
  analyser_of [(0%nat, 32, 32, 1%nat); (1%nat, 97, 97, 2%nat); (2%nat, 0, -1, 3%nat)] [3%nat] [] true.
Theorem C56_space_entry_refuted : forall rounds,
  analysis space_dix rounds (new_source (open_file (txt " b"))) = NoFuel.
Proof.
  intros rounds. set (src := new_source (open_file (txt " b"))).
  assert (Hi : exists i, initial_state space_dix = Ok i) by (eexists; vm_compute; reflexivity).
  destruct Hi as (i & Hi). unfold analysis. rewrite Hi. cbn [obind]. vm_compute in Hi. injection Hi as <-.
  set (init := [mkV 0 [] false]). set (a0 := mkA src init [] [] false (getPos (s_buf src)) 0 0 false false false).
  assert (R1 : exists a1, round space_dix rounds init a0 = Ok ([], 32, a1)
    /\ exists o2 a2, round space_dix rounds init a1 = Ok (o2, 98, a2)
    /\ exists a3, round space_dix rounds init a2 = Ok ([], 32, a3)
    /\ round space_dix rounds init a3 = Ok (o2, 98, a2)).
  { eexists. split; [vm_compute; reflexivity|]. eexists _, _. split; [vm_compute; reflexivity|].
    eexists. split; [vm_compute; reflexivity|]. vm_compute. reflexivity. }
  destruct R1 as (a1 & E1 & o2 & a2 & E2 & a3 & E3 & E4).
  assert (Loop : forall fuel, analysis_loop space_dix rounds fuel init a2 = NoFuel /\ analysis_loop space_dix rounds fuel init a3 = NoFuel).
  { induction fuel as [|fuel [I1 I2]]; [auto|]. cbn [analysis_loop]. rewrite E3, E4. cbn [obind Z.eqb]. rewrite I1, I2. auto. }
  generalize rounds at 2. intros fuel. destruct fuel as [|[|fuel]]; [reflexivity| |].
  - cbn [analysis_loop]. rewrite E1. reflexivity.
  - cbn [analysis_loop]. rewrite E1. cbn [obind Z.eqb]. rewrite E2. cbn [obind Z.eqb]. now rewrite (proj1 (Loop fuel)).
Qed.

(** A known tag that is not escaped is printed as the noncharacter U+FFFF, an unknown one
    ends the analysis of the text. *)
Theorem C56_tag_refuted :
  (exists src, analysis (town_dix true) 1000 (new_source (open_file (txt "<n>ab" ++ [10]))) = Ok ([65535] ++ txt "^ab/ab<n>$" ++ [10], src))
  /\ exists src, analysis (town_dix true) 1000 (new_source (open_file (txt "<m>ab" ++ [10]))) = Ok ([], src).
Proof. split; eexists; vm_compute; reflexivity. Qed.

(** Letters behind the beginning of a longer entry that do not fit in the buffer with it: the
    text read again is not the text. *)
Definition buffer_dix : processor :=
  analyser_of [(0%nat, 101, 101, 1%nat); (1%nat, 32, 32, 2%nat); (2%nat, 102, 102, 3%nat); (3%nat, 0, -1, 4%nat)] [4%nat] [] true.
Lemma buffer_plain : plain_dix buffer_dix true.
Proof. arcs_plain (fun n : nat => 20 - n)%nat. Qed.
Theorem C56_buffer_refuted : ~ (forall P cs its out src,
  plain_dix P cs -> Forall (item_ok (p_ignored P)) its -> steady P cs (symbols its) ->
  analysis P 5000 (new_source (open_file (utf8_text (items_text its)))) = Ok (out, src) -> covered P cs its out).
Proof.
  intros H. set (text := txt "e f" ++ repeat 102 (Z.to_nat 2046) ++ [10]).
  assert (E : exists src, analysis buffer_dix 5000 (new_source (open_file (utf8_text (items_text (chars text)))))
    = Ok (txt "^e/*e$ ", src)) by (eexists; vm_compute; reflexivity).
  destruct E as (src & E).
  assert (C : covered buffer_dix true (chars text) (txt "^e/*e$ ")).
  { apply (H _ _ _ _ src); auto; [apply buffer_plain|apply chars_ok; vm_compute; reflexivity|now apply arcs_steady]. }
  pose proof (covered_shown _ _ _ _ C 102 102) as K. assert (X : In 102 (txt "^e/*e$ ")).
  { apply K; [|lia|now left]. unfold chars. rewrite map_map. cbn [item_symbol]. rewrite map_id. right. right. now left. }
  vm_compute in X. repeat (destruct X as [X|X]; [discriminate X|]). destruct X.
Qed.

(** A character outside the BMP that is no letter but starts an entry is cut in half. *)
Definition pair_dix : processor :=
  analyser_of [(0%nat, 128512, 128512, 1%nat); (1%nat, 97, 97, 2%nat); (2%nat, 0, -1, 3%nat)] [3%nat] [] true.
Theorem C56_pair_refuted :
  utf16 128512 = [55357; 56832]
  /\ exists src, analysis pair_dix 1000 (new_source (open_file (utf8_text [128512; 98; 10]))) = Ok ([55357] ++ txt "^b/*b$" ++ [10], src).
Proof. split; [reflexivity|]. eexists. vm_compute. reflexivity. Qed.

(** An escaped space in a word takes the blank behind the word, and one more space appears. *)
Theorem C56_escaped_space_refuted :
  exists src, analysis (town_dix true) 1000 (new_source (open_file (txt "ab\ cd[x]e" ++ [10])))
    = Ok (txt "^ab cd/ab cd<n>$[x] ^e/*e$" ++ [10], src).
Proof. eexists. vm_compute. reflexivity. Qed.

(** The text of the first example is a line. *)
Example C56_lines_example :
  (exists out, analysed (town_dix true) true town_text out /\ covered (town_dix true) true town_text out)
  /\ exists front, town_text = front ++ [Plain 10] /\ p_isspace (town_dix true) 10 = true.
Proof.
  split.
  - destruct C56_analysis_example as (H1 & H2 & H3 & H4 & _).
    destruct (C56_analysis _ _ _ H1 H2 H3 H4) as (N & HN). destruct (HN N N (le_n N) (le_n N)) as (out & src & _ & A & _).
    exists out. split; [exact A|].
    change town_text with ((chars (txt "Ab ab") ++ [Superblank (txt " <b>")] ++ chars (txt "cd, abx e,ab cx ") ++ [Wordbound (txt "t:i:1")]
      ++ chars (txt "ab") ++ [Escaped 47]) ++ [Plain 10]) in A |- *.
    eapply C56_lines; [exact H1|reflexivity|discriminate|exact A].
  - exists (removelast town_text). split; reflexivity.
Qed.
Example C56_tokens_example : exists out k, token (town_dix true) true town_text out k.
Proof.
  destruct C56_lines_example as [(out & _ & C) _]. remember town_text as l eqn:E.
  destruct C as [|l o k more T C']; [discriminate E|]. exists o, k. exact T.
Qed.

Print Assumptions C56_analysis.
Print Assumptions C56_null_flush.
Print Assumptions C56_tokens.
Print Assumptions C56_lines.
Print Assumptions C56_end_refuted.
Print Assumptions C56_space_entry_refuted.
Print Assumptions C56_tag_refuted.
Print Assumptions C56_buffer_refuted.
Print Assumptions C56_pair_refuted.
Print Assumptions C56_escaped_space_refuted.
