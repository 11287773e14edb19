(** C62: the generator undoes what the analyser does.  Both are made from the same dictionary,
    compiled in the two directions. *)
From Coq Require String Ascii.
From Coq Require Import Permutation Sorted.
From Verif Require Import Base CompressionModel AlphabetModel AlphabetProofs AlphabetProps TransducerModel
  FileModel FileProofs FileProps StateModel StateSpec FinalsModel FinalsProps StringModel StringProps CompilerModel CompilerSpec
  CompilerProofs ValidProps InputModel InputProps StreamModel StreamProps ProcessorModel ProcessorProofs CompoundProps LookupProps BilingualModel LoadSpec LoadModel
  StringCodecProofs CodecProps GenerationSpec GenerationModel GenerationProofs GenerationProps AnalysisSpec BufferModel BufferProps AnalysisProps LoadProps.
Notation item := CompilerSpec.item.
Notation word := LoadSpec.word.
Notation after ops := (aruns ops new_alphabet).

(** * Specification *)
(** The symbols that are written on a path *)
Definition seen (s : list (Z * Z)) : list Z := filter (fun x => negb (x =? 0)) (map fst s).
(** The dictionary maps [l] to [o]. *)
Definition maps (P : processor) (l o : list Z) : Prop :=
  exists s q, rpath (p_find P) (p_root P) l s q /\ final_weight q (all_finals P) <> None /\ seen s = o.

(** * Proofs *)
Definition swap (x : Z * Z) : Z * Z := (snd x, fst x).
Lemma swap_swap : forall w, map swap (map swap w) = w.
Proof. intros w. rewrite map_map. rewrite <- (map_id w) at 2. apply map_ext. now intros []. Qed.
Lemma align_swap : forall l r, map swap (align l r) = align r l.
Proof.
  assert (A : forall l, align l [] = map (fun x => (x, 0)) l).
  { induction l as [|x l IH]; [reflexivity|]. cbn [align map]. now rewrite IH. }
  induction l as [|x l IH]; intros r.
  - cbn [align]. rewrite A, map_map. reflexivity.
  - destruct r as [|y r]; [rewrite A, map_map; reflexivity|]. cbn [align map]. now rewrite IH.
Qed.
Definition mirror (X Y : pset) : Prop := forall w, X w <-> Y (map swap w).
Lemma mirror_cat : forall X Y X' Y', mirror X X' -> mirror Y Y' -> mirror (cat X Y) (cat X' Y').
Proof.
  intros X Y X' Y' H K w. split.
  - intros (u & v & -> & Hu & Hv). exists (map swap u), (map swap v). rewrite map_app. split; [reflexivity|]. split; [now apply H|now apply K].
  - intros (u & v & E & Hu & Hv). exists (map swap u), (map swap v). split; [|split; [apply H|apply K]; now rewrite swap_swap].
    rewrite <- map_app, <- E. now rewrite swap_swap.
Qed.
Lemma mirror_element : forall env env' el, (forall n, mirror (env n) (env' n)) -> mirror (element_set true env el) (element_set false env' el).
Proof.
  intros env env' [l r w|n|er] H u; cbn [element_set]; [| |].
  - rewrite <- (align_swap l r). split; [intros ->; reflexivity|]. intros E. apply (f_equal (map swap)) in E. now rewrite !swap_swap in E.
  - apply H.
  - assert (S : forall cs, map swap (same_pairs cs) = same_pairs cs) by (intros cs; unfold same_pairs; rewrite map_map; reflexivity).
    split; intros (r & cs & H1 & H2 & H3 & E); exists r, cs; (split; [exact H1|]; split; [exact H2|]; split; [exact H3|]).
    + now rewrite E, S.
    + apply (f_equal (map swap)) in E. now rewrite swap_swap, S in E.
Qed.
Lemma mirror_entry : forall env env' els, (forall n, mirror (env n) (env' n)) -> mirror (entry_set true env els) (entry_set false env' els).
Proof.
  intros env env' els H. induction els as [|el els IH]; cbn [entry_set].
  - intros w. split; [intros ->; reflexivity|]. destruct w; [reflexivity|discriminate].
  - apply mirror_cat; [now apply mirror_element|exact IH].
Qed.
Lemma mirror_entries : forall env env' es, (forall n, mirror (env n) (env' n)) -> mirror (entries_set true env es) (entries_set false env' es).
Proof.
  intros env env' es H w. split; intros (els & Hin & K); exists els; (split; [exact Hin|]); now apply (mirror_entry env env' els H).
Qed.
Lemma mirror_sections : forall items env env' name, (forall n, mirror (env n) (env' n)) -> mirror (section_set true env items name) (section_set false env' items name).
Proof.
  induction items as [|[n es|n es] items IH]; intros env env' name H; cbn [section_set].
  - intros w. split; intros [].
  - apply IH. intros k. unfold define. destruct (ustr_eq_dec k n); [now apply mirror_entries|apply H].
  - intros w. unfold join_sets. rewrite (IH env env' name H w). rewrite (mirror_entries env env' es H w). reflexivity.
Qed.
(** The words of the two directions are mirror images. *)
Lemma mirror_words : forall items name w, word true items name w <-> word false items name (map swap w).
Proof. intros items name. apply mirror_sections. intros n w. split; intros []. Qed.
Lemma seen_output : forall w, seen (unweighted_out (output w)) = input (map swap w).
Proof. intros w. unfold seen, unweighted_out, output, input. rewrite !map_map. reflexivity. Qed.
Lemma input_seen : forall w, input w = seen (unweighted_out (output (map swap w))).
Proof. intros w. now rewrite seen_output, swap_swap. Qed.

(** * Theorems *)
(** In symbols: the analyser maps [l] to [o] exactly if the generator maps [o] to [l]. *)
Theorem C62_inverse : forall ops s s' items letters letters' to_file to_file' bs bs' zw zw' Q Q' P G,
  made ops s items letters to_file bs -> made ops s' items letters' to_file' bs' -> zw (WFin 0 0) = 0 -> zw' (WFin 0 0) = 0 ->
  lr s = true -> lr s' = false -> load_analysis zw Q bs = Ok P -> load_generation zw' Q' bs' = Ok G ->
  forall l o, maps P l o <-> maps G o l.
Proof.
  intros ops s s' items letters letters' to_file to_file' bs bs' zw zw' Q Q' P G M M' Hz Hz' D D' L L' l o.
  pose proof (C61_words _ _ _ _ _ _ _ _ _ M' Hz' L') as W. rewrite D' in W. unfold maps. split.
  - intros (x & q & Hp & Hq & <-). destruct (C61_kinds _ _ _ _ _ _ _ _ _ M Hz L l x) as (_ & _ & _ & _ & K). rewrite D in K.
    destruct (proj1 K (ex_intro _ q (conj Hp Hq))) as (name & w & Hw & -> & ->). apply mirror_words in Hw.
    destruct (proj2 (W (seen (unweighted_out (output w))) (unweighted_out (output (map swap w))))) as (q' & Hp' & Hq').
    + exists name, (map swap w). split; [exact Hw|]. split; [apply seen_output|reflexivity].
    + exists (unweighted_out (output (map swap w))), q'. split; [exact Hp'|]. split; [exact Hq'|]. symmetry. apply input_seen.
  - intros (x & q & Hp & Hq & <-). destruct (proj1 (W o x) (ex_intro _ q (conj Hp Hq))) as (name & w & Hw & -> & ->).
    rewrite <- (swap_swap w) in Hw. apply mirror_words in Hw.
    destruct (C61_kinds _ _ _ _ _ _ _ _ _ M Hz L (seen (unweighted_out (output w))) (unweighted_out (output (map swap w)))) as (_ & _ & _ & _ & K). rewrite D in K.
    destruct (proj2 K) as (q' & Hp' & Hq').
    + exists name, (map swap w). split; [exact Hw|]. split; [apply seen_output|reflexivity].
    + exists (unweighted_out (output (map swap w))), q'. split; [exact Hp'|]. split; [exact Hq'|]. symmetry. apply input_seen.
Qed.

(** ** In text *)
(** The tags the dictionary declares: <body>; the words have no other tags, and otherwise
    characters of Unicode. *)
Definition tags_declared (a : alphabet) : Prop :=
  forall t, In t (slexicinv a) -> exists body, t = utf16_text (60 :: body ++ [62]) /\ Forall scalar body /\ block_body 62 body.
Definition symbol_ok (a : alphabet) (c : Z) : Prop :=
  if c <? 0 then - c <= Z.of_nat (length (slexicinv a)) else scalar c.
Definition words_declared (a : alphabet) (items : list item) : Prop :=
  forall name w c o, word true items name w -> In (c, o) w -> symbol_ok a c /\ symbol_ok a o.
(** The text of symbols *)
Notation text P o t := (spelled (p_toupper P) (p_alpha P) is_escaped false o t).

Lemma spelled_seen : forall up a esc upper l t, esc 0 = false ->
  (spelled up a esc upper l t <-> spelled up a esc upper (filter (fun x => negb (x =? 0)) l) t).
Proof.
  intros up a esc upper l t E0. split.
  - intros H. induction H as [|c l x t Hc H IH]; [constructor|]. cbn [filter]. destruct (Z.eqb_spec c 0) as [->|N]; cbn [negb].
    + destruct Hc as [[_ ->]|[[Hc _]|[Hc _]]]; try lia. rewrite E0. exact IH.
    + now constructor.
  - revert t. induction l as [|c l IH]; intros t H; [exact H|]. cbn [filter] in H. destruct (Z.eqb_spec c 0) as [->|N]; cbn [negb] in H.
    + apply (sp_cons up a esc upper 0 l [] t) in IH; [|now left|exact H]. rewrite E0 in IH. exact IH.
    + inversion H as [|? ? x t' Hc H']; subst. constructor; auto.
Qed.
Lemma scalar_cp : forall c, scalar c -> append_cp [] c = utf16 c.
Proof.
  intros c H. assert (is_scalar c) by (unfold is_scalar, scalar in *; lia). rewrite C44_append_is_utf16 by assumption. reflexivity.
Qed.
Lemma utf16_app : forall x y, utf16_text (x ++ y) = utf16_text x ++ utf16_text y.
Proof. intros x y. unfold utf16_text. now rewrite map_app, concat_app. Qed.
(** The text of symbols is the text of pieces with these symbols. *)
Lemma spelled_pieces : forall up a0 a b o t, extends a0 a -> extends a0 b -> alph_inv b -> tags_declared a0 ->
  Forall (fun c => c <> 0 /\ symbol_ok a0 c) o -> spelled up a is_escaped false o t ->
  exists pcs, utf16_text (pieces_text pcs) = t /\ pieces_content pcs = pieces_text pcs /\ Forall piece_ok pcs /\ Forall scalar (pieces_text pcs)
    /\ piece_symbols b pcs = o /\ (forall c, hd_error (pieces_text pcs) = Some c -> c = 92 \/ c = 60 \/ (hd_error o = Some c /\ is_escaped c = false)).
Proof.
  intros up a0 a b o t Xa Xb Ib T F S. induction S as [|c o x t Hc S IH].
  - exists []. repeat split; try constructor. discriminate.
  - apply Forall_cons_iff in F as [[Hn Hs] F]. destruct (IH F) as (pcs & E1 & E2 & E3 & E4 & E5 & _). unfold symbol_ok in Hs.
    assert (exists p, utf16_text (piece_text p) = (if is_escaped c then [92] else []) ++ x /\ piece_content p = piece_text p /\ piece_ok p /\ Forall scalar (piece_text p)
      /\ piece_symbols b [p] = [c] /\ (forall d, hd_error (piece_text p) = Some d -> d = 92 \/ d = 60 \/ (c = d /\ is_escaped d = false)) /\ piece_text p <> []) as (p & G1 & G2 & G3 & G4 & G5 & G6 & G7).
    { destruct Hc as [[Hc _]|[[Hc Hx]|[Hc ->]]]; [contradiction| |].
      - replace (c <? 0) with true in Hs by lia. set (i := Z.to_nat (- c - 1)) in *.
        assert (Hi : (i < length (slexicinv a0))%nat) by (unfold i; lia). destruct (nth_error (slexicinv a0) i) as [y|] eqn:Ey; [|apply nth_error_None in Ey; lia].
        assert (y = x).
        { destruct Xa as [[r Xa] _]. rewrite Xa, nth_error_app1 in Hx by exact Hi. congruence. }
        subst y. destruct (T x (nth_error_In _ _ Ey)) as (body & -> & Hb & Hk). exists (PTag body).
        assert (Ee : is_escaped c = false) by (unfold is_escaped, escaped_chars; cbn [existsb]; lia). rewrite Ee.
        split; [reflexivity|]. split; [reflexivity|]. split; [exact Hk|]. split.
        { cbn [piece_text]. apply Forall_cons; [unfold scalar; lia|]. apply Forall_app. split; [exact Hb|]. apply Forall_cons; [unfold scalar; lia|constructor]. }
        split.
        { unfold piece_symbols. cbn [map concat app piece_text]. f_equal. assert (Eb : nth_error (slexicinv b) i = Some (utf16_text (60 :: body ++ [62]))).
          { destruct Xb as [[r Xb] _]. rewrite Xb, nth_error_app1 by exact Hi. exact Ey. }
          rewrite (proj1 (symbol_code_nth b _ i Ib Eb)). unfold tag_of, i. lia. }
        split; [|discriminate]. intros d Hd. cbn in Hd. right. left. congruence.
      - replace (c <? 0) with false in Hs by lia. rewrite scalar_cp by exact Hs. destruct (is_escaped c) eqn:Ee.
        + exists (PEsc c). split; [unfold utf16_text; cbn [piece_text map concat]; rewrite app_nil_r; reflexivity|]. split; [reflexivity|]. split; [exact I|]. split.
          { cbn [piece_text]. apply Forall_cons; [unfold scalar; lia|]. apply Forall_cons; [exact Hs|constructor]. }
          split; [reflexivity|]. split; [|discriminate]. intros d Hd. cbn in Hd. left. congruence.
        + exists (PChar c). split; [unfold utf16_text; cbn [piece_text map concat]; rewrite app_nil_r; reflexivity|]. split; [reflexivity|]. split.
          { unfold is_escaped, escaped_chars in Ee. cbn [existsb] in Ee. cbn [piece_ok]. lia. }
          split; [cbn [piece_text]; apply Forall_cons; [exact Hs|constructor]|]. split; [reflexivity|]. split; [|discriminate].
          intros d Hd. cbn in Hd. right. right. assert (c = d) by congruence. subst d. auto. }
    exists (p :: pcs). unfold pieces_text, pieces_content in *. cbn [map concat]. split; [rewrite utf16_app, G1, E1, app_assoc; reflexivity|].
    split; [now rewrite G2, E2|]. split; [now constructor|]. split; [apply Forall_app; auto|]. split.
    + change (p :: pcs) with ([p] ++ pcs). unfold piece_symbols in *. rewrite map_app, concat_app, G5, E5. reflexivity.
    + intros d Hd. destruct (piece_text p) as [|y r] eqn:Ep; [easy|]. cbn [app hd_error] in Hd. apply G6 in Hd as [Hd|[Hd|[-> Hd]]]; auto.
Qed.
Lemma run_sensitive : forall P careful p w s d q, GenerationSpec.run P true careful p w s d q <-> d = false /\ rpath (p_find P) p w s q.
Proof.
  intros P careful p w s d q. split.
  - intros H. induction H as [p|p o q w l s d r Ho Hp IH|p c o q w l s d r Hc Ho Hp IH|p c o q w l s d r Hc [Hf _]]; [| | |discriminate].
    + split; constructor.
    + destruct IH as [-> IH]. split; auto. eapply rp_eps; eauto.
    + destruct IH as [-> IH]. split; auto. eapply rp_sym; eauto.
  - intros [-> H]. induction H; econstructor; eauto.
Qed.

(** What the analyser prints for a word, given to the generator, makes exactly the words
    with that analysis, and this word among them. *)
Theorem C62_roundtrip : forall ops s s' items letters letters' to_file to_file' bs bs' zw zw' Q Q' P G m,
  made ops s items letters to_file bs -> made ops s' items letters' to_file' bs' -> zw (WFin 0 0) = 0 -> zw' (WFin 0 0) = 0 ->
  lr s = true -> lr s' = false -> load_analysis zw Q bs = Ok P -> load_generation zw' Q' bs' = Ok G ->
  tags_declared (after ops) -> words_declared (after ops) items ->
  p_caseSensitive Q' = true -> is_sort (p_sort Q') -> p_toupper Q' 0 = 0 -> p_weights Q' = false -> 0 < p_maxAnalyses Q' -> 0 < p_maxClasses Q' ->
  (forall c, c <> 0 -> p_tolower Q' c <> 0) -> ~ keeps_tags m ->
  forall l o t, maps P l o -> text P o t -> (forall c, hd_error o = Some c -> ~ marks c) ->
  exists input rep N, utf16_text input = t /\ Forall scalar input
    /\ (forall n, (N <= n)%nat -> generation (with_fuel G n) m (open_file (utf8_text ([94] ++ input ++ [36]))) = Ok (slashes rep))
    /\ rep <> [] /\ NoDup rep
    /\ (forall u, In u rep -> exists l', maps P l' o /\ text G l' u)
    /\ (exists st : list (vns (W:=Z)), (forall q x d, In (mkV q x d) st <-> d = false /\ rpath (p_find G) (p_root G) o x q)
          /\ (Z.of_nat (length st) <= p_maxAnalyses Q' -> Z.of_nat (length st) <= p_maxClasses Q' ->
              forall l', maps P l' o -> exists u, In u rep /\ text G l' u)).
Proof.
  intros ops s s' items letters letters' to_file to_file' bs bs' zw zw' Q Q' P G m M M' Hz Hz' D D' L L' T Wd Hcs Hs Ht Hw HA HC Hlo Hm l o t Hmp Hsp Hmk.
  pose proof (C62_inverse _ _ _ _ _ _ _ _ _ _ _ _ _ _ _ _ M M' Hz Hz' D D' L L') as Inv.
  destruct (C61_ready _ _ _ _ _ _ _ _ M Hz (ex_intro _ Q (or_intror L))) as (_ & _ & [Xa _] & _).
  destruct (C61_ready _ _ _ _ _ _ _ _ M' Hz' (ex_intro _ Q' (or_introl L'))) as (R1 & R2 & [Xb Ib] & _).
  assert (EP : p_caseSensitive G = true /\ is_sort (p_sort G) /\ p_toupper G 0 = 0 /\ p_weights G = false /\ 0 < p_maxAnalyses G /\ 0 < p_maxClasses G
    /\ (forall c, c <> 0 -> p_tolower G c <> 0) /\ p_maxAnalyses G = p_maxAnalyses Q' /\ p_maxClasses G = p_maxClasses Q').
  { unfold load_generation in L'. destruct (load bs') as [[[lt a] tes]| | | |]; try discriminate. cbn [obind] in L'. apply Ok_inj in L'. subst G. auto 20. }
  destruct EP as (E1 & E2 & E3 & E4 & E5 & E6 & E7 & E8 & E9).
  assert (So : Forall (fun c => c <> 0 /\ symbol_ok (after ops) c) o).
  { destruct Hmp as (x & q & Hp & Hq & <-). destruct (C61_kinds _ _ _ _ _ _ _ _ _ M Hz L l x) as (_ & _ & _ & _ & K). rewrite D in K.
    destruct (proj1 K (ex_intro _ q (conj Hp Hq))) as (name & w & Hww & -> & ->). apply Forall_forall. intros c Hc. unfold seen in Hc.
    apply filter_In in Hc as [Hc Hn]. split; [lia|]. unfold unweighted_out, output in Hc. rewrite !map_map in Hc. apply in_map_iff in Hc as ([x y] & <- & Hin).
    exact (proj2 (Wd name w x y Hww Hin)). }
  destruct (spelled_pieces (p_toupper P) (after ops) (p_alpha P) (p_alpha G) o t Xa Xb Ib T So Hsp) as (pcs & Et & Ec & Pk & Sc & Es & Hh).
  set (it := [Unit [] [] [mkT None pcs]]).
  assert (Hok : Forall StreamProps.item_ok it).
  { apply Forall_cons; [|constructor]. split; [apply gap_blank; constructor|]. split; [now left|]. split; [|discriminate].
    apply Forall_cons; [|constructor]. split; [exact Pk|]. cbn [t_mark t_pieces]. intros c Hc Mc. apply Hh in Hc as [->|[->|[Hc _]]].
    - unfold marks in Mc. cbn in Mc. lia.
    - unfold marks in Mc. cbn in Mc. lia.
    - exact (Hmk c Hc Mc). }
  assert (Ex : stream_text it [] = [94] ++ pieces_text pcs ++ [36]).
  { unfold stream_text, it. cbn [map concat StreamProps.item_text readings_text]. unfold r_text. cbn [t_mark t_pieces app]. rewrite !app_nil_r. reflexivity. }
  assert (Hsc : Forall scalar (stream_text it [])).
  { rewrite Ex. apply Forall_cons; [unfold scalar; lia|]. apply Forall_app. split; [exact Sc|]. apply Forall_cons; [unfold scalar; lia|constructor]. }
  assert (Hg : gap true []) by (apply gap_blank; constructor).
  destruct (C59_returns G m it [] R1 R2 E2 E3 E4 E5 E6 Hok Hg Hsc) as (out & N & HN).
  destruct (C59_case_sensitive (with_fuel G N) m it [] out E1 E7 E2 E5 E6 Hok Hg Hsc (HN N (le_n N))) as ((outs & F & Eo) & Hhw).
  revert Et Es. inversion F as [|? x ? rest Fx Fr]; subst. inversion Fr; subst. intros Et Es. destruct Fx as (y & Wo & ->).
  assert (Hhas : has_word (with_fuel G N) true (careful_mode m) o).
  { apply Hhw. apply Inv in Hmp as (x & q & Hp & Hq & _). exists x, q. auto. }
  cbn [t_pieces] in Wo. destruct Wo as [k u Hk|line Hg1 Hg2 Hf|line u Hg1 Hg2|u Hg1 Hg2]; cbn [t_mark t_pieces] in *; [discriminate| |contradiction|].
  2: { exfalso. apply Hg2. change (p_alpha (with_fuel G N)) with (p_alpha G). rewrite Es. exact Hhas. }
  change (p_alpha (with_fuel G N)) with (p_alpha G) in Hf. rewrite Es in Hf.
  destruct Hf as (upper & first & rep & _ & El & Ne & Nd & _ & Sound & st & Hst & Complete).
  change (p_weights (with_fuel G N)) with (p_weights G) in El. rewrite E4 in El.
  rewrite (map_ext _ fst (fun z => app_nil_r (fst z))) in El.
  exists (pieces_text pcs), (map fst rep), N. split; [exact Et|]. split; [exact Sc|]. split.
  { intros n Hn. rewrite <- Ex, HN by exact Hn. cbn [concat app]. unfold kept_mark. cbn [t_mark app]. rewrite !app_nil_r. now subst line. }
  split; [destruct rep; [easy|discriminate]|]. split; [exact Nd|]. split.
  - intros u Hu. apply in_map_iff in Hu as ([u' c] & <- & Hu). destruct (Sound u' c Hu) as (x & d & q & R & fw & t0 & Hf & _ & Sp & Cap).
    apply run_sensitive in R as [-> R]. cbn [v_dirty v_where v_seq andb] in *. subst t0. exists (seen x). split.
    + apply Inv. exists x, q. split; [exact R|]. split; [|reflexivity]. change (all_finals (with_fuel G N)) with (all_finals G) in Hf. congruence.
    + cbn [fst]. apply (proj1 (spelled_seen _ _ _ _ _ _ eq_refl) Sp).
  - exists st. split.
    { intros q x d. rewrite Hst, run_sensitive. reflexivity. }
    intros La Lc l' Hl'. apply Inv in Hl' as (x & q & Hp & Hq & <-).
    assert (Hin : In (mkV q x false) st) by (apply Hst, run_sensitive; auto).
    change (p_maxAnalyses (with_fuel G N)) with (p_maxAnalyses G) in Complete. change (p_maxClasses (with_fuel G N)) with (p_maxClasses G) in Complete.
    rewrite E8, E9 in Complete. destruct (Complete La Lc _ Hin Hq) as (u & c & least & (fw & t0 & _ & _ & Sp & Cap) & Hu & _).
    cbn [v_dirty v_where v_seq andb] in *. subst t0. exists u. split; [apply in_map_iff; exists (u, least); auto|].
    apply (proj1 (spelled_seen _ _ _ _ _ _ eq_refl) Sp).
Qed.

(** * Examples *)
Import String.StringSyntax.
Lemma pets_declared : tags_declared (after pet_tags) /\ words_declared (after pet_tags) pets.
Proof.
  split.
  - intros t H. vm_compute in H. each_in H; subst t;
      match goal with |- exists body, ?l = _ /\ _ => exists (removelast (tl l)) end; (split; [vm_compute; reflexivity|]).
    all: cbn [removelast tl]; split; [repeat constructor; unfold scalar; lia|].
    all: repeat constructor; lia.
  - assert (A : forall v c, forallb (fun z => if z <? 0 then - z <=? 4 else z <? 55296) v = true -> In c v -> symbol_ok (after pet_tags) c).
    { intros v c Hv Hc. rewrite forallb_forall in Hv. apply Hv in Hc. assert (E : Z.of_nat (length (slexicinv (after pet_tags))) = 4) by (vm_compute; reflexivity).
      unfold symbol_ok. rewrite E. unfold scalar. destruct (c <? 0) eqn:X; lia. }
    assert (A0 : symbol_ok (after pet_tags) 0) by (unfold symbol_ok, scalar; cbn; lia).
    intros name w c o H Hin. assert (Ic : c = 0 \/ In c (input w)).
    { destruct (Z.eq_dec c 0); [auto|right]. apply filter_In. split; [apply in_map_iff; exists (c, o); auto|lia]. }
    assert (Io : o = 0 \/ In o (filter (fun x => negb (x =? 0)) (output w))).
    { destruct (Z.eq_dec o 0); [auto|right]. apply filter_In. split; [apply in_map_iff; exists (c, o); auto|lia]. }
    assert (B : forall l r, input w = l -> filter (fun x => negb (x =? 0)) (output w) = r ->
      forallb (fun z => if z <? 0 then - z <=? 4 else z <? 55296) (l ++ r) = true -> symbol_ok (after pet_tags) c /\ symbol_ok (after pet_tags) o).
    { intros l r <- <- Hb. split; [destruct Ic as [->|Ic]|destruct Io as [->|Io]]; auto; apply (A _ _ Hb), in_or_app; auto. }
    apply pets_words in H as [[_ H]|(_ & Hi & Ho)].
    + each_in H; injection H as H1 H2; apply (B _ _ (eq_sym H1) (eq_sym H2)); vm_compute; reflexivity.
    + rewrite Ho in B. apply (B _ _ Hi eq_refl). vm_compute. reflexivity.
Qed.
Definition pet_generator : processor := match load_generation number pet_options (pet_file false) with Ok P => P | _ => pet_options end.
Example C62_example :
  tags_declared (after pet_tags) /\ words_declared (after pet_tags) pets
  /\ load_analysis number pet_options (pet_file true) = Ok pet_analyser
  /\ load_generation number pet_options (pet_file false) = Ok pet_generator
  /\ p_caseSensitive pet_options = true /\ (forall c, c <> 0 -> p_tolower pet_options c <> 0)
  /\ lookup pet_analyser [120] (txt "hot dogs") = Ok (true, [txt "hot dog<n><pl>"])
  /\ generation pet_generator gm_unknown (open_file (txt "^hot dog<n><pl>$")) = Ok (txt "hot dogs")
  /\ maps pet_analyser (txt "hot dogs") (txt "hot dog" ++ [-1; -3]).
Proof.
  split; [apply pets_declared|]. split; [apply pets_declared|]. split; [exact pet_loads|]. split; [vm_compute; reflexivity|]. split; [reflexivity|].
  split.
  { intros c Hc. cbn. destruct (ascii_up c) eqn:U; [unfold ascii_up in U; lia|exact Hc]. }
  split; [vm_compute; reflexivity|]. split; [vm_compute; reflexivity|].
  destruct (C61_kinds _ _ _ _ _ _ _ _ _ (pets_made true) eq_refl pet_loads (txt "hot dogs") (unweighted_out (txt "hot dog" ++ [-1; -3]))) as (_ & _ & _ & _ & K).
  destruct (proj2 K) as (q & Hp & Hq).
  - exists (txt "main@standard"), ([(104, 104); (111, 111); (116, 116); (32, 32); (100, 100); (111, 111); (103, 103)] ++ [(115, -1); (0, -3)]). split.
    + cbn [word LoadSpec.word section_set pets lr]. left. split; [reflexivity|]. eexists. split; [right; left; reflexivity|].
      exists [(104, 104); (111, 111); (116, 116); (32, 32); (100, 100); (111, 111); (103, 103)], [(115, -1); (0, -3)]. split; [reflexivity|]. split; [reflexivity|].
      exists [(115, -1); (0, -3)], []. split; [reflexivity|]. split; [|reflexivity]. cbn [element_set]. unfold define.
      destruct (ustr_eq_dec (txt "P") (txt "P")) as [_|N]; [|now destruct N]. eexists. split; [right; left; reflexivity|].
      exists [(115, -1); (0, -3)], []. repeat split; reflexivity.
    + split; reflexivity.
  - eexists; exists q. split; [exact Hp|]. split; [exact Hq|]. vm_compute. reflexivity.
Qed.

(** A lexical form that begins with an asterisk is taken for an unknown word: the analysis
    of the word does not bring it back. *)
Definition stars : list item := [Sec (txt "main@standard") [[Single (txt "ab") (txt "*a") 0]]].
Definition star_file (left_to_right : bool) : list Z :=
  match parse (mkSet left_to_right [] None) (after []) (dict_events stars) with
  | Ok (a, m) => match compiler_write no_weight pet_letters a m with Ok bs => bs | _ => [] end
  | _ => []
  end.
Lemma stars_made : forall b, made [] (mkSet b [] None) stars pet_letters no_weight (star_file b).
Proof.
  intros b. constructor; try reflexivity.
  - cbn [dict_ok stars]. split; [|exact I]. repeat (apply Forall_cons || apply Forall_nil); repeat split; cbn; lia.
  - intros it els l r w [<-|[]] [<-|[]] [H|[]]. congruence.
  - destruct b; (eexists; eexists; split; [vm_compute; reflexivity|]; split; [|vm_compute; reflexivity]).
    all: split; [|split; [|split; [vm_compute; reflexivity|]]].
    all: try (apply short_name; vm_compute; reflexivity).
    all: try (intros name t H; each_in H; injection H as <- <-; (split; [apply short_name; vm_compute; reflexivity|vm_compute; reflexivity])).
    all: split; [vm_compute; reflexivity|]; split; [vm_compute; reflexivity|]; split; cbn [slexicinv spairinv length].
    all: try (intros x y H; each_in H; injection H as <- <-; lia).
    all: intros x H; each_in H.
Qed.
Definition star_analyser : processor := match load_analysis number pet_options (star_file true) with Ok P => P | _ => pet_options end.
Definition star_generator : processor := match load_generation number pet_options (star_file false) with Ok P => P | _ => pet_options end.
Lemma star_loads : load_analysis number pet_options (star_file true) = Ok star_analyser.
Proof. vm_compute. reflexivity. Qed.
Theorem C62_star_refuted :
  exists P G, made [] (mkSet true [] None) stars pet_letters no_weight (star_file true)
    /\ made [] (mkSet false [] None) stars pet_letters no_weight (star_file false)
    /\ load_analysis number pet_options (star_file true) = Ok P /\ load_generation number pet_options (star_file false) = Ok G
    /\ p_caseSensitive G = true /\ maps P (txt "ab") (txt "*a")
    /\ (let! (out, _) := analysis P 200 (new_source (open_file (txt "ab."))) in Ok out) = Ok (txt "^ab/*a$.")
    /\ generation G gm_unknown (open_file (txt "^*a$")) = Ok (txt "*a").
Proof.
  exists star_analyser, star_generator. split; [apply stars_made|]. split; [apply stars_made|]. split; [exact star_loads|]. split; [vm_compute; reflexivity|].
  split; [vm_compute; reflexivity|]. split; [|split; vm_compute; reflexivity].
  destruct (C61_kinds _ _ _ _ _ _ _ _ _ (stars_made true) eq_refl star_loads (txt "ab") (unweighted_out (txt "*a"))) as (_ & _ & _ & _ & K).
  destruct (proj2 K) as (q & Hp & Hq).
  - exists (txt "main@standard"), [(97, 42); (98, 97)]. split; [|split; reflexivity]. left. split; [reflexivity|]. eexists. split; [left; reflexivity|].
    exists [(97, 42); (98, 97)], []. repeat split; reflexivity.
  - eexists; exists q. split; [exact Hp|]. split; [exact Hq|]. vm_compute. reflexivity.
Qed.
(** Unless case counts, the letter case of a word is not kept: only whether its first two letters
    are capitals. *)
Theorem C62_case_refuted :
  exists P G, load_analysis number (analyser_of [] [] [] false) (pet_file true) = Ok P
    /\ load_generation number (analyser_of [] [] [] false) (pet_file false) = Ok G
    /\ (let! (out, _) := analysis P 200 (new_source (open_file (txt "cAts."))) in Ok out) = Ok (txt "^cAts/cat<n><pl>$.")
    /\ generation G gm_unknown (open_file (txt "^cat<n><pl>$")) = Ok (txt "cats").
Proof.
  exists (match load_analysis number (analyser_of [] [] [] false) (pet_file true) with Ok P => P | _ => pet_options end),
    (match load_generation number (analyser_of [] [] [] false) (pet_file false) with Ok P => P | _ => pet_options end).
  split; [vm_compute; reflexivity|]. split; [vm_compute; reflexivity|]. split; vm_compute; reflexivity.
Qed.

Print Assumptions C62_inverse.
Print Assumptions C62_roundtrip.
Print Assumptions C62_star_refuted.
Print Assumptions C62_case_refuted.
