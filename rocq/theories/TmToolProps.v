(** C78: lt-tmxcomp, then lt-tmxproc: the units of the document are replaced by their
    translations. *)
From Coq Require String Ascii.
From Verif Require Import Base CompressionModel AlphabetModel TransducerModel FileModel FileProofs FileProps StateModel StateSpec FinalsModel StringModel InputModel InputProps
  StreamModel StreamProps ProcessorModel ProcessorProofs CompilerSpec CompoundProps AnalysisSpec AnalysisProofs AnalysisProps DixModel DixSpec LoadModel LoadWordProofs LoadProps TmxModel TmxSpec TmxProofs TmxProps
  TmModel TmSpec TmProofs TmLoopProofs TmProps TmToolModel TmToolSpec TmToolProofs TmFileProofs.
Import String.StringSyntax.

(** What is used of the character classes (ICU) *)
Record classes_fine (Q : processor) (ispunct isdigit : Z -> bool) : Prop := {
  cf_space : p_isspace Q 32 = true /\ p_isupper Q 32 = false /\ (forall c, meta c -> p_isspace Q c = false);
  cf_symbol : p_isspace Q (-1) = false /\ ispunct (-1) = false;
  cf_digit : (forall c, ascii_digit c -> isdigit c = true) /\ (forall c, isdigit c = true -> c < 128 -> ascii_digit c)
    /\ isdigit U_EOF = false
}.

(** * The file *)
(** A document whose words fit the format is compiled to a file. *)
Theorem C78_writes : forall isspace isdigit lo lm ns us to_file, lo <> lm -> TmxSpec.memory ns us ->
  (forall u, In u us -> Z.of_nat (length (in_language lo u)) < 10 ^ 8
    /\ ~ In 0 (in_language lo u) /\ ~ In 0 (in_language lm u)
    /\ exists S T, unit_is (fun c => isspace c = true) (fun c => isdigit c = true) (in_language lo u) (in_language lm u) S T) ->
  (exists S T, entry isspace isdigit lo lm us S T) -> to_file 0 = WFin 0 0 ->
  (forall a t, lt_tmxcomp isspace isdigit lo lm ns = Ok (Some (a, t)) -> alphabet_fits a /\ Z.of_nat (nstates t) < 2 ^ 30) ->
  exists bs, tmxcomp_program isspace isdigit lo lm to_file ns = Ok (Some bs).
Proof.
  intros isspace isdigit lo lm ns us to_file Hl Hm Ht (S & T & He) H0 Fit.
  destruct (tmxcomp_compiled isspace isdigit lo lm ns us Hl Hm) as (a & t & Ec & Ex & Ha & C).
  - apply Forall_forall. intros u Hu. destruct (Ht u Hu) as (A1 & A2 & A3 & A4). split; [exact A1|]. split; [exact A4|]. split; assumption.
  - exists (align S T). apply word_entry. eauto.
  - destruct (Fit a t Ec) as [F1 F2]. destruct (file_fits a _ t C to_file H0 F1 F2) as (G1 & G2 & G3).
    unfold tmxcomp_program. rewrite Ec. cbn [obind]. rewrite tmx_write_set.
    destruct (dict_exe_rt [] a [([], file_trans to_file t)]) as (bs & Eb & _).
    + split; [constructor|cbn; lia].
    + apply Ha.
    + now apply fits_ok.
    + constructor; [intros []|constructor].
    + cbn. lia.
    + intros name t' [K|[]]. injection K as <- <-. split; [split; [constructor|cbn; lia]|]. auto.
    + assert (Eb' : compiler_write to_file [] a [([], t)] = Ok bs) by exact Eb. rewrite Eb'. cbn [obind]. eauto.
Qed.

(** * Opening it *)
Section Opening.
  Context (isspace isdigit : Z -> bool) (lo lm : ustr) (us : list (list (ustr * list Z))).
  Notation entry := (entry isspace isdigit lo lm us).
  Notation begins Q := (begins_source isspace isdigit (p_isupper Q) (p_tolower Q) lo lm us).
  Notation whole Q := (is_source isspace isdigit (p_isupper Q) (p_tolower Q) lo lm us).
  Lemma taken_space : forall Q l, p_isupper Q 32 = false -> (taken_for (p_isupper Q) (p_tolower Q) [32] l <-> l = [32]).
  Proof.
    intros Q l U. split.
    - intros (d & R). inversion R as [|c w l' d' A1 A2 A3|c w l' d' A1 A2 A3 A4 A5 A6]; subst; [|congruence]. inversion A3; subst. reflexivity.
    - intros ->. exists false. constructor; [lia|congruence|constructor].
  Qed.
  Lemma valid_settles : forall ns to_file bs Q P, memory_file isspace isdigit lo lm ns us to_file bs -> loaded isspace isdigit lo lm us P Q -> p_isupper Q 32 = false ->
    exists b, settles (fun n => valid_memory (with_fuel P n)) b /\ (b = true <-> ~ exists S T, entry (32 :: S) T).
  Proof.
    intros ns to_file bs Q P M L U. pose proof (ld_eps _ _ _ _ _ _ _ L) as He.
    destruct (initial_settles P He) as (init & H1). destruct (offer_settles P He (one 32) init) as (st & H2).
    assert (F : isFinal (all_finals P) init = false).
    { destruct (isFinal (all_finals P) init) eqn:E; [|reflexivity]. exfalso. destruct H1 as (N & H1). specialize (H1 N (le_n _)).
      assert (Es : tstate (with_fuel P N) [] = Ok init) by (unfold tstate; rewrite H1; reflexivity).
      apply (tstate_accepting (with_fuel P N) (all_finals P) _ _ Es) in E.
      apply (accepting_whole isspace isdigit lo lm ns us to_file bs M P Q L) in E as (S & T & (u & _ & _ & L1 & _) & (d & R)). inversion R; subst. cbn in L1. lia. }
    exists (match st with [] => true | _ => false end). split.
    - destruct H1 as (N1 & H1). destruct H2 as (N2 & H2). exists (N1 + N2)%nat. intros n Hn. unfold valid_memory. rewrite H1 by lia. cbn [obind].
      change (all_finals (with_fuel P n)) with (all_finals P). rewrite F, H2 by lia. reflexivity.
    - destruct H1 as (N1 & H1). destruct H2 as (N2 & H2). specialize (H1 (N1 + N2)%nat ltac:(lia)). specialize (H2 (N1 + N2)%nat ltac:(lia)). cbn beta in H1, H2.
      assert (Es : tstate (with_fuel P (N1 + N2)) [32] = Ok st).
      { unfold tstate. rewrite H1. cbn [obind tafter]. unfold case_choice. change (p_isupper (with_fuel P (N1 + N2))) with (p_isupper P). rewrite (ld_upper _ _ _ _ _ _ _ L), U. cbn [andb].
        rewrite H2. reflexivity. }
      pose proof (tstate_living _ _ _ Es) as Lv.
      assert (K : living (with_fuel P (N1 + N2)) false [32] <-> exists S T, entry (32 :: S) T).
      { transitivity (begins Q [32]); [exact (living_begins isspace isdigit lo lm ns us to_file bs M P Q L [32])|]. split.
        - intros (S & T & l & r & E & -> & R). apply (taken_space Q _ U) in R as ->. exists r, T. exact E.
        - intros (S & T & E). exists (32 :: S), T, [32], S. split; [exact E|]. split; [reflexivity|]. now apply taken_space. }
      rewrite <- K, <- Lv. destruct st; split; intros X; try reflexivity; try discriminate X; [intros Y; now apply Y|]. exfalso. apply X. discriminate.
  Qed.
End Opening.

(** The file of a document with a source that begins with a blank is refused, whatever the text. *)
Theorem C78_refused : forall isspace isdigit' lo lm ns us to_file bs from_file Q ispunct isdigit space_mode S T,
  memory_file isspace isdigit' lo lm ns us to_file bs -> from_file (WFin 0 0) = 0 -> p_isupper Q 32 = false ->
  entry isspace isdigit' lo lm us (32 :: S) T ->
  exists N, forall n rounds text, (N <= n)%nat -> tmxproc_program from_file (with_fuel Q n) ispunct isdigit space_mode rounds bs text = Exit.
Proof.
  intros isspace isdigit' lo lm ns us to_file bs from_file Q ispunct isdigit space_mode S T M Hz U E.
  destruct (file_memory isspace isdigit' lo lm ns us to_file bs from_file M Hz) as (g & Hg & Ld & Gf).
  destruct (valid_settles isspace isdigit' lo lm us ns to_file bs Q (g Q) M (Ld Q) U) as (b & (N & HN) & Hb).
  exists N. intros n rounds text Hn. unfold tmxproc_program. rewrite Hg. cbn [obind]. rewrite Gf, HN by exact Hn. cbn [obind].
  destruct b; [|reflexivity]. exfalso. apply (proj1 Hb eq_refl). eauto.
Qed.

(** * Texts *)
Lemma cut_ext : forall isspace ispunct m (live live' accept accept' : list Z -> Prop), (forall w, live w <-> live' w) -> (forall w, accept w <-> accept' w) ->
  forall l segs, cut_by isspace ispunct m live accept l segs -> cut_by isspace ispunct m live' accept' l segs.
Proof.
  intros isspace ispunct m live live' accept accept' HL HA l segs H.
  assert (HU : forall x k, unit_at_by isspace ispunct m accept x k <-> unit_at_by isspace ispunct m accept' x k).
  { intros x k. unfold unit_at_by. split; intros (i & A & B & C); exists i; (split; [exact A|]); (split; [exact B|]); now apply HA. }
  induction H as [|g l segs Hg Hl Hu Hc IH|u w l segs A1 A2 A3 A4 A5 A6 A7 A8 A9 A10 Hc IH|u p l segs B1 B2 B3 B4 B5 B6 Hc IH|u L1 L2 L3 L4].
  - constructor.
  - apply cut_gap; auto; [rewrite <- HL|rewrite <- HU]; assumption.
  - apply cut_text; auto; [now apply HL|intros i x E; rewrite <- HL; eauto|intros k Hk; rewrite <- HU; auto].
  - apply cut_unit; auto; [now apply HA|now rewrite <- HL|intros k Hk; rewrite <- HU; auto].
  - apply cut_lost; auto; [now apply HL|intros k Hk; rewrite <- HU; auto].
Qed.

(** The text is cut by the sources of the document's units; each unit that may end there is
    replaced by the translations of its source, every one once; the rest is kept. *)
Theorem C78_text : forall isspace isdigit' lo lm ns us to_file bs from_file Q ispunct isdigit space_mode l segs,
  memory_file isspace isdigit' lo lm ns us to_file bs -> from_file (WFin 0 0) = 0 -> classes_fine Q ispunct isdigit ->
  (forall S T, ~ entry isspace isdigit' lo lm us (32 :: S) T) ->
  Forall (bit_ok isdigit) l -> apart l ->
  cut_by (p_isspace Q) ispunct space_mode (begins_source isspace isdigit' (p_isupper Q) (p_tolower Q) lo lm us)
    (is_source isspace isdigit' (p_isupper Q) (p_tolower Q) lo lm us) l segs ->
  Forall (fillable_by (translations isspace isdigit' (p_isupper Q) (p_tolower Q) lo lm us)) segs ->
  exists N, forall n rounds, (N <= n)%nat -> (N <= rounds)%nat ->
    exists o, tmxproc_program from_file (with_fuel Q n) ispunct isdigit space_mode rounds bs (utf8_text (bits_text l)) = Ok (o ++ [0])
      /\ shown_by (translations isspace isdigit' (p_isupper Q) (p_tolower Q) lo lm us) segs o.
Proof.
  intros isspace isdigit' lo lm ns us to_file bs from_file Q ispunct isdigit space_mode l segs M Hz [(C1 & C2 & C3) C4 C5] Sp Hok Hap Hcut Hfill.
  destruct (file_memory isspace isdigit' lo lm ns us to_file bs from_file M Hz) as (g & Hg & Ld & Gf). pose proof (Ld Q) as L.
  destruct (valid_settles isspace isdigit' lo lm us ns to_file bs Q (g Q) M L C2) as (b & (N1 & HN1) & Hb).
  assert (b = true) by (apply Hb; intros (S & T & E); exact (Sp S T E)). subst b.
  assert (OK : memory_ok (g Q) ispunct isdigit).
  { constructor; [exact (ld_eps _ _ _ _ _ _ _ L)|exact (ld_number _ _ _ _ _ _ _ L)| | | |exact C5].
    - exact (memory_texts isspace isdigit' lo lm ns us to_file bs M (g Q) Q L).
    - rewrite (ld_space _ _ _ _ _ _ _ L). auto.
    - rewrite (ld_space _ _ _ _ _ _ _ L). exact C4. }
  destruct (text_by (g Q) ispunct isdigit space_mode (translations isspace isdigit' (p_isupper Q) (p_tolower Q) lo lm us) l segs OK Hok Hap) as (N2 & HN2).
  - intros n. rewrite <- Gf. exact (memory_gives isspace isdigit' lo lm ns us to_file bs M (g (with_fuel Q n)) (with_fuel Q n) (Ld (with_fuel Q n))).
  - rewrite (ld_space _ _ _ _ _ _ _ L). eapply cut_ext; [| |exact Hcut]; intros w; symmetry.
    + exact (living_begins isspace isdigit' lo lm ns us to_file bs M (g Q) Q L w).
    + exact (accepting_whole isspace isdigit' lo lm ns us to_file bs M (g Q) Q L w).
  - exact Hfill.
  - exists (N1 + N2)%nat. intros n rounds Hn Hr. destruct (HN2 n rounds ltac:(lia) ltac:(lia)) as (o & E & Sh). exists o. split; [|exact Sh].
    unfold tmxproc_program. rewrite Hg. cbn [obind]. rewrite Gf, HN1 by lia. cbn [obind]. exact E.
Qed.

(** There is only one way to cut it. *)
Theorem C78_cut_unique : forall isspace isdigit' lo lm ns us to_file bs Q ispunct space_mode l segs segs',
  memory_file isspace isdigit' lo lm ns us to_file bs ->
  cut_by (p_isspace Q) ispunct space_mode (begins_source isspace isdigit' (p_isupper Q) (p_tolower Q) lo lm us)
    (is_source isspace isdigit' (p_isupper Q) (p_tolower Q) lo lm us) l segs ->
  cut_by (p_isspace Q) ispunct space_mode (begins_source isspace isdigit' (p_isupper Q) (p_tolower Q) lo lm us)
    (is_source isspace isdigit' (p_isupper Q) (p_tolower Q) lo lm us) l segs' -> segs = segs'.
Proof.
  intros isspace isdigit' lo lm ns us to_file bs Q ispunct space_mode l segs segs' M.
  destruct (file_memory isspace isdigit' lo lm ns us to_file bs (fun _ => 0) M eq_refl) as (g & Hg & Ld & Gf). pose proof (Ld Q) as L.
  assert (K : forall x, cut_by (p_isspace Q) ispunct space_mode (begins_source isspace isdigit' (p_isupper Q) (p_tolower Q) lo lm us)
    (is_source isspace isdigit' (p_isupper Q) (p_tolower Q) lo lm us) l x -> cut (g Q) ispunct space_mode l x).
  { intros x Hx. rewrite (ld_space _ _ _ _ _ _ _ L). eapply cut_ext; [| |exact Hx]; intros w; symmetry.
    - exact (living_begins isspace isdigit' lo lm ns us to_file bs M (g Q) Q L w).
    - exact (accepting_whole isspace isdigit' lo lm ns us to_file bs M (g Q) Q L w). }
  intros H1 H2. exact (C77_cut_unique _ _ _ _ _ (K _ H1) _ (K _ H2)).
Qed.

(** * A document and a text *)
Notation en := (txt "en").
Notation es := (txt "es").
Notation figure := TmProps.figure.
Notation sample_nodes := TmxProps.sample_nodes.
Notation sample_units := TmxProps.sample_units.
Definition file_of (ns : list xnode) : list Z := match tmxcomp_program space figure en es no_weight ns with Ok (Some bs) => bs | _ => [] end.
(** Options, without a memory *)
Definition options : processor := memory_of [].
Notation replaced ns t := (tmxproc_program LoadProps.number options punct figure false 1000 (file_of ns) (utf8_text t)).
Definition S0 : list Z := txt "From " ++ number_symbol :: txt " to " ++ number_symbol :: txt " cats".
Definition T0 : list Z := txt "De @(1) a(#)@(2) gatos".
Notation sides s t := (unit_is (fun c => space c = true) (fun c => figure c = true) s t).
Lemma sides_second : sides (txt "Yes") (txt "Claro que si") (txt "Yes") (txt "Claro que si").
Proof.
  assert (T : forall w, negb (space (hd 0 w)) = true -> negb (space (last w 0)) = true -> trimmed (fun c => space c = true) w w).
  { intros w C D. exists [], []. rewrite app_nil_r. split; [reflexivity|]. split; [constructor|]. split; [constructor|]. split.
    - intros c r ->. cbn [hd] in C. apply negb_true_iff in C. now rewrite C.
    - intros c r E. rewrite (snoc_last w c r 0 E) in D. apply negb_true_iff in D. now rewrite D. }
  exists (txt "Yes"), (txt "Claro que si"), (txt "Yes"), (txt "Claro que si"), [txt "Yes"], [txt "Claro que si"], [txt "Yes"], [txt "Claro que si"].
  split; [now apply T|]. split; [now apply T|]. split.
  - apply (nu_none _ _ _ (map TmxSpec.Char (txt "Yes") ++ [])); [|reflexivity]. change (txt "Yes") with (txt "Yes" ++ []) at 1.
    apply TmxProps.chars; [|constructor]. apply Forall_forall. intros c Hc. vm_compute in Hc. repeat (destruct Hc as [<-|Hc]; [reflexivity|]). destruct Hc.
  - split; [apply pa_last; [discriminate|vm_compute; intuition discriminate]|]. split; [apply pa_last; [discriminate|vm_compute; intuition discriminate]|].
    split; [constructor; [now apply T|constructor]|]. split; [constructor; [now apply T|constructor]|]. split; reflexivity.
Qed.
Lemma sample_entry : forall S T, entry space figure en es sample_units S T <-> S = S0 /\ T = T0.
Proof.
  intros S T. split.
  - intros (u & [<-|[<-|[]]] & U & L1 & L2).
    + change (in_language en _) with en_side in U. change (in_language es _) with es_side in U.
      exact (proj1 (C76_sides space figure en_side es_side ltac:(vm_compute; reflexivity)) _ _ _ _ C76_sample_unit U).
    + change (in_language en _) with (txt "Yes") in U. change (in_language es _) with (txt "Claro que si") in U.
      destruct (proj1 (C76_sides space figure (txt "Yes") (txt "Claro que si") ltac:(vm_compute; reflexivity)) _ _ _ _ sides_second U) as [-> _]. vm_compute in L1. lia.
  - intros [-> ->]. exists [(en, en_side); (es, es_side)]. split; [now left|]. split; [exact C76_sample_unit|]. split; vm_compute; lia.
Qed.
Lemma sample_file : memory_file space figure en es sample_nodes sample_units no_weight (file_of sample_nodes).
Proof.
  constructor.
  - discriminate.
  - exact C76_sample.
  - assert (K : forall l, forallb (fun c => (c =? mark_symbol) || ((0 <? c) && (c <? 128))) l = true -> forall c, In c l -> c = mark_symbol \/ (scalar c /\ c <> 0)).
    { intros l H c Hc. rewrite forallb_forall in H. apply H in Hc. apply orb_prop in Hc as [Hc|Hc]; [left; now apply Z.eqb_eq|right]. split; [apply ascii_scalar; lia|lia]. }
    intros u [<-|[<-|[]]].
    + split; [vm_compute; reflexivity|]. split; [|exists S0, T0; exact C76_sample_unit]. intros c [Hc|Hc]; revert c Hc; apply K; vm_compute; reflexivity.
    + split; [vm_compute; reflexivity|]. split; [|exists (txt "Yes"), (txt "Claro que si"); exact sides_second]. intros c [Hc|Hc]; revert c Hc; apply K; vm_compute; reflexivity.
  - exists S0, T0. now apply sample_entry.
  - reflexivity.
  - vm_compute. reflexivity.
  - intros a t E. vm_compute in E. apply Ok_inj in E. injection E as <- <-. split; [|vm_compute; reflexivity].
    split; [vm_compute; reflexivity|]. split; [vm_compute; reflexivity|]. split; cbn [slexicinv spairinv length].
    + intros x H. each_in H; subst x; match goal with |- exists body, ?l = _ /\ _ => exists (removelast (tl l)) end; (split; [reflexivity|]); apply short_name; vm_compute; reflexivity.
    + intros x y H. each_in H; injection H as <- <-; lia.
Qed.
Lemma options_fine : classes_fine options punct figure.
Proof.
  constructor.
  - split; [reflexivity|]. split; [reflexivity|]. intros c Hc. unfold meta in Hc. cbn in Hc. cbn. lia.
  - split; reflexivity.
  - split; [|split]; [intros c Hc|intros c Hc _|reflexivity]; unfold figure, ascii_digit in *; lia.
Qed.
Definition the_unit : list bit := map Char (txt "FROM ") ++ Number (txt "7") :: map Char (txt " to") ++ Super (txt "<b>") :: Number (txt "9") :: map Char (txt " cats").
Definition the_text : list bit := map Char (txt "Hi ") ++ the_unit ++ [Char 46].
Definition the_segments : list segment := [Kept (map Char (txt "Hi")); Kept [Char 32]; Unit the_unit (Char 46); Kept [Char 46]].
Notation the_begins := (begins_source space figure (p_isupper options) (p_tolower options) en es sample_units).
Notation the_sources := (is_source space figure (p_isupper options) (p_tolower options) en es sample_units).
Notation the_translations := (translations space figure (p_isupper options) (p_tolower options) en es sample_units).
Lemma the_cut : cut_by (p_isspace options) punct false the_begins the_sources the_text the_segments.
Proof.
  destruct (file_memory space figure en es sample_nodes sample_units no_weight (file_of sample_nodes) LoadProps.number sample_file eq_refl) as (g & Hg & Ld & _).
  pose proof (Ld options) as L. pose proof (Hg options) as E. set (P := match load_generation LoadProps.number options (file_of sample_nodes) with Ok P => P | _ => options end).
  assert (EP : g options = P) by (unfold P; rewrite E; reflexivity). rewrite EP in L. clear E EP Hg Ld g.
  apply (cut_ext _ _ _ _ _ _ _ (living_begins space figure en es sample_nodes sample_units no_weight _ sample_file P options L)
    (accepting_whole space figure en es sample_nodes sample_units no_weight _ sample_file P options L)).
  change (p_isspace options) with (p_isspace P). unfold the_segments. change (map Char (txt "Hi")) with ([] ++ map Char (txt "Hi")).
  eapply cut_text_by with (r := skipn 2 the_text); try (vm_compute; reflexivity); [discriminate|].
  change (skipn 2 the_text) with (Char 32 :: skipn 3 the_text). apply cut_gap_by; try (vm_compute; reflexivity).
  eapply cut_unit_by with (r := []); try (vm_compute; reflexivity); [discriminate|].
  apply cut_gap_by; try (vm_compute; reflexivity). constructor.
Qed.
Lemma printed_unique : forall T x y, printed T x -> printed T y -> x = y.
Proof.
  intros T x y H. revert y. induction H as [|c T t N H IH|c T t N H IH]; intros y K; inversion K; subst; try contradiction; f_equal; auto.
Qed.
Lemma the_translation : forall w t, the_sources w -> the_translations w t -> t = txt "/De \@(1) a(#)\@(2) gatos".
Proof.
  intros w t (S & T & E & R) (ps & N & I & xs & F & ->). apply sample_entry in E as [-> ->].
  assert (ps = [(S0, T0)]).
  { assert (K : forall p, In p ps -> p = (S0, T0)) by (intros [S T] Hp; apply I in Hp as [Hp _]; apply sample_entry in Hp as [-> ->]; reflexivity).
    assert (In (S0, T0) ps) by (apply I; split; [now apply sample_entry|exact R]).
    destruct ps as [|p [|q ps]]; [contradiction| |].
    - rewrite (K p (or_introl eq_refl)). reflexivity.
    - exfalso. inversion N as [|? ? N1 _]; subst. apply N1. rewrite (K p (or_introl eq_refl)), (K q (or_intror (or_introl eq_refl))). now left. }
  subst ps. inversion F as [|? x ? l P1 F']; subst. inversion F'; subst. cbn [flat_map]. rewrite app_nil_r.
  change (txt "/De \@(1) a(#)\@(2) gatos") with (47 :: txt "De \@(1) a(#)\@(2) gatos"). apply f_equal.
  apply (printed_unique T0); [exact P1|].
  change (txt "De \@(1) a(#)\@(2) gatos") with
    (utf16 68 ++ utf16 101 ++ utf16 32 ++ [92; 64] ++ utf16 40 ++ utf16 49 ++ utf16 41 ++ utf16 32 ++ utf16 97 ++ utf16 40 ++ utf16 35 ++ utf16 41
       ++ [92; 64] ++ utf16 40 ++ utf16 50 ++ utf16 41 ++ utf16 32 ++ utf16 103 ++ utf16 97 ++ utf16 116 ++ utf16 111 ++ utf16 115 ++ []).
  change T0 with [68; 101; 32; 64; 40; 49; 41; 32; 97; 40; 35; 41; 64; 40; 50; 41; 32; 103; 97; 116; 111; 115].
  repeat first [apply pr_nil | apply pr_meta; [apply meta_iff; reflexivity|] | apply pr_char; [intros X; apply meta_iff in X; discriminate X|]].
Qed.
Lemma the_fillable : Forall (fillable_by the_translations) the_segments.
Proof.
  unfold the_segments. repeat (apply Forall_cons; [exact I|]). apply Forall_cons; [|apply Forall_cons; [exact I|apply Forall_nil]].
  intros t Ht. assert (W : the_sources (syms the_unit)).
  { exists S0, T0. split; [now apply sample_entry|]. exists true. unfold the_unit, S0.
    change (syms _) with ([70; 82; 79; 77; 32; -1; 32; 116; 111; 32; -1; 32; 99; 97; 116; 115]).
    change (txt "From " ++ _) with ([70; 114; 111; 109; 32; -1; 32; 116; 111; 32; -1; 32; 99; 97; 116; 115]).
    assert (Sm : forall c w l d, c <> 0 -> p_tolower options c <> 0 -> CompoundProps.reading (p_isupper options) (p_tolower options) false w l d ->
      CompoundProps.reading (p_isupper options) (p_tolower options) false (c :: w) (c :: l) d) by (intros; apply rd_same; auto).
    apply Sm; [discriminate|vm_compute; discriminate|].
    apply (rd_lower (p_isupper options) (p_tolower options) false 82 _ _ true); [reflexivity|reflexivity|discriminate|vm_compute; discriminate|vm_compute; discriminate|].
    apply (rd_lower (p_isupper options) (p_tolower options) false 79 _ _ true); [reflexivity|reflexivity|discriminate|vm_compute; discriminate|vm_compute; discriminate|].
    apply (rd_lower (p_isupper options) (p_tolower options) false 77 _ _ false); [reflexivity|reflexivity|discriminate|vm_compute; discriminate|vm_compute; discriminate|].
    do 12 (apply Sm; [discriminate|vm_compute; discriminate|]). constructor. }
  rewrite (the_translation _ _ W Ht). exists (txt "De 7 a<b>9 gatos"). split; [discriminate|].
  change (numbers_in the_unit) with [txt "7"; txt "9"]. change (blanks_in (the_unit ++ [Char 46])) with [txt "[<b>]"]. change (blanks_in [Char 46]) with (@nil ustr).
  assert (D : forall c, 48 <= c <= 57 -> Forall ascii_digit [c]) by (intros c Hc; constructor; [exact Hc|constructor]).
  refine (fi_number [txt "7"; txt "9"] [txt "[<b>]"] (txt "/De ") (txt "1") (txt "7") (txt " a(#)\@(2) gatos") (txt " a<b>9 gatos") [] _ _ (D 49 _) _ _ eq_refl _);
    try (vm_compute; lia); try discriminate; try (vm_compute; reflexivity); try lia.
  refine (fi_blank [txt "7"; txt "9"] 91 (txt "<b>") 93 [] (txt " a") (txt "\@(2) gatos") (txt "9 gatos") [] _ _); [vm_compute; lia|].
  refine (fi_number [txt "7"; txt "9"] [] [] (txt "2") (txt "9") (txt " gatos") (txt " gatos") [] _ _ (D 50 _) _ _ eq_refl _);
    try (vm_compute; lia); try discriminate; try (vm_compute; reflexivity); try lia.
  apply fi_end. vm_compute. lia.
Qed.
Lemma the_bits : Forall (bit_ok figure) the_text /\ apart the_text.
Proof.
  assert (K : forall l, forallb (fun c => (0 <? c) && (c <? 128) && negb (is_escaped c) && negb (figure c)) l = true -> Forall (bit_ok figure) (map Char l)).
  { intros l H. rewrite forallb_forall in H. apply Forall_forall. intros i Hi. apply in_map_iff in Hi as (c & <- & Hc).
    apply H in Hc. apply andb_prop in Hc as [Hc E2]. apply andb_prop in Hc as [Hc E1]. apply negb_true_iff in E1, E2. cbn.
    split; [apply ascii_scalar; lia|]. split; [lia|]. split; [|exact E2]. intros M. apply meta_iff in M. congruence. }
  assert (N : forall c, 48 <= c <= 57 -> bit_ok figure (Number [c])).
  { intros c Hc. split; [discriminate|]. apply Forall_forall. intros d [<-|[]]. exact Hc. }
  split; [|cbn; tauto]. unfold the_text, the_unit. apply Forall_app. split; [now apply K|]. apply Forall_app. split.
  - apply Forall_app. split; [now apply K|]. constructor; [apply (N 55); lia|]. apply Forall_app. split; [now apply K|]. constructor.
    + split; [apply Forall_forall; intros c [<- |[<- |[<- |[]]]]; apply ascii_scalar; vm_compute; split; congruence|]. split; [|vm_compute; discriminate].
      change (txt "<b>") with [60; 98; 62]. repeat (apply bb_char; [lia|lia|lia|]). apply bb_nil.
    + constructor; [apply (N 57); lia|now apply K].
  - apply (K [46]). reflexivity.
Qed.
(** The sample document of C76: all that [C78_text] asks for, what the two programs write, and
    what the theorem says about it. *)
Example C78_sample :
  memory_file space figure en es sample_nodes sample_units no_weight (file_of sample_nodes)
  /\ classes_fine options punct figure /\ (forall S T, ~ entry space figure en es sample_units (32 :: S) T)
  /\ Forall (bit_ok figure) the_text /\ apart the_text
  /\ cut_by (p_isspace options) punct false the_begins the_sources the_text the_segments
  /\ Forall (fillable_by the_translations) the_segments
  /\ bits_text the_text = txt "Hi FROM 7 to[<b>]9 cats."
  /\ replaced sample_nodes (txt "Hi FROM 7 to[<b>]9 cats.") = Ok (txt "Hi [De 7 a<b>9 gatos]." ++ [0]).
Proof.
  split; [exact sample_file|]. split; [exact options_fine|]. split.
  { intros S T E. apply sample_entry in E as [E _]. discriminate E. }
  split; [exact (proj1 the_bits)|]. split; [exact (proj2 the_bits)|]. split; [exact the_cut|]. split; [exact the_fillable|]. split; vm_compute; reflexivity.
Qed.
(** Capital letters: the translations of all the sources that the text is taken for, in the
    order of the paths, not of how close they are *)
Example C78_several :
  let ns := tmx (plain_unit (txt "Good morning") (txt "Buenos dias") ++ plain_unit (txt "Good morning") (txt "Buen dia") ++ plain_unit (txt "good morning") (txt "buenos dias")) in
  replaced ns (txt "Good morning.") = Ok (txt "[Buenos dias/Buen dia/buenos dias]." ++ [0])
  /\ replaced ns (txt "good morning.") = Ok (txt "[buenos dias]." ++ [0])
  /\ replaced ns (txt "GOOD Morning.") = Ok (txt "[Buenos dias/Buen dia/buenos dias]." ++ [0]).
Proof. split; [vm_compute; reflexivity|]. split; vm_compute; reflexivity. Qed.

(** * What is not as the format suggests *)
(** One unit that begins with an inline element: the file cannot be used at all. *)
Definition leading : list xnode := unit_of [alone (txt "ph") []; text (txt "Chapter one")] [text (txt "Tema uno")].
Theorem C78_start_refuted :
  replaced (tmx (plain_unit (txt "Good morning") (txt "Buenos dias"))) (txt "Good morning.") = Ok (txt "[Buenos dias]." ++ [0])
  /\ replaced (tmx (leading ++ plain_unit (txt "Good morning") (txt "Buenos dias"))) (txt "Good morning.") = Exit.
Proof. split; vm_compute; reflexivity. Qed.
(** A unit with the same decimal number on both sides translates whole numbers, but not its own text. *)
Theorem C78_decimal_refuted :
  let ns := tmx (plain_unit (txt "Price 1.5 euros") (txt "Cuesta 1.5 euros")) in
  replaced ns (txt "Price 1.5 euros.") = Ok (txt "Price 1.5 euros." ++ [0])
  /\ replaced ns (txt "Price 2 euros.") = Ok (txt "[Cuesta 2 euros]." ++ [0]).
Proof. split; vm_compute; reflexivity. Qed.
(** A number of the source that the translation writes in words is replaced all the same: every
    other number gets this translation.  A unit whose translation has a number of its own is
    never found. *)
Theorem C78_number_refuted :
  replaced (tmx (plain_unit (txt "See 12 cats") (txt "Ver doce gatos"))) (txt "See 7 cats.") = Ok (txt "[Ver doce gatos]." ++ [0])
  /\ replaced (tmx (plain_unit (txt "See 12 cats") (txt "Ver doce (12.0) gatos"))) (txt "See 12 cats.") = Ok (txt "See 12 cats." ++ [0]).
Proof. split; vm_compute; reflexivity. Qed.
(** "@(1)" in the translation of a unit without numbers *)
Theorem C78_reference_refuted : replaced (tmx (plain_unit (txt "Chapter one") (txt "Tema @(1)"))) (txt "Chapter one.") = UB.
Proof. vm_compute. reflexivity. Qed.

Print Assumptions C78_writes.
Print Assumptions C78_refused.
Print Assumptions C78_text.
Print Assumptions C78_cut_unique.
Print Assumptions C78_start_refuted.
Print Assumptions C78_decimal_refuted.
Print Assumptions C78_number_refuted.
Print Assumptions C78_reference_refuted.
