(** Lemmas for C78: the compiled memory, its file and its graph. *)
From Coq Require Import Permutation.
From Verif Require Import Base CompressionModel AlphabetModel AlphabetProofs TransducerModel TransducerSpec TransducerProofs
  MinimizeProofs AutomataProps TrieProofs WeightSetProofs FileModel FileProofs FileProps StateModel StateSpec FinalsModel FinalsProps StringModel CompilerModel CompilerSpec
  CompilerProofs ValidProps InputModel InputProps StreamModel StreamProps ProcessorModel ProcessorProofs BilingualModel CompoundProps AnalysisSpec DixModel DixSpec LoadSpec LoadModel LoadProofs
  LoadWordProofs LoadProps TmxModel TmxSpec TmxProofs TmModel TmSpec TmProofs TmToolModel TmToolSpec.

(** * The compiled memory *)
Notation zeros := (within (fun w => w = 0)).
Lemma insert_pairs_in : forall ps e a t e' a' t', zeros t -> insert_pairs ps e a t = Ok (e', a', t') -> zeros t'.
Proof.
  induction ps as [|p ps IH]; intros e a t e' a' t' H E; cbn [insert_pairs] in E; [apply Ok_inj in E; congruence|].
  destruct (pair_code p a) as [tag a1]. pose proof (within_single (fun w => w = 0) tag e 0 t eq_refl H) as K.
  destruct (insertSingleTransduction tag e 0 t) as [[s|] t1]; [|discriminate E]. exact (IH _ _ _ _ _ _ K E).
Qed.
Lemma insertTU_in : forall o m a t a' t', zeros t -> insertTU o m a t = Ok (a', t') -> zeros t'.
Proof.
  intros o m a t a' t' H E. unfold insertTU in E. destruct (_ || _); [apply Ok_inj in E; congruence|]. destruct (_ || _); [apply Ok_inj in E; congruence|].
  destruct (insert_pairs _ _ _ _) as [[[s a1] t1]| | | |] eqn:P; try discriminate E. cbn [obind] in E. apply Ok_inj in E. injection E as _ <-.
  apply within_final; [reflexivity|]. exact (insert_pairs_in _ _ _ _ _ _ _ H P).
Qed.
Lemma tmxNodes_in : forall isspace isdigit lo lm fuel ns a t a' t', zeros t -> tmxNodes isspace isdigit lo lm fuel a t ns = Ok (Some (a', t')) -> zeros t'.
Proof.
  intros isspace isdigit lo lm fuel. induction fuel as [|fuel IH]; intros [|n r] a t a' t' H E; cbn [tmxNodes] in E; try discriminate E; try (apply Ok_inj in E; congruence).
  destruct (named e_tu n).
  - destruct (if x_end n then _ else _) as [[om r']|]; [|apply Ok_inj in E; discriminate E].
    destruct (unit_sides _ _ om) as [[o m]| | | |]; try discriminate E. cbn [obind] in E.
    destruct (insertTU o m a t) as [[a1 t1]| | | |] eqn:U; try discriminate E. cbn [obind] in E. exact (IH _ _ _ _ _ (insertTU_in _ _ _ _ _ _ H U) E).
  - destruct (existsb _ _); [|discriminate E]. exact (IH _ _ _ _ _ H E).
Qed.
Notation words := words_of.
Lemma tmxcomp_compiled : forall isspace isdigit lo lm ns us, lo <> lm -> TmxSpec.memory ns us -> Forall (unit_fine isspace isdigit lo lm) us ->
  (exists w, words isspace isdigit lo lm us w) ->
  exists a t, lt_tmxcomp isspace isdigit lo lm ns = Ok (Some (a, t)) /\ extends start_alphabet a /\ alph_inv0 a /\ compiled a (words isspace isdigit lo lm us) t.
Proof.
  intros isspace isdigit lo lm ns us Hl H F (w & Hw).
  destruct (nodes_ok isspace isdigit lo lm Hl ns us H F (length ns) _ _ _ _ (le_n _) start_memo) as (a & t & A & E & [Ma Mt Mc Ml Mv] & X).
  pose proof (tmxNodes_in _ _ _ _ _ _ _ _ _ _ (within_new _) E) as Z0.
  unfold lt_tmxcomp. rewrite E. cbn [obind].
  assert (Y : forall u, lang t 0 u <-> Tg a (words isspace isdigit lo lm us) u).
  { intros u. rewrite Ml. apply Tg_iff. intros v. split; [intros [[]|K]; exact K|now right]. }
  assert (Cv : cov a (words isspace isdigit lo lm us)) by (intros v p Hv Hp; exact (Mc v p (or_intror Hv) Hp)).
  destruct (reads_of a w) as (u & Ru); [intros p Hp; exact (proj2 (Cv w p Hw Hp))|].
  assert (Lu : lang t 0 u) by (apply Y; now exists w). destruct Lu as (c & l & f & Ha & Hu).
  destruct (minimize_spec t 0 (tr_wf _ _ Mt)) as (m & Em & M); [exists (visible 0 l), l, f; auto|].
  rewrite Em. cbn [obind]. exists a, m. split; [reflexivity|]. split; [exact X|]. split; [exact Ma|]. constructor.
  - apply (minimized_minimal 0 t m M).
  - exact Cv.
  - intros v. rewrite <- Y. exact (minimized_lang 0 t m v (tr_wf _ _ Mt) M).
  - now exists t.
  - now exists w.
  - exact (within_minimize _ eq_refl 0 t m Z0 Em).
Qed.
(** What is written is a dictionary with one section. *)
Lemma tmx_write_set : forall to_file a t, tmx_write to_file a t = compiler_write to_file [] a [([], t)].
Proof.
  intros to_file a t. unfold tmx_write, compiler_write, writeTransducerSet. cbn [by_name fold_right insert_by_name map fst snd write_sections length].
  change (string_write []) with (let! n := multibyte_write 0 in Ok (n ++ [])). change (multibyte_write 0) with (Ok [0]).
  change (multibyte_write (to_uint (Z.of_nat 1))) with (Ok [1]). change (multibyte_write 1) with (Ok [1]). cbn [obind app].
  destruct (alphabet_write a) as [b| | | |]; cbn [obind]; try reflexivity.
  destruct (transducer_write 0 (file_trans to_file t)) as [x| | | |]; cbn [obind]; try reflexivity. now rewrite app_nil_r.
Qed.

(** * The file *)
(** [bs] is the file lt-tmxcomp makes of the document [ns] with the units [us]. *)
Record memory_file (isspace isdigit : Z -> bool) (lo lm : ustr) (ns : list xnode) (us : list (list (ustr * list Z))) (to_file : Z -> weight) (bs : list Z) : Prop := {
  mf_languages : lo <> lm;
  mf_units : TmxSpec.memory ns us;
  (* the texts: less than 10^8 symbols, XML characters and marks; numbers that can be aligned (C76) *)
  mf_texts : forall u, In u us -> Z.of_nat (length (in_language lo u)) < 10 ^ 8
    /\ (forall c, In c (in_language lo u) \/ In c (in_language lm u) -> c = mark_symbol \/ (scalar c /\ c <> 0))
    /\ exists S T, unit_is (fun c => isspace c = true) (fun c => isdigit c = true) (in_language lo u) (in_language lm u) S T;
  mf_some : exists S T, entry isspace isdigit lo lm us S T;
  mf_zero : to_file 0 = WFin 0 0;
  mf_made : tmxcomp_program isspace isdigit lo lm to_file ns = Ok (Some bs);
  (* the format can hold it *)
  mf_fits : forall a t, lt_tmxcomp isspace isdigit lo lm ns = Ok (Some (a, t)) -> alphabet_fits a /\ Z.of_nat (nstates t) < 2 ^ 30
}.
Section File.
  Context (isspace isdigit : Z -> bool) (lo lm : ustr) (ns : list xnode) (us : list (list (ustr * list Z))) (to_file : Z -> weight) (bs : list Z) (zw : weight -> Z).
  Context (M : memory_file isspace isdigit lo lm ns us to_file bs) (Hz : zw (WFin 0 0) = 0).
  Notation W := (words isspace isdigit lo lm us).
  Notation entry := (entry isspace isdigit lo lm us).
  Lemma word_entry : forall w, W w <-> exists S T, entry S T /\ w = align S T.
  Proof.
    intros w. split.
    - intros (u & S & T & Hu & U & (L1 & L2) & ->). exists S, T. split; [|reflexivity]. exists u. auto.
    - intros (S & T & (u & Hu & U & L1 & L2) & ->). exists u, S, T. split; [exact Hu|]. split; [exact U|]. split; [split; assumption|reflexivity].
  Qed.
  Lemma fine : Forall (unit_fine isspace isdigit lo lm) us.
  Proof.
    apply Forall_forall. intros u Hu. destruct (mf_texts _ _ _ _ _ _ _ _ M u Hu) as (L & C & S). split; [exact L|]. split; [exact S|].
    split; intros K; [specialize (C 0 (or_introl K))|specialize (C 0 (or_intror K))]; unfold mark_symbol in C; lia.
  Qed.
  Lemma entry_zero : forall S T, entry S T -> ~ In 0 S /\ ~ In 0 T.
  Proof.
    intros S T (u & Hu & U & _ & _). pose proof fine as F. rewrite Forall_forall in F. destruct (F u Hu) as (_ & _ & Z1 & Z2). split; intros K.
    - destruct (proj1 (unit_in _ _ _ _ _ _ 0 U) K) as [_ [X|[X|X]]]; [discriminate X|discriminate X|contradiction].
    - destruct (proj2 (unit_in _ _ _ _ _ _ 0 U) K) as [_ [X|X]]; [lia|contradiction].
  Qed.
  Lemma entry_scalar : forall S T, entry S T -> Forall scalar T.
  Proof.
    intros S T (u & Hu & U & _ & _). apply Forall_forall. intros c Hc. destruct (proj2 (unit_in _ _ _ _ _ _ c U) Hc) as [N [X|X]]; [apply ascii_scalar; lia|].
    destruct (mf_texts _ _ _ _ _ _ _ _ M u Hu) as (_ & C & _). destruct (C c (or_intror X)) as [->|[K _]]; [congruence|exact K].
  Qed.

  Lemma file_graph : exists a t te, load bs = Ok ([], includeSymbol ANY_CHAR a, [([], te)])
    /\ (alph_inv0 a /\ extends start_alphabet a) /\ alphabet_fits a /\ compiled a W t /\ same_graph a (file_trans to_file t) te.
  Proof.
    destruct M as [Hl Hu _ (S & T & He) H0 E Fit].
    destruct (tmxcomp_compiled isspace isdigit lo lm ns us Hl Hu fine) as (a & t & Ec & Ex & Ha & C).
    { exists (align S T). apply word_entry. eauto. }
    destruct (Fit a t Ec) as [F1 F2]. destruct (file_fits a W t C to_file H0 F1 F2) as (G1 & G2 & G3).
    unfold tmxcomp_program in E. rewrite Ec in E. cbn [obind] in E. rewrite tmx_write_set in E.
    destruct (dict_exe_rt [] a [([], file_trans to_file t)]) as (bs' & Eb & R).
    - split; [constructor|cbn; lia].
    - apply Ha.
    - now apply fits_ok.
    - constructor; [intros []|constructor].
    - cbn. lia.
    - intros name t' [K|[]]. injection K as <- <-. split; [split; [constructor|cbn; lia]|]. auto.
    - assert (Eb' : compiler_write to_file [] a [([], t)] = Ok bs') by exact Eb. rewrite Eb' in E. cbn [obind] in E. apply Ok_inj in E. injection E as ->.
      destruct (R [] ltac:(constructor)) as (tes & Et & Ag). rewrite app_nil_r in Et.
      unfold sections_out in Ag. cbn [map fst snd] in Ag. rewrite G3 in Ag. unfold sections_agree in Ag.
      inversion Ag as [|x y l l' [E1 E2] Ag']; subst. inversion Ag'; subst. destruct y as [name te]. cbn [fst snd] in E1, E2. subst name.
      exists a, t, te. split; [unfold load; rewrite Et; reflexivity|]. split; [split; [exact Ha|exact Ex]|]. auto.
  Qed.

  Lemma file_loaded : exists a t te, (alph_inv0 a /\ extends start_alphabet a) /\ alphabet_fits a /\ compiled a W t /\ same_graph a (file_trans to_file t) te
    /\ forall Q, load_generation zw Q bs = Ok (processor_of zw Q [] (includeSymbol ANY_CHAR a) [([], te)] (mkCl (every_final zw 1 [([], te)]) [] [] [])).
  Proof.
    destruct file_graph as (a & t & te & El & Ha & F & C & G). exists a, t, te. do 4 (split; [assumption|]).
    intros Q. unfold load_generation. rewrite El. reflexivity.
  Qed.
End File.
