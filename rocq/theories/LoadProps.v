(** C61: a dictionary that is compiled, written to a file and loaded. *)
From Coq Require String Ascii.
From Coq Require Import Permutation Sorted.
From Verif Require Import Base CompressionModel AlphabetModel AlphabetProofs AlphabetProps TransducerModel TransducerSpec TransducerProofs
  MinimizeProofs TrieProofs WeightSetProofs FileModel FileProofs FileProps StateModel StateSpec FinalsModel FinalsProps StringModel StringProps CompilerModel CompilerSpec
  CompilerProofs ValidProps InputModel InputProps StreamModel StreamProps ProcessorModel ProcessorProofs CompoundProps LookupProps BilingualModel LoadSpec LoadModel LoadProofs
  LoadWordProofs StringCodecProofs CodecProps GenerationSpec GenerationModel GenerationProofs GenerationProps AnalysisSpec BufferModel BufferProps AnalysisProps.
Notation item := CompilerSpec.item.
Notation word := LoadSpec.word.
Notation after ops := (aruns ops new_alphabet).

(** [bs] is the file that the compiler makes of the dictionary [items]. *)
Record made (ops : list aop) (s : settings) (items : list item) (letters : ustr) (to_file : Z -> weight) (bs : list Z) : Prop := {
  md_acx : acx s = [];
  md_sep : sep s = None;
  md_ok : dict_ok (lr s) (fun _ => no_words) [] items;
  md_weights : unweighted items;
  md_zero : to_file 0 = WFin 0 0;
  md_file : exists a m, parse s (after ops) (dict_events items) = Ok (a, m) /\ dict_fits letters a m
    /\ compiler_write to_file letters a m = Ok bs
}.

(** * Proofs *)
Lemma zero_events : forall items, unweighted items -> Forall (event_in (fun w => w = 0)) (dict_events items).
Proof.
  intros items H. apply Forall_forall. intros e He. unfold dict_events in He. apply in_flat_map in He as (it & Hit & He).
  assert (K : forall els, In els (item_entries it) -> event_in (fun w => w = 0) (Entry els)).
  { intros els Hels. cbn [event_in]. apply Forall_forall. intros [l r w|n|er] Hel; cbn [token_in]; auto. exact (H it els l r w Hit Hels Hel). }
  destruct it as [n es|n es]; cbn [item_events item_entries] in *; (destruct He as [<-|He]; [exact I|]);
    apply in_app_or in He as [He|[<-|[]]]; try exact I; apply in_map_iff in He as (els & <- & Hels); now apply K.
Qed.
Lemma compiled_dict : forall ops s items a m, acx s = [] -> sep s = None -> dict_ok (lr s) (fun _ => no_words) [] items -> unweighted items ->
  compile s (after ops) (dict_events items) = Ok (a, m) ->
  alph_inv0 a /\ extends (after ops) a /\ NoDup (map fst m) /\ (forall name t, In (name, t) m -> compiled a (word (lr s) items name) t)
  /\ (forall name w, word (lr s) items name w -> exists t, In (name, t) m).
Proof.
  intros ops s items a m Hx Hs Ho Hw E. destruct (compile_ok s (after ops) items Hx Hs (after_inv ops) Ho) as (a' & m' & E' & Ha & Hext & N & H).
  rewrite E in E'. assert (a' = a /\ m' = m) as [-> ->] by (split; congruence). split; [exact Ha|]. split; [exact Hext|]. split; [exact N|]. split.
  - intros name t Hin. pose proof (name_in_find _ _ _ N Hin) as Hf. destruct (H name) as [Cv Hn]. rewrite Hf in Hn. destruct Hn as (W & Sm & L & M).
    constructor; auto. pose proof (compile_in (fun w => w = 0) eq_refl s (after ops) (dict_events items) a m (zero_events items Hw) E) as Nm.
    unfold named_in in Nm. rewrite Forall_forall in Nm. exact (Nm _ Hin).
  - intros name w Hww. destruct (H name) as [_ Hn]. destruct (name_find name m) as [t|] eqn:Ef; [|now apply Hn in Hww].
    exists t. exact (CompilerProps.name_find_in _ _ _ Ef).
Qed.
Lemma parse_compile : forall s a0 evs r, parse s a0 evs = Ok r -> compile s a0 evs = Ok r.
Proof.
  intros s a0 evs r H. unfold parse in H. destruct (compile s a0 evs) as [[a m]| | | |]; try discriminate. cbn [obind] in H.
  destruct (valid a m) as [b| | | |]; try discriminate. cbn [obind] in H. destruct b; [exact H|discriminate].
Qed.

Section Made.
  Context (ops : list aop) (s : settings) (items : list item) (letters : ustr) (to_file : Z -> weight) (bs : list Z) (zw : weight -> Z).
  Context (M : made ops s items letters to_file bs) (Hz : zw (WFin 0 0) = 0).
  Notation X := (word (lr s) items).

  Lemma made_graph : exists a m tes, load bs = Ok (insert_all (ustring_to_vec32 letters) [], includeSymbol ANY_CHAR a, tes)
    /\ (alph_inv0 a /\ extends (after ops) a) /\ alphabet_fits a
    /\ (forall name t, In (name, t) m -> compiled a (X name) t) /\ (forall name w, X name w -> exists t, In (name, t) m)
    /\ (forall name te, In (name, te) tes -> exists t, In (name, t) m /\ same_graph a (file_trans to_file t) te)
    /\ (forall name t, In (name, t) m -> exists te, In (name, te) tes /\ same_graph a (file_trans to_file t) te).
  Proof.
    destruct M as [Hx Hs Ho Hw H0 (a & m & E & Fit & Ew)].
    destruct (compiled_dict ops s items a m Hx Hs Ho Hw (parse_compile _ _ _ _ E)) as (Ha & Hext & N & Hm & Hn).
    destruct (write_load a (fun name => X name) m to_file letters Ha H0 Hm N Fit) as (bs' & Eb & R). rewrite Ew in Eb. apply Ok_inj in Eb. subst bs'.
    destruct (R [] ltac:(constructor)) as (tes & El & R1 & R2). rewrite app_nil_r in El.
    exists a, m, tes. split; [exact El|]. split; [split; [exact Ha|exact Hext]|]. split; [apply Fit|]. auto.
  Qed.

  (** A loaded dictionary *)
  Definition loaded (P : processor) : Prop :=
    exists Q, load_generation zw Q bs = Ok P \/ load_analysis zw Q bs = Ok P.
  Lemma loaded_graph : forall P, loaded P -> exists a m tes,
    (alph_inv0 a /\ extends (after ops) a) /\ alphabet_fits a
    /\ (forall name t, In (name, t) m -> compiled a (X name) t) /\ (forall name w, X name w -> exists t, In (name, t) m)
    /\ (forall name te, In (name, te) tes -> exists t, In (name, t) m /\ same_graph a (file_trans to_file t) te)
    /\ (forall name t, In (name, t) m -> exists te, In (name, te) tes /\ same_graph a (file_trans to_file t) te)
    /\ p_find P = graph_find zw tes /\ p_root P = 0%nat /\ p_alpha P = includeSymbol ANY_CHAR a
    /\ p_letters P = insert_all (ustring_to_vec32 letters) [].
  Proof.
    intros P (Q & L). destruct made_graph as (a & m & tes & El & H1 & H2 & H3 & H4 & H5 & H6). exists a, m, tes.
    do 6 (split; [assumption|]). unfold load_generation, load_analysis in L. rewrite El in L. cbn [obind] in L. destruct L as [L|L].
    - apply Ok_inj in L. subst P. auto.
    - destruct (classifyFinals zw 1 tes (mkCl [] [] [] [])) as [k| | | |]; try discriminate. cbn [obind] in L. apply Ok_inj in L. subst P. auto.
  Qed.
End Made.

Lemma weight_some : forall fins q, (forall p w, In (p, w) fins -> w = 0) -> (final_weight q fins <> None <-> In (q, 0) fins).
Proof.
  induction fins as [|[p w] fins IH]; intros q H; cbn [final_weight In]; [tauto|]. assert (w = 0) as -> by (apply (H p); now left).
  specialize (IH q (fun p w Hp => H p w (or_intror Hp))). destruct (Nat.eqb_spec p q) as [->|N].
  - split; [auto|discriminate].
  - rewrite IH. split; [auto|]. intros [E|E]; [congruence|exact E].
Qed.
Lemma suffixes : s_inconditional = n_inconditional /\ s_standard = n_standard /\ s_postblank = n_postblank /\ s_preblank = n_preblank.
Proof. repeat split. Qed.

Lemma typed_dec : forall name, {typed name} + {~ typed name}.
Proof.
  intros name. assert (D : forall suffix, {ends suffix name} + {~ ends suffix name}).
  { intros suffix. destruct (endswith name suffix) eqn:E; [left; now apply endswith_iff|]. right. intros H. apply endswith_iff in H. congruence. }
  unfold typed. destruct (D s_inconditional), (D s_standard), (D s_postblank), (D s_preblank); tauto.
Qed.
Lemma zidx_keys : forall {A} (f : nat -> Z) (l : list A) i, map fst (zidx f i l) = l.
Proof. intros A f. induction l as [|x l IH]; intros i; cbn [zidx map fst]; [reflexivity|]. now rewrite IH. Qed.
Section Kinds.
  Context (ops : list aop) (s : settings) (items : list item) (letters : ustr) (to_file : Z -> weight) (bs : list Z) (zw : weight -> Z) (Q P : processor).
  Context (M : made ops s items letters to_file bs) (Hz : zw (WFin 0 0) = 0) (L : load_analysis zw Q bs = Ok P).
  Notation X := (word (lr s) items).
  Definition kind_words (sel : ustr -> Prop) (l : list Z) (o : list (Z * Z)) : Prop :=
    exists name w, sel name /\ X name w /\ l = input w /\ o = entries w.
  Lemma loaded_kinds : forall l o,
    let runs fins := exists q, rpath (p_find P) (p_root P) l o q /\ final_weight q fins <> None in
    (runs (p_standard P) <-> kind_words (ends s_standard) l o) /\ (runs (p_incond P) <-> kind_words (ends s_inconditional) l o)
    /\ (runs (p_postblank P) <-> kind_words (ends s_postblank) l o) /\ (runs (p_preblank P) <-> kind_words (ends s_preblank) l o)
    /\ (runs (all_finals P) <-> kind_words (fun _ => True) l o).
  Proof.
    intros l o. destruct (made_graph _ _ _ _ _ _ M) as (a & m & tes & El & H1 & H2 & H3 & H4 & H5 & H6).
    unfold load_analysis in L. rewrite El in L. cbn [obind] in L. destruct (classify_spec zw tes 1 (mkCl [] [] [] [])) as [C1 C2].
    assert (T : Forall (fun x => typed (fst x)) tes).
    { apply Forall_forall. intros x Hx. destruct (typed_dec (fst x)) as [T|T]; [exact T|]. rewrite C2 in L by (apply Exists_exists; eauto). discriminate. }
    destruct (C1 T) as (k & Ek & K). rewrite Ek in L. cbn [obind] in L. apply Ok_inj in L. subst P.
    unfold all_finals. cbn [processor_of p_find p_root p_standard p_incond p_postblank p_preblank].
    assert (One : forall sel fins, (forall q w, In (q, w) fins <-> final_at zw sel 1 tes q w) ->
      ((exists q, rpath (graph_find zw tes) 0 l o q /\ final_weight q fins <> None) <-> kind_words sel l o)).
    { intros sel fins Hf. assert (Fz : forall q w, In (q, w) fins -> w = 0).
      { intros q w H. apply Hf, (sits_final a X m tes to_file zw (md_zero _ _ _ _ _ _ M) Hz H3 H4 H5 H6) in H as (? & ? & ? & ? & _ & _ & _ & _ & E). exact E. }
      pose proof (run_word a X m tes to_file zw (md_zero _ _ _ _ _ _ M) Hz H3 H4 H5 H6 sel fins l o Hf) as R. rewrite <- R.
      split; intros (q & Hp & Hq); exists q; (split; [exact Hp|]); now apply (weight_some _ q Fz). }
    assert (Km : forall q w, In (q, w) (cl_standard k ++ cl_incond k ++ cl_postblank k ++ cl_preblank k) <-> final_at zw (fun _ => True) 1 tes q w).
    { intros q w. destruct (K q w) as (K1 & K2 & K3 & K4). rewrite !in_app_iff, K1, K2, K3, K4. cbn [cl_standard cl_incond cl_postblank cl_preblank In].
      rewrite Forall_forall in T. split.
      - intros H. assert (E : exists sel, final_at zw sel 1 tes q w) by (destruct H as [[[]|H]|[[[]|H]|[[[]|H]|[[]|H]]]]; eauto).
        destruct E as (sel & b & name & te & f & fw & H7 & _ & H8). exists b, name, te, f, fw. auto.
      - intros (b & name & te & f & fw & H7 & _ & H8). pose proof (T _ (proj1 (placed_from _ _ _ _ _ H7))) as Ty. cbn [fst] in Ty.
        assert (E : forall sel : ustr -> Prop, sel name -> final_at zw sel 1 tes q w) by (intros sel Hs; exists b, name, te, f, fw; auto).
        destruct Ty as [Ty|[Ty|[Ty|Ty]]]; apply E in Ty; tauto. }
    split; [|split; [|split; [|split]]]; apply One; [| | | |exact Km]; intros q w; destruct (K q w) as (K1 & K2 & K3 & K4);
      [rewrite K1|rewrite K2|rewrite K3|rewrite K4]; cbn; tauto.
  Qed.
End Kinds.

(** * Theorems *)
(** What the compiler made can be written, if the numbers are not too large. *)
Theorem C61_written : forall ops s items letters to_file a m,
  acx s = [] -> sep s = None -> dict_ok (lr s) (fun _ => no_words) [] items -> unweighted items -> to_file 0 = WFin 0 0 ->
  parse s (after ops) (dict_events items) = Ok (a, m) -> dict_fits letters a m ->
  exists bs, made ops s items letters to_file bs.
Proof.
  intros ops s items letters to_file a m Hx Hs Ho Hw H0 E Fit.
  destruct (compiled_dict ops s items a m Hx Hs Ho Hw (parse_compile _ _ _ _ E)) as (Ha & _ & N & Hm & _).
  destruct (write_load a (fun name => word (lr s) items name) m to_file letters Ha H0 Hm N Fit) as (bs & Eb & _).
  exists bs. constructor; auto. exists a, m. auto.
Qed.

(** It can be loaded for generation and translation; and for analysis exactly if all sections
    with words have one of the four kinds, otherwise the program ends. *)
Theorem C61_loads : forall ops s items letters to_file bs zw Q, made ops s items letters to_file bs -> zw (WFin 0 0) = 0 ->
  (exists P, load_generation zw Q bs = Ok P)
  /\ ((forall name w, word (lr s) items name w -> has_kind name) -> exists P, load_analysis zw Q bs = Ok P)
  /\ (forall name w, word (lr s) items name w -> ~ has_kind name -> load_analysis zw Q bs = Exit).
Proof.
  intros ops s items letters to_file bs zw Q M Hz. destruct (made_graph _ _ _ _ _ _ M) as (a & m & tes & El & H1 & H2 & H3 & H4 & H5 & H6).
  split; [|split].
  - unfold load_generation. rewrite El. cbn [obind]. eauto.
  - intros K. unfold load_analysis. rewrite El. cbn [obind]. destruct (classify_spec zw tes 1 (mkCl [] [] [] [])) as [C _].
    destruct C as (k & Ek & _); [|rewrite Ek; cbn [obind]; eauto]. apply Forall_forall. intros [name te] Hin. destruct (H5 name te Hin) as (t & Ht & _).
    destruct (cm_some _ _ _ (H3 name t Ht)) as (w & Hw). exact (K name w Hw).
  - intros name w Hw K. unfold load_analysis. rewrite El. cbn [obind]. destruct (classify_spec zw tes 1 (mkCl [] [] [] [])) as [_ C].
    rewrite C; [reflexivity|]. destruct (H4 name w Hw) as (t & Ht). destruct (H6 name t Ht) as (te & Hte & _). apply Exists_exists. exists (name, te). auto.
Qed.

(** [run_to P fins l o]: from the root the graph reads [l] and comes to one of [fins]; it
    writes the symbols [o], without weights. *)
Definition unweighted_out (o : list Z) : list (Z * Z) := map (fun c => (c, 0)) o.
Lemma out_entries : forall w, unweighted_out (output w) = entries w.
Proof. intros w. unfold unweighted_out, output, entries. now rewrite map_map. Qed.

(** The graph loaded for generation reads and writes the words of the dictionary up to final
    nodes, and nothing else. *)
Theorem C61_words : forall ops s items letters to_file bs zw Q P, made ops s items letters to_file bs -> zw (WFin 0 0) = 0 ->
  load_generation zw Q bs = Ok P -> forall l o,
  (exists q, rpath (p_find P) (p_root P) l o q /\ final_weight q (all_finals P) <> None)
  <-> exists name w, word (lr s) items name w /\ l = input w /\ o = unweighted_out (output w).
Proof.
  intros ops s items letters to_file bs zw Q P M Hz L l o. destruct (made_graph _ _ _ _ _ _ M) as (a & m & tes & El & H1 & H2 & H3 & H4 & H5 & H6).
  unfold load_generation in L. rewrite El in L. cbn [obind] in L. apply Ok_inj in L. subst P.
  cbn [processor_of p_find p_root]. unfold all_finals. cbn [processor_of p_standard p_incond p_postblank p_preblank cl_standard cl_incond cl_postblank cl_preblank].
  rewrite !app_nil_r.
  assert (Fz : forall q w, In (q, w) (every_final zw 1 tes) -> w = 0).
  { intros q w H. apply every_final_in in H. apply (sits_final a (word (lr s) items) m tes to_file zw (md_zero _ _ _ _ _ _ M) Hz H3 H4 H5 H6) in H as (b & n & t & i & _ & _ & _ & _ & E). exact E. }
  pose proof (run_word a (word (lr s) items) m tes to_file zw (md_zero _ _ _ _ _ _ M) Hz H3 H4 H5 H6 (fun _ => True) (every_final zw 1 tes) l o
    ltac:(intros; apply every_final_in)) as K.
  transitivity (exists q, rpath (graph_find zw tes) 0 l o q /\ In (q, 0) (every_final zw 1 tes)).
  - split; intros (q & Hp & Hq); exists q; (split; [exact Hp|]); now apply (weight_some _ q Fz).
  - rewrite K. split.
    + intros (name & v & _ & H). exists name, v. now rewrite out_entries.
    + intros (name & v & H). exists name, v. rewrite out_entries in H. auto.
Qed.

(** The analyser has the words of each kind of sections apart. *)
Definition reads_to (P : processor) (fins : list (nat * Z)) (l : list Z) (o : list (Z * Z)) : Prop :=
  exists q, rpath (p_find P) (p_root P) l o q /\ final_weight q fins <> None.
Theorem C61_kinds : forall ops s items letters to_file bs zw Q P, made ops s items letters to_file bs -> zw (WFin 0 0) = 0 ->
  load_analysis zw Q bs = Ok P ->
  let of_kind suffix l o := exists name w, named_with suffix name /\ word (lr s) items name w /\ l = input w /\ o = unweighted_out (output w) in
  forall l o,
  (reads_to P (p_standard P) l o <-> of_kind n_standard l o)
  /\ (reads_to P (p_incond P) l o <-> of_kind n_inconditional l o)
  /\ (reads_to P (p_postblank P) l o <-> of_kind n_postblank l o)
  /\ (reads_to P (p_preblank P) l o <-> of_kind n_preblank l o)
  /\ (reads_to P (all_finals P) l o <-> exists name w, word (lr s) items name w /\ l = input w /\ o = unweighted_out (output w)).
Proof.
  intros ops s items letters to_file bs zw Q P M Hz L of_kind l o. destruct (loaded_kinds _ _ _ _ _ _ _ _ _ M Hz L l o) as (G1 & G2 & G3 & G4 & G5).
  unfold reads_to, of_kind. assert (E : forall sel, kind_words s items sel l o
      <-> exists name w, sel name /\ word (lr s) items name w /\ l = input w /\ o = unweighted_out (output w)).
  { intros sel. unfold kind_words. split; intros (name & w & H); exists name, w; rewrite out_entries in *; auto. }
  split; [|split; [|split; [|split]]]; [rewrite G1|rewrite G2|rewrite G3|rewrite G4|rewrite G5]; rewrite E; try reflexivity.
  split; intros (name & w & H); exists name, w; tauto.
Qed.

(** What the graph can read at all are the beginnings of words. *)
Definition begins (s : settings) (items : list item) (l : list Z) : Prop :=
  l = [] \/ exists name v v', word (lr s) items name (v ++ v') /\ l = input v.
Theorem C61_reads : forall ops s items letters to_file bs zw P, made ops s items letters to_file bs -> zw (WFin 0 0) = 0 ->
  loaded bs zw P -> forall l, alive P l <-> begins s items l.
Proof.
  intros ops s items letters to_file bs zw P M Hz L l. destruct (loaded_graph _ _ _ _ _ _ _ M P L) as (a & m & tes & H1 & H2 & H3 & H4 & H5 & H6 & F & R & _).
  unfold alive, begins. rewrite F, R.
  pose proof (fun o => run_prefix a (word (lr s) items) m tes to_file zw (md_zero _ _ _ _ _ _ M) Hz H3 H4 H5 H6 l o) as K. split.
  - intros (o & q & Hp). destruct (proj1 (K o) (ex_intro _ q Hp)) as [[E _]|(name & v & v' & Hw & E & _)]; [now left|right; eauto].
  - intros [E|(name & v & v' & Hw & E)].
    + exists []. apply K. now left.
    + exists (entries v). apply K. right. exists name, v, v'. auto.
Qed.

(** It is as the other theorems want dictionaries: no loops without reading, all tags in the
    alphabet, no weights; and it has the letters of the dictionary. *)
Theorem C61_ready : forall ops s items letters to_file bs zw P, made ops s items letters to_file bs -> zw (WFin 0 0) = 0 ->
  loaded bs zw P ->
  eps_acyclic (p_find P) /\ tags_known P /\ (extends (after ops) (p_alpha P) /\ alph_inv (p_alpha P)) /\ NoDup (map fst (slexic (p_alpha P))) /\ known ANY_CHAR (p_alpha P)
  /\ (forall n c o q w, In (o, (q, w)) (p_find P n c) -> w = 0
        /\ ((c = 0 /\ o = 0) \/ exists name v, word (lr s) items name v /\ In (c, o) v))
  /\ (forall cps, Forall scalar cps -> letters = utf16_text cps -> forall c, In c (p_letters P) <-> In c cps).
Proof.
  intros ops s items letters to_file bs zw P M Hz L. destruct (loaded_graph _ _ _ _ _ _ _ M P L) as (a & m & tes & [H1 Hext] & H2 & H3 & H4 & H5 & H6 & F & R & Ea & El).
  rewrite F, Ea, El.
  assert (Few : exists N, forall name w, word (lr s) items name w -> (unread w <= N)%nat) by (apply sections_few; intros _; exact no_words_few).
  pose proof (graph_arcs a (word (lr s) items) m tes to_file zw (md_zero _ _ _ _ _ _ M) Hz H3 H5) as Ar.
  pose proof (include_inv ANY_CHAR a (proj1 H1)) as Ia. pose proof (include_extends ANY_CHAR a (proj1 H1)) as Ex.
  split; [exact (graph_acyclic a (word (lr s) items) m tes to_file zw (md_zero _ _ _ _ _ _ M) Hz H3 H5 Few)|]. split; [|split; [|split; [|split; [|split]]]].
  - intros n i o q w H Ho. rewrite F in H. rewrite Ea. destruct (Ar _ _ _ _ _ H) as [_ [(_ & _ & ->)|(name & v & Hw & Hin)]]; [lia|].
    destruct (H4 name v Hw) as (t & Ht). destruct (cm_cov _ _ _ (H3 name t Ht) v _ Hw Hin) as [_ Hp].
    destruct H2 as (_ & _ & _ & H2). apply H2 in Hp as [_ Hp]. destruct Ex as [[l El'] _]. rewrite El', app_length. lia.
  - split; [exact (extends_trans _ _ _ Hext Ex)|exact Ia].
  - destruct Ia as (I1 & I2 & _). rewrite I1. now rewrite zidx_keys.
  - apply include_known.
  - intros n c o q w H. destruct (Ar _ _ _ _ _ H) as [E [(_ & E1 & E2)|E1]]; (split; [exact E|]); [now left|now right].
  - intros cps Hc -> c. rewrite insert_all_in. cbn [In]. replace (ustring_to_vec32 (utf16_text cps)) with cps; [tauto|].
    symmetry. rewrite <- (CodecProps.C44_split_after_append cps) at 2; [|eapply Forall_impl; [|exact Hc]; unfold scalar, StringCodecProofs.is_scalar; lia].
    f_equal. unfold utf16_text. rewrite flat_map_concat_map. reflexivity.
Qed.

(** ** What the programs do *)
(** Translation of a word: it is found exactly if the dictionary has it, and there is always
    an answer. *)
Theorem C61_lookup : forall ops s items letters to_file bs zw Q P z tl text l vs, made ops s items letters to_file bs -> zw (WFin 0 0) = 0 ->
  load_generation zw Q bs = Ok P ->
  p_caseSensitive Q = true -> is_sort (p_sort Q) -> p_toupper Q 0 = 0 -> p_weights Q = false -> 0 < p_maxAnalyses Q -> 0 < p_maxClasses Q ->
  (forall name w, word (lr s) items name w -> ~ In 1 (input w)) ->
  z <> 92 -> is_lead z = false -> (2 <= length text)%nat -> symbols_of text l -> Forall2 (names (p_alpha P)) l vs ->
  exists found res N, (forall n, (N <= n)%nat -> lookup (with_fuel P n) (z :: tl) text = Ok (found, res))
    /\ translations P vs res /\ (found = true <-> res <> [])
    /\ (found = true <-> exists name w, word (lr s) items name w /\ vs = input w).
Proof.
  intros ops s items letters to_file bs zw Q P z tl text l vs M Hz L Hcs Hs Ht Hw HA HC H1 Hz92 Hl Hlen Hsy Hnm.
  assert (LP : loaded bs zw P) by (exists Q; auto).
  destruct (C61_ready _ _ _ _ _ _ _ _ M Hz LP) as (R1 & R2 & _ & R3 & _ & R5 & _). pose proof (C61_words _ _ _ _ _ _ _ _ _ M Hz L) as W.
  assert (EP : p_caseSensitive P = true /\ is_sort (p_sort P) /\ p_toupper P 0 = 0 /\ p_weights P = false /\ 0 < p_maxAnalyses P /\ 0 < p_maxClasses P).
  { unfold load_generation in L. destruct (load bs) as [[[lt a] tes]| | | |]; try discriminate. cbn [obind] in L. apply Ok_inj in L. subst P. auto 10. }
  destruct EP as (E1 & E2 & E3 & E4 & E5 & E6).
  destruct (C39_returns P z tl text E2 E3 E4 R2 R1 Hz92 Hl Hlen) as ([found res] & N & HN). exists found, res, N. split; [exact HN|].
  assert (F1 : forall n, p_find P n 1 = []).
  { intros n. destruct (p_find P n 1) as [|[o [q w]] r] eqn:E; [reflexivity|]. destruct (R5 n 1 o q w) as [_ [[K _]|(name & v & Hv & Hin)]]; [rewrite E; now left|lia|].
    destruct (H1 name v Hv). unfold input. apply filter_In. split; [|reflexivity]. apply in_map_iff. exists (1, o). auto. }
  destruct (C39_lookup (with_fuel P N) z tl text l vs found res E1 F1 E2 R3 Hz92 Hl Hsy Hnm (HN N (le_n N))) as (T & Fo & Ac).
  split; [exact T|]. split; [exact Fo|]. rewrite (Ac E5 E6). change (accepted (with_fuel P N) vs) with (accepted P vs). unfold accepted. split.
  - intros (o & q & Hp & Hf). destruct (proj1 (W vs o) (ex_intro _ q (conj Hp Hf))) as (name & w & Hv & E & _). eauto.
  - intros (name & w & Hv & E). exists (unweighted_out (output w)). apply W. eauto.
Qed.

(** Generation of a stream *)
Theorem C61_generation : forall ops s items letters to_file bs zw Q P m l tail, made ops s items letters to_file bs -> zw (WFin 0 0) = 0 ->
  load_generation zw Q bs = Ok P ->
  p_caseSensitive Q = true -> is_sort (p_sort Q) -> p_toupper Q 0 = 0 -> p_weights Q = false -> 0 < p_maxAnalyses Q -> 0 < p_maxClasses Q ->
  (forall c, c <> 0 -> p_tolower Q c <> 0) ->
  Forall StreamProps.item_ok l -> gap true tail -> Forall scalar (stream_text l tail) ->
  exists out N, forall n, (N <= n)%nat ->
    generation (with_fuel P n) m (open_file (utf8_text (stream_text l tail))) = Ok out
    /\ (exists outs, Forall2 (item_out (with_fuel P n) true m) l outs /\ out = concat outs ++ utf16_text tail)
    /\ forall careful w, has_word (with_fuel P n) true careful w <-> exists name v, word (lr s) items name v /\ w = input v.
Proof.
  intros ops s items letters to_file bs zw Q P m l tail M Hz L Hcs Hs Ht Hw HA HC Hlo Hl Hg Hsc.
  assert (LP : loaded bs zw P) by (exists Q; auto).
  destruct (C61_ready _ _ _ _ _ _ _ _ M Hz LP) as (R1 & R2 & _ & R3 & _ & R5 & _). pose proof (C61_words _ _ _ _ _ _ _ _ _ M Hz L) as W.
  assert (EP : p_caseSensitive P = true /\ is_sort (p_sort P) /\ p_toupper P 0 = 0 /\ p_weights P = false /\ 0 < p_maxAnalyses P /\ 0 < p_maxClasses P
    /\ forall c, c <> 0 -> p_tolower P c <> 0).
  { unfold load_generation in L. destruct (load bs) as [[[lt a] tes]| | | |]; try discriminate. cbn [obind] in L. apply Ok_inj in L. subst P. auto 10. }
  destruct EP as (E1 & E2 & E3 & E4 & E5 & E6 & E7).
  destruct (C59_returns P m l tail R1 R2 E2 E3 E4 E5 E6 Hl Hg Hsc) as (out & N & HN).
  exists out, N. intros n Hn. split; [exact (HN n Hn)|].
  destruct (C59_case_sensitive (with_fuel P n) m l tail out E1 E7 E2 E5 E6 Hl Hg Hsc (HN n Hn)) as (Ho & Hh). split; [exact Ho|].
  intros careful w. rewrite Hh. change (accepted (with_fuel P n) w) with (accepted P w). unfold accepted. split.
  - intros (o & q & Hp & Hf). destruct (proj1 (W w o) (ex_intro _ q (conj Hp Hf))) as (name & v & Hv & E & _). eauto.
  - intros (name & v & Hv & E). exists (unweighted_out (output v)). apply W. eauto.
Qed.

(** Analysis of a text.  The dictionary: all its sections are standard or inconditional; no
    word starts with white space, ' ' is the only white space in words, a word that starts
    with a character outside the BMP starts with a letter. *)
Record analysable (s : settings) (items : list item) (P : processor) : Prop := {
  as_kind : forall name w, word (lr s) items name w -> named_with n_standard name \/ named_with n_inconditional name;
  as_first : forall name w c r, word (lr s) items name w -> input w = c :: r -> p_isspace P c = false;
  as_white : forall name w c, word (lr s) items name w -> In c (input w) -> p_isspace P c = true -> c = 32;
  as_bmp : forall name w c r, word (lr s) items name w -> input w = c :: r -> c < 65536 \/ letter P c
}.
(** The options, and the classes of characters *)
Record usual (P : processor) : Prop := {
  us_decomp : p_decomp P = false;
  us_rcx : forall c, p_rcx P c = None;
  us_sort : is_sort (p_sort P);
  us_toupper : p_toupper P 0 = 0;
  us_weights : p_weights P = false;
  us_limits : 0 < p_maxAnalyses P /\ 0 < p_maxClasses P;
  us_strlower : forall w, w <> [] -> p_strlower P w <> [];
  us_letters : forall c, letter P c -> c <> 0 /\ p_isspace P c = false;
  us_upper : forall c, p_isupper P c = true -> letter P c;
  us_scalars : forall c, In c (p_letters P) -> scalar c;
  us_space : p_isspace P 32 = true /\ p_isspace P 0 = false /\ forall c, p_isspace P c = true -> ~ meta c;
  us_ignored : p_ignored P 91 = false /\ p_ignored P 92 = false /\ p_ignored P 0 = false
}.
(** [as_read P cs w l]: [w] is read as [l], up to letter case unless [cs]. *)
Notation as_read P cs w l := (exists d, reading (p_isupper P) (p_tolower P) cs w l d).

Lemma no_kind : forall s items P, analysable s items P -> forall name w, word (lr s) items name w -> ~ named_with n_postblank name /\ ~ named_with n_preblank name.
Proof.
  assert (K : forall x y a b : ustr, length x <> 0%nat -> length y <> 0%nat -> a ++ x = b ++ y -> last x 0 = last y 0).
  { intros x y a b Hx Hy E. assert (L : forall a x : ustr, length x <> 0%nat -> last (a ++ x) 0 = last x 0).
    { clear. induction a as [|c a IH]; intros x Hx; [reflexivity|]. cbn [app]. destruct (a ++ x) as [|d r] eqn:E.
      - destruct a; [|discriminate]. destruct x; [easy|discriminate].
      - change (last (c :: d :: r) 0) with (last (d :: r) 0). rewrite <- E. now apply IH. }
    rewrite <- (L a x Hx), E. now apply L. }
  intros s items P H name w Hw. destruct (as_kind _ _ _ H name w Hw) as [(u & ->)|(u & ->)]; split; intros (v & E); apply K in E; discriminate.
Qed.
Lemma input_prefix : forall v v', exists r, input (v ++ v') = input v ++ r.
Proof. intros v v'. exists (input v'). unfold input. now rewrite map_app, filter_app. Qed.
Lemma begins_word : forall s items l, begins s items l -> l = [] \/ exists name w r, word (lr s) items name w /\ input w = l ++ r.
Proof.
  intros s items l [->|(name & v & v' & Hw & ->)]; [now left|right]. destruct (input_prefix v v') as (r & E). exists name, (v ++ v'), r. auto.
Qed.
Lemma no_finals : forall zw (fins : list (nat * Z)) sel tes, (forall q w, In (q, w) fins <-> final_at zw sel 1 tes q w) ->
  (forall name te, In (name, te) tes -> ~ sel name) -> fins = [].
Proof.
  intros zw fins sel tes H N. destruct fins as [|[q w] r]; [reflexivity|]. destruct (proj1 (H q w) (or_introl eq_refl)) as (b & name & te & f & fw & Pl & Hs & _).
  destruct (N name te (proj1 (placed_from _ _ _ _ _ Pl)) Hs).
Qed.
Lemma no_blanks : forall ops s items letters to_file bs zw Q P, made ops s items letters to_file bs -> zw (WFin 0 0) = 0 ->
  load_analysis zw Q bs = Ok P -> analysable s items P -> p_postblank P = [] /\ p_preblank P = [].
Proof.
  intros ops s items letters to_file bs zw Q P M Hz L D. destruct (made_graph _ _ _ _ _ _ M) as (a & m & tes & El & H1 & H2 & H3 & H4 & H5 & H6).
  assert (N : forall name te, In (name, te) tes -> ~ ends s_postblank name /\ ~ ends s_preblank name).
  { intros name te H. destruct (H5 name te H) as (t & Ht & _). destruct (cm_some _ _ _ (H3 name t Ht)) as (w & Hw). exact (no_kind _ _ _ D name w Hw). }
  unfold load_analysis in L. rewrite El in L. cbn [obind] in L. destruct (classify_spec zw tes 1 (mkCl [] [] [] [])) as [C1 C2].
  assert (T : Forall (fun x => typed (fst x)) tes).
  { apply Forall_forall. intros x Hx. destruct (typed_dec (fst x)) as [T|T]; [exact T|]. rewrite C2 in L by (apply Exists_exists; eauto). discriminate. }
  destruct (C1 T) as (k & Ek & K). rewrite Ek in L. cbn [obind] in L. apply Ok_inj in L. subst P. cbn [processor_of p_postblank p_preblank].
  split; [apply (no_finals zw _ (ends s_postblank) tes)|apply (no_finals zw _ (ends s_preblank) tes)];
    try (intros name te H; now destruct (N name te H)); intros q w; destruct (K q w) as (_ & _ & K3 & K4); [rewrite K3|rewrite K4]; cbn; tauto.
Qed.
Lemma analysable_plain : forall ops s items letters to_file bs zw Q P cs, made ops s items letters to_file bs -> zw (WFin 0 0) = 0 ->
  load_analysis zw Q bs = Ok P -> analysable s items P -> usual P -> plain_dix P cs.
Proof.
  intros ops s items letters to_file bs zw Q P cs M Hz L D U. assert (LP : loaded bs zw P) by (exists Q; auto).
  destruct (C61_ready _ _ _ _ _ _ _ _ M Hz LP) as (R1 & R2 & _). pose proof (C61_reads _ _ _ _ _ _ _ _ M Hz LP) as Rd.
  destruct (no_blanks _ _ _ _ _ _ _ _ _ M Hz L D) as [B1 B2]. destruct U.
  assert (Hd : forall l o q, rpath (p_find P) (p_root P) l o q -> l = [] \/ exists name w r, word (lr s) items name w /\ input w = l ++ r).
  { intros l o q Hp. apply begins_word, Rd. exists o, q. exact Hp. }
  constructor; auto.
  - intros (l & d & o & q & R & Hp & Hf). inversion R; subst. destruct (proj1 (proj2 (proj2 (proj2 (proj2 (C61_kinds _ _ _ _ _ _ _ _ _ M Hz L [] o))))) (ex_intro _ q (conj Hp Hf)))
      as (name & w & Hw & E & _). destruct M as [Hx Hs Ho _ _ (a & m & Ep & _)].
    rewrite (ValidProps.C58_empty ops s items name w Hx Hs Ho Hw (eq_sym E)) in Ep. discriminate.
  - intros c Hc (l & d & o & q & R & Hp). inversion R as [|? ? l' ? ? ? R'|? ? l' ? ? Hu]; subst.
    + inversion R'; subst. destruct (Hd _ _ _ Hp) as [E|(name & w & r & Hw & E)]; [discriminate|]. rewrite (as_first _ _ _ D name w c r Hw E) in Hc. discriminate.
    + apply us_upper0, us_letters0 in Hu as [_ Hu]. congruence.
  - intros w c Hc Hn (l & d & o & q & R & Hp). assert (Hin : In c l).
    { remember (w ++ [c]) as wc eqn:Ew. revert w Ew. clear Hp. induction R as [|x w0 l d Hx Hl R IH|x w0 l d E Hu Hx Hl Hne R IH]; intros w Ew.
      - destruct w; discriminate.
      - destruct w as [|y w]; injection Ew as -> Ew; [now left|]. right. exact (IH w Ew).
      - destruct w as [|y w]; injection Ew as -> Ew; [|right; exact (IH w Ew)]. apply us_upper0, us_letters0 in Hu as [_ Hu]. congruence. }
    destruct (Hd _ _ _ Hp) as [->|(name & v & r & Hv & E)]; [destruct Hin|]. apply Hn. apply (as_white _ _ _ D name v c Hv); [rewrite E; apply in_or_app; auto|exact Hc].
  - intros c Hc (l & d & o & q & R & Hp). inversion R as [|? ? l' ? ? ? R'|? ? l' ? ? Hu]; subst.
    + inversion R'; subst. destruct (Hd _ _ _ Hp) as [E|(name & w & r & Hw & E)]; [discriminate|]. destruct (as_bmp _ _ _ D name w c r Hw E); [assumption|contradiction].
    + destruct Hc. now apply us_upper0.
Qed.
Theorem C61_analysis : forall ops s items letters to_file bs zw Q P cs its, made ops s items letters to_file bs -> zw (WFin 0 0) = 0 ->
  load_analysis zw Q bs = Ok P -> analysable s items P -> usual P ->
  Forall (AnalysisSpec.item_ok (p_ignored P)) its -> steady P cs (symbols its) -> fits P cs (symbols its) ->
  (* what it reads and accepts are the words of the dictionary *)
  (forall w, living P cs w <-> exists l, as_read P cs w l /\ begins s items l)
  /\ (forall w, accepting P cs (all_finals P) w <-> exists l name v, as_read P cs w l /\ word (lr s) items name v /\ l = input v)
  /\ (forall w, accepting P cs (p_incond P) w <-> exists l name v, as_read P cs w l /\ named_with n_inconditional name /\ word (lr s) items name v /\ l = input v)
  (* and the text is analysed with them *)
  /\ exists N, forall n rounds, (N <= n)%nat -> (N <= rounds)%nat ->
       exists out src, analysis (with_fuel P n) rounds (new_source (open_file (utf8_text (items_text its)))) = Ok (out, src)
         /\ analysed P cs its out /\ eof (s_file src) = true.
Proof.
  intros ops s items letters to_file bs zw Q P cs its M Hz L D U Hi Hst Hf. assert (LP : loaded bs zw P) by (exists Q; auto).
  pose proof (C61_reads _ _ _ _ _ _ _ _ M Hz LP) as Rd. pose proof (C61_kinds _ _ _ _ _ _ _ _ _ M Hz L) as Kd. cbn zeta in Kd. split; [|split; [|split]].
  - intros w. split.
    + intros (l & d & o & q & R & Hp). exists l. split; [eauto|]. apply Rd. exists o, q. exact Hp.
    + intros (l & (d & R) & B). apply Rd in B as (o & q & Hp). exists l, d, o, q. auto.
  - intros w. split.
    + intros (l & d & o & q & R & Hp & Hq). destruct (Kd l o) as (_ & _ & _ & _ & K). destruct (proj1 K (ex_intro _ q (conj Hp Hq))) as (name & v & Hv & E & _).
      exists l, name, v. split; [eauto|auto].
    + intros (l & name & v & (d & R) & Hv & E). destruct (Kd l (unweighted_out (output v))) as (_ & _ & _ & _ & K).
      destruct (proj2 K) as (q & Hp & Hq); [eauto|]. exists l, d, (unweighted_out (output v)), q. auto.
  - intros w. split.
    + intros (l & d & o & q & R & Hp & Hq). destruct (Kd l o) as (_ & K & _). destruct (proj1 K (ex_intro _ q (conj Hp Hq))) as (name & v & Hn & Hv & E & _).
      exists l, name, v. split; [eauto|auto].
    + intros (l & name & v & (d & R) & Hn & Hv & E). destruct (Kd l (unweighted_out (output v))) as (_ & K & _).
      destruct (proj2 K) as (q & Hp & Hq); [exists name, v; auto|]. exists l, d, (unweighted_out (output v)), q. auto.
  - destruct (C56_analysis P cs its (analysable_plain _ _ _ _ _ _ _ _ _ cs M Hz L D U) Hi Hst Hf) as (N & HN). exists N. intros n rounds Hn Hr.
    destruct (HN n rounds Hn Hr) as (out & src & E & An & Ee & _). exists out, src. auto.
Qed.

(** * A concrete dictionary, from its entries to the analysis of a text and back *)
Import String.StringSyntax.
Definition pets : list item :=
  [Pardef (txt "P") [[Single [] [-1; -2] 0]; [Single (txt "s") [-1; -3] 0]];
   Sec (txt "main@standard") [[Single (txt "cat") (txt "cat") 0; Paradigm (txt "P")]; [Single (txt "hot dog") (txt "hot dog") 0; Paradigm (txt "P")]];
   Sec (txt "final@inconditional") [[Single (txt ",") (44 :: [-4]) 0]]].
Definition pet_tags : list aop := [OpInclude (txt "<n>"); OpInclude (txt "<sg>"); OpInclude (txt "<pl>"); OpInclude (txt "<c>")].
Definition pet_letters : ustr := txt "abcdefghijklmnopqrstuvwxyz".
Definition number (w : weight) : Z := match w with WFin m _ => m | _ => 0 end.
Definition no_weight (_ : Z) : weight := WFin 0 0.
Definition pet_file (left_to_right : bool) : list Z :=
  match parse (mkSet left_to_right [] None) (after pet_tags) (dict_events pets) with
  | Ok (a, m) => match compiler_write no_weight pet_letters a m with Ok bs => bs | _ => [] end
  | _ => []
  end.
Definition pet_options : processor := analyser_of [] [] [] true.
Lemma pets_ok : forall b, dict_ok b (fun _ => no_words) [] pets.
Proof.
  intros b. cbn [dict_ok pets]. split; [discriminate|]. split; [intros []|]. split.
  { repeat (apply Forall_cons || apply Forall_nil); repeat split; cbn; lia. }
  split.
  { eexists. eexists. split; [now left|]. do 2 eexists. split; [reflexivity|]. split; reflexivity. }
  split.
  { repeat (apply Forall_cons || apply Forall_nil); repeat split; cbn; try lia; auto; discriminate. }
  split; [|exact I]. repeat (apply Forall_cons || apply Forall_nil); repeat split; cbn; lia.
Qed.
Lemma pets_unweighted : unweighted pets.
Proof.
  intros it els l r w H1 H2 H3. cbn in H1. repeat (destruct H1 as [<-|H1]; [cbn in H2; repeat (destruct H2 as [<-|H2];
    [cbn in H3; repeat (destruct H3 as [H3|H3]; [first [discriminate H3|congruence]|]); destruct H3|]); destruct H2|]). destruct H1.
Qed.
Ltac each_in H := cbn in H; repeat match type of H with _ \/ _ => destruct H as [H|H] end; match type of H with False => destruct H | _ => idtac end.
Lemma short_name : forall l, forallb (fun c => (0 <=? c) && (c <? 65536)) l && (Z.of_nat (length l) <? 1000) = true -> name_ok l.
Proof.
  intros l H. apply andb_prop in H as [H L]. split; [|lia]. rewrite forallb_forall in H. apply Forall_forall. intros c Hc. apply H in Hc.
  unfold is_unit. lia.
Qed.
Lemma pets_made : forall b, made pet_tags (mkSet b [] None) pets pet_letters no_weight (pet_file b).
Proof.
  intros b. constructor; try reflexivity; [apply pets_ok|apply pets_unweighted|].
  destruct b; (eexists; eexists; split; [vm_compute; reflexivity|]; split; [|vm_compute; reflexivity]).
  all: split; [|split; [|split; [vm_compute; reflexivity|]]].
  all: try (apply short_name; vm_compute; reflexivity).
  all: try (intros name t H; each_in H; injection H as <- <-; (split; [apply short_name; vm_compute; reflexivity|vm_compute; reflexivity])).
  all: split; [vm_compute; reflexivity|]; split; [vm_compute; reflexivity|]; split; cbn [slexicinv spairinv length].
  all: try (intros x y H; each_in H; injection H as <- <-; lia).
  all: intros x H; each_in H; subst x; match goal with |- exists body, ?l = _ /\ _ => exists (removelast (tl l)) end; (split; [reflexivity|]);
    apply short_name; vm_compute; reflexivity.
Qed.
Lemma pets_words : forall name w, word true pets name w ->
  (name = txt "main@standard" /\ In (input w, filter (fun x => negb (x =? 0)) (output w))
     [(txt "cat", txt "cat" ++ [-1; -2]); (txt "cats", txt "cat" ++ [-1; -3]);
      (txt "hot dog", txt "hot dog" ++ [-1; -2]); (txt "hot dogs", txt "hot dog" ++ [-1; -3])])
  \/ (name = txt "final@inconditional" /\ input w = txt "," /\ output w = [44; -4]).
Proof.
  intros name w H. cbn [word LoadSpec.word section_set pets] in H. destruct H as [[<- (els & Hels & H)]|[[<- (els & Hels & H)]|[]]].
  - left. split; [reflexivity|]. assert (K : forall v, define (txt "P") (entries_set true (fun _ => no_words) [[Single [] [-1; -2] 0]; [Single (txt "s") [-1; -3] 0]]) (fun _ => no_words) (txt "P") v ->
      v = [(0, -1); (0, -2)] \/ v = [(115, -1); (0, -3)]).
    { intros v Hv. unfold define in Hv. destruct (ustr_eq_dec (txt "P") (txt "P")) as [_|N]; [|now destruct N].
      destruct Hv as (e & [<-|[<-|[]]] & (x & y & -> & Hx & Hy)); cbn in Hx, Hy; subst; auto. }
    destruct Hels as [<-|[<-|[]]]; destruct H as (x & y & -> & Hx & (v & z & -> & Hv & Hz)); cbn in Hx, Hz; subst; apply K in Hv; destruct Hv as [->| ->]; vm_compute; auto.
  - right. split; [reflexivity|]. destruct Hels as [<-|[]]. destruct H as (x & y & -> & Hx & Hy). cbn in Hx, Hy. subst. vm_compute. auto.
Qed.
Definition pet_analyser : processor := match load_analysis number pet_options (pet_file true) with Ok P => P | _ => pet_options end.
Lemma pet_loads : load_analysis number pet_options (pet_file true) = Ok pet_analyser.
Proof.
  destruct (C61_loads _ _ _ _ _ _ number pet_options (pets_made true) eq_refl) as (_ & (P & E) & _).
  - intros name w H. apply pets_words in H as [[-> _]|[-> _]]; [right; left; exists (txt "main")|left; exists (txt "final")]; reflexivity.
  - unfold pet_analyser. now rewrite E.
Qed.
Lemma loaded_options : forall zw Q bs P, load_analysis zw Q bs = Ok P -> exists lt a tes k, P = processor_of zw Q lt a tes k.
Proof.
  intros zw Q bs P L. unfold load_analysis in L. destruct (load bs) as [[[lt a] tes]| | | |]; try discriminate. cbn [obind] in L.
  destruct (classifyFinals zw 1 tes (mkCl [] [] [] [])) as [k| | | |]; try discriminate. cbn [obind] in L. apply Ok_inj in L. exists lt, a, tes, k. now symmetry.
Qed.
Lemma pet_ready : usual pet_analyser /\ analysable (mkSet true [] None) pets pet_analyser.
Proof.
  assert (Lt : forall c, In c (p_letters pet_analyser) -> 97 <= c <= 122).
  { assert (Lo : loaded (pet_file true) number pet_analyser) by (exists pet_options; right; exact pet_loads).
    destruct (C61_ready _ _ _ _ _ _ _ _ (pets_made true) eq_refl Lo) as (_ & _ & _ & _ & _ & _ & K). intros c Hc.
    assert (K1 : Forall scalar pet_letters)
      by (apply Forall_forall; intros x Hx; vm_compute in Hx; unfold scalar; repeat (destruct Hx as [<-|Hx]; [lia|]); destruct Hx).
    assert (K2 : pet_letters = utf16_text pet_letters) by (vm_compute; reflexivity).
    pose proof (proj1 (K pet_letters K1 K2 c) Hc) as Hd. clear - Hd.
    vm_compute in Hd. repeat (destruct Hd as [<-|Hd]; [lia|]). destruct Hd. }
  assert (E : exists lt a tes k, pet_analyser = processor_of number pet_options lt a tes k).
  { exact (loaded_options _ _ _ _ pet_loads). }
  destruct E as (lt & a & tes & k & E). rewrite E in *. cbn [processor_of p_letters] in Lt.
  assert (Le : forall c, letter (processor_of number pet_options lt a tes k) c -> 65 <= c <= 122).
  { intros c [H|H]; cbn in H; [unfold ascii_up, ascii_low in H; lia|apply Lt in H; lia]. }
  split.
  - constructor; try reflexivity; cbn [processor_of p_sort p_maxAnalyses p_maxClasses p_isspace p_isupper p_letters p_ignored p_strlower pet_options analyser_of]; auto.
    + exact isort_is_sort.
    + lia.
    + intros [|c w] H; [easy|discriminate].
    + intros c Hc. apply Le in Hc. lia.
    + intros c Hc. left. cbn. now rewrite Hc.
    + intros c Hc. apply Lt in Hc. unfold scalar. lia.
    + split; [reflexivity|]. split; [reflexivity|]. intros c Hc Mc. apply meta_iff in Mc. unfold is_escaped in Mc.
      apply orb_prop in Hc as [Hc|Hc]; apply Z.eqb_eq in Hc; subst c; discriminate Mc.
  - constructor; cbn [lr]; intros name w; [intros H|intros c r H Ei|intros c H Ei Hc|intros c r H Ei]; apply pets_words in H.
    + destruct H as [[-> _]|[-> _]]; [left; exists (txt "main")|right; exists (txt "final")]; reflexivity.
    + destruct H as [[_ H]|(_ & H & _)].
      * each_in H; injection H as H _; rewrite <- H in Ei; vm_compute in Ei; injection Ei as <- <-; reflexivity.
      * rewrite H in Ei. vm_compute in Ei. injection Ei as <- <-. reflexivity.
    + cbn in Hc. apply orb_prop in Hc as [Hc|Hc]; apply Z.eqb_eq in Hc; [exact Hc|subst c]. destruct H as [[_ H]|(_ & H & _)].
      * each_in H; injection H as H _; rewrite <- H in Ei; vm_compute in Ei; intuition discriminate.
      * rewrite H in Ei. vm_compute in Ei. intuition discriminate.
    + left. destruct H as [[_ H]|(_ & H & _)].
      * each_in H; injection H as H _; rewrite <- H in Ei; vm_compute in Ei; injection Ei as <- <-; reflexivity.
      * rewrite H in Ei. vm_compute in Ei. injection Ei as <- <-. reflexivity.
Qed.
Example C61_analysis_example :
  made pet_tags (mkSet true [] None) pets pet_letters no_weight (pet_file true)
  /\ load_analysis number pet_options (pet_file true) = Ok pet_analyser
  /\ usual pet_analyser /\ analysable (mkSet true [] None) pets pet_analyser
  /\ (forall s, steady pet_analyser true s) /\ (forall s, (length s < 2047)%nat -> fits pet_analyser true s)
  /\ (let! (out, _) := analysis pet_analyser 200 (new_source (open_file (txt "cats, hot dog hot do "))) in Ok out)
     = Ok (txt "^cats/cat<n><pl>$^,/,<c>$ ^hot dog/hot dog<n><sg>$ ^hot/*hot$ ^do/*do$ ").
Proof.
  split; [apply pets_made|]. split; [exact pet_loads|]. split; [apply pet_ready|]. split; [apply pet_ready|]. split.
  { intros s n w st _ _. reflexivity. }
  split; [intros s H; now apply short_fits|]. vm_compute. reflexivity.
Qed.
(** The same dictionary compiled from right to left generates. *)
Example C61_generation_example :
  made pet_tags (mkSet false [] None) pets pet_letters no_weight (pet_file false)
  /\ (let! P := load_generation number pet_options (pet_file false) in
      generation P gm_unknown (open_file (txt "^cat<n><pl>$, ^hot dog<n><sg>$ ^dog<n><sg>$ ")))
     = Ok (txt "cats, hot dog #dog ")
  /\ (let! P := load_generation number pet_options (pet_file false) in lookup P [120] (txt "cat<n><pl>"))
     = Ok (true, [txt "cats"]).
Proof. split; [apply pets_made|]. split; vm_compute; reflexivity. Qed.
(** A dictionary with a section of no kind can be used to generate, not to analyse. *)
Example C61_loads_example :
  let file := match parse (mkSet true [] None) new_alphabet (dict_events [Sec (txt "main") [[Single (txt "ab") (txt "c") 0]]]) with
    | Ok (a, m) => match compiler_write no_weight [] a m with Ok bs => bs | _ => [] end | _ => [] end in
  ~ has_kind (txt "main") /\ load_analysis number pet_options file = Exit
  /\ exists P, load_generation number pet_options file = Ok P /\ lookup P [120] (txt "ab") = Ok (true, [txt "c"]).
Proof.
  cbv zeta. split; [|split; [vm_compute; reflexivity|eexists; split; [vm_compute; reflexivity|vm_compute; reflexivity]]].
  intros [(u & E)|[(u & E)|[(u & E)|(u & E)]]]; apply (f_equal (@length Z)) in E; rewrite app_length in E; cbn in E; lia.
Qed.

Print Assumptions C61_written.
Print Assumptions C61_loads.
Print Assumptions C61_words.
Print Assumptions C61_kinds.
Print Assumptions C61_reads.
Print Assumptions C61_ready.
Print Assumptions C61_lookup.
Print Assumptions C61_generation.
Print Assumptions C61_analysis.
