(** Lemmas for C78: the graph of a loaded memory and the units of the document. *)
From Verif Require Import Base CompressionModel AlphabetModel AlphabetProofs TransducerModel TransducerSpec TransducerProofs
  MinimizeProofs TrieProofs WeightSetProofs FileModel FileProofs StateModel StateSpec FinalsModel StringModel CompilerModel CompilerSpec
  CompilerProofs ValidProps InputModel InputProps StreamModel StreamProps ProcessorModel ProcessorProofs BilingualModel CompoundProps AnalysisSpec DixModel DixSpec DixProofs LoadModel LoadProofs
  LoadWordProofs LoadProps TmxModel TmxSpec TmxProofs TmModel TmSpec TmProofs TmTraceProofs TmToolModel TmToolSpec TmToolProofs.

(** * The graph of one transducer *)
Section Graph.
  Context (a : alphabet) (W : pset) (t : transducer) (te : texe) (to_file : Z -> weight) (zw : weight -> Z).
  Context (Ha : alph_inv0 a) (H0 : to_file 0 = WFin 0 0) (Hz : zw (WFin 0 0) = 0) (C : compiled a W t) (G : same_graph a (file_trans to_file t) te).
  Definition only (name : ustr) : pset := match name with [] => W | _ => fun _ => False end.
  Notation m := [(@nil Z, t)].
  Notation tes := [(@nil Z, te)].
  Notation find := (graph_find zw tes).
  Notation fins := (every_final zw 1 tes).
  Lemma only_compiled : forall name t', In (name, t') m -> compiled a (only name) t'.
  Proof. intros name t' [E|[]]. injection E as <- <-. exact C. Qed.
  Lemma only_in : forall name w, only name w -> exists t', In (name, t') m.
  Proof. intros [|c name] w H; [exists t; now left|destruct H]. Qed.
  Lemma one_graph : forall name te', In (name, te') tes -> exists t', In (name, t') m /\ same_graph a (file_trans to_file t') te'.
  Proof. intros name te' [E|[]]. injection E as <- <-. exists t. split; [now left|exact G]. Qed.
  Lemma graph_one : forall name t', In (name, t') m -> exists te', In (name, te') tes /\ same_graph a (file_trans to_file t') te'.
  Proof. intros name t' [E|[]]. injection E as <- <-. exists te. split; [now left|exact G]. Qed.
  Lemma placed_one : forall b name te', placed 1 tes b name te' <-> b = 1%nat /\ name = [] /\ te' = te.
  Proof. intros. rewrite placed_cons. split; [intros [K|K]; [exact K|now apply placed_nil in K]|now left]. Qed.
  Lemma sits_one : sits a m tes to_file 1 [] t.
  Proof. apply (same_sits a only m tes to_file only_compiled 1 [] te t); [now apply placed_one|now left|exact G]. Qed.
  Lemma row_tags : forall i, NoDup (map a_tag (arcs_of t i)).
  Proof.
    intros i. destruct (cm_min _ _ _ C) as (t0 & M). destruct (minimized_minimal 0 t0 t M) as (_ & (_ & D1 & D2) & _).
    assert (K : forall l, NoDup l -> incl l (arcs_of t i) -> NoDup (map a_tag l)); [|apply K; [apply D2|apply incl_refl]].
    induction l as [|[c [q w]] l IH]; intros N I; cbn [map]; constructor; inversion N as [|? ? N1 N2]; subst; [|apply IH; [exact N2|]; intros y Hy; apply I; now right].
    intros K. apply in_map_iff in K as ([c' [q' w']] & E & K). cbn [a_tag fst] in E. subst c'.
    assert (h1 : has_arc t i c q w) by (apply I; now left). assert (h2 : has_arc t i c q' w') by (apply I; now right).
    pose proof (arc_zero a W t C _ _ _ _ h1) as ->. pose proof (arc_zero a W t C _ _ _ _ h2) as ->. rewrite (D1 _ _ _ _ _ h1 h2) in N1. contradiction.
  Qed.
  Lemma arcs_once : forall c l, NoDup (map fst l) -> NoDup (map fst (arcs_with a c l)).
  Proof.
    intros c l N. induction l as [|[tag d] l IH]; [constructor|]. cbn [map fst] in N. inversion N as [|? ? N1 N2]; subst.
    unfold arcs_with. cbn [flat_map fst snd]. fold (arcs_with a c l). rewrite map_app.
    destruct (decode tag a) as [[i o]| | | |] eqn:D; try exact (IH N2). destruct (Z.eqb_spec i c) as [->|]; [|exact (IH N2)]. cbn [map fst app]. constructor; [|exact (IH N2)].
    intros K. apply in_map_iff in K as ([o' [q w]] & E & K). cbn [fst] in E. subst o'. apply arcs_with_in in K as (tag' & K & D').
    apply N1. rewrite (decode_unique a _ _ _ (proj1 Ha) D D'). apply in_map_iff. exists (tag', (q, w)). split; [reflexivity|exact K].
  Qed.
  Lemma find_once : forall n c, NoDup (map fst (find n c)).
  Proof.
    intros n c. destruct (find n c) as [|x l] eqn:E; [constructor|]. destruct (Nat.eq_dec n 0) as [->|Nn].
    - rewrite find_root in E. destruct (c =? 0); [|discriminate E]. cbn [root_arcs] in E. injection E as <- <-. constructor; [intros []|constructor].
    - destruct (find_where zw tes n c x) as [K|(b & name & te' & i & P & Hi & ->)]; [rewrite E; now left|contradiction|].
      rewrite <- E, (find_placed zw tes b name te' i c P Hi). apply placed_one in P as (-> & -> & ->). rewrite map_map. cbn [moved fst].
      destruct G as (_ & _ & G3 & _). rewrite G3. apply arcs_once. rewrite (row_nth t to_file). rewrite map_map. cbn [fst]. apply row_tags.
  Qed.
  Lemma find_zero : forall n c o q w, In (o, (q, w)) (find n c) -> w = 0.
  Proof. intros n c o q w H. exact (proj1 (graph_arcs a only m tes to_file zw H0 Hz only_compiled one_graph _ _ _ _ _ H)). Qed.

  (** ** Traces *)
  Context (P : processor) (Pf : p_find P = find) (Pr : p_root P = 0%nat) (Pe : all_finals P = fins).
  Lemma trace_walk : forall v q, trace P v q <-> (v = [] /\ q = 0%nat) \/ exists v' j, v = (0, 0) :: v' /\ walk a t (initial t) v' j /\ q = S j.
  Proof.
    intros v q. pose proof sits_one as St. split.
    - intros T. induction T as [|v q i o q' T IH Hin]; [left; auto|]. rewrite Pf in Hin. right. destruct IH as [[-> ->]|(v' & j & -> & Wk & ->)].
      + rewrite find_root in Hin. destruct (Z.eqb_spec i 0) as [->|]; [|destruct Hin]. cbn [root_arcs] in Hin. destruct Hin as [Hin|[]]. injection Hin as <- <-.
        exists [], (initial t). split; [reflexivity|]. split; [constructor|]. destruct G as (G1 & _). rewrite G1. reflexivity.
      + assert (Hj : (j < nstates t)%nat) by exact (walk_end a W t C _ _ _ Wk (wf_initial t (cm_wf _ _ _ C))).
        change (S j) with (1 + j)%nat in Hin.
        apply (sits_arcs a only m tes to_file zw H0 Hz only_compiled 1 [] t _ _ _ _ _ St Hj) in Hin as (tag & d & K & D & -> & _).
        exists (v' ++ [(i, o)]), d. split; [reflexivity|]. split; [|reflexivity]. eapply walk_app; [exact Wk|]. econstructor; [exact K|exact D|constructor].
    - intros [[-> ->]|(v' & j & -> & Wk & ->)]; [rewrite <- Pr; constructor|]. revert j Wk. induction v' as [|[i o] v' IH] using rev_ind; intros j Wk.
      + inversion Wk; subst. apply (tr_snoc P [] (p_root P)); [constructor|]. rewrite Pf, Pr, find_root. cbn [Z.eqb root_arcs]. left. destruct G as (G1 & _). rewrite G1. reflexivity.
      + apply (walk_app_inv a t) in Wk as (j' & Wk & Wl). inversion Wl as [|? tag q ? ? ? K D Wn]; subst. inversion Wn; subst.
        assert (Hj : (j' < nstates t)%nat) by exact (walk_end a W t C _ _ _ Wk (wf_initial t (cm_wf _ _ _ C))).
        change ((0, 0) :: v' ++ [(i, o)]) with (((0, 0) :: v') ++ [(i, o)]). apply (tr_snoc P _ (S j')); [now apply IH|]. rewrite Pf. change (S j') with (1 + j')%nat.
        apply (sits_arcs a only m tes to_file zw H0 Hz only_compiled 1 [] t _ _ _ _ _ St Hj). exists tag, j. auto.
  Qed.
  Lemma final_state : forall q, final_weight q (all_finals P) <> None <-> exists j, q = S j /\ is_final t j.
  Proof.
    intros q. rewrite Pe.
    assert (F : forall p w, In (p, w) fins <-> exists j, p = S j /\ w = 0 /\ is_final t j).
    { intros p w. rewrite every_final_in. rewrite (sits_final a only m tes to_file zw H0 Hz only_compiled only_in one_graph graph_one). split.
      - intros (b & name & t' & i & St & _ & F & -> & ->). exists i. pose proof St as [Hin _ (te' & P1 & _)]. apply placed_one in P1 as (-> & _ & _).
        destruct Hin as [E|[]]. injection E as _ <-. split; [reflexivity|]. split; [reflexivity|]. now exists 0.
      - intros (j & -> & -> & f & F). exists 1%nat, [], t, j. split; [exact sits_one|]. split; [exact I|]. rewrite (final_zero a W t C _ _ F) in F. auto. }
    rewrite weight_some by (intros p w K; apply F in K as (j & _ & K & _); exact K). rewrite F. split; [intros (j & E & _ & K); eauto|intros (j & E & K); eauto].
  Qed.
  (** The traces to final nodes are the words. *)
  Lemma trace_final : forall v, (exists q, trace P v q /\ final_weight q (all_finals P) <> None) <-> exists v', v = (0, 0) :: v' /\ W v'.
  Proof.
    intros v. split.
    - intros (q & T & F). apply final_state in F as (j & -> & F). apply trace_walk in T as [[_ T]|(v' & j' & -> & Wk & E)]; [discriminate T|].
      injection E as <-. exists v'. split; [reflexivity|]. apply (walk_word a W t C). eauto.
    - intros (v' & -> & Hw). apply (walk_word a W t C) in Hw as (j & Wk & F). exists (S j). split; [apply trace_walk; right; eauto|apply final_state; eauto].
  Qed.
  Lemma trace_fun : forall v q q', trace P v q -> trace P v q' -> q = q'.
  Proof.
    intros v q q' T. revert q'. induction T as [|v q i o q1 T IH Hin]; intros q' T'.
    - inversion T' as [|v ? ? ? ? ? ? E]; [reflexivity|]. now destruct v.
    - inversion T' as [E|v2 q2 i2 o2 q3 T2 Hin2 E E2]; [now destruct v|]. apply app_inj_tail in E as [-> E]. injection E as -> ->. subst q3. rewrite <- (IH _ T2) in Hin2.
      pose proof (find_once q i) as N. rewrite <- Pf in N. destruct (nodup_of fst _ N) as [_ K]. pose proof (K _ _ Hin Hin2 eq_refl). congruence.
  Qed.
End Graph.

(** * Words *)
Lemma input_align : forall S T, ~ In 0 S -> input (align S T) = S.
Proof.
  intros S. induction S as [|x S IH]; intros T H; cbn [align].
  - unfold input. rewrite map_map. cbn [fst]. induction T as [|y T IHT]; [reflexivity|exact IHT].
  - assert (x <> 0) by (intros ->; apply H; now left). assert (~ In 0 S) by (intros K; apply H; now right).
    destruct T as [|y T]; rewrite input_cons; cbn [fst]; destruct (Z.eqb_spec x 0); try contradiction; cbn [app]; f_equal; now apply IH.
Qed.
Definition written (v : list (Z * Z)) : list Z := filter (fun x => negb (x =? 0)) (map snd v).
Lemma written_align : forall S T, ~ In 0 T -> written (align S T) = T.
Proof.
  assert (B : forall T, ~ In 0 T -> filter (fun x => negb (x =? 0)) T = T).
  { induction T as [|y T IH]; intros H; [reflexivity|]. cbn [filter]. destruct (Z.eqb_spec y 0) as [->|N]; [exfalso; apply H; now left|]. cbn [negb]. f_equal. apply IH. intros K. apply H. now right. }
  intros S. induction S as [|x S IH]; intros T H; cbn [align].
  - unfold written. rewrite map_map. cbn [snd]. rewrite map_id. now apply B.
  - destruct T as [|y T].
    + unfold written. cbn [map snd filter]. exact (IH [] H).
    + unfold written in *. cbn [map snd filter]. destruct (Z.eqb_spec y 0) as [->|N]; [exfalso; apply H; now left|]. cbn [negb]. f_equal. apply IH. intros K. apply H. now right.
Qed.
Lemma align_right : forall S T p, In p (align S T) -> In (snd p) T \/ snd p = 0.
Proof.
  intros S. induction S as [|x S IH]; intros T p H; cbn [align] in H.
  - apply in_map_iff in H as (y & <- & H). now left.
  - destruct T as [|y T]; destruct H as [<-|H]; cbn [snd In]; auto; [exact (IH _ _ H)|]. destruct (IH _ _ H); auto.
Qed.
Lemma align_prefix : forall l r T, ~ In 0 l -> exists v v', align (l ++ r) T = v ++ v' /\ input v = l.
Proof.
  intros l. induction l as [|x l IH]; intros r T H; [exists [], (align r T); split; reflexivity|].
  assert (x <> 0) by (intros ->; apply H; now left). assert (~ In 0 l) by (intros K; apply H; now right). cbn [app align].
  destruct T as [|y T].
  - destruct (IH r [] H1) as (v & v' & E & I). exists ((x, 0) :: v), v'. rewrite E. split; [reflexivity|]. rewrite input_cons, I. cbn [fst]. destruct (Z.eqb_spec x 0); [contradiction|reflexivity].
  - destruct (IH r T H1) as (v & v' & E & I). exists ((x, y) :: v), v'. rewrite E. split; [reflexivity|]. rewrite input_cons, I. cbn [fst]. destruct (Z.eqb_spec x 0); [contradiction|reflexivity].
Qed.
Lemma outs_entries : forall v, Forall LoadWordProofs.nonzero v -> outs v = entries v.
Proof.
  intros v F. induction F as [|[i o] v N F IH]; [reflexivity|]. unfold outs in *. cbn [flat_map entries map]. rewrite IH. unfold out. cbn [fst snd].
  destruct (Z.eqb_spec i 0) as [->|]; [|reflexivity]. destruct (Z.eqb_spec o 0) as [->|]; [now destruct N|reflexivity].
Qed.
Lemma spelled_printed : forall v t, spelled (entries v) t -> printed (written v) t.
Proof.
  intros v. induction v as [|[i o] v IH]; intros t H; cbn [entries map snd] in H; [inversion H; constructor|]. unfold written. cbn [map snd filter].
  inversion H as [|? ? ? K|? ? ? ? S N M K|? ? ? ? M K]; subst.
  - exact (IH _ K).
  - destruct (Z.eqb_spec o 0); [contradiction|]. cbn [negb]. constructor; [exact M|exact (IH _ K)].
  - assert (o <> 0) by (intros ->; unfold meta in M; cbn in M; intuition lia). destruct (Z.eqb_spec o 0); [contradiction|]. cbn [negb]. apply pr_meta; [exact M|exact (IH _ K)].
Qed.
Lemma reading_zero : forall isup low w l d, CompoundProps.reading isup low false w l d -> ~ In 0 l.
Proof. intros isup low w l d H. induction H; cbn [In]; intuition. Qed.

(** * The loaded memory *)
Section Memory.
  Context (isspace isdigit : Z -> bool) (lo lm : ustr) (ns : list xnode) (us : list (list (ustr * list Z))) (to_file : Z -> weight) (bs : list Z) (zw : weight -> Z).
  Context (M : memory_file isspace isdigit lo lm ns us to_file bs) (Hz : zw (WFin 0 0) = 0).
  Notation W := (words isspace isdigit lo lm us).
  Notation entry := (entry isspace isdigit lo lm us).
  Lemma entries_few : exists N, forall w, W w -> (unread w <= N)%nat.
  Proof.
    pose proof (fine _ _ _ _ _ _ _ _ M) as F. unfold words_of.
    assert (K : forall l, Forall (unit_fine isspace isdigit lo lm) l -> exists N, forall u S T, In u l ->
      unit_is (fun c => isspace c = true) (fun c => isdigit c = true) (in_language lo u) (in_language lm u) S T -> (unread (align S T) <= N)%nat).
    { intros l Fl. induction Fl as [|u l (L & (S & T & U) & _) Fl (N & IH)]; [exists 0%nat; intros u S T []|].
      exists (unread (align S T) + N)%nat. intros u' S' T' [<-|Hu] U'; [|specialize (IH _ _ _ Hu U'); lia].
      pose proof (sides_ok isspace isdigit _ _ S T L U) as E. rewrite (sides_ok isspace isdigit _ _ S' T' L U') in E. injection E as -> ->. lia. }
    destruct (K us F) as (N & HN). exists N. intros w (u & S & T & Hu & U & _ & ->). eauto.
  Qed.

  Record loaded (P Q : processor) : Prop := {
    ld_eps : eps_acyclic (p_find P);
    ld_number : symbol_code [60; 110; 62] (p_alpha P) = -1;
    ld_once : forall n c, NoDup (map fst (p_find P n c));
    ld_zero : forall n c o q w, In (o, (q, w)) (p_find P n c) -> w = 0;
    ld_trace : forall v, (exists q, trace P v q /\ final_weight q (all_finals P) <> None) <-> exists v', v = (0, 0) :: v' /\ W v';
    ld_fun : forall v q q', trace P v q -> trace P v q' -> q = q';
    ld_begin : forall l, (exists s q, rpath (p_find P) (p_root P) l s q) <-> exists v v', W (v ++ v') /\ l = input v;
    ld_whole : forall l s, (exists q, rpath (p_find P) (p_root P) l s q /\ final_weight q (all_finals P) <> None) <-> exists v, W v /\ l = input v /\ s = entries v;
    ld_space : p_isspace P = p_isspace Q;
    ld_upper : p_isupper P = p_isupper Q;
    ld_lower : p_tolower P = p_tolower Q
  }.
  Lemma file_memory : exists g : processor -> processor, (forall Q, load_generation zw Q bs = Ok (g Q)) /\ (forall Q, loaded (g Q) Q)
    /\ forall Q n, g (with_fuel Q n) = with_fuel (g Q) n.
  Proof.
    destruct (file_loaded isspace isdigit lo lm ns us to_file bs zw M) as (a & t & te & (Ha & Ex) & Fit & C & G & L).
    exists (fun Q => processor_of zw Q [] (includeSymbol ANY_CHAR a) [([], te)] (mkCl (every_final zw 1 [([], te)]) [] [] [])).
    split; [exact L|]. split; [|reflexivity]. intros Q. pose proof (mf_zero _ _ _ _ _ _ _ _ M) as H0.
    set (P := processor_of _ _ _ _ _ _).
    assert (Pe : all_finals P = every_final zw 1 [([], te)]) by (unfold all_finals, P; cbn [processor_of p_standard p_incond p_postblank p_preblank cl_standard cl_incond cl_postblank cl_preblank]; now rewrite !app_nil_r).
    pose proof (only_compiled a W t C) as O1. pose proof (only_in W t) as O2. pose proof (one_graph a t te to_file G) as O3. pose proof (graph_one a t te to_file G) as O4.
    assert (FS := final_state a W t te to_file zw H0 Hz C G P Pe).
    constructor.
    - apply (graph_acyclic a (only W) [([], t)] [([], te)] to_file zw H0 Hz O1 O3). destruct entries_few as (N & HN). exists N. intros [|c name] w Hw; [now apply HN|destruct Hw].
    - change (p_alpha P) with (includeSymbol ANY_CHAR a). assert (Nth : nth_error (slexicinv a) 0 = Some [60; 110; 62]) by (apply (proj1 (extends_nth _ _ Ex)); reflexivity).
      destruct (symbol_code_nth a _ 0 (proj1 Ha) Nth) as (E & D & _). rewrite code_include; [rewrite E; reflexivity|exact D].
    - intros n c. exact (find_once a W t te to_file zw Ha C G n c).
    - intros n c o q w H. exact (find_zero a W t te to_file zw H0 Hz C G n c o q w H).
    - exact (trace_final a W t te to_file zw H0 Hz C G P eq_refl eq_refl Pe).
    - exact (trace_fun a W t te to_file zw Ha C G P eq_refl).
    - intros l. change (p_find P) with (graph_find zw [([], te)]). change (p_root P) with 0%nat. destruct (mf_some _ _ _ _ _ _ _ _ M) as (S0 & T0 & E0). split.
      + intros (s & q & R). destruct (proj1 (run_prefix a (only W) [([], t)] [([], te)] to_file zw H0 Hz O1 O2 O3 O4 l s) (ex_intro _ q R)) as [(-> & _)|([|c name] & v & v' & Hw & -> & _)].
        * exists [], (align S0 T0). split; [apply word_entry; eauto|reflexivity].
        * eauto.
        * destruct Hw.
      + intros (v & v' & Hw & ->). exists (entries v). apply (run_prefix a (only W) [([], t)] [([], te)] to_file zw H0 Hz O1 O2 O3 O4). right. exists [], v, v'. auto.
    - intros l s. change (p_find P) with (graph_find zw [([], te)]). change (p_root P) with 0%nat.
      pose proof (run_word a (only W) [([], t)] [([], te)] to_file zw H0 Hz O1 O2 O3 O4 (fun _ => True) (every_final zw 1 [([], te)]) l s ltac:(intros; apply every_final_in)) as K.
      assert (Fz : forall q w, In (q, w) (every_final zw 1 [([], te)]) -> w = 0).
      { intros q w H. apply every_final_in in H. apply (sits_final a (only W) [([], t)] [([], te)] to_file zw H0 Hz O1 O2 O3 O4) in H as (b & n & t' & i & _ & _ & _ & _ & E). exact E. }
      transitivity (exists q, rpath (graph_find zw [([], te)]) 0 l s q /\ In (q, 0) (every_final zw 1 [([], te)])).
      + rewrite Pe. split; intros (q & Hp & Hq); exists q; (split; [exact Hp|]); now apply (weight_some _ q Fz).
      + rewrite K. split; [intros ([|c name] & v & _ & Hw & R); [eauto|destruct Hw]|intros (v & Hw & R); exists [], v; auto].
    - reflexivity.
    - reflexivity.
    - reflexivity.
  Qed.

  Context (P Q : processor) (L : loaded P Q).
  Notation begins := (begins_source isspace isdigit (p_isupper Q) (p_tolower Q) lo lm us).
  Notation whole := (is_source isspace isdigit (p_isupper Q) (p_tolower Q) lo lm us).
  Lemma living_begins : forall w, living P false w <-> begins w.
  Proof.
    intros w. unfold living. rewrite (ld_upper _ _ L), (ld_lower _ _ L). split.
    - intros (l & d & s & q & R & K). destruct (proj1 (ld_begin _ _ L l) (ex_intro _ s (ex_intro _ q K))) as (v & v' & Hw & ->).
      apply word_entry in Hw as (S & T & E & Hv). exists S, T, (input v), (input v'). split; [exact E|]. split; [|now exists d].
      rewrite <- input_app, Hv. symmetry. apply input_align. exact (proj1 (entry_zero _ _ _ _ _ _ _ _ M _ _ E)).
    - intros (S & T & l & r & E & -> & (d & R)). destruct (align_prefix l r T (reading_zero _ _ _ _ _ R)) as (v & v' & Ev & <-).
      assert (Hw : W (v ++ v')) by (apply word_entry; exists (input v ++ r), T; split; [exact E|now symmetry]).
      destruct (proj2 (ld_begin _ _ L (input v))) as (s & q & K); [eauto|]. exists (input v), d, s, q. auto.
  Qed.
  Lemma accepting_whole : forall w, accepting P false (all_finals P) w <-> whole w.
  Proof.
    intros w. unfold accepting. rewrite (ld_upper _ _ L), (ld_lower _ _ L). split.
    - intros (l & d & s & q & R & K & F). destruct (proj1 (ld_whole _ _ L l s) (ex_intro _ q (conj K F))) as (v & Hw & -> & _).
      apply word_entry in Hw as (S & T & E & ->). rewrite input_align in R by exact (proj1 (entry_zero _ _ _ _ _ _ _ _ M _ _ E)). exists S, T. split; [exact E|now exists d].
    - intros (S & T & E & (d & R)). destruct (proj2 (ld_whole _ _ L S (entries (align S T)))) as (q & K & F).
      + exists (align S T). split; [apply word_entry; eauto|]. split; [|reflexivity]. symmetry. apply input_align. exact (proj1 (entry_zero _ _ _ _ _ _ _ _ M _ _ E)).
      + exists S, d, (entries (align S T)), q. auto.
  Qed.
  Lemma memory_texts : forall l s q, rpath (p_find P) (p_root P) l s q -> final_weight q (all_finals P) <> None -> Forall (fun x => scalar (fst x)) s.
  Proof.
    intros l s q K F. destruct (proj1 (ld_whole _ _ L l s) (ex_intro _ q (conj K F))) as (v & Hw & _ & ->). apply word_entry in Hw as (S & T & E & ->).
    pose proof (entry_scalar _ _ _ _ _ _ _ _ M _ _ E) as Sc. clear - Sc. unfold entries. apply Forall_forall. intros x Hx. apply in_map_iff in Hx as (p & <- & Hp). cbn [fst].
    apply align_right in Hp as [Hp|Hp]; [rewrite Forall_forall in Sc; now apply Sc|]. rewrite Hp. apply ascii_scalar. lia.
  Qed.
  (** What is written for a state *)
  Lemma memory_gives : gives P (translations isspace isdigit (p_isupper Q) (p_tolower Q) lo lm us).
  Proof.
    intros w st t Es _ Sl. destruct (tstate_exact P (ld_once _ _ L) (ld_zero _ _ L) w st Es) as (A & -> & [N I]).
    set (fin := fun x : list (Z * Z) * (@vns Z) => match final_weight (v_where (snd x)) (all_finals P) with Some _ => true | None => false end).
    set (B := filter fin A).
    assert (HB : forall x, In x B -> exists S T d, entry S T /\ fst x = (0, 0) :: align S T /\ CompoundProps.reading (p_isupper Q) (p_tolower Q) false w S d
      /\ v_seq (snd x) = entries (align S T)).
    { intros [v e] H. apply filter_In in H as [H Hf]. apply I in H as (T & E & R). cbn [fst snd] in *. unfold fin in Hf. cbn [snd] in Hf.
      destruct (proj1 (ld_trace _ _ L v)) as (v' & -> & Hw); [exists (v_where e); split; [exact T|destruct (final_weight (v_where e) (all_finals P)); congruence]|].
      apply word_entry in Hw as (S & T' & En & ->). destruct (entry_zero _ _ _ _ _ _ _ _ M _ _ En) as [Z1 Z2]. exists S, T', (v_dirty e). split; [exact En|]. split; [reflexivity|]. split.
      - rewrite input_cons in R. cbn [fst Z.eqb app] in R. rewrite input_align in R by exact Z1. rewrite (ld_upper _ _ L), (ld_lower _ _ L) in R. exact R.
      - rewrite E. change (outs ((0, 0) :: align S T')) with (outs (align S T')). apply outs_entries. apply Forall_forall. intros p Hp. exact (align_nonzero S T' p Z1 Z2 Hp). }
    set (sides := fun x : list (Z * Z) * (@vns Z) => (input (fst x), written (fst x))).
    assert (HS : forall x S T, entry S T -> fst x = (0, 0) :: align S T -> sides x = (S, T)).
    { intros x S T En E. destruct (entry_zero _ _ _ _ _ _ _ _ M _ _ En) as [Z1 Z2]. unfold sides. rewrite E. f_equal.
      - rewrite input_cons. cbn [fst Z.eqb app]. now apply input_align.
      - unfold written. cbn [map snd filter Z.eqb negb]. now apply written_align. }
    exists (map sides B). split; [|split].
    - assert (NB : NoDup (map fst B)).
      { unfold B. clear - N. induction A as [|x A IH]; [constructor|]. cbn [map] in N. inversion N as [|? ? N1 N2]; subst. cbn [filter]. destruct (fin x); [|auto]. cbn [map]. constructor; [|auto].
        intros K. apply N1. apply in_map_iff in K as (y & E & K). apply filter_In in K as [K _]. rewrite <- E. now apply in_map. }
      clear - NB HB HS. induction B as [|x B IH]; [constructor|]. cbn [map] in *. inversion NB as [|? ? N1 N2]; subst. constructor; [|apply IH; [intros y Hy; apply HB; now right|exact N2]].
      intros K. apply in_map_iff in K as (y & E & K). apply N1. destruct (HB x (or_introl eq_refl)) as (S & T & d & En & Ex & _). destruct (HB y (or_intror K)) as (S' & T' & d' & En' & Ey & _).
      rewrite (HS _ _ _ En Ex), (HS _ _ _ En' Ey) in E. injection E as -> ->. rewrite Ex, <- Ey. now apply in_map.
    - intros S T. split.
      + intros K. apply in_map_iff in K as (x & E & K). destruct (HB x K) as (S' & T' & d & En & Ex & R & _). rewrite (HS _ _ _ En Ex) in E. injection E as <- <-. split; [exact En|now exists d].
      + intros [En (d & R)]. destruct (entry_zero _ _ _ _ _ _ _ _ M _ _ En) as [Z1 Z2]. destruct (proj2 (ld_trace _ _ L ((0, 0) :: align S T))) as (q & Tr & F); [exists (align S T); split; [reflexivity|apply word_entry; eauto]|].
        apply in_map_iff. exists ((0, 0) :: align S T, mkV q (outs ((0, 0) :: align S T)) d). split; [now apply HS|]. apply filter_In. split.
        * apply I. split; [exact Tr|]. split; [reflexivity|]. cbn [fst snd v_dirty]. rewrite input_cons. cbn [fst Z.eqb app]. rewrite input_align by exact Z1. rewrite (ld_upper _ _ L), (ld_lower _ _ L). exact R.
        * unfold fin. cbn [snd v_where]. destruct (final_weight q (all_finals P)); congruence.
    - unfold B in *. clear B. clear - Sl HB HS M. revert t Sl HB. induction A as [|[v e] A IH]; intros t Sl HB; cbn [map snd] in Sl.
      + inversion Sl; subst. exists []. split; [constructor|reflexivity].
      + cbn [filter] in HB |- *. inversion Sl as [|q s d st x t' F Sp Sl' E|q s d st t' F Sl' E]; subst; unfold fin at 1 in HB; unfold fin at 1; cbn [snd v_where] in HB |- *.
        * destruct (final_weight q (all_finals P)) eqn:Ef; [|congruence]. destruct (IH _ Sl' ltac:(intros y Hy; apply HB; now right)) as (xs & F2 & ->). exists (x :: xs). split; [|reflexivity].
          cbn [map]. constructor; [|exact F2]. destruct (HB _ (or_introl eq_refl)) as (S & T & d' & En & Ex & _ & Ev). rewrite (HS _ _ _ En Ex). cbn [snd v_seq] in *. subst s.
          apply spelled_printed in Sp. rewrite written_align in Sp by exact (proj2 (entry_zero _ _ _ _ _ _ _ _ M _ _ En)). exact Sp.
        * rewrite F in HB |- *. exact (IH _ Sl' HB).
  Qed.
End Memory.
