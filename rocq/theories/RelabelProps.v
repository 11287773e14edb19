(** Properties C25-C28 and C30: inverting, re-basing, deleting and epsilonising symbols,
    character equivalences, recognition. *)
From Verif Require Import Base CompressionModel SerialiserModel SortedVectorModel SortedVectorProofs
  AlphabetModel AlphabetProofs AlphabetProps TransducerModel TransducerSpec TransducerProofs NatSets ClosureProofs
  RelabelModel RelabelSpec RelabelProofs AutomataProps.

(** An alphabet with a tag and some pairs, used in the examples: pair 0 is ε:ε, 1 is a:b,
    2 is a:<n>, 3 is b:b. *)
Definition aE : alphabet :=
  after [OpInclude [60; 110; 62]; OpPair (97, 98); OpPair (97, -1); OpPair (98, 98)].
Definition tE : transducer :=
  mkT 0 [(2%nat, 7)] [[(1, (1%nat, 3)); (2, (1%nat, 1))]; [(0, (1%nat, 2)); (3, (2%nat, 4))]; []].
Lemma tE_wf : wf tE. Proof. apply wfb_wf. reflexivity. Qed.
Lemma aE_inv : alph_inv aE. Proof. apply after_inv. Qed.
Lemma tE_tags : tags_in tE aE.
Proof.
  intros p tag q w H. assert (L := has_arc_lt _ _ _ _ _ H). unfold nstates in L. cbn in L.
  destruct p as [|[|[|p]]]; [| | |lia]; unfold has_arc, arcs_of in H; cbn in H; intuition;
    match goal with E : (_, _) = (_, _) |- _ => injection E as <- <- <-; eexists; reflexivity end.
Qed.

(** * C25 *)
(** The transducer after invert, trace by trace. *)
Theorem C25_traces : forall t a, alph_inv a -> tags_in t a ->
  exists t' a', invert t a = Ok (t', a') /\ same_frame t t' /\ tags_in t' a' /\ alph_inv a' /\ (wf t -> wf t')
    /\ (forall tag p, decode tag a = Ok p -> decode tag a' = Ok p)
    /\ forall tr f, accepts_trace (as_pair a') t' (map (fun x => ((snd (fst x), fst (fst x)), snd x)) tr) f
         <-> accepts_trace (as_pair a) t tr f.
Proof.
  intros t a I T. destruct (invert_spec t a I T) as (t' & a' & E & I' & X & F & R). exists t', a'.
  split; [exact E|]. split; [exact F|]. split; [|split; [exact I'|split]].
  - intros p b q w H. destruct (R p) as (bs & Hb & Hr). unfold has_arc in H. rewrite Hb in H. apply mm_all_in in H as [H|[]].
    destruct (proj1 (relabelled_in _ _ _ b (q, w) Hr) H) as (c & _ & pr & _ & Hd). eauto.
  - intros W. eapply rewritten_wf; [exact W|exact F|exact R].
  - split; [intros tag p; now apply decode_extends|]. intros tr f.
    rewrite (accepts_sim _ _ (fun x y => y = swap x) t t' F (invert_arcs_iff t a t' a' I' X T R)). split.
    + intros (tr0 & H & G). replace tr with tr0; [exact H|]. clear - G. revert tr G. induction tr0 as [|[[u v] w] tr0 IH]; intros tr G.
      * inversion G as [E|]. destruct tr; [reflexivity|discriminate].
      * destruct tr as [|[[u' v'] w'] tr]; [inversion G|]. cbn [map fst snd] in G. inversion G as [|? ? ? ? [H1 H2] G']; subst.
        cbn in H1, H2. unfold swap in H1. cbn in H1. injection H1 as -> ->. subst w'. f_equal. now apply IH.
    + intros H. exists tr. split; [exact H|]. clear. induction tr as [|[[u v] w] tr IH]; constructor; auto.
Qed.

Theorem C25_relation : forall t a t' a', alph_inv a -> tags_in t a -> invert t a = Ok (t', a') ->
  forall x y c, relates t' a' y x c <-> relates t a x y c.
Proof.
  intros t a t' a' I T E x y c. destruct (C25_traces t a I T) as (t1 & a1 & E1 & _ & _ & _ & _ & _ & H).
  rewrite E in E1. injection E1 as <- <-. unfold relates.
  assert (A : forall tr, in_word (map (fun x => ((snd (fst x), fst (fst x)), snd x)) tr) = out_word tr
    /\ out_word (map (fun x => ((snd (fst x), fst (fst x)), snd x)) tr) = in_word tr
    /\ weight_of (map (fun x => ((snd (fst x), fst (fst x)), snd x)) tr) = weight_of tr).
  { intros tr. unfold in_word, out_word, weight_of. rewrite !map_map. cbn. split; [reflexivity|]. split; [reflexivity|].
    induction tr as [|u tr IH]; [reflexivity|]. cbn. now rewrite IH. }
  split.
  - intros (tr & f & H1 & H2 & H3 & H4). set (tr' := map (fun x => ((snd (fst x), fst (fst x)), snd x)) tr).
    exists tr', f. destruct (A tr) as (A1 & A2 & A3). fold tr' in A1, A2, A3. rewrite A1, A2, A3. split; [|auto].
    apply H. assert (D : map (fun x => ((snd (fst x), fst (fst x)), snd x)) tr' = tr).
    { unfold tr'. rewrite map_map. clear. induction tr as [|[[u v] w] tr IH]; [reflexivity|]. cbn [map fst snd] in *. f_equal. exact IH. }
    rewrite D. exact H1.
  - intros (tr & f & H1 & H2 & H3 & H4). exists (map (fun x => ((snd (fst x), fst (fst x)), snd x)) tr), f.
    destruct (A tr) as (A1 & A2 & A3). rewrite A1, A2, A3. split; [now apply H|auto].
Qed.

(** Inverting twice gives back the very same transducer. *)
Theorem C25_twice : forall t a t' a', wf t -> alph_inv a -> tags_in t a -> invert t a = Ok (t', a') ->
  exists a'', invert t' a' = Ok (t, a'').
Proof.
  intros t a t' a' W I T E.
  destruct (invert_spec t a I T) as (t1 & a1 & E1 & I1 & X1 & F1 & R1). rewrite E in E1. injection E1 as <- <-.
  destruct (C25_traces t a I T) as (t1 & a1 & E1 & _ & T' & _). rewrite E in E1. injection E1 as <- <-.
  destruct (invert_spec t' a' I1 T') as (t2 & a2 & E2 & I2 & X2 & F2 & R2). exists a2. rewrite E2.
  destruct F1 as (Fi1 & Ff1 & Fn1), F2 as (Fi2 & Ff2 & Fn2).
  destruct t2 as [i2 f2 ts2], t as [i f ts]. cbn [initial finals] in *. unfold nstates in *. cbn [trans] in *.
  replace ts2 with ts; [subst; congruence|]. apply nth_ext with (d := []) (d' := []); [congruence|].
  intros p _. destruct (R1 p) as (bs & Hb & Rb). destruct (R2 p) as (cs & Hc & Rc). unfold arcs_of in *. cbn [trans] in *.
  rewrite Hc. symmetry. eapply invert_twice_arcs; [exact I2|apply (wf_sorted _ W p)| |].
  - eapply relabelled_weaken; [|exact Rb]. intros u v. now apply swapped_extends.
  - rewrite <- Hb. exact Rc.
Qed.

Example C25_example : exists t' a', invert tE aE = Ok (t', a')
  /\ arcs_of t' 0 = [(4, (1%nat, 3)); (5, (1%nat, 1))] /\ decode 4 a' = Ok (98, 97) /\ decode 5 a' = Ok (-1, 97)
  /\ relates tE aE [97; 98] [-1; 98] 14 /\ relates t' a' [-1; 98] [97; 98] 14.
Proof.
  eexists. eexists. split; [vm_compute; reflexivity|]. do 3 (split; [reflexivity|]).
  assert (H : relates tE aE [97; 98] [-1; 98] 14).
  { exists [((97, -1), 1); ((0, 0), 2); ((98, 98), 4)], 7. split; [|repeat split].
    exists 2%nat. split; [|now left].
    apply (trace_cons _ _ 0 2 _ 1 1%nat); [right; now left|reflexivity|].
    apply (trace_cons _ _ 1 0 _ 2 1%nat); [now left|reflexivity|].
    apply (trace_cons _ _ 1 3 _ 4 2%nat); [right; now left|reflexivity|]. constructor. }
  split; [exact H|]. eapply C25_relation; [apply aE_inv|apply tE_tags|vm_compute; reflexivity|exact H].
Qed.

(** * C26 *)
Theorem C26_pairs : forall old new t, alph_inv new -> symbols_in t old ->
  exists t' new', updateAlphabet old new true t = Ok (t', new') /\ same_frame t t' /\ (wf t -> wf t') /\ alph_inv new'
    /\ (forall tag p, decode tag new = Ok p -> decode tag new' = Ok p)
    /\ (forall s name, getSymbol s new = Ok name -> getSymbol s new' = Ok name)
    /\ (forall p x q w, (exists tag, has_arc t' p tag q w /\ as_symbols new' tag x) <-> (exists tag, has_arc t p tag q w /\ as_symbols old tag x))
    /\ symbols_in t' new'
    /\ forall tr f, accepts_trace (as_symbols new') t' tr f <-> accepts_trace (as_symbols old) t tr f.
Proof.
  intros old new t I S. destruct (updateAlphabet_pairs old new t I S) as (t' & n' & E & I' & X & F & R). exists t', n'.
  split; [exact E|]. split; [exact F|]. split; [intros W; eapply rewritten_wf; eauto|]. split; [exact I'|].
  split; [intros tag p; now apply decode_extends|]. split; [intros s n; now apply getSymbol_extends|].
  assert (A := rewritten_arcs (as_symbols old) (as_symbols n') _ t t' R (as_symbols_fun old) (as_symbols_fun n') (fun a b H => H)).
  split; [|split].
  - intros p x q w. rewrite A. split; [intros (a & y & H1 & H2 & ->)|intros (a & H1 & H2)]; eauto.
  - intros p b q w H. destruct (R p) as (bs & Hb & Hr). unfold has_arc in H. rewrite Hb in H. apply mm_all_in in H as [H|[]].
    destruct (proj1 (relabelled_in _ _ _ b (q, w) Hr) H) as (c & _ & x & _ & Hd). eauto.
  - intros tr f. rewrite (accepts_sim _ _ _ t t' F A). split.
    + intros (tr0 & H & G). apply trace_eq in G. now subst.
    + intros H. exists tr. split; [exact H|]. now apply trace_eq.
Qed.

(** In one-sided mode a tag is itself a symbol.  When every character code happens to be
    the number of a pair of the old alphabet, the result is right. *)
Theorem C26_single_partial : forall old new t, alph_inv new ->
  (forall p tag q w, has_arc t p tag q w ->
     if tag <? 0 then exists name, getSymbol tag old = Ok name else exists x, as_symbols old tag x) ->
  exists t' new', updateAlphabet old new false t = Ok (t', new') /\ same_frame t t' /\ alph_inv new'
    /\ (forall s name, getSymbol s new = Ok name -> getSymbol s new' = Ok name)
    /\ forall tr f, accepts_trace (as_symbol new') t' tr f <-> accepts_trace (as_symbol old) t tr f.
Proof.
  intros old new t I S. destruct (updateAlphabet_single old new t I) as (t' & n' & E & I' & X & F & R).
  { intros p tag q w H. unfold ua_ok. cbn [negb andb]. specialize (S p tag q w H). destruct (Z.ltb_spec tag 0); [|exact S].
    destruct S as (n & Hn). exists (STag n). split; auto. }
  exists t', n'. split; [exact E|]. split; [exact F|]. split; [exact I'|]. split; [intros s n; now apply getSymbol_extends|].
  assert (A := rewritten_arcs (as_symbol old) (as_symbol n') _ t t' R (as_symbol_fun old) (as_symbol_fun n') (fun a b H => H)).
  intros tr f. rewrite (accepts_sim _ _ _ t t' F A). split.
  - intros (tr0 & H & G). apply trace_eq in G. now subst.
  - intros H. exists tr. split; [exact H|]. now apply trace_eq.
Qed.

(** Otherwise the pair table is read out of bounds: a transducer for the letter a. *)
Theorem C26_single_refuted : exists old new t, alph_inv old /\ alph_inv new /\ wf t
  /\ accepts_trace (as_symbol old) t [(SChar 97, 0)] 0
  /\ updateAlphabet old new false t = UB.
Proof.
  exists aE, aE, (mkT 0 [(1%nat, 0)] [[(97, (1%nat, 0))]; []]). split; [apply aE_inv|]. split; [apply aE_inv|].
  split; [apply wfb_wf; reflexivity|]. split; [|vm_compute; reflexivity].
  exists 1%nat. split; [|now left]. apply (trace_cons _ _ 0 97 _ 0 1%nat); [now left|split; [lia|reflexivity]|constructor].
Qed.

Definition aN : alphabet := after [OpInclude [60; 118; 62]; OpPair (120, -1); OpInclude [60; 110; 62]].
Example C26_example : exists t' a', updateAlphabet aE aN true tE = Ok (t', a')
  /\ map (map a_tag) (trans t') = [[2; 3]; [0; 4]; []] /\ decode 3 a' = Ok (97, -2) /\ getSymbol (-2) a' = Ok [60; 110; 62]
  /\ accepts_trace (as_symbols a') t' [((SChar 97, STag [60; 110; 62]), 1); ((SChar 98, SChar 98), 4)] 7.
Proof.
  eexists. eexists. split; [vm_compute; reflexivity|]. do 3 (split; [reflexivity|]).
  exists 2%nat. split; [|now left].
  apply (trace_cons _ _ 0 3 _ 1 1%nat); [right; now left| |].
  { exists 97, (-2). split; [reflexivity|]. split; split; try lia; reflexivity. }
  apply (trace_cons _ _ 1 4 _ 4 2%nat); [right; now left| |constructor].
  exists 98, 98. split; [reflexivity|]. split; split; try lia; reflexivity.
Qed.

(** * C27 *)
Theorem C27_delete : forall syms t,
  same_frame t (deleteSymbols syms t) /\ (wf t -> wf (deleteSymbols syms t))
  /\ (forall p l q, path (deleteSymbols syms t) p l q <-> path t p l q /\ forall x, In x l -> ~ In (fst x) syms)
  /\ forall l f, accepts_from (deleteSymbols syms t) (initial (deleteSymbols syms t)) l f
       <-> accepts_from t (initial t) l f /\ forall x, In x l -> ~ In (fst x) syms.
Proof.
  intros syms t.
  assert (F : same_frame t (deleteSymbols syms t)) by apply same_frame_map.
  assert (P : forall p l q, path (deleteSymbols syms t) p l q <-> path t p l q /\ forall x, In x l -> ~ In (fst x) syms).
  { intros p l q. split.
    - induction 1 as [p|p a w q l r Ha _ [IH1 IH2]]; [split; [constructor|intros x []]|].
      apply delete_arc in Ha as [Ha Hn]. split; [econstructor; eauto|]. intros x [<-|Hx]; [exact Hn|auto].
    - intros [H Hn]. induction H as [p|p a w q l r Ha _ IH]; [constructor|].
      econstructor; [apply delete_arc; split; [exact Ha|]; apply (Hn (a, w)); now left|]. apply IH. intros x Hx. apply Hn. now right. }
  split; [exact F|]. split; [|split; [exact P|]].
  - intros W. destruct F as (F1 & F2 & F3). split.
    + rewrite F1, F3. apply W.
    + unfold final_wt. rewrite F2, F3. apply W.
    + rewrite F2. apply W.
    + intros p a q w Ha. rewrite F3. apply delete_arc in Ha as [Ha _]. exact (wf_arcs t W _ _ _ _ Ha).
    + intros p. unfold arcs_of, deleteSymbols. cbn [trans]. rewrite nth_map_nil.
      * apply erase_all_sorted. apply (wf_sorted t W p).
      * clear. induction syms; [reflexivity|exact IHsyms].
  - intros l f. unfold accepts_from. split.
    + intros (q & H & Hf). apply P in H as [H Hn]. split; [exists q; auto|exact Hn].
    + intros [(q & H & Hf) Hn]. exists q. split; [apply P; auto|exact Hf].
Qed.

(** Epsilonising: terminates within as many steps as a state has arcs, and erases exactly
    the given symbols. *)
Theorem C27_epsilonize : forall fuel syms t, wf t -> ~ In 0 syms -> (forall p, (length (arcs_of t p) <= fuel)%nat) ->
  exists t', epsilonizeSymbols fuel syms t = Ok t' /\ same_frame t t' /\ wf t'
    /\ (forall p l' q, path t' p l' q <-> exists l, path t p l q
          /\ Forall2 (fun x x' => snd x' = snd x /\ ((In (fst x) syms /\ fst x' = 0) \/ (~ In (fst x) syms /\ fst x' = fst x))) l l')
    /\ forall w c, wlang t' 0 w c <-> exists w0, wlang t 0 w0 c /\ w = filter (fun a => negb (existsb (Z.eqb a) syms)) w0.
Proof.
  intros fuel syms t W Hz Hf. destruct (epsilonize_spec fuel syms t W Hz Hf) as (t' & E & F & W' & A). exists t'.
  split; [exact E|]. split; [exact F|]. split; [exact W'|].
  assert (P := relabel_path (eps_tag syms) t t' A).
  assert (Q : forall l l', Forall2 (fun x x' : label => snd x' = snd x /\ ((In (fst x) syms /\ fst x' = 0) \/ (~ In (fst x) syms /\ fst x' = fst x))) l l'
     <-> l' = map (fun x => (eps_tag syms (fst x), snd x)) l).
  { intros l l'. split.
    - induction 1 as [|[a w] [a' w'] l l' [H1 H2] _ IH]; [reflexivity|]. cbn [map fst snd] in *. subst w'. rewrite <- IH. f_equal. f_equal.
      unfold eps_tag. destruct (in_dec Z.eq_dec a syms); destruct H2 as [[? ?]|[? ?]]; try contradiction; assumption.
    - intros ->. induction l as [|[a w] l IH]; constructor; [|exact IH]. cbn [fst snd]. split; [reflexivity|].
      unfold eps_tag. destruct (in_dec Z.eq_dec a syms); auto. }
  split.
  - intros p l' q. rewrite P. split; intros (l & H1 & H2); exists l; split; auto; now apply Q.
  - destruct F as (F1 & F2 & _).
    assert (Wd : forall l, word_of 0 (map (fun x => (eps_tag syms (fst x), snd x)) l) = filter (fun a => negb (existsb (Z.eqb a) syms)) (word_of 0 l)).
    { induction l as [|[a w] l IH]; [reflexivity|]. unfold word_of in *. cbn [map filter fst]. unfold eps_tag at 1.
      destruct (in_dec Z.eq_dec a syms) as [Hi|Hi].
      - cbn [Z.eqb negb]. rewrite IH. destruct (Z.eqb_spec a 0) as [->|]; [contradiction|]. cbn [negb map filter fst].
        replace (existsb (Z.eqb a) syms) with true; [reflexivity|]. symmetry. apply existsb_exists. exists a. split; [exact Hi|apply Z.eqb_refl].
      - destruct (Z.eqb_spec a 0) as [->|]; cbn [negb].
        + exact IH.
        + cbn [map filter fst]. unfold eps_tag at 1. destruct (in_dec Z.eq_dec a syms); [contradiction|].
          replace (existsb (Z.eqb a) syms) with false; [cbn [negb]; now rewrite IH|]. symmetry. apply not_true_is_false. intros H.
          apply existsb_exists in H as (b & Hb & Hab). apply Z.eqb_eq in Hab. subst. contradiction. }
    assert (Cd : forall l, cost_of (map (fun x => (eps_tag syms (fst x), snd x)) l) = cost_of l).
    { induction l as [|x l IH]; [reflexivity|]. unfold cost_of in *. cbn [map fold_right snd]. now rewrite IH. }
    intros w c. unfold wlang, accepts_from, final_wt. rewrite F1, F2. split.
    + intros (l' & f & (q & H & Hq) & <- & <-). apply P in H as (l & H & ->). rewrite Wd, Cd. exists (word_of 0 l). split; [|reflexivity].
      exists l, f. split; [exists q; auto|auto].
    + intros (w0 & (l & f & (q & H & Hq) & <- & <-) & ->). exists (map (fun x => (eps_tag syms (fst x), snd x)) l), f.
      split; [exists q; split; [apply P; eauto|exact Hq]|]. split; [apply Wd|now rewrite Cd].
Qed.

(** With the epsilon pair among the symbols the loop never ends, whenever the transducer
    has an epsilon transition. *)
Theorem C27_epsilonize_refuted : forall syms t p q w, In 0 syms -> has_arc t p 0 q w ->
  forall fuel, epsilonizeSymbols fuel syms t = NoFuel.
Proof.
  intros syms t p q w Hz Ha fuel. unfold epsilonizeSymbols. rewrite eps_states_zero; [reflexivity|exact Hz|].
  exists (arcs_of t p), (q, w). split; [|exact Ha]. apply nth_In. exact (has_arc_lt _ _ _ _ _ Ha).
Qed.

Example C27_example : arcs_of (deleteSymbols [2; 3] tE) 0 = [(1, (1%nat, 3))] /\ arcs_of (deleteSymbols [2; 3] tE) 1 = [(0, (1%nat, 2))]
  /\ epsilonizeSymbols 2 [1; 3] tE
     = Ok (mkT 0 [(2%nat, 7)] [[(0, (1%nat, 3)); (2, (1%nat, 1))]; [(0, (1%nat, 2)); (0, (2%nat, 4))]; []])
  /\ epsilonizeSymbols 1000 [0] tE = NoFuel.
Proof. vm_compute. repeat split. Qed.

(** * C28 *)
Theorem C28_applyACX : forall acx t a, NoDup (map fst acx) -> alph_inv a -> tags_in t a ->
  exists t' a', applyACX acx t a = Ok (t', a') /\ same_frame t t' /\ alph_inv a' /\ (wf t -> wf t')
    /\ (forall tag p, decode tag a = Ok p -> decode tag a' = Ok p)
    /\ forall tr' f, accepts_trace (as_pair a') t' tr' f <->
         exists tr, accepts_trace (as_pair a) t tr f
           /\ Forall2 (fun x x' => snd x' = snd x /\ snd (fst x') = snd (fst x)
                /\ (fst (fst x') = fst (fst x) \/ equivalent acx (fst (fst x)) (fst (fst x')))) tr tr'.
Proof.
  intros acx t a ND I T. destruct (applyACX_spec acx t a I T) as (t' & a' & E & I' & X & F & R). exists t', a'.
  assert (A := applyACX_arcs acx t a t' a' X T R).
  split; [exact E|]. split; [exact F|]. split; [exact I'|]. split; [|split].
  - intros W. destruct F as (F1 & F2 & F3). split.
    + rewrite F1, F3. apply W.
    + unfold final_wt. rewrite F2, F3. apply W.
    + rewrite F2. apply W.
    + intros p b q w Ha. rewrite F3. destruct (R p) as (ins & Hb & H1 & _). unfold has_arc in Ha. rewrite Hb in Ha.
      apply mm_all_in in Ha as [Ha|Ha]; [|exact (wf_arcs t W _ _ _ _ Ha)].
      destruct (H1 _ _ Ha) as (c & i & o & i' & Hc & _). exact (wf_arcs t W _ _ _ _ Hc).
    + intros p. destruct (R p) as (ins & Hb & _). rewrite Hb. apply mm_all_sorted. apply (wf_sorted t W p).
  - intros tag p. now apply decode_extends.
  - assert (Eq : forall i i', acx_equiv acx i i' <-> equivalent acx i i').
    { intros i i'. unfold acx_equiv, equivalent. split; intros (s & H1 & H2); exists s; split; auto.
      - clear - H1. induction acx as [|[j l] acx IH]; [discriminate|]. cbn [acx_find] in H1. destruct (Z.eqb_spec i j) as [->|].
        + injection H1 as ->. now left.
        + right. auto.
      - clear - H1 ND. induction acx as [|[j l] acx IH]; [destruct H1|]. cbn [acx_find]. cbn in ND. inversion ND as [|? ? Hn ND']; subst.
        destruct (Z.eqb_spec i j) as [->|Hne].
        + destruct H1 as [H1|H1]; [injection H1 as ->; reflexivity|]. exfalso. apply Hn. apply in_map_iff. exists (j, s). auto.
        + destruct H1 as [H1|H1]; [congruence|auto]. }
    intros tr' f. rewrite (accepts_sim _ _ _ t t' F A). split; intros (tr & H & G); exists tr; split; auto; clear - G Eq.
    + induction G as [|x y tr tr' [[H1 H2] H3] _ IH]; constructor; auto. split; [now symmetry|]. split; [now symmetry|].
      destruct H2 as [H2|H2]; [left; now symmetry|right; now apply Eq].
    + induction G as [|x y tr tr' (H1 & H2 & H3) _ IH]; constructor; auto. split; [|now symmetry]. split; [now symmetry|].
      destruct H3 as [H3|H3]; [left; now symmetry|right; now apply Eq].
Qed.

Example C28_example : exists t' a', applyACX [(97, [224; 225])] tE aE = Ok (t', a')
  /\ map a_tag (arcs_of t' 0) = [1; 2; 4; 5; 6; 7] /\ map (fun c => decode c a') [4; 5; 6; 7] = [Ok (224, 98); Ok (225, 98); Ok (224, -1); Ok (225, -1)]
  /\ relates t' a' [225; 98] [-1; 98] 12 /\ equivalent [(97, [224; 225])] 97 225.
Proof.
  eexists. eexists. split; [vm_compute; reflexivity|]. do 2 (split; [reflexivity|]). split.
  - exists [((225, -1), 1); ((98, 98), 4)], 7. split; [|repeat split]. exists 2%nat. split; [|now left].
    apply (trace_cons _ _ 0 7 _ 1 1%nat); [cbn; tauto|reflexivity|].
    apply (trace_cons _ _ 1 3 _ 4 2%nat); [right; now left|reflexivity|]. constructor.
  - exists [224; 225]. split; [now left|right; now left].
Qed.

(** * C30 *)
(** Exactly what is accepted: a path whose non-epsilon tags have, one by one, an input
    symbol whose spelling contains the unit. *)
Theorem C30_exact : forall t a pat, wf t -> decode 0 a = Ok (0, 0) ->
  (forall p tag q w, has_arc t p tag q w -> exists i o s, decode tag a = Ok (i, o) /\ getSymbol i a = Ok s) ->
  exists b, recognise pat a t = Ok b
    /\ (b = true <-> exists l f, accepts_from t (initial t) l f
          /\ Forall2 (fun u tag => exists i o s, decode tag a = Ok (i, o) /\ getSymbol i a = Ok s /\ In u s) pat (word_of 0 l)).
Proof. intros t a pat W Z0 T. exact (recognise_spec t a W T Z0 pat). Qed.

(** It agrees with the input side when every tag is the epsilon pair or has one BMP
    character as input. *)
Theorem C30_characters_partial : forall t a pat, wf t -> decode 0 a = Ok (0, 0) ->
  (forall p tag q w, has_arc t p tag q w -> tag <> 0 -> exists i o, decode tag a = Ok (i, o) /\ 0 < i < 65536) ->
  exists b, recognise pat a t = Ok b
    /\ (b = true <-> exists l f, accepts_from t (initial t) l f /\ spells a l pat).
Proof.
  intros t a pat W Z0 T.
  assert (G : forall i, 0 < i < 65536 -> getSymbol i a = Ok [i]).
  { intros i Hi. unfold getSymbol. replace (i =? 0) with false by lia. replace (i <? 0) with false by lia.
    unfold append_cp. replace (i <=? 65535) with true by lia. cbn [app]. do 2 f_equal. apply Z.mod_small. lia. }
  destruct (C30_exact t a pat W Z0) as (b & Hb & H).
  { intros p tag q w Ha. destruct (Z.eq_dec tag 0) as [->|Hn].
    - exists 0, 0, []. split; [exact Z0|reflexivity].
    - destruct (T p tag q w Ha Hn) as (i & o & Hd & Hi). exists i, o, [i]. auto. }
  exists b. split; [exact Hb|]. rewrite H. clear H Hb.
  assert (K : forall p l q, path t p l q -> forall pat,
    (Forall2 (fun u tag => exists i o s, decode tag a = Ok (i, o) /\ getSymbol i a = Ok s /\ In u s) pat (word_of 0 l) <-> spells a l pat)).
  { intros p l q Hp. induction Hp as [p|p c w q l r Ha _ IH]; intros u.
    - split; intros H; inversion H; constructor.
    - unfold word_of. cbn [filter fst]. destruct (Z.eqb_spec c 0) as [->|Hn]; cbn [negb map fst].
      + change (map fst (filter (fun x : label => negb (fst x =? 0)) l)) with (word_of 0 l). rewrite IH. split.
        * intros H. exact (spells_cons a 0 w l 0 0 [] u Z0 eq_refl H).
        * intros H. inversion H as [|? ? ? i o v s H1 H2 H3]; subst. rewrite Z0 in H1. injection H1 as <- <-. cbn in H2. injection H2 as <-. exact H3.
      + change (map fst (filter (fun x : label => negb (fst x =? 0)) l)) with (word_of 0 l).
        destruct (T p c q w Ha Hn) as (i & o & Hd & Hi). split.
        * intros H. inversion H as [|x ? u' ? (i' & o' & s & K1 & K2 & K3) H']; subst. rewrite Hd in K1. injection K1 as <- <-.
          rewrite (G i Hi) in K2. injection K2 as <-. destruct K3 as [->|[]].
          apply (spells_cons a c w l x o [x] u' Hd (G x Hi)). now apply IH.
        * intros H. inversion H as [|? ? ? i' o' v s H1 H2 H3]; subst. rewrite Hd in H1. injection H1 as <- <-.
          rewrite (G i Hi) in H2. injection H2 as <-. cbn [app]. constructor; [|now apply IH]. exists i, o, [i]. repeat split; auto. now left. }
  split; intros (l & f & (q & Hp & Hf) & F); exists l, f; (split; [exists q; auto|]); now apply (K _ _ _ Hp).
Qed.

(** In general it does not: the tag <n> is taken for the letter n, and is not accepted
    itself; a pair with empty input is not passed. *)
Definition tR : transducer := mkT 0 [(1%nat, 0)] [[(1, (1%nat, 0))]; []].
Definition aR : alphabet := after [OpInclude [60; 110; 62]; OpPair (-1, 97)].
Definition aR2 : alphabet := after [OpPair (0, 97)].
Theorem C30_refuted :
  (recognise [110] aR tR = Ok true /\ ~ exists l f, accepts_from tR (initial tR) l f /\ spells aR l [110])
  /\ (recognise [60; 110; 62] aR tR = Ok false /\ exists l f, accepts_from tR (initial tR) l f /\ spells aR l [60; 110; 62])
  /\ (recognise [] aR2 tR = Ok false /\ exists l f, accepts_from tR (initial tR) l f /\ spells aR2 l []).
Proof.
  assert (A : accepts_from tR (initial tR) [(1, 0)] 0).
  { exists 1%nat. split; [|now left]. econstructor; [now left|constructor]. }
  split; [|split].
  - split; [vm_compute; reflexivity|]. intros (l & f & (q & Hp & Hf) & Hs). cbn in Hp.
    unfold final_wt in Hf. cbn in Hf. destruct Hf as [Hf|[]]. injection Hf as <- <-.
    inversion Hs as [E|tag w l' i o u s H1 H2 H3 E1 E2]; subst.
    inversion Hp as [|? ? ? q ? ? Ha Hp']; subst. unfold has_arc in Ha. cbn in Ha. destruct Ha as [Ha|[]]. injection Ha as <- <- <-.
    vm_compute in H1. injection H1 as <- <-. vm_compute in H2. injection H2 as <-. discriminate.
  - split; [vm_compute; reflexivity|]. exists [(1, 0)], 0. split; [exact A|].
    apply (spells_cons aR 1 0 [] (-1) 97 [60; 110; 62] []); [reflexivity|reflexivity|constructor].
  - split; [vm_compute; reflexivity|]. exists [(1, 0)], 0. split; [exact A|].
    apply (spells_cons aR2 1 0 [] 0 97 [] []); [reflexivity|reflexivity|constructor].
Qed.

Definition aC : alphabet := after [OpPair (97, 98); OpPair (98, 0); OpPair (99, -1)].
Example C30_example : recognise [97; 98] aC tE = Ok false /\ recognise [97; 99] aC tE = Ok true /\ recognise [98; 99] aC tE = Ok true
  /\ recognise [97] aC tE = Ok false.
Proof. vm_compute. repeat split. Qed.

Print Assumptions C25_traces.
Print Assumptions C25_relation.
Print Assumptions C25_twice.
Print Assumptions C26_pairs.
Print Assumptions C26_single_partial.
Print Assumptions C26_single_refuted.
Print Assumptions C27_delete.
Print Assumptions C27_epsilonize.
Print Assumptions C27_epsilonize_refuted.
Print Assumptions C28_applyACX.
Print Assumptions C30_exact.
Print Assumptions C30_characters_partial.
Print Assumptions C30_refuted.
