(** Trimming an analyser by a bilingual dictionary (C63). *)
From Verif Require Import Base CompressionModel SerialiserModel SortedVectorModel AlphabetModel AlphabetProofs TransducerModel
  TransducerSpec TransducerProofs ReverseProofs RelabelSpec RelabelProofs ComposeModel ComposeSpec ComposeProofs
  AutomataProps ComposeProps TrimModel SearchProofs TrimSpec TrimProofs.

Lemma joined_writes : forall t j a s, joined 0 t j -> alph_inv0 a -> writes j a s -> writes t a s \/ s = eps_sym.
Proof.
  intros t j a s J I0 (p & b & q & w & i & H & Hs). destruct J as [p0 f H0|j H1 H2 H3 H4 H5 H6].
  - left. exists p, b, q, w, i. auto.
  - apply H6 in H as [H|(-> & _)]; [left; exists p, b, q, w, i; auto|]. right.
    pose proof (as_symbols_fun _ _ _ _ Hs (eps_symbols a I0)). congruence.
Qed.
Lemma joined_single : forall t j, wf t -> joined 0 t j -> single_weights t -> single_weights j.
Proof.
  intros t j W J [S1 S2]. destruct J as [p0 f H0|j H1 H2 H3 H4 H5 H6]; [split; assumption|]. split.
  - intros p b q w w' A1 A2. apply H6 in A1 as [A1|(-> & -> & A1)]; apply H6 in A2 as [A2|(E1 & E2 & A2)].
    + eapply S1; eauto.
    + exfalso. subst. apply (wf_arcs _ W) in A1. lia.
    + exfalso. apply (wf_arcs _ W) in A2. lia.
    + eapply finals_unique; eauto. apply (wf_finals_sorted _ W).
  - intros p w A. apply H6 in A as [A|(_ & -> & A)]; [eauto|]. exfalso. apply (wf_finals _ W) in A. lia.
Qed.

Lemma joined_acyclic : forall t j, wf t -> joined 0 t j -> acyclic t -> acyclic j.
Proof.
  intros t j W J A. destruct J as [p0 f H0|j J1 J2 J3 J4 J5 J6]; [exact A|].
  assert (X : forall p l q, path j p l q -> (q < nstates t)%nat -> path t p l q).
  { intros p l q H Hq. induction H as [p|p b w q l r Ha Hp IH]; [constructor|]. specialize (IH Hq). apply J6 in Ha as [Ha|(-> & -> & Ha)]; [econstructor; eauto|].
    exfalso. inversion IH as [|? ? ? ? ? ? Hb _]; subst; [lia|]. apply has_arc_lt in Hb. lia. }
  intros p l H. destruct l as [|e l]; [reflexivity|]. exfalso. assert (Hp : (p < nstates t)%nat).
  { inversion H as [|? ? ? ? ? ? Ha _]; subst. apply J6 in Ha as [Ha|(_ & _ & Ha)]; [now apply has_arc_lt in Ha|now apply (wf_finals _ W) in Ha]. }
  pose proof (A _ _ (X _ _ _ H Hp)). discriminate.
Qed.
Lemma trim_general : forall trimmer a ta this, wf this -> wf trimmer -> alph_inv0 a -> symbols_in this a -> symbols_in trimmer ta -> finals this <> [] ->
  (forall s, In s separators -> ~ writes this a s) ->
  forall j, joinFinals 0 this = Ok j -> wf j -> joined 0 this j ->
  forall all, In (initial j, (initial trimmer, initial trimmer)) all ->
  (forall k b w k', tmv j trimmer a ta k b w k' -> In k all -> In k' all) ->
  (forall p q r b i w p', In (p, (q, r)) all -> has_arc j p b p' w -> as_symbols a b (i, hash_sym) -> r = q) ->
  exists t N, (forall fuel, (N <= fuel)%nat -> trim fuel trimmer a ta this = Ok t) /\ wf t /\ symbols_in t a
    /\ (forall x y, (exists c, srel t a x y c) <-> (exists c, srel this a x y c) /\ covered trimmer ta (without_marks y))
    /\ (free_epsilons trimmer ta -> forall x y c, srel t a x y c -> srel this a x y c)
    /\ (free_epsilons trimmer ta -> single_weights this -> forall x y c, srel this a x y c -> covered trimmer ta (without_marks y) -> srel t a x y c)
    /\ (forall p f, final_wt t p f -> exists l, path t (initial t) l p)
    /\ (length (finals this) <> 1%nat \/ finals_default this -> finals_default t)
    /\ (acyclic this -> no_empty_loops trimmer ta -> acyclic t).
Proof.
  intros trimmer a ta this W Wm I0 T Tm Hf Hl j Ej Wj J all A1 A2 A3.
  assert (Tj := joined_symbols 0 this j a J (eps_symbols a I0) T).
  assert (Hlj : forall s, In s separators -> ~ writes j a s).
  { intros s Hs Hw. destruct (joined_writes _ _ _ _ J I0 Hw) as [H|H]; [exact (Hl s Hs H)|]. subst s. cbn in Hs. intuition discriminate. }
  destruct (trim_product j trimmer a ta Wj Wm (proj1 I0) Tj Tm Hlj all A1 A2 A3) as (N & t & Ht & Wt & Harc & Hfi & Hs & Hm & key & Hky & Huk).
  assert (St : symbols_in t a).
  { intros p b q w H. destruct (Harc _ _ _ _ H) as [->|(p0 & q0 & H0)]; [exists (eps_sym, eps_sym); apply (eps_symbols a I0)|eapply Tj; eauto]. }
  assert (JS : forall x y c, srel j a x y c <-> srel this a x y c) by (intros; exact (joined_srel 0 this j a false _ _ _ W J (eps_symbols a I0))).
  assert (SOUND : forall x y c, srel t a x y c -> exists c', srel j a x y c' /\ covered trimmer ta (without_marks y) /\ (free_epsilons trimmer ta -> c' = c)).
  { intros x y c (tr & f & (q & Htr & Hfq) & E1 & E2 & E3). apply trace_path in Htr as (l & Hp & Hd).
    destruct (Hs l f) as (k & M & F1 & F2); [exists q; auto|].
    destruct (moves_split j trimmer a ta I0 _ _ _ M tr Hd) as (tf & T1 & T2 & T3 & T4 & T5). cbn [fst snd] in *.
    exists (weight_of tf + f). split; [exists tf, f; split; [exists (fst k); auto|split; [congruence|split; [congruence|reflexivity]]]|].
    split; [|intros Fe; rewrite <- (T5 Fe); exact E3]. apply covered_iff. exists (fst (snd k)). split; [|exact F2]. rewrite <- E2, T3. exact T4. }
  assert (COMP : forall x y c, srel j a x y c -> covered trimmer ta (without_marks y) -> exists c', srel t a x y c' /\ (free_epsilons trimmer ta -> single_weights j -> c' = c)).
  { intros x y c (tf & f & (p & Htf & Hfp) & E1 & E2 & E3) Hc. apply covered_iff in Hc as (q' & Hc & Hq).
    rewrite <- E2 in Hc. destruct (moves_merge j trimmer a ta I0 _ _ _ Htf _ _ (initial trimmer) Hc) as (l & r' & M & tr & D & T1 & T2 & T3).
    destruct (Hm l f) as (l' & (q & Hp & Hfq) & El & Ew); [exists (p, (q', r')); split; [exact M|split; assumption]|].
    assert (D' : exists tr', decoded a l' tr' /\ map fst tr' = map fst tr).
    { clear - D El. revert l' El. induction D as [|[b w] [x v] l tr [D1 D2] D IH]; intros [|[b' w'] l'] El; try discriminate; [exists []; split; [constructor|reflexivity]|].
      injection El as <- El. destruct (IH l' El) as (tr' & H1 & H2). exists ((x, w') :: tr'). split; [constructor; [split; [exact D1|reflexivity]|exact H1]|cbn; now rewrite H2]. }
    destruct D' as (tr' & D1 & D2).
    assert (S1 : sym_in tr' = sym_in tr /\ sym_out tr' = sym_out tr).
    { unfold sym_in, sym_out. split; f_equal; rewrite <- !(map_map fst); now rewrite D2. }
    destruct S1 as [S1 S2]. exists (weight_of tr' + f). split.
    - exists tr', f. split; [exists q; split; [apply trace_path; exists l'; auto|exact Hfq]|]. split; [congruence|]. split; [congruence|reflexivity].
    - intros Fe Sw. rewrite <- E3, <- (T3 Fe). f_equal.
      assert (Ell : l' = l).
      { apply Ew. intros k b w w' k' M1 M2.
        inversion M1 as [p1 q1 r1 b1 o w1 q2 Ha Hd|p1 q1 r1 b1 i w1 p2 Ha Hd|p1 q1 r1 b1 i m w1 p2 Ha Hd Hcc|p1 q1 r1 b1 i m w1 p2 b2 m2 o w2 q2 Ha Hd Hcc Ha' Hd' Hn Hag]; subst;
        inversion M2 as [p3 q3 r3 b3 o3 w3 q4 Ha3 Hd3|p3 q3 r3 b3 i3 w3 p4 Ha3 Hd3|p3 q3 r3 b3 i3 m3 w3 p4 Ha3 Hd3 Hcc3|p3 q3 r3 b3 i3 m3 w3 p4 b4 m4 o3 w4 q4 Ha3 Hd3 Hcc3 Ha3' Hd3' Hn3 Hag3]; subst;
        try (eapply (proj1 Sw); eassumption);
        try (rewrite (Fe _ _ _ _ _ Ha Hd)); try (rewrite (Fe _ _ _ _ _ Ha3 Hd3)); try reflexivity;
        try (symmetry; eapply (proj2 Sw); eassumption); try (eapply (proj2 Sw); eassumption). }
      rewrite Ell in D1. clear - D D1 D2. revert tr' D1 D2. induction D as [|[b w] [x v] l tr [_ D2'] D IH]; intros [|[x' v'] tr'] D1 D2; try discriminate; [reflexivity|].
      inversion D1 as [|? ? ? ? [_ D3] D4]; subst. cbn [fst snd] in *. subst. rewrite !weight_cons. f_equal. apply IH; [exact D4|]. cbn in D2. congruence. }
  exists t, N. split; [intros fuel Hfu; unfold trim; rewrite Ej; cbn [obind]; now apply Ht|]. split; [exact Wt|]. split; [exact St|]. split; [|split; [|split; [|split; [|split]]]].
  - intros x y. split.
    + intros (c & H). destruct (SOUND _ _ _ H) as (c' & H1 & H2 & _). split; [exists c'; now apply JS|exact H2].
    + intros [(c & H) Hc]. apply JS in H. destruct (COMP _ _ _ H Hc) as (c' & H1 & _). eauto.
  - intros Fe x y c H. destruct (SOUND _ _ _ H) as (c' & H1 & _ & H2). apply JS. now rewrite <- (H2 Fe).
  - intros Fe Sw x y c H Hc. apply JS in H. destruct (COMP _ _ _ H Hc) as (c' & H1 & H2). rewrite <- (H2 Fe (joined_single _ _ W J Sw)). exact H1.
  - intros p f H. exact (proj1 (Hfi p f H)).
  - intros D p f H. destruct (Hfi p f H) as [_ (p0 & H0)]. destruct J as [p1 f1 H1|j J1 J2 J3 J4 J5 J6].
    + unfold final_wt in H0. rewrite H1 in H0. destruct H0 as [[= <- <-]|[]]. destruct D as [D|D]; [rewrite H1 in D; cbn in D; lia|]. apply (D p1 f1). unfold final_wt. rewrite H1. now left.
    + unfold final_wt in H0. rewrite J5 in H0. destruct H0 as [[= <- <-]|[]]. reflexivity.
  - intros A. exact (keyed_acyclic j trimmer a ta t key Hky Huk (joined_acyclic _ _ W J A)).
Qed.

Lemma trim_kept : forall trimmer a ta this, wf this -> wf trimmer -> alph_inv0 a -> symbols_in this a -> symbols_in trimmer ta -> finals this <> [] ->
  (forall s, In s separators -> ~ writes this a s) -> ~ writes this a hash_sym \/ ~ writes this a plus_sym ->
  exists t N, (forall fuel, (N <= fuel)%nat -> trim fuel trimmer a ta this = Ok t) /\ wf t /\ symbols_in t a
    /\ (forall x y, (exists c, srel t a x y c) <-> (exists c, srel this a x y c) /\ covered trimmer ta (without_marks y))
    /\ (free_epsilons trimmer ta -> forall x y c, srel t a x y c -> srel this a x y c)
    /\ (free_epsilons trimmer ta -> single_weights this -> forall x y c, srel this a x y c -> covered trimmer ta (without_marks y) -> srel t a x y c)
    /\ (forall p f, final_wt t p f -> exists l, path t (initial t) l p)
    /\ (length (finals this) <> 1%nat \/ finals_default this -> finals_default t)
    /\ (acyclic this -> no_empty_loops trimmer ta -> acyclic t).
Proof.
  intros trimmer a ta this W Wm I0 T Tm Hf Hl Hq. destruct (joinFinals_spec 0 this W Hf) as (j & Ej & Wj & J).
  assert (NW : forall s, s <> eps_sym -> ~ writes this a s -> ~ writes j a s).
  { intros s Hn H1 H2. destruct (joined_writes _ _ _ _ J I0 H2); contradiction. }
  destruct Hq as [Hq|Hq]; apply NW in Hq; try discriminate.
  - apply (trim_general trimmer a ta this W Wm I0 T Tm Hf Hl j Ej Wj J
      (list_prod (seq 0 (nstates j)) (list_prod (seq 0 (nstates trimmer)) (seq 0 (nstates trimmer))))).
    + apply in_prod; [|apply in_prod]; apply in_seq; cbn; split; try lia; [apply Wj|apply Wm|apply Wm].
    + assert (C : forall p q r, In (p, (q, r)) (list_prod (seq 0 (nstates j)) (list_prod (seq 0 (nstates trimmer)) (seq 0 (nstates trimmer)))) <->
        (p < nstates j)%nat /\ (q < nstates trimmer)%nat /\ (r < nstates trimmer)%nat).
      { intros p q r. rewrite !in_prod_iff, !in_seq. lia. }
      assert (X : forall q r q', (r < nstates trimmer)%nat -> (q' < nstates trimmer)%nat -> (nx q r q' < nstates trimmer)%nat).
      { intros q r q' H1 H2. unfold nx. now destruct (r =? q)%nat. }
      intros k b w k' Hm. inversion Hm; subst; rewrite !C; intros (B1 & B2 & B3); (split; [|split]); auto;
        try (eapply (wf_arcs _ Wj); eassumption); try (eapply (wf_arcs _ Wm); eassumption); try apply Wm; apply X; auto; eapply (wf_arcs _ Wm); eassumption.
    + intros p q r b i w p' _ H1 H2. exfalso. apply Hq. exists p, b, p', w, i. auto.
  - apply (trim_general trimmer a ta this W Wm I0 T Tm Hf Hl j Ej Wj J
      (map (fun pq => (fst pq, (snd pq, snd pq))) (list_prod (seq 0 (nstates j)) (seq 0 (nstates trimmer))))).
    + apply in_map_iff. exists (initial j, initial trimmer). split; [reflexivity|]. apply in_prod; apply in_seq; cbn; split; try lia; [apply Wj|apply Wm].
    + assert (C : forall p q r, In (p, (q, r)) (map (fun pq => (fst pq, (snd pq, snd pq))) (list_prod (seq 0 (nstates j)) (seq 0 (nstates trimmer)))) <->
        (p < nstates j)%nat /\ (q < nstates trimmer)%nat /\ r = q).
      { intros p q r. rewrite in_map_iff. split.
        - intros ([p1 q1] & [= -> -> <-] & H). rewrite in_prod_iff, !in_seq in H. lia.
        - intros (H1 & H2 & ->). exists (p, q). split; [reflexivity|]. rewrite in_prod_iff, !in_seq. lia. }
      intros k b w k' Hm. inversion Hm; subst; rewrite !C; intros (B1 & B2 & B3); (split; [|split]); auto;
        try (eapply (wf_arcs _ Wj); eassumption); try (eapply (wf_arcs _ Wm); eassumption); try apply Wm;
        try (subst; unfold nx; now rewrite Nat.eqb_refl).
      exfalso. apply Hq. eexists _, _, _, _, _. eauto.
    + intros p q r b i w p' H _ _. apply in_map_iff in H as ([p1 q1] & [= -> -> <-] & H). reflexivity.
Qed.


(** Trimming ends; with '+' or '#' on right sides, but not both, it keeps exactly the analyses
    that the dictionary covers, and their weights if arcs of the dictionary that read nothing
    have none. *)
Theorem C63_kept : forall trimmer a ta this, wf this -> wf trimmer -> alph_inv0 a -> symbols_in this a -> symbols_in trimmer ta -> finals this <> [] ->
  (forall s, In s separators -> ~ writes this a s) -> ~ writes this a hash_sym \/ ~ writes this a plus_sym ->
  exists t N, (forall fuel, (N <= fuel)%nat -> trim fuel trimmer a ta this = Ok t) /\ wf t /\ symbols_in t a
    /\ (forall x y, (exists c, srel t a x y c) <-> (exists c, srel this a x y c) /\ covered trimmer ta (without_marks y))
    /\ (free_epsilons trimmer ta -> forall x y c, srel t a x y c -> srel this a x y c)
    /\ (free_epsilons trimmer ta -> single_weights this -> forall x y c, srel this a x y c -> covered trimmer ta (without_marks y) -> srel t a x y c)
    /\ (forall p f, final_wt t p f -> exists l, path t (initial t) l p)
    /\ (length (finals this) <> 1%nat \/ finals_default this -> finals_default t).
Proof.
  intros trimmer a ta this W Wm I0 T Tm Hf Hl Hq. destruct (trim_kept trimmer a ta this W Wm I0 T Tm Hf Hl Hq) as (t & N & H1 & H2 & H3 & H4 & H5 & H6 & H7 & H8 & _).
  exists t, N. auto 10.
Qed.

(** Whatever the symbols, trimming adds no analysis. *)
Theorem C63_sound : forall fuel trimmer a ta this t, wf this -> alph_inv0 a -> trim fuel trimmer a ta this = Ok t ->
  forall x y c, srel t a x y c -> exists c', srel this a x y c'.
Proof.
  intros fuel trimmer a ta this t W I0 E x y c H. unfold trim in E.
  destruct (finals this) as [|e l] eqn:Ef; [unfold joinFinals in E; rewrite Ef in E; discriminate|].
  assert (Hf : finals this <> []) by (rewrite Ef; discriminate).
  destruct (joinFinals_spec 0 this W Hf) as (j & Ej & Wj & J). rewrite Ej in E. cbn [obind] in E.
  destruct (trim_snd j trimmer a ta Wj I0 fuel t E x y c H) as (c' & H'). exists c'. exact (proj1 (joined_srel 0 this j a false _ _ _ W J (eps_symbols a I0)) H').
Qed.

Lemma sym_out_writes : forall t a p tr q s, trace (as_symbols a) t p tr q -> In s (sym_out tr) -> writes t a s.
Proof.
  intros t a p tr q s H. induction H as [p|p b [i o] w q tr r Ha Hx Ht IH]; [intros []|]. rewrite sym_out_cons. intros Hin. apply in_app_or in Hin as [Hin|Hin]; [|auto].
  unfold vis in Hin. cbn [snd] in Hin. destruct (is_eps o); [destruct Hin|]. destruct Hin as [<-|[]]. exists p, b, q, w, i. auto.
Qed.
Lemma covered_whole : forall t a y, ~ In plus_sym y -> (covered t a y <-> exists z, Forall2 agree y z /\ known t a z).
Proof.
  intros t a y Hn. split.
  - intros H. destruct H as [y z H1 H2|y z rest H1 H2 H3]; [eauto|]. exfalso. apply Hn. apply in_or_app. right. now left.
  - intros (z & H1 & H2). eapply covered_word; eauto.
Qed.
Lemma trim_whole : forall trimmer a ta this, wf this -> wf trimmer -> alph_inv0 a -> symbols_in this a -> symbols_in trimmer ta -> finals this <> [] ->
  (forall s, In s (plus_sym :: separators) -> ~ writes this a s) -> plain this a -> plain trimmer ta ->
  exists t N, (forall fuel, (N <= fuel)%nat -> trim fuel trimmer a ta this = Ok t) /\ wf t /\ symbols_in t a
    /\ (acyclic this -> no_empty_loops trimmer ta -> acyclic t)
    /\ forall x y, (exists c, srel t a x y c) <-> (exists c, srel this a x y c) /\ known trimmer ta (without_marks y).
Proof.
  intros trimmer a ta this W Wm I0 T Tm Hf Hl Pt Pm.
  destruct (trim_kept trimmer a ta this W Wm I0 T Tm Hf (fun s H => Hl s (or_intror H)) (or_intror (Hl plus_sym (or_introl eq_refl)))) as (t & N & Ht & Wt & St & Hk & _ & _ & _ & _ & Hac).
  exists t, N. split; [exact Ht|]. split; [exact Wt|]. split; [exact St|]. split; [exact Hac|]. intros x y. rewrite Hk.
  assert (X : (exists c, srel this a x y c) -> (covered trimmer ta (without_marks y) <-> known trimmer ta (without_marks y))).
  { intros (c & tr & f & (q & Htr & _) & _ & <- & _). rewrite covered_whole.
    2:{ intros H. apply filter_In in H as [H _]. exact (Hl plus_sym (or_introl eq_refl) (sym_out_writes _ _ _ _ _ _ Htr H)). }
    split; [|intros H; exists (without_marks (sym_out tr)); split; [|exact H]; clear; induction (without_marks (sym_out tr)); constructor; [now left|assumption]].
    intros (z & Hag & Hz). enough (without_marks (sym_out tr) = z) by congruence.
    assert (P1 : Forall (fun s => ~ wild s) (without_marks (sym_out tr))).
    { apply Forall_forall. intros s Hs. apply filter_In in Hs as [Hs _]. destruct (sym_out_writes _ _ _ _ _ _ Htr Hs) as (p & b & p' & w & i & Ha & Hd). exact (proj2 (Pt _ _ _ _ _ Ha Hd)). }
    assert (P2 : Forall (fun s => ~ wild s) z).
    { destruct Hz as (y' & c' & tr' & f' & (q' & Htr' & _) & <- & _). clear - Htr' Pm. induction Htr' as [p|p b [i o] w q tr' r Ha Hx Ht IH]; [constructor|].
      rewrite sym_in_cons. cbn [fst]. unfold vis. destruct (is_eps i); [exact IH|]. constructor; [exact (proj1 (Pm _ _ _ _ _ Ha Hx))|exact IH]. }
    clear - Hag P1 P2. induction Hag as [|m m' y z [->|H] Hag IH]; [reflexivity| |]; inversion P1; inversion P2; subst; f_equal; auto.
    exfalso. destruct m as [n|c], m' as [n'|c']; cbn in H; try contradiction.
    - destruct H as [->| ->]; [now apply H2; right|now apply H6; right].
    - destruct H as [-> _]. apply H2. now left.
    - destruct H as [-> _]. apply H6. now left. }
  tauto.
Qed.
(** Without '+' and wildcards: exactly the analyses whose right side, compound marks aside, is
    the left side of a word of the dictionary. *)
Theorem C63_whole : forall trimmer a ta this, wf this -> wf trimmer -> alph_inv0 a -> symbols_in this a -> symbols_in trimmer ta -> finals this <> [] ->
  (forall s, In s (plus_sym :: separators) -> ~ writes this a s) -> plain this a -> plain trimmer ta ->
  exists t N, (forall fuel, (N <= fuel)%nat -> trim fuel trimmer a ta this = Ok t) /\ wf t
    /\ forall x y, (exists c, srel t a x y c) <-> (exists c, srel this a x y c) /\ known trimmer ta (without_marks y).
Proof.
  intros trimmer a ta this W Wm I0 T Tm Hf Hl Pt Pm. destruct (trim_whole trimmer a ta this W Wm I0 T Tm Hf Hl Pt Pm) as (t & N & H1 & H2 & _ & _ & H3).
  exists t, N. auto.
Qed.

(** * Examples *)
(** 1 a:a, 2 b:b, 3 :<n>, 4 :+, 5 :#, 6 x:x, 7 c:c, 8 :<compound-R> *)
Notation after ops := (aruns ops new_alphabet).
Definition mA : alphabet := after [OpInclude n_; OpInclude mark_R; OpPair (97, 97); OpPair (98, 98); OpPair (0, -1); OpPair (0, 43); OpPair (0, 35); OpPair (120, 120); OpPair (99, 99); OpPair (0, -2)].
(** 1 a:b, 2 <n>:<n>, 3 b:b *)
Definition bA : alphabet := after [OpInclude n_; OpPair (97, 98); OpPair (-1, -1); OpPair (98, 98)].
(** a -> a<n><compound-R>, b -> b<n>, b -> b, with weights *)
Definition mT : transducer := mkT 0 [(3%nat, 0); (4%nat, 2)] [[(1, (1%nat, 1)); (2, (4%nat, 3))]; [(3, (2%nat, 4))]; [(8, (3%nat, 0))]; []; [(3, (3%nat, 1))]].
(** a<n> : b<n>, b : b *)
Definition bT : transducer := mkT 0 [(2%nat, 0)] [[(1, (1%nat, 0)); (3, (2%nat, 0))]; [(2, (2%nat, 0))]; []].
Definition writesb (t : transducer) (a : alphabet) (s : symbol) : bool :=
  existsb (fun arcs => existsb (fun x => if ustr_eq_dec (match snd (symbols_of a (a_tag x)) with STag n => -1 :: n | SChar c => [c] end) (match s with STag n => -1 :: n | SChar c => [c] end) then true else false) arcs) (trans t).
Lemma writesb_writes : forall t a s, all_readable t a = true -> writesb t a s = false -> ~ writes t a s.
Proof.
  intros t a s R H (p & b & q & w & i & Ha & Hd). pose proof (symbols_are _ _ _ _ _ _ _ R Ha Hd) as E. assert (L := has_arc_lt _ _ _ _ _ Ha).
  assert (X : writesb t a s = true); [|congruence]. apply existsb_exists. exists (arcs_of t p). split; [exact (nth_In (trans t) [] L)|].
  apply existsb_exists. exists (b, (q, w)). split; [exact Ha|]. cbn [a_tag fst]. rewrite <- E. cbn [snd]. destruct (ustr_eq_dec _ _); [reflexivity|congruence].
Qed.
(** ab+c *)
Definition partT : transducer := mkT 0 [(4%nat, 0)] [[(1, (1%nat, 0))]; [(2, (2%nat, 0))]; [(4, (3%nat, 0))]; [(7, (4%nat, 0))]; []].
(** abx, c *)
Definition partD : transducer := mkT 0 [(3%nat, 0)] [[(1, (1%nat, 0)); (7, (3%nat, 0))]; [(2, (2%nat, 0))]; [(6, (3%nat, 0))]; []].
(** a+b#c, a+bx *)
Definition hashT : transducer := mkT 0 [(5%nat, 0)] [[(1, (1%nat, 0))]; [(4, (2%nat, 0))]; [(2, (3%nat, 0))]; [(5, (4%nat, 0)); (6, (5%nat, 0))]; [(7, (5%nat, 0))]; []].
(** 1 a:a, 2 b:b, 3 #:#, 4 x:x, 5 c:c *)
Definition dA : alphabet := after [OpPair (97, 97); OpPair (98, 98); OpPair (35, 35); OpPair (120, 120); OpPair (99, 99)].
(** a, a#c, bx *)
Definition hashD : transducer := mkT 0 [(1%nat, 0); (3%nat, 0)] [[(1, (1%nat, 0)); (2, (4%nat, 0))]; [(3, (2%nat, 0))]; [(5, (3%nat, 0))]; []; [(4, (3%nat, 0))]].
(** a; and a behind an epsilon of weight 5 *)
Definition oneT : transducer := mkT 0 [(1%nat, 0)] [[(1, (1%nat, 2))]; []].
Definition epsD : transducer := mkT 0 [(2%nat, 0)] [[(0, (1%nat, 5))]; [(1, (2%nat, 0))]; []].
(** All that a transducer without cycles relates, by computation. *)
Fixpoint paths (n : nat) (t : transducer) (p : nat) : option (list (list (Z * Z) * nat)) :=
  match n with
  | O => None
  | S n => fold_right (fun (x : arc) acc => match paths n t (a_dst x), acc with
                                  | Some l, Some r => Some (map (fun e => ((a_tag x, a_wt x) :: fst e, snd e)) l ++ r)
                                  | _, _ => None end) (Some [([], p)]) (arcs_of t p)
  end.
Lemma paths_all : forall n t p l q L, path t p l q -> paths n t p = Some L -> In (l, q) L.
Proof.
  intros n t p l q L H. revert n L. induction H as [p|p b w q l r Ha Hp IH]; intros [|n] L E; try discriminate; cbn [paths] in E.
  - revert L E. induction (arcs_of t p) as [|x xs IHx]; cbn [fold_right]; intros L E; [injection E as <-; now left|].
    destruct (paths n t (a_dst x)); [|discriminate]. destruct (fold_right _ _ xs) as [R|]; [|discriminate]. injection E as <-. apply in_or_app. right. now apply IHx.
  - unfold has_arc in Ha. revert L E. induction (arcs_of t p) as [|x xs IHx]; cbn [fold_right]; intros L E; [destruct Ha|].
    destruct (paths n t (a_dst x)) as [R1|] eqn:E1; [|discriminate]. destruct (fold_right _ _ xs) as [R|] eqn:E2; [|discriminate]. injection E as <-. apply in_or_app.
    destruct Ha as [->|Ha]; [left|right; now apply IHx]. cbn [a_dst a_tag a_wt fst snd] in *. apply in_map_iff. exists (l, r). split; [reflexivity|]. eapply IH; eauto.
Qed.
Definition related (n : nat) (t : transducer) (a : alphabet) : option (list (list symbol * list symbol * Z)) :=
  match paths n t (initial t) with
  | None => None
  | Some L => Some (flat_map (fun e => flat_map (fun f => if (fst f =? snd e)%nat then
      [(filter (fun s => negb (is_eps s)) (map (fun e => fst (symbols_of a (fst e))) (fst e)),
        filter (fun s => negb (is_eps s)) (map (fun e => snd (symbols_of a (fst e))) (fst e)), cost_of (fst e) + snd f)] else []) (finals t)) L)
  end.
Lemma related_all : forall n t a L x y c, all_readable t a = true -> related n t a = Some L -> srel t a x y c -> In (x, y, c) L.
Proof.
  intros n t a L x y c R E H. apply srel_path in H as (l & q & f & Hp & Hf & -> & -> & ->); [|exact R]. unfold related in E.
  destruct (paths n t (initial t)) as [L'|] eqn:E'; [|discriminate]. injection E as <-. apply in_flat_map. exists (l, q). split; [eapply paths_all; eauto|].
  apply in_flat_map. exists (q, f). split; [exact Hf|]. cbn [fst snd]. rewrite Nat.eqb_refl. now left.
Qed.
Lemma begins_run : forall t a l q, all_readable t a = true -> path t (initial t) l q ->
  begins t a (filter (fun s => negb (is_eps s)) (map (fun e => fst (symbols_of a (fst e))) l)).
Proof.
  intros t a l q R H. exists (map (fun e => (symbols_of a (fst e), snd e)) l), q. split; [|unfold sym_in; now rewrite map_map].
  induction H as [p|p b w q l r Ha Hp IH]; cbn [map fst snd]; [constructor|]. econstructor; [exact Ha| |exact IH].
  destruct (all_readable_symbols t a R _ _ _ _ Ha) as (x & Hx). rewrite <- (symbols_are t a _ _ _ _ _ R Ha Hx). exact Hx.
Qed.
Ltac related n H := eapply (related_all n) in H; [|vm_compute; reflexivity|vm_compute; reflexivity]; cbn [In] in H; repeat (destruct H as [H|H]; [discriminate H|]); try contradiction H.
Example C63_example : exists t, trim 30 bT mA bA mT = Ok t
  /\ (forall s, In s (plus_sym :: separators) -> ~ writes mT mA s) /\ plain mT mA /\ plain bT bA
  /\ srel t mA [SChar 97] [SChar 97; STag n_; STag mark_R] 5 /\ srel t mA [SChar 98] [SChar 98] 5
  /\ srel mT mA [SChar 98] [SChar 98; STag n_] 4 /\ forall c, ~ srel t mA [SChar 98] [SChar 98; STag n_] c.
Proof.
  eexists. split; [vm_compute; reflexivity|]. split; [|split; [now apply plainb_plain|split; [now apply plainb_plain|]]].
  { intros s Hs. apply writesb_writes; [reflexivity|]. cbn in Hs. repeat (destruct Hs as [<-|Hs]; [reflexivity|]). destruct Hs. }
  split; [match goal with |- srel ?t ?a _ _ _ => apply (srel_run t a [(1, 1); (3, 4); (8, 0); (0, 0)] 3 0 eq_refl); [run|cbn; tauto] end|].
  split; [match goal with |- srel ?t ?a _ _ _ => apply (srel_run t a [(2, 3); (0, 2)] 3 0 eq_refl); [run|cbn; tauto] end|].
  split; [match goal with |- srel ?t ?a _ _ _ => apply (srel_run t a [(2, 3); (3, 1)] 3 0 eq_refl); [run|cbn; tauto] end|].
  intros c H. related 10%nat H.
Qed.

(** * What trimming does not do *)
(** The part before a '+' need not be a word of the dictionary: a beginning of one is enough. *)
Theorem C63_part_refuted : ~ forall trimmer a ta this t fuel, wf this -> wf trimmer -> alph_inv0 a -> symbols_in this a -> symbols_in trimmer ta -> plain this a -> plain trimmer ta ->
  (forall s, In s separators -> ~ writes this a s) -> ~ writes this a hash_sym ->
  trim fuel trimmer a ta this = Ok t -> forall x u v c, srel t a x (u ++ plus_sym :: v) c -> ~ In plus_sym v -> known trimmer ta u.
Proof.
  intros H.
  assert (K : known partD mA [SChar 97; SChar 98]).
  { refine (H partD mA mA partT _ 30%nat _ _ _ _ _ _ _ _ _ _ [SChar 97; SChar 98; SChar 99] [SChar 97; SChar 98] [SChar 99] 0 _ _); [now apply wfb_wf|now apply wfb_wf|apply after_inv0|now apply all_readable_symbols|now apply all_readable_symbols|now apply plainb_plain|now apply plainb_plain| | |vm_compute; reflexivity| |].
    - intros s Hs. apply writesb_writes; [reflexivity|]. cbn in Hs. repeat (destruct Hs as [<-|Hs]; [reflexivity|]). destruct Hs.
    - apply writesb_writes; reflexivity.
    - match goal with |- srel ?t ?a _ _ _ => apply (srel_run t a [(1, 0); (2, 0); (4, 0); (7, 0)] 4 0 eq_refl); [run|cbn; tauto] end.
    - intros [E|[]]. discriminate. }
  destruct K as (y & c & K). related 10%nat K.
Qed.
(** An arc with '#' turns the search back for the arcs after it in the same state: the analyses
    through those are lost. *)
Theorem C63_hash_refuted : ~ forall trimmer a ta this t fuel, wf this -> wf trimmer -> alph_inv0 a -> symbols_in this a -> symbols_in trimmer ta -> plain this a -> plain trimmer ta ->
  (forall s, In s separators -> ~ writes this a s) ->
  trim fuel trimmer a ta this = Ok t -> forall x y c, srel this a x y c -> covered trimmer ta y -> exists c', srel t a x y c'.
Proof.
  intros H.
  destruct (H hashD mA dA hashT (match trim 30 hashD mA dA hashT with Ok t => t | _ => new_transducer end) 30%nat) with (x := [SChar 97; SChar 98; SChar 120]) (y := [SChar 97; plus_sym; SChar 98; SChar 120]) (c := 0) as (c' & K);
    [now apply wfb_wf|now apply wfb_wf|apply after_inv0|now apply all_readable_symbols|now apply all_readable_symbols|now apply plainb_plain|now apply plainb_plain| |vm_compute; reflexivity| | |].
  - intros s Hs. apply writesb_writes; [reflexivity|]. cbn in Hs. repeat (destruct Hs as [<-|Hs]; [reflexivity|]). destruct Hs.
  - apply (srel_run hashT mA [(1, 0); (4, 0); (2, 0); (6, 0)] 5 0 eq_refl); [run|cbn; tauto].
  - apply (covered_plus _ _ [SChar 97] [SChar 97] [SChar 98; SChar 120]).
    + repeat constructor.
    + apply (begins_run hashD dA [(1, 0)] 1 eq_refl). run.
    + apply (covered_word _ _ _ [SChar 98; SChar 120]); [repeat constructor|]. exists [SChar 98; SChar 120], 0. apply (srel_run hashD dA [(2, 0); (4, 0)] 3 0 eq_refl); [run|cbn; tauto].
  - related 10%nat K.
Qed.
(** a+ab#c *)
Definition groupT : transducer := mkT 0 [(6%nat, 0)] [[(1, (1%nat, 0))]; [(4, (2%nat, 0))]; [(1, (3%nat, 0))]; [(2, (4%nat, 0))]; [(5, (5%nat, 0))]; [(7, (6%nat, 0))]; []].
(** a, ab, a#c *)
Definition groupD : transducer := mkT 0 [(1%nat, 0); (2%nat, 0); (4%nat, 0)] [[(1, (1%nat, 0))]; [(2, (2%nat, 0)); (3, (3%nat, 0))]; []; [(5, (4%nat, 0))]; []].
(** The part after '#' is looked up after the first part (the first example below), but not if the
    second part leads through the same state of the dictionary as the first. *)
Theorem C63_group_refuted : ~ forall trimmer a ta this t fuel, wf this -> wf trimmer -> alph_inv0 a -> symbols_in this a -> symbols_in trimmer ta -> plain this a -> plain trimmer ta ->
  (forall s, In s separators -> ~ writes this a s) ->
  trim fuel trimmer a ta this = Ok t -> forall x u v w c, srel this a x (u ++ plus_sym :: v ++ hash_sym :: w) c ->
    ~ In plus_sym (v ++ w) -> ~ In hash_sym (u ++ v ++ w) -> known trimmer ta u -> known trimmer ta v -> known trimmer ta (u ++ hash_sym :: w) -> exists c', srel t a x (u ++ plus_sym :: v ++ hash_sym :: w) c'.
Proof.
  intros H.
  destruct (H groupD mA dA groupT (match trim 30 groupD mA dA groupT with Ok t => t | _ => new_transducer end) 30%nat) with (x := [SChar 97; SChar 97; SChar 98; SChar 99]) (u := [SChar 97]) (v := [SChar 97; SChar 98]) (w := [SChar 99]) (c := 0) as (c' & K);
    [now apply wfb_wf|now apply wfb_wf|apply after_inv0|now apply all_readable_symbols|now apply all_readable_symbols|now apply plainb_plain|now apply plainb_plain| |vm_compute; reflexivity| | | | | | |].
  - intros s Hs. apply writesb_writes; [reflexivity|]. cbn in Hs. repeat (destruct Hs as [<-|Hs]; [reflexivity|]). destruct Hs.
  - apply (srel_run groupT mA [(1, 0); (4, 0); (1, 0); (2, 0); (5, 0); (7, 0)] 6 0 eq_refl); [run|cbn; tauto].
  - cbn. intuition discriminate.
  - cbn. intuition discriminate.
  - exists [SChar 97], 0. apply (srel_run groupD dA [(1, 0)] 1 0 eq_refl); [run|cbn; tauto].
  - exists [SChar 97; SChar 98], 0. apply (srel_run groupD dA [(1, 0); (2, 0)] 2 0 eq_refl); [run|cbn; tauto].
  - exists [SChar 97; SChar 35; SChar 99], 0. apply (srel_run groupD dA [(1, 0); (3, 0); (5, 0)] 4 0 eq_refl); [run|cbn; tauto].
  - related 10%nat K.
Qed.
Example C63_group_example : exists t, trim 30 hashD mA dA hashT = Ok t /\ srel t mA [SChar 97; SChar 98; SChar 99] [SChar 97; plus_sym; SChar 98; hash_sym; SChar 99] 0
  /\ known hashD dA [SChar 97; hash_sym; SChar 99] /\ ~ known hashD dA [SChar 98; hash_sym; SChar 99].
Proof.
  eexists. split; [vm_compute; reflexivity|]. split; [|split].
  - match goal with |- srel ?t ?a _ _ _ => apply (srel_run t a [(1, 0); (4, 0); (2, 0); (5, 0); (7, 0)] 5 0 eq_refl); [run|cbn; tauto] end.
  - exists [SChar 97; SChar 35; SChar 99], 0. apply (srel_run hashD dA [(1, 0); (3, 0); (5, 0)] 3 0 eq_refl); [run|cbn; tauto].
  - intros (y & c & K). related 10%nat K.
Qed.
(** The weights of the dictionary's epsilon arcs are added to the analyses. *)
Theorem C63_weights_refuted : ~ forall trimmer a ta this t fuel, wf this -> wf trimmer -> alph_inv0 a -> symbols_in this a -> symbols_in trimmer ta -> plain this a -> plain trimmer ta ->
  (forall s, In s separators -> ~ writes this a s) -> ~ writes this a hash_sym ->
  trim fuel trimmer a ta this = Ok t -> forall x y c, srel t a x y c -> srel this a x y c.
Proof.
  intros H.
  assert (K : srel oneT mA [SChar 97] [SChar 97] 7).
  { refine (H epsD mA mA oneT _ 30%nat _ _ _ _ _ _ _ _ _ _ _ _ _ _); [now apply wfb_wf|now apply wfb_wf|apply after_inv0|now apply all_readable_symbols|now apply all_readable_symbols|now apply plainb_plain|now apply plainb_plain| | |vm_compute; reflexivity|].
    - intros s Hs. apply writesb_writes; [reflexivity|]. cbn in Hs. repeat (destruct Hs as [<-|Hs]; [reflexivity|]). destruct Hs.
    - apply writesb_writes; reflexivity.
    - match goal with |- srel ?t ?a _ _ _ => apply (srel_run t a [(0, 5); (1, 2)] 2 0 eq_refl); [run|cbn; tauto] end. }
  related 10%nat K.
Qed.

(** A sequence of words: the dictionary has a word for the last part and beginnings for the others. *)
Example C63_covered_example : covered hashD dA [SChar 97; plus_sym; SChar 98; SChar 120] /\ begins partD mA [SChar 97; SChar 98] /\ ~ known partD mA [SChar 97; SChar 98].
Proof.
  split; [|split].
  - apply (covered_plus _ _ [SChar 97] [SChar 97] [SChar 98; SChar 120]); [repeat constructor|apply (begins_run hashD dA [(1, 0)] 1 eq_refl); run|].
    apply (covered_word _ _ _ [SChar 98; SChar 120]); [repeat constructor|]. exists [SChar 98; SChar 120], 0. apply (srel_run hashD dA [(2, 0); (4, 0)] 3 0 eq_refl); [run|cbn; tauto].
  - apply (begins_run partD mA [(1, 0); (2, 0)] 2 eq_refl). run.
  - intros (y & c & K). related 10%nat K.
Qed.

Print Assumptions C63_kept.
Print Assumptions C63_sound.
Print Assumptions C63_whole.
Print Assumptions C63_part_refuted.
Print Assumptions C63_hash_refuted.
Print Assumptions C63_group_refuted.
Print Assumptions C63_weights_refuted.
