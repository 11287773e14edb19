(** lt-paradigm (ParadigmModel.v): the listing of the sections, and the whole program. *)
From Verif Require Import Base CompressionModel SerialiserModel SortedVectorModel AlphabetModel AlphabetProofs TransducerModel
  TransducerSpec TransducerProofs ReverseProofs RelabelModel RelabelSpec RelabelProofs ComposeModel ComposeSpec ComposeProofs
  FileModel LoadModel LoadProofs TrimModel TrimSpec TrimProofs TrimProps InputModel ToolsModel ParadigmModel ParadigmSpec ParadigmProofs ParadigmPatterns.
From Verif Require ToolsProps RelabelProps InputProps.

(** * Sections *)
Lemma srel_larger : forall t a a' x y c, extends a a' -> symbols_in t a -> (srel t a' x y c <-> srel t a x y c).
Proof.
  intros t a a' x y c X St. unfold srel.
  split; intros (tr & f & H & E); exists tr, f; (split; [|exact E]);
    apply (ToolsProps.accepts_larger (as_symbols a) (as_symbols a') (fun b z => as_symbols_extends a a' b z X) (as_symbols_fun a') t St); exact H.
Qed.
Lemma writes_larger : forall t a a' s, extends a a' -> symbols_in t a -> writes t a' s -> writes t a s.
Proof.
  intros t a a' s X St (p & b & q & w & i & Ha & Hs). destruct (St _ _ _ _ Ha) as (x & Hx).
  rewrite (as_symbols_fun _ _ _ _ (as_symbols_extends _ _ _ _ X Hx) Hs) in Hx. exists p, b, q, w, i. auto.
Qed.
Lemma reads_larger : forall t a a' s, extends a a' -> symbols_in t a -> reads_sym t a' s -> reads_sym t a s.
Proof.
  intros t a a' s X St (p & b & q & w & o & Ha & Hs). destruct (St _ _ _ _ Ha) as (x & Hx).
  rewrite (as_symbols_fun _ _ _ _ (as_symbols_extends _ _ _ _ X Hx) Hs) in Hx. exists p, b, q, w, o. auto.
Qed.
Lemma listable_larger : forall an a a' t, extends a a' -> listable an a t -> listable an a' t.
Proof.
  intros an a a' t X [W St F M C]. constructor; auto.
  - intros p b q w H. destruct (St _ _ _ _ H) as (x & Hx). exists x. exact (as_symbols_extends _ _ _ _ X Hx).
  - intros s Hs Hw. apply (M s Hs). destruct an; [exact (writes_larger _ _ _ _ X St Hw)|exact (reads_larger _ _ _ _ X St Hw)].
  - intros p b q w x y c Ha Hx. destruct (St _ _ _ _ Ha) as (z & Hz). rewrite (as_symbols_fun _ _ _ _ (as_symbols_extends _ _ _ _ X Hz) Hx) in Hz. exact (C _ _ _ _ _ _ _ Ha Hz).
Qed.
Lemma listable_joined : forall a t j, alph_inv0 a -> joined 0 t j -> wf j -> listable true a t -> listable true a j.
Proof.
  intros a t j I J Wj [W St F M C]. constructor; auto.
  - eapply joined_symbols; [exact J|now apply eps_symbols|exact St].
  - destruct J as [p f H|j H1 H2 H3 H4 H5 H6]; [exact F|]. rewrite H5. discriminate.
  - intros s Hs Hw. destruct (joined_writes _ _ _ _ J I Hw) as [Hw'| ->]; [exact (M s Hs Hw')|]. 
    destruct Hs as [Hs|[Hs|[Hs|[Hs|[]]]]]; discriminate Hs.
  - intros p b q w x y c Ha Hx Hc. destruct J as [p0 f H|j H1 H2 H3 H4 H5 H6]; [exact (C _ _ _ _ _ _ _ Ha Hx Hc)|].
    apply H6 in Ha as [Ha|(-> & _)]; [exact (C _ _ _ _ _ _ _ Ha Hx Hc)|]. pose proof (as_symbols_fun _ _ _ _ Hx (eps_symbols a I)) as E. injection E as -> ->.
    destruct Hc as [Hc|Hc]; injection Hc as <-; lia.
Qed.
Lemma listable_small : forall a t x y c, listable true a t -> srel t a x y c -> Forall small x /\ Forall small y.
Proof.
  intros a t x y c L (tr & f & (q & H & _) & <- & <- & _). pose proof (ls_chars _ _ _ L) as C. clear L.
  induction H as [p|p b [i o] w q tr r Ha Hx _ [I1 I2]]; [split; constructor|]. rewrite sym_in_cons, sym_out_cons. cbn [fst snd].
  split; apply Forall_app; split; auto; unfold vis.
  - destruct (is_eps i); constructor; [|constructor]. intros k ->. exact (C _ _ _ _ _ _ _ Ha Hx (or_introl eq_refl)).
  - destruct (is_eps o); constructor; [|constructor]. intros k ->. exact (C _ _ _ _ _ _ _ Ha Hx (or_intror eq_refl)).
Qed.
Lemma srel_known : forall a t x y c, alph_inv a -> srel t a x y c -> known_syms a (without_marks y).
Proof.
  intros a t x y c I (tr & f & (q & H & _) & _ & <- & _) n Hn. apply filter_In in Hn as [Hn _].
  destruct (sym_out_writes _ _ _ _ _ _ H Hn) as (p & b & q' & w & i & _ & (l & r & _ & _ & Hr)). exact (proj1 (symbol_tag a r n I Hr)).
Qed.
Lemma no_finals_nothing : forall t a x y c, finals t = [] -> ~ srel t a x y c.
Proof. intros t a x y c E (tr & f & (q & _ & H) & _). unfold final_wt in H. rewrite E in H. destruct H. Qed.

(** The sections before and after *)
Definition same_words (a : alphabet) (s s' : ustr * transducer) : Prop :=
  fst s' = fst s /\ listable true a (snd s') /\ (acyclic (snd s) -> acyclic (snd s')) /\ forall x y c, srel (snd s') a x y c <-> srel (snd s) a x y c.
Section Listing.
  Variables (a : alphabet) (other : transducer) (letters : list Z) (exclude : list ustr) (items : list pitem).
  Hypothesis I : alph_inv0 a.
  Hypothesis Wo : wf other.
  Hypothesis So : symbols_in other a.
  Hypothesis U1 : ~ tag_known a w_any_char.
  Hypothesis U2 : ~ tag_known a w_any_tag.
  Hypothesis Po : plain other a.
  Hypothesis No : no_empty_loops other a.
  Hypothesis Ko : forall z, known_syms a z -> (known other a z <-> fits letters exclude items z).
  Lemma all_plain : forall t, plain t a.
  Proof.
    intros t p b q w [x y] _ (l & r & _ & H1 & H2). cbn [fst snd] in *.
    assert (G : forall s e, as_symbol a s e -> ~ wild e) by (intros s e H [-> | ->]; apply (symbol_tag a _ _ (proj1 I)) in H as [H _]; auto).
    split; eapply G; eauto.
  Qed.
  Lemma list_sections_spec : forall trans, (forall s, In s trans -> listable true a (snd s)) ->
    exists out trans' N, (forall fuel, (N <= fuel)%nat -> list_sections fuel other a trans = Ok (out, trans'))
      /\ Forall2 (same_words a) trans trans'
      /\ (forall r l, In (r, l) out -> to_list true a trans letters exclude items r l)
      /\ ((forall name t, In (name, t) trans -> acyclic t) -> forall r l, to_list true a trans letters exclude items r l -> In (r, l) out).
  Proof.
    induction trans as [|[name t] trans IH]; intros L.
    { exists [], [], 0%nat. split; [reflexivity|]. split; [constructor|]. split; [intros r l []|]. intros _ r l (n & t & x & y & c & [] & _). }
    pose proof (L _ (or_introl eq_refl)) as Lt. cbn [snd] in Lt. destruct IH as (out' & trans' & N' & E' & F' & S' & C'); [intros s Hs; apply L; now right|].
    destruct (trim_whole other a a t (ls_wf _ _ _ Lt) Wo I (ls_symbols _ _ _ Lt) So (ls_finals _ _ _ Lt) (ls_marks _ _ _ Lt) (all_plain t) Po) as (inter & N & Et & Wi & Si & Ai & Ri).
    destruct (joinFinals_spec 0 t (ls_wf _ _ _ Lt) (ls_finals _ _ _ Lt)) as (j & Ej & Wj & J).
    assert (Sm : forall x y c, srel inter a x y c -> Forall small x /\ Forall small y).
    { intros x y c H. destruct (proj1 (Ri x y) (ex_intro _ c H)) as [(c' & H') _]. eapply listable_small; eauto. }
    assert (Fit : forall x y, (exists c, srel inter a x y c) <-> (exists c, srel t a x y c) /\ fits letters exclude items (without_marks y)).
    { intros x y. rewrite Ri. split; intros [(c & H1) H2]; (split; [eauto|]); apply (Ko _ (srel_known _ _ _ _ _ (proj1 I) H1)); exact H2. }
    assert (X : exists out N2, (forall fuel, (N2 <= fuel)%nat -> (if hasNoFinals inter then Ok [] else expand fuel inter a (initial inter) [] []) = Ok out)
       /\ (forall r l, In (r, l) out -> exists x y c, srel inter a x y c /\ r = shown y /\ l = shown x /\ r <> [] /\ l <> [])
       /\ (acyclic t -> forall r l x y c, srel inter a x y c -> r = shown y -> l = shown x -> r <> [] -> l <> [] -> In (r, l) out)).
    { unfold hasNoFinals. destruct (finals inter) as [|f0 fs] eqn:Ef.
      - exists [], 0%nat. split; [reflexivity|]. split; [intros r l []|]. intros _ r l x y c H. exfalso. exact (no_finals_nothing _ _ _ _ _ Ef H).
      - destruct (expand_words inter a Wi Si Sm) as (out & N2 & E2 & S2 & C2). exists out, N2. split; [exact E2|]. split; [exact S2|]. intros Ha. apply C2. auto. }
    destruct X as (out & N2 & E2 & S2 & C2).
    exists (out ++ out'), ((name, j) :: trans'), (max N (max N2 N'))%nat. split; [|split; [|split]].
    - intros fuel Hf. cbn [list_sections]. rewrite Et by lia. cbn [obind]. rewrite Ej. cbn [obind]. rewrite E2 by lia. cbn [obind]. rewrite E' by lia. reflexivity.
    - constructor; [|exact F']. split; [reflexivity|]. split; [cbn [snd]; eapply listable_joined; eauto|]. split.
      + cbn [snd]. intros Ha. exact (joined_acyclic _ _ (ls_wf _ _ _ Lt) J Ha).
      + cbn [snd]. intros x y c. exact (joined_srel 0 t j a false x y c (ls_wf _ _ _ Lt) J (eps_symbols a I)).
    - intros r l H. apply in_app_iff in H as [H|H].
      + destruct (S2 r l H) as (x & y & c & H1 & H2). destruct (proj1 (Fit x y) (ex_intro _ c H1)) as [(c' & H3) H4]. exists name, t, x, y, c'. split; [now left|]. auto.
      + destruct (S' r l H) as (n & u & x & y & c & H1 & H2). exists n, u, x, y, c. split; [now right|exact H2].
    - intros A r l (n & u & x & y & c & [E|H1] & H2 & H3 & H4 & H5 & H6 & H7); apply in_app_iff.
      + injection E as <- <-. left. cbn [negb srel_o] in H2. destruct (proj2 (Fit x y) (conj (ex_intro _ c H2) H3)) as (c' & H8).
        apply (C2 (A name t (or_introl eq_refl)) r l x y c' H8); auto.
      + right. apply C'; [intros n' u' Hu; apply (A n'); now right|]. exists n, u, x, y, c. auto 8.
  Qed.
End Listing.

(** * Sorting *)
Lemma name_before_spec : forall a b, name_before a b = true <-> text_before a b.
Proof.
  induction a as [|x a IH]; intros [|y b]; cbn [name_before].
  - split; [discriminate|intros H; inversion H].
  - split; [constructor|reflexivity].
  - split; [discriminate|intros H; inversion H].
  - rewrite orb_true_iff, andb_true_iff, IH, Z.ltb_lt, Z.eqb_eq. split.
    + intros [H|[-> H]]; [now apply tb_unit|now apply tb_same].
    + intros H. inversion H; subst; auto.
Qed.
Lemma text_before_trans : forall a b c, text_before a b -> text_before b c -> text_before a c.
Proof.
  intros a b c H. revert c. induction H as [x s|x y s u Hxy|x s u H IH]; intros c Hc; inversion Hc; subst; try (now constructor); try (apply tb_unit; lia).
  apply tb_same. auto.
Qed.
Lemma text_before_total : forall a b, ~ text_before a b -> ~ text_before b a -> a = b.
Proof.
  induction a as [|x a IH]; intros [|y b] H1 H2; [reflexivity|exfalso; apply H1; constructor|exfalso; apply H2; constructor|].
  destruct (Z.lt_trichotomy x y) as [C|[-> |C]]; [exfalso; apply H1; now constructor| |exfalso; apply H2; now constructor].
  f_equal. apply IH; intros H; [apply H1|apply H2]; now apply tb_same.
Qed.
Lemma text_before_irrefl : forall a, ~ text_before a a.
Proof. induction a as [|x a IH]; intros H; inversion H; subst; [lia|auto]. Qed.
Lemma line_before_spec : forall x y, line_before x y = true <-> line_order x y.
Proof.
  intros [a b] [c d]. unfold line_before, line_order. cbn [fst snd]. rewrite orb_true_iff, andb_true_iff, negb_true_iff, <- not_true_iff_false, !name_before_spec. split.
  - intros [H|[H1 H2]]; [auto|]. destruct (name_before a c) eqn:E; [left; now apply name_before_spec|]. right. split; [|exact H2].
    apply text_before_total; [|exact H1]. rewrite <- name_before_spec. congruence.
  - intros [H|[-> H]]; [auto|]. right. split; [apply text_before_irrefl|exact H].
Qed.
Lemma line_order_trans : forall x y z, line_order x y -> line_order y z -> line_order x z.
Proof.
  intros x y z [H1|[E1 H1]] [H2|[E2 H2]]; unfold line_order.
  - left. eapply text_before_trans; eauto.
  - left. now rewrite <- E2.
  - left. now rewrite E1.
  - right. split; [congruence|]. eapply text_before_trans; eauto.
Qed.
Lemma line_order_total : forall x y, line_before x y = false -> line_before y x = false -> x = y.
Proof.
  intros [a b] [c d] H1 H2. rewrite <- not_true_iff_false, line_before_spec in H1, H2. unfold line_order in *. cbn [fst snd] in *.
  assert (a = c) by (apply text_before_total; auto). subst c. f_equal. apply text_before_total; auto.
Qed.
Lemma line_insert_spec : forall x l, StronglySorted line_order l -> StronglySorted line_order (line_insert x l) /\ forall y, In y (line_insert x l) <-> y = x \/ In y l.
Proof.
  intros x. induction l as [|z l IH]; intros H; cbn [line_insert].
  - split; [repeat constructor|]. intros y. cbn. intuition congruence.
  - inversion H as [|? ? Hl Hz]; subst. destruct (line_before x z) eqn:E1.
    + apply line_before_spec in E1. split; [|intros y; cbn; intuition congruence]. constructor; [exact H|]. constructor; [exact E1|].
      eapply Forall_impl; [|exact Hz]. intros y Hy. eapply line_order_trans; eauto.
    + destruct (line_before z x) eqn:E2.
      * destruct (IH Hl) as [I1 I2]. apply line_before_spec in E2. split.
        -- constructor; [exact I1|]. apply Forall_forall. intros y Hy. apply I2 in Hy as [-> |Hy]; [exact E2|]. rewrite Forall_forall in Hz. auto.
        -- intros y. cbn [In]. rewrite I2. intuition congruence.
      * rewrite (line_order_total x z E1 E2). split; [exact H|]. intros y. cbn. intuition congruence.
Qed.
Lemma sorted_lines : forall lines acc, StronglySorted line_order acc ->
  StronglySorted line_order (fold_left (fun l x => line_insert x l) lines acc) /\ forall y, In y (fold_left (fun l x => line_insert x l) lines acc) <-> In y lines \/ In y acc.
Proof.
  induction lines as [|x lines IH]; intros acc H; cbn [fold_left]; [split; [exact H|intros y; cbn; intuition]|].
  destruct (line_insert_spec x acc H) as [S1 M1]. destruct (IH _ S1) as [S2 M2]. split; [exact S2|]. intros y. rewrite M2, M1. cbn [In]. intuition congruence.
Qed.

(** * process *)
(** How far the sections are from those of the dictionary *)
Definition stands (analyser : bool) (a0 a : alphabet) (s s' : ustr * transducer) : Prop :=
  fst s' = fst s /\ listable true a (snd s') /\ (acyclic (snd s) -> acyclic (snd s')) /\ forall x y c, srel (snd s') a x y c <-> srel_o (negb analyser) (snd s) a0 x y c.
Lemma stands_in : forall analyser a0 a m m', Forall2 (stands analyser a0 a) m m' ->
  (forall s', In s' m' -> exists s, In s m /\ stands analyser a0 a s s') /\ (forall s, In s m -> exists s', In s' m' /\ stands analyser a0 a s s').
Proof.
  intros analyser a0 a m m' F. induction F as [|s s' m m' H _ [I1 I2]]; [split; intros z []|]. split; intros z [<-|Hz].
  - exists s. split; [now left|exact H].
  - destruct (I1 z Hz) as (y & Hy & K). exists y. split; [now right|exact K].
  - exists s'. split; [now left|exact H].
  - destruct (I2 z Hz) as (y & Hy & K). exists y. split; [now right|exact K].
Qed.
Section Process.
  Variables (analyser sort : bool) (a0 a1 : alphabet) (m : sections) (letters tags : list Z) (exclude : list ustr).
  Hypothesis Hl : forall c, In c letters -> 0 < c.
  Hypothesis Ht : tags_listed tags exclude a1.
  Hypothesis Ka : tag_known a1 s_any_tag.
  Hypothesis U1 : ~ tag_known a1 w_any_char.
  Hypothesis U2 : ~ tag_known a1 w_any_tag.
  Definition underway (m' : sections) (a : alphabet) : Prop := alph_inv0 a /\ same_tags a1 a /\ Forall2 (stands analyser a0 a) m m'.

  Lemma process_spec : forall items text m' a, underway m' a -> Forall (item_ok a1) items -> pattern_text items text ->
    exists lines m'' a' N, (forall fuel, (N <= fuel)%nat -> process fuel sort letters tags text m' a = Ok (lines, (m'', a')))
      /\ underway m'' a' /\ listing analyser sort a0 m letters exclude items lines.
  Proof.
    intros items text m' a (I & E & F) O Tx.
    destruct (pattern_spec letters tags exclude a items text Hl I (listed_same _ _ _ _ E Ht)) as (other & a' & Ep & Wo & I' & X & E' & So & Po & No & Ko).
    - unfold tag_known. now rewrite <- E.
    - eapply Forall_impl; [|exact O]. intros i. now apply item_ok_same.
    - exact Tx.
    - assert (E2 : same_tags a1 a') by (unfold same_tags in *; congruence).
      assert (V1 : ~ tag_known a' w_any_char) by (unfold tag_known; rewrite <- E2; exact U1). assert (V2 : ~ tag_known a' w_any_tag) by (unfold tag_known; rewrite <- E2; exact U2).
      assert (Ko' : forall z, known_syms a' z -> (known other a' z <-> fits letters exclude items z)).
      { intros z Hz. apply Ko. intros n Hn. unfold tag_known. rewrite E'. now apply Hz. }
      assert (P : plain other a') by (apply Po; unfold tag_known; rewrite <- E; assumption).
      destruct (list_sections_spec a' other letters exclude items I' Wo So V1 V2 P No Ko' m') as (out & m'' & N & El & F2 & S2 & C2).
      { intros s Hs. destruct (proj1 (stands_in _ _ _ _ _ F) s Hs) as (s0 & _ & (_ & L & _)). exact (listable_larger _ _ _ _ X L). }
      assert (W : forall s s', stands analyser a0 a s s' -> forall x y c, srel (snd s') a' x y c <-> srel_o (negb analyser) (snd s) a0 x y c).
      { intros s s' (_ & L & _ & R) x y c. rewrite (srel_larger _ a a' x y c X (ls_symbols _ _ _ L)). apply R. }
      assert (To : forall r l, to_list true a' m' letters exclude items r l <-> to_list analyser a0 m letters exclude items r l).
      { intros r l. split.
        - intros (n & t & x & y & c & H1 & H2 & H3). destruct (proj1 (stands_in _ _ _ _ _ F) _ H1) as ([n0 t0] & H4 & H5). exists n0, t0, x, y, c. split; [exact H4|]. split; [|exact H3].
          exact (proj1 (W _ _ H5 x y c) H2).
        - intros (n & t & x & y & c & H1 & H2 & H3). destruct (proj2 (stands_in _ _ _ _ _ F) _ H1) as ([n0 t0] & H4 & H5). exists n0, t0, x, y, c. split; [exact H4|]. split; [|exact H3].
          exact (proj2 (W _ _ H5 x y c) H2). }
      exists (if sort then fold_left (fun l x => line_insert x l) out [] else out), m'', a', N. split; [|split].
      + intros fuel Hf. unfold process. rewrite Ep. cbn [obind]. rewrite El by exact Hf. reflexivity.
      + split; [exact I'|]. split; [exact E2|]. clear - F F2 W. revert m'' F2. induction F as [|s s' m m' H _ IH]; intros m'' F2; inversion F2 as [|? s'' ? m3 H' F3]; subst; constructor; [|auto].
        destruct H' as (G1 & G2 & G3 & G4). pose proof H as (K1 & _ & K3 & _). split; [congruence|]. split; [exact G2|]. split; [auto|]. intros x y c. rewrite G4. exact (W _ _ H x y c).
      + destruct (sorted_lines out [] ltac:(constructor)) as [Z1 Z2].
        assert (M : forall y, In y (if sort then fold_left (fun l x => line_insert x l) out [] else out) <-> In y out).
        { intros y. destruct sort; [|reflexivity]. rewrite Z2. cbn. intuition. }
        split; [intros ->; exact Z1|]. split.
        * intros r l H. apply M in H. apply To. now apply S2.
        * intros A r l H. apply M. apply C2; [|now apply To]. intros n t Hn. destruct (proj1 (stands_in _ _ _ _ _ F) _ Hn) as ([n0 t0] & H4 & (_ & _ & H5 & _)). apply H5. exact (A n0 t0 H4).
  Qed.
End Process.

(** * Turning the sections *)
Lemma invert_arcs_tags : forall arcs a acc r a', alph_inv a -> invert_arcs arcs a acc = Ok (r, a') -> same_tags a a'.
Proof.
  induction arcs as [|[tag x] arcs IH]; intros a acc r a' I E; cbn [invert_arcs] in E; [injection E as _ <-; reflexivity|].
  destruct (decode tag a) as [pr| | | |]; try discriminate E. cbn [obind] in E. assert (C := pair_cases (snd pr, fst pr) a I). assert (I1 := pair_inv (snd pr, fst pr) a I).
  destruct (pair_code (snd pr, fst pr) a) as [c a1]. cbn [snd] in *. apply IH in E; [|exact I1]. unfold same_tags in *. rewrite <- E. destruct C as [[_ ->]|[_ ->]]; reflexivity.
Qed.
Lemma invert_arcs_inv : forall arcs a acc r a', alph_inv a -> invert_arcs arcs a acc = Ok (r, a') -> alph_inv a'.
Proof.
  induction arcs as [|[tag x] arcs IH]; intros a acc r a' I E; cbn [invert_arcs] in E; [injection E as _ <-; exact I|].
  destruct (decode tag a) as [pr| | | |]; try discriminate E. cbn [obind] in E. assert (I1 := pair_inv (snd pr, fst pr) a I).
  destruct (pair_code (snd pr, fst pr) a) as [c a1]. cbn [snd] in *. now apply IH in E.
Qed.
Lemma invert_states_tags : forall ts a r a', alph_inv a -> invert_states ts a = Ok (r, a') -> same_tags a a'.
Proof.
  induction ts as [|l ts IH]; intros a r a' I E; cbn [invert_states] in E; [injection E as _ <-; reflexivity|].
  destruct (invert_arcs l a []) as [[l' a1]| | | |] eqn:E1; try discriminate E. cbn [obind] in E. pose proof (invert_arcs_inv _ _ _ _ _ I E1) as I1. apply invert_arcs_tags in E1; [|exact I].
  destruct (invert_states ts a1) as [[r' a2]| | | |] eqn:E2; try discriminate E. cbn [obind] in E. injection E as _ <-. apply IH in E2; [|exact I1]. unfold same_tags in *. congruence.
Qed.
Lemma invert_section : forall a t, alph_inv0 a -> wf t -> symbols_in t a ->
  exists t' a', invert t a = Ok (t', a') /\ alph_inv0 a' /\ extends a a' /\ same_tags a a' /\ wf t' /\ symbols_in t' a' /\ initial t' = initial t /\ finals t' = finals t
    /\ forall p q w x y, (exists b, has_arc t' p b q w /\ as_symbols a' b (x, y)) <-> (exists b, has_arc t p b q w /\ as_symbols a b (y, x)).
Proof.
  intros a t I W St. assert (T : tags_in t a) by (intros p b q w H; destruct (St _ _ _ _ H) as (x & l & r & D & _); eauto).
  destruct (RelabelProps.C25_traces t a (proj1 I) T) as (t' & a' & E & (F1 & F2 & F3) & T' & I' & W' & _). destruct (invert_spec t a (proj1 I) T) as (t1 & a1 & E1 & _ & X & _ & R).
  rewrite E in E1. injection E1 as <- <-. exists t', a'. split; [exact E|]. split; [exact (inv0_extends a a' I I' X)|]. split; [exact X|]. 
  assert (Sm : same_tags a a').
  { unfold invert in E. destruct (invert_states (trans t) a) as [[ts a2]| | | |] eqn:E2; try discriminate E. cbn [obind] in E. injection E as _ <-. exact (invert_states_tags _ _ _ _ (proj1 I) E2). }
  split; [exact Sm|]. split; [auto|].
  assert (A := invert_arcs_iff t a t' a' I' X T R). unfold as_pair in A.
  assert (K : forall p q w x y, (exists b, has_arc t' p b q w /\ as_symbols a' b (x, y)) <-> (exists b, has_arc t p b q w /\ as_symbols a b (y, x))).
  { intros p q w x y. split.
    - intros (b & Hb & l & r & D & Hx & Hy). destruct (proj1 (A p (l, r) q w) (ex_intro _ b (conj Hb D))) as (c & [l' r'] & Hc & D' & Esw). cbn in Esw. injection Esw as -> ->.
      exists c. split; [exact Hc|]. exists l', r'. split; [exact D'|]. cbn [fst snd] in *. split; apply (same_symbol a' a); auto; now symmetry.
    - intros (b & Hb & l & r & D & Hx & Hy). destruct (proj2 (A p (r, l) q w)) as (c & Hc & D'); [exists b, (l, r); auto|].
      exists c. split; [exact Hc|]. exists r, l. split; [exact D'|]. cbn [fst snd] in *. split; apply (same_symbol a a'); auto. }
  split; [|auto]. intros p b q w H. destruct (T' _ _ _ _ H) as ([l r] & D). destruct (proj1 (A p (l, r) q w) (ex_intro _ b (conj H D))) as (c & [l' r'] & Hc & D' & Esw). cbn in Esw. injection Esw as -> ->.
  destruct (St _ _ _ _ Hc) as ([x y] & l & r & D2 & Hx & Hy). rewrite D' in D2. injection D2 as <- <-. exists (y, x). exists r', l'. split; [exact D|]. cbn [fst snd] in *. split; apply (same_symbol a a'); auto.
Qed.
Lemma turned_stands : forall a t t' a', wf t -> alph_inv0 a -> alph_inv0 a' -> wf t' -> symbols_in t' a' -> initial t' = initial t -> finals t' = finals t ->
  (forall p q w x y, (exists b, has_arc t' p b q w /\ as_symbols a' b (x, y)) <-> (exists b, has_arc t p b q w /\ as_symbols a b (y, x))) ->
  listable false a t -> forall name, stands false a a' (name, t) (name, t').
Proof.
  intros a t t' a' W I I' W' S' In' F' A L name. split; [reflexivity|]. cbn [snd fst negb srel_o].
  assert (P : forall p l q, path t' p l q -> exists l', path t p l' q /\ (l' = [] -> l = [])).
  { intros p l q H. induction H as [p|p b w q l r Ha _ (l' & I1 & I2)]; [exists []; split; [constructor|auto]|]. destruct (S' _ _ _ _ Ha) as ([x y] & Hx).
    destruct (proj1 (A p q w x y) (ex_intro _ b (conj Ha Hx))) as (c & Hc & _). exists ((c, w) :: l'). split; [econstructor; eauto|discriminate]. }
  assert (Tr : forall u au v av, (forall p q w x y, (exists b, has_arc v p b q w /\ as_symbols av b (x, y)) -> (exists b, has_arc u p b q w /\ as_symbols au b (y, x))) ->
    forall p tr q, trace (as_symbols av) v p tr q -> exists tr', trace (as_symbols au) u p tr' q /\ sym_in tr' = sym_out tr /\ sym_out tr' = sym_in tr /\ weight_of tr' = weight_of tr).
  { intros u au v av B p tr q H. induction H as [p|p b [x y] w q tr r Ha Hx _ (tr' & H1 & H2 & H3 & H4)]; [exists []; split; [constructor|auto]|].
    destruct (B p q w x y (ex_intro _ b (conj Ha Hx))) as (c & Hc & Hy). exists (((y, x), w) :: tr'). split; [econstructor; eauto|]. rewrite !sym_in_cons, !sym_out_cons. cbn [fst snd].
    rewrite H2, H3. split; [reflexivity|]. split; [reflexivity|]. unfold weight_of in *. cbn [map fold_right snd] in *. now rewrite H4. }
  split; [|split].
  - destruct L as [_ St F M C]. constructor; auto; [congruence| |].
    + intros s Hs (p & b & q & w & i & Ha & Hx). apply (M s Hs). destruct (proj1 (A p q w i s) (ex_intro _ b (conj Ha Hx))) as (c & Hc & Hy). exists p, c, q, w, i. auto.
    + intros p b q w x y c Ha Hx Hc. destruct (proj1 (A p q w x y) (ex_intro _ b (conj Ha Hx))) as (k & Hk & Hy). apply (C _ _ _ _ _ _ _ Hk Hy). tauto.
  - intros Ac p l H. destruct (P _ _ _ H) as (l' & H1 & H2). apply H2. exact (Ac _ _ H1).
  - intros x y c. split; intros (tr & f & (q & Ht & Hf) & <- & <- & <-).
    + destruct (Tr t a t' a' (fun p q w x y => proj1 (A p q w x y)) _ _ _ Ht) as (tr' & H1 & H2 & H3 & H4). exists tr', f. split; [exists q; split; [now rewrite <- In'|unfold final_wt in *; now rewrite <- F']|]. rewrite H4. auto.
    + destruct (Tr t' a' t a (fun p q w x y => proj2 (A p q w y x)) _ _ _ Ht) as (tr' & H1 & H2 & H3 & H4). exists tr', f. split; [exists q; split; [now rewrite In'|unfold final_wt in *; now rewrite F']|]. rewrite H4. auto.
Qed.

Lemma srel_o_larger : forall inv t a a' x y c, extends a a' -> symbols_in t a -> (srel_o inv t a' x y c <-> srel_o inv t a x y c).
Proof. intros [|] t a a' x y c X St; unfold srel_o; now apply srel_larger. Qed.
Lemma stands_larger : forall an a0 a a' s s', extends a a' -> stands an a0 a s s' -> stands an a0 a' s s'.
Proof.
  intros an a0 a a' s s' X (H1 & H2 & H3 & H4). split; [exact H1|]. split; [exact (listable_larger _ _ _ _ X H2)|]. split; [exact H3|].
  intros x y c. rewrite (srel_larger _ a a' x y c X (ls_symbols _ _ _ H2)). apply H4.
Qed.
Lemma stands_back : forall an a0 a1 a s s', extends a0 a1 -> symbols_in (snd s) a0 -> stands an a1 a s s' -> stands an a0 a s s'.
Proof.
  intros an a0 a1 a s s' X St (H1 & H2 & H3 & H4). split; [exact H1|]. split; [exact H2|]. split; [exact H3|].
  intros x y c. rewrite H4. now apply srel_o_larger.
Qed.
Lemma Forall2_weaken : forall {X Y} (P Q : X -> Y -> Prop) l l', (forall x y, In x l -> P x y -> Q x y) -> Forall2 P l l' -> Forall2 Q l l'.
Proof. intros X Y P Q l l' H F. induction F as [|x y l l' Hp F IH]; constructor; [apply H; [now left|exact Hp]|]. apply IH. intros u v Hu. apply H. now right. Qed.
Lemma invert_sections_spec : forall m a, alph_inv0 a -> (forall s, In s m -> listable false a (snd s)) ->
  exists m' a', invert_sections m a = Ok (m', a') /\ alph_inv0 a' /\ extends a a' /\ same_tags a a' /\ Forall2 (stands false a a') m m'.
Proof.
  induction m as [|[name t] m IH]; intros a I L; cbn [invert_sections].
  { exists [], a. split; [reflexivity|]. split; [exact I|]. split; [apply extends_refl|]. split; [reflexivity|constructor]. }
  pose proof (L _ (or_introl eq_refl)) as Lt. cbn [snd] in Lt.
  destruct (invert_section a t I (ls_wf _ _ _ Lt) (ls_symbols _ _ _ Lt)) as (t' & a1 & -> & I1 & X1 & E1 & W1 & S1 & In1 & F1 & A1). cbn [obind].
  destruct (IH a1 I1) as (m' & a2 & -> & I2 & X2 & E2 & F2); [intros s Hs; apply (listable_larger _ _ _ _ X1); apply L; now right|]. cbn [obind].
  exists ((name, t') :: m'), a2. split; [reflexivity|]. split; [exact I2|]. split; [eapply extends_trans; eauto|]. split; [unfold same_tags in *; congruence|].
  constructor.
  - apply (stands_larger _ _ _ _ _ _ X2). eapply turned_stands; eauto. apply Lt.
  - eapply Forall2_weaken; [|exact F2]. intros s s' Hs. apply (stands_back _ _ _ _ _ _ X1). exact (ls_symbols _ _ _ (L s (or_intror Hs))).
Qed.

(** * The tags <*> stands for *)
Lemma listed_tags_in : forall exclude names i, iset (listed_tags exclude i names) /\ forall c, In c (listed_tags exclude i names) <->
  exists j n, nth_error names j = Some n /\ ~ In n exclude /\ c = - Z.of_nat (S (i + j)).
Proof.
  intros exclude. induction names as [|n names IH]; intros i; cbn [listed_tags].
  - split; [constructor|]. intros c. split; [intros []|]. intros (j & n & H & _). destruct j; discriminate H.
  - destruct (IH (S i)) as [I1 I2].
    assert (X : existsb (fun x => if ustr_eq_dec n x then true else false) exclude = true <-> In n exclude).
    { rewrite existsb_exists. split; [intros (x & H1 & H2); destruct (ustr_eq_dec n x); [now subst|discriminate]|]. intros H. exists n. split; [exact H|]. destruct (ustr_eq_dec n n); congruence. }
    assert (R : forall c, (exists j n0, nth_error (n :: names) j = Some n0 /\ ~ In n0 exclude /\ c = - Z.of_nat (S (i + j))) <->
       (~ In n exclude /\ c = - Z.of_nat (S i)) \/ exists j n0, nth_error names j = Some n0 /\ ~ In n0 exclude /\ c = - Z.of_nat (S (S i + j))).
    { intros c. split.
      - intros ([|j] & n0 & H1 & H2 & H3); cbn [nth_error] in H1; [injection H1 as <-; left; split; [exact H2|]; now rewrite Nat.add_0_r in H3|].
        right. exists j, n0. split; [exact H1|]. split; [exact H2|]. rewrite H3. do 2 f_equal. lia.
      - intros [[H1 H2]|(j & n0 & H1 & H2 & H3)]; [exists 0%nat, n; split; [reflexivity|]; split; [exact H1|]; now rewrite Nat.add_0_r|].
        exists (S j), n0. split; [exact H1|]. split; [exact H2|]. rewrite H3. do 2 f_equal. lia. }
    cbn zeta. destruct (existsb _ exclude) eqn:E.
    + split; [exact I1|]. intros c. rewrite I2, R. split; [auto|]. intros [[H _]|H]; [exfalso; apply H; now apply X|exact H].
    + split; [now apply iset_insert_iset|]. intros c. rewrite (iset_insert_in _ _ _ I1), I2, R. split; intros [H|H]; auto; [left; split; [intros K; apply X in K; discriminate|exact H]|left; apply H].
Qed.
Lemma listed_ok : forall exclude a, tags_listed (listed_tags exclude 0 (slexicinv a)) exclude a.
Proof.
  intros exclude a c. rewrite (proj2 (listed_tags_in exclude (slexicinv a) 0)). unfold as_symbol, getSymbol. split.
  - intros (j & n & H1 & H2 & ->). exists n. split; [|exact H2]. split; [lia|]. replace (- Z.of_nat (S (0 + j)) =? 0) with false by lia. replace (- Z.of_nat (S (0 + j)) <? 0) with true by lia.
    replace (Z.to_nat (- - Z.of_nat (S (0 + j)) - 1)) with j by lia. now rewrite H1.
  - intros (m & (H1 & H2) & H3). replace (c =? 0) with false in H2 by lia. replace (c <? 0) with true in H2 by lia.
    destruct (nth_error (slexicinv a) (Z.to_nat (- c - 1))) as [n|] eqn:E; [|discriminate H2]. injection H2 as ->. exists (Z.to_nat (- c - 1)), m. split; [exact E|]. split; [exact H3|]. lia.
Qed.

(** * Reading the patterns *)
Lemma patterns_read : forall sort letters tags trans alpha rest u f cur k, InputProps.at_text f (u ++ rest) ->
  (forall c, In c u -> c <> 10 /\ c <> 0 /\ c <> 65535) -> (length u <= k)%nat ->
  exists f', (forall fuel, patterns fuel sort letters tags f cur trans alpha k = patterns fuel sort letters tags f' (cur ++ InputProps.utf16_text u) trans alpha (k - length u))
    /\ InputProps.at_text f' rest.
Proof.
  intros sort letters tags trans alpha rest. induction u as [|c u IH]; intros f cur k Hf Hu Hk.
  { exists f. cbn [app length] in *. unfold InputProps.utf16_text. cbn [map concat]. rewrite app_nil_r, Nat.sub_0_r. auto. }
  cbn [app length] in *. destruct k as [|k]; [lia|]. destruct (InputProps.get_at _ _ _ Hf) as (f1 & E & A1 & _ & Sc).
  destruct (Hu c (or_introl eq_refl)) as (N1 & N2 & N3).
  destruct (IH f1 (append_cp cur c) k A1 (fun x Hx => Hu x (or_intror Hx)) ltac:(lia)) as (f' & E' & A').
  exists f'. split; [|exact A']. intros fuel. cbn [patterns]. rewrite E. cbn [obind]. replace (c =? 10) with false by lia. replace (c =? 0) with false by lia. replace (c =? U_EOF) with false by (unfold U_EOF; lia). cbn [orb].
  rewrite (InputProps.at_text_eof _ _ A1), E', (InputProps.append_cp_utf16 _ _ Sc), InputProps.utf16_text_cons, <- app_assoc. reflexivity.
Qed.
Section Program.
  Variables (analyser sort : bool) (a0 a1 : alphabet) (m : sections) (letters tags : list Z) (exclude : list ustr).
  Hypothesis Hl : forall c, In c letters -> 0 < c.
  Hypothesis Ht : tags_listed tags exclude a1.
  Hypothesis Ka : tag_known a1 s_any_tag.
  Hypothesis U1 : ~ tag_known a1 w_any_char.
  Hypothesis U2 : ~ tag_known a1 w_any_tag.
  (** Lines are printed whole. *)
  Hypothesis Pr : forall items r l, to_list analyser a0 m letters exclude items r l -> print_line (r, l) = line_text (r, l).
  Lemma lines_text : forall items lines, listing analyser sort a0 m letters exclude items lines -> concat (map print_line lines) = concat (map line_text lines).
  Proof. intros items lines (_ & H & _). f_equal. apply map_ext_in. intros [r l] Hin. exact (Pr items r l (H r l Hin)). Qed.
  Lemma patterns_spec : forall more last text, asked more last text -> Forall (fun x => Forall (item_ok a1) (fst x)) more -> Forall (item_ok a1) last ->
    forall f m' a k, InputProps.at_text f text -> underway analyser a0 a1 m m' a -> (length text < k)%nat ->
    exists out N, (forall fuel, (N <= fuel)%nat -> patterns fuel sort letters tags f [] m' a k = Ok out)
      /\ answer (listing analyser sort a0 m letters exclude) more last out.
  Proof.
    intros more last text H. induction H as [items u Hp Hu|items u e more last text Hp Hu He H IH]; intros O1 O2 f m' a k Hf V Hk.
    - destruct (process_spec analyser sort a0 a1 m letters tags exclude Hl Ht Ka U1 U2 items _ m' a V O2 Hp) as (lines & m2 & a2 & N & E & V2 & Ls).
      exists (concat (map line_text lines)), N. split; [|now constructor].
      intros fuel Hfu. rewrite <- (app_nil_r u) in Hf. destruct (patterns_read sort letters tags m' a [] u f [] k Hf Hu ltac:(lia)) as (f' & -> & A').
      cbn [app]. destruct (k - length u)%nat as [|k'] eqn:Ek; [lia|]. cbn [patterns]. rewrite (InputProps.get_end _ A'). cbn [obind]. change (U_EOF =? U_EOF) with true. rewrite orb_true_r.
      rewrite E by exact Hfu. cbn [obind eof i_eof]. now rewrite app_nil_r, (lines_text _ _ Ls).
    - inversion O1 as [|? ? O3 O4]; subst. cbn [fst] in O3.
      destruct (process_spec analyser sort a0 a1 m letters tags exclude Hl Ht Ka U1 U2 items _ m' a V O3 Hp) as (lines & m2 & a2 & N & E & V2 & Ls).
      rewrite app_length in Hk. cbn [length] in Hk.
      assert (X : exists f', (forall fuel, (N <= fuel)%nat -> patterns fuel sort letters tags f [] m' a k
          = let! x := patterns fuel sort letters tags f' [] m2 a2 (k - length u - 1) in Ok ((concat (map line_text lines) ++ [e]) ++ x)) /\ InputProps.at_text f' text).
      { destruct (patterns_read sort letters tags m' a (e :: text) u f [] k Hf Hu ltac:(lia)) as (f1 & Y1 & Y2). cbn [app] in Y1.
        destruct (InputProps.get_at _ _ _ Y2) as (f' & Eg & A' & _ & _). exists f'. split; [|exact A'].
        intros fuel Hfu. rewrite Y1. destruct (k - length u)%nat as [|k'] eqn:Ek; [lia|]. replace (S k' - 1)%nat with k' by lia. cbn [patterns]. rewrite Eg. cbn [obind].
        replace ((e =? 10) || (e =? 0) || (e =? U_EOF)) with true by (destruct He as [-> | ->]; reflexivity).
        rewrite E by exact Hfu. cbn [obind]. rewrite (InputProps.at_text_eof _ _ A'), (lines_text _ _ Ls). replace (e =? U_EOF) with false by (unfold U_EOF; lia). reflexivity. }
      destruct X as (f' & Xe & A'). destruct (IH O4 O2 f' m2 a2 (k - length u - 1)%nat A' V2 ltac:(lia)) as (out & N2 & E2 & An).
      exists (concat (map line_text lines) ++ e :: out), (max N N2). split; [|now constructor].
      intros fuel Hfu. rewrite Xe by lia. rewrite E2 by lia. cbn [obind]. now rewrite <- app_assoc.
  Qed.
End Program.

(** * Printing *)
Lemma c_str_whole : forall s, ~ In 0 s -> c_str s = s.
Proof.
  induction s as [|c s IH]; intros H; cbn [c_str]; [reflexivity|]. destruct (c =? 0) eqn:E; [exfalso; apply H; left; lia|]. rewrite IH; [reflexivity|]. intros K. apply H. now right.
Qed.
Lemma print_whole : forall r l, ~ In 0 r -> ~ In 0 l -> print_line (r, l) = line_text (r, l).
Proof. intros r l H1 H2. unfold print_line, line_text. cbn [fst snd]. now rewrite !c_str_whole. Qed.
Lemma shown_nonzero : forall a t x y c, alph_inv a -> (forall n, tag_known a n -> ~ In 0 n) -> srel t a x y c -> ~ In 0 (shown x) /\ ~ In 0 (shown y).
Proof.
  intros a t x y c I Hn (tr & f & (q & H & _) & <- & <- & _).
  assert (G : forall s e, as_symbol a s e -> ~ In 0 (shown (vis e))).
  { intros s [n|k] He Hin.
    - apply (symbol_tag a s n I) in He as [He _]. unfold vis, shown in Hin. cbn in Hin. rewrite app_nil_r in Hin. exact (Hn n He Hin).
    - destruct He as [He ->]. unfold vis in Hin. destruct (is_eps (SChar k)) eqn:Ek; [destruct Hin|]. unfold shown in Hin. cbn [map concat sym_text] in Hin. rewrite app_nil_r in Hin.
      assert (k <> 0) by (intros ->; discriminate Ek). destruct (k <? 65536) eqn:Eb.
      + destruct Hin as [Hin|[]]. lia.
      + assert (0 <= (k - 65536) / 1024) by (apply Z.div_pos; lia). pose proof (Z.mod_pos_bound (k - 65536) 1024 ltac:(lia)). destruct Hin as [Hin|[Hin|[]]]; lia. }
  induction H as [p|p b [i o] w q tr r Ha (cl & cr & _ & H1 & H2) _ [I1 I2]]; [split; intros []|]. rewrite sym_in_cons, sym_out_cons, !shown_app. cbn [fst snd] in *.
  split; intros K; apply in_app_iff in K as [K|K]; auto; [exact (G _ _ H1 K)|exact (G _ _ H2 K)].
Qed.
