(** lt-trim as a whole (C64). *)
From Verif Require Import Base CompressionModel SerialiserModel SortedVectorModel AlphabetModel AlphabetProofs TransducerModel
  TransducerSpec TransducerProofs ReverseProofs RelabelSpec RelabelProofs ComposeModel ComposeSpec ComposeProofs
  AutomataProps ComposeProps TrimModel SearchProofs TrimSpec TrimProofs TrimProps TrimToolProofs.

(** * The sections of the analyser *)
Definition trimmed (am ap : alphabet) (t m t' : transducer) : Prop :=
  wf t' /\ symbols_in t' am
  /\ (forall x y, (exists c, srel t' am x y c) <-> (exists c, srel t am x y c) /\ covered m ap (without_marks y))
  /\ (length (finals t) <> 1%nat \/ finals_default t ->
        (forall x y c, srel t' am x y c -> srel t am x y c)
        /\ (single_weights t -> forall x y c, srel t am x y c -> covered m ap (without_marks y) -> srel t' am x y c)).

Lemma srel_final : forall t a x y c, srel t a x y c -> finals t <> [].
Proof. intros t a x y c (tr & f & (q & _ & H) & _) E. unfold final_wt in H. rewrite E in H. destruct H. Qed.
Lemma srel_lang : forall t t' a x y, alph_inv0 a -> (forall w, lang t 0 w <-> lang t' 0 w) -> ((exists c, srel t a x y c) <-> exists c, srel t' a x y c).
Proof.
  assert (G : forall t t' a x y, alph_inv0 a -> (forall w, lang t 0 w <-> lang t' 0 w) -> (exists c, srel t a x y c) -> exists c, srel t' a x y c).
  { intros t t' a x y I0 L (c & H). apply (srel_wlang t a 0 x y c (eps_symbols a I0)) in H as (w & xs & H1 & H2).
    destruct (proj1 (L w) (ex_intro _ c H1)) as (c' & H3). exists c'. apply (srel_wlang t' a 0 x y c' (eps_symbols a I0)). eauto. }
  intros t t' a x y I0 L. split; apply G; auto. intros w. symmetry. apply L.
Qed.
Lemma arcless : forall t a x y c, forallb (fun arcs : list arc => match arcs with [] => true | _ => false end) (trans t) = true -> srel t a x y c -> x = [].
Proof.
  intros t a x y c E (tr & f & (q & H & _) & <- & _). assert (tr = []) as ->; [|reflexivity]. destruct H as [p|p b w q l r s Ha _ _]; [reflexivity|]. exfalso.
  rewrite forallb_forall in E. unfold has_arc, arcs_of in Ha. destruct (nth_in_or_default p (trans t) []) as [N|N]; [|rewrite N in Ha; destruct Ha].
  apply E in N. destruct (nth p (trans t) []); [destruct Ha|discriminate].
Qed.

Lemma section_spec : forall am ap m t, alph_inv0 am -> analyser_section am t -> wf m -> symbols_in m ap -> free_epsilons m ap ->
  exists N u, (forall fuel, (N <= fuel)%nat -> trim fuel m am ap t = Ok u) /\
    ((hasNoFinals u = true /\ forall x y c, srel t am x y c -> ~ covered m ap (without_marks y))
     \/ (hasNoFinals u = false /\ exists t', minimize 0 u = Ok t' /\ trimmed am ap t m t')).
Proof.
  intros am ap m t I0 A Wm Sm Fm.
  destruct (C63_kept m am ap t (as_wf _ _ A) Wm I0 (as_symbols_in _ _ A) Sm (as_finals _ _ A) (as_separators _ _ A) (as_one _ _ A)) as (u & N & E & Wu & Su & K & K1 & K2 & K3 & K4).
  exists N, u. split; [exact E|]. unfold hasNoFinals. destruct (finals u) as [|f0 fr] eqn:Ef.
  - left. split; [reflexivity|]. intros x y c H Hc. destruct (proj2 (K x y) (conj (ex_intro _ c H) Hc)) as (c' & H'). exact (srel_final _ _ _ _ _ H' Ef).
  - right. split; [reflexivity|].
    assert (R : finals_reached u) by (intros p (f & Hp); eauto).
    destruct (minimize_facts u Wu (reached_lang u ltac:(congruence) R)) as (t' & Em & Wt & _ & L & Ar & _ & _ & Wl).
    exists t'. split; [exact Em|]. split; [exact Wt|]. split; [|split].
    + intros p b q w H. destruct (Ar _ _ _ _ H) as [->|(p0 & q0 & w0 & H0)]; [exists (eps_sym, eps_sym); now apply eps_symbols|exact (Su _ _ _ _ H0)].
    + intros x y. rewrite (srel_lang t' u am x y I0 L). apply K.
    + intros Hw. specialize (Wl (or_intror (K4 Hw))).
      assert (Eq : forall x y c, srel t' am x y c <-> srel u am x y c).
      { intros x y c. rewrite !(srel_wlang _ am 0 x y c (eps_symbols am I0)). split; intros (w & xs & H1 & H2); exists w, xs; (split; [now apply Wl|exact H2]). }
      split.
      * intros x y c H. apply Eq in H. eauto.
      * intros Sw x y c H Hc. apply Eq. eauto.
Qed.

Definition trimmer_of (moved : list tsection) (rest : transducer) (name : ustr) : transducer :=
  match find (fun s => str_eqb name (fst s)) moved with Some (_, m) => m | None => rest end.
Lemma sections_spec : forall am ap moved rest, alph_inv0 am ->
  (forall name, wf (trimmer_of moved rest name) /\ symbols_in (trimmer_of moved rest name) ap /\ free_epsilons (trimmer_of moved rest name) ap) ->
  forall l, Forall (fun s => analyser_section am (snd s)) l ->
  exists N out, (forall fuel, (N <= fuel)%nat -> trim_sections fuel moved rest am ap l = Ok out)
    /\ (forall n t', In (n, t') out -> exists t, In (n, t) l /\ trimmed am ap t (trimmer_of moved rest n) t')
    /\ (forall n t, In (n, t) l -> (exists t', In (n, t') out /\ trimmed am ap t (trimmer_of moved rest n) t')
          \/ forall x y c, x <> [] -> srel t am x y c -> ~ covered (trimmer_of moved rest n) ap (without_marks y)).
Proof.
  intros am ap moved rest I0 T. induction l as [|[n t] l IH]; intros G; cbn [trim_sections].
  { exists 0%nat, []. split; [reflexivity|]. split; [intros n t' []|intros n t []]. }
  inversion G as [|? ? G1 G2]; subst. cbn [snd] in G1. destruct (IH G2) as (N2 & out & E & O1 & O2).
  destruct (forallb _ (trans t)) eqn:Ea.
  - exists N2, out. split; [exact E|]. split.
    + intros k t' H. destruct (O1 k t' H) as (t0 & H1 & H2). exists t0. split; [now right|exact H2].
    + intros k t0 [[= <- <-]|H]; [|auto]. right. intros x y c Hx H _. apply Hx. exact (arcless _ _ _ _ _ Ea H).
  - fold (trimmer_of moved rest n). destruct (T n) as (T1 & T2 & T3). destruct (section_spec am ap (trimmer_of moved rest n) t I0 G1 T1 T2 T3) as (N1 & u & E1 & [[Hu Hc]|[Hu (t' & Em & Ht)]]).
    + exists (N1 + N2)%nat, out. split; [|split].
      * intros fuel Hf. rewrite (E1 fuel) by lia. cbn [obind]. rewrite Hu. apply E. lia.
      * intros k t' H. destruct (O1 k t' H) as (t0 & H1 & H2). exists t0. split; [now right|exact H2].
      * intros k t0 [[= <- <-]|H]; [|auto]. right. intros x y c _ H. eauto.
    + exists (N1 + N2)%nat, ((n, t') :: out). split; [|split].
      * intros fuel Hf. rewrite (E1 fuel) by lia. cbn [obind]. rewrite Hu, Em. cbn [obind]. rewrite (E fuel) by lia. reflexivity.
      * intros k t0 [[= <- <-]|H]; [exists t; split; [now left|exact Ht]|]. destruct (O1 k t0 H) as (t1 & H1 & H2). exists t1. split; [now right|exact H2].
      * intros k t0 [[= <- <-]|H]; [left; exists t'; split; [now left|exact Ht]|]. destruct (O2 k t0 H) as [(t1 & H1 & H2)|H1]; [left; exists t1; split; [now right|exact H2]|now right].
Qed.

(** * The dictionaries *)
Lemma nodup_unique : forall (l : list (ustr * transducer)) n t t', NoDup (map fst l) -> In (n, t) l -> In (n, t') l -> t = t'.
Proof.
  induction l as [|[k x] l IH]; intros n t t' ND H1 H2; [destruct H1|]. cbn in ND. inversion ND as [|? ? Hn ND']; subst.
  assert (X : forall y, In (k, y) l -> False) by (intros y Hy; apply Hn; apply in_map_iff; exists (k, y); auto).
  destruct H1 as [[= <- <-]|H1]; destruct H2 as [H2|H2].
  - congruence.
  - exfalso. eauto.
  - injection H2 as -> ->. exfalso. eauto.
  - eauto.
Qed.
Lemma new_union : forall ms, union_ok [] ms new_transducer.
Proof.
  assert (A : forall p b q w, ~ has_arc new_transducer p b q w) by (intros p b q w H; unfold has_arc, arcs_of in H; cbn in H; destruct p as [|[|p]]; destruct H).
  intros ms. constructor.
  - apply new_transducer_wf.
  - intros (p & b & w & H). exact (A _ _ _ _ H).
  - intros w. split; [intros (c & l & f & (q & _ & []) & _)|intros (n & t & [] & _)].
  - intros p b q w H. exfalso. exact (A _ _ _ _ H).
  - left. auto.
Qed.
Lemma known_dictionary : forall ab bi ms u z, alph_inv0 ab -> (forall w, lang u 0 w <-> unioned bi ms w) ->
  (known u ab z <-> exists n t, In (n, t) bi /\ ~ In n ms /\ known t ab z).
Proof.
  intros ab bi ms u z I0 L. rewrite known_lang by exact I0. split.
  - intros (w & H1 & H2). apply L in H1 as (n & t & A & B & C). exists n, t. split; [exact A|]. split; [exact B|]. apply known_lang; eauto.
  - intros (n & t & A & B & C). apply known_lang in C as (w & C & D); [|exact I0]. exists w. split; [apply L; exists n, t; auto|exact D].
Qed.
Lemma written_right : forall am t x y c, srel t am x y c -> right_symbols am (without_marks y).
Proof.
  intros am t x y c (tr & f & (q & H & _) & _ & <- & _) n Hn. unfold without_marks in Hn. apply filter_In in Hn as [Hn _].
  destruct (sym_out_writes _ _ _ _ _ _ H Hn) as (p & b & q' & w & i & _ & l & r & Hd & _ & Hr). exists b, l, r. auto.
Qed.

(** The tool ends; a section is left out if nothing of it remains.  An analysis is kept if its
    parts are in the dictionary; of analyses with tags behind characters only those are kept. *)
Theorem C64_kept : forall ms am mono ab bi, alph_inv0 am -> alph_inv0 ab -> plain_right am ->
  Forall (fun s => analyser_section am (snd s)) mono -> Forall (fun s => dictionary_section ab (snd s)) bi -> Forall (fun s => unhashed (snd s) ab) bi ->
  NoDup (map fst mono) -> NoDup (map fst bi) ->
  exists N out, (forall fuel, (N <= fuel)%nat -> lt_trim fuel ms am mono ab bi = match out with [] => Exit | _ => Ok out end)
    /\ (forall n t, In (n, t) out -> wf t /\ symbols_in t am /\ In n (map fst mono))
    /\ (forall n x y c, x <> [] -> analysed am mono n x y c -> translated (dictionary ms ab bi n) (without_marks y) -> exists c', analysed am out n x y c')
    /\ (forall n x y c, analysed am out n x y c -> (exists c', analysed am mono n x y c')
          /\ (shaped (without_marks y) ->
              (forall k t, In (k, t) bi -> ~ reads_sym t ab plus_sym /\ ~ reads_sym t ab (STag w_any_char)) \/ ~ In plus_sym y ->
              translated (dictionary ms ab bi n) (without_marks y)))
    /\ (forall n t, In (n, t) mono -> length (finals t) <> 1%nat \/ finals_default t ->
          (forall x y c, analysed am out n x y c -> srel t am x y c)
          /\ (single_weights t -> forall x y c, x <> [] -> srel t am x y c -> translated (dictionary ms ab bi n) (without_marks y) -> analysed am out n x y c)).
Proof.
  intros ms am mono ab bi Im Ib Pl Gm Gb Gu NDm NDb. unfold lt_trim. destruct (createLoopbackSymbols am ab) as [loops ap] eqn:El.
  destruct (moved_bi_spec am ab loops ap ms (proj1 Im) Ib El Pl bi [] new_transducer Gb Gu (new_union ms)) as (N1 & moved & u & E1 & Uo & Mo & Mc). cbn [app] in Uo.
  (* the union of the rest *)
  assert (UN : exists um, minimize 0 u = Ok um /\ wf um /\ symbols_in um ab /\ unhashed um ab /\ finals_reached um
    /\ (live um \/ forall z, ~ known um ab z)
    /\ ((forall k t, In (k, t) bi -> ~ reads_sym t ab plus_sym /\ ~ reads_sym t ab (STag w_any_char)) -> no_joins ab um)
    /\ forall z, known um ab z <-> exists n t, In (n, t) bi /\ ~ In n ms /\ known t ab z).
  { destruct Uo as [U1 U2 U3 U4 [[F ->]|Ne]].
    - exists new_transducer. assert (A : forall p b q w, ~ has_arc new_transducer p b q w) by (intros p b q w H; unfold has_arc, arcs_of in H; cbn in H; destruct p as [|[|p]]; destruct H).
      split; [reflexivity|]. split; [exact U1|]. split; [intros p b q w H; exfalso; exact (A _ _ _ _ H)|].
      assert (Rd : forall s, ~ reads_sym new_transducer ab s) by (intros s (p & b & q & w & o & H & _); exact (A _ _ _ _ H)).
      split; [split; apply Rd|]. split; [intros p (f & [])|].
      split; [right; intros z Hk; apply known_lang in Hk as (w & (c & l & f & (q & _ & []) & _) & _); exact Ib|]. split; [intros _; split; apply Rd|].
      intros z. apply known_dictionary; [exact Ib|exact U3].
    - destruct (minimize_facts u U1 Ne) as (um & Em & Wm & Fm & L & Ar & Rm & Lv & _).
      assert (Ar' : forall p b q w, has_arc um p b q w -> b = 0 \/ exists n t p0 q0 w0, In (n, t) bi /\ has_arc t p0 b q0 w0).
      { intros p b q w H. destruct (Ar _ _ _ _ H) as [H'|(p0 & q0 & w0 & H')]; [now left|]. destruct (U4 _ _ _ _ H') as [H''|(n & t & p1 & q1 & w1 & A & _ & B)]; [now left|right; eauto 8]. }
      assert (Rd : forall s, s <> eps_sym -> reads_sym um ab s -> exists n t, In (n, t) bi /\ reads_sym t ab s).
      { intros s Hs (p & b & q & w & o & H & Hb). destruct (Ar' _ _ _ _ H) as [->|(n & t & p0 & q0 & w0 & A & B)].
        - exfalso. pose proof (as_symbols_fun _ _ _ _ Hb (eps_symbols ab Ib)). congruence.
        - exists n, t. split; [exact A|]. exists p0, b, q0, w0, o. auto. }
      rewrite Forall_forall in Gb, Gu.
      exists um. split; [exact Em|]. split; [exact Wm|]. split; [|split; [|split; [exact Rm|split; [|split]]]].
      + intros p b q w H. destruct (Ar' _ _ _ _ H) as [->|(n & t & p0 & q0 & w0 & A & B)]; [exists (eps_sym, eps_sym); now apply eps_symbols|]. exact (ds_symbols _ _ (Gb _ A) _ _ _ _ B).
      + split; intros H; (apply Rd in H as (n & t & A & B); [|discriminate]); destruct (Gu _ A); contradiction.
      + left. intros l p Hl. exact (Lv p l Hl).
      + intros Hj. split; intros H; (apply Rd in H as (n & t & A & B); [|discriminate]); destruct (Hj n t A); contradiction.
      + intros z. apply known_dictionary; [exact Ib|]. intros w. rewrite L. apply U3. }
  destruct UN as (um & Em & Wum & Sum & Uum & Rum & Lum & Jum & Kum).
  destruct (dictionary_moved am ab loops ap um (proj1 Im) Ib El Pl Wum Sum Uum Rum) as (N2 & rest & E2 & Mr).
  (* the dictionary of each name *)
  assert (TR : forall name, exists t0, moved_of am ab ap t0 (trimmer_of moved rest name) /\ symbols_in t0 ab /\ (live t0 \/ forall z, ~ known t0 ab z)
    /\ ((forall k t, In (k, t) bi -> ~ reads_sym t ab plus_sym /\ ~ reads_sym t ab (STag w_any_char)) -> no_joins ab t0)
    /\ forall z, known t0 ab z <-> dictionary ms ab bi name z).
  { intros name. unfold trimmer_of. match goal with |- context [find ?f moved] => destruct (find f moved) as [[k m]|] eqn:Ef end.
    - apply find_some in Ef as [H1 H2]. apply str_eqb_spec in H2. cbn [fst] in H2. subst k. destruct (Mo _ _ H1) as (t & A & B & C). exists t. rewrite Forall_forall in Gb.
      split; [exact C|]. split; [exact (ds_symbols _ _ (Gb _ A))|]. split; [left; exact (ds_live _ _ (Gb _ A))|]. split; [intros Hj; exact (Hj _ _ A)|].
      intros z. unfold dictionary. split; [intros H; left; eauto|]. intros [[_ (t' & A' & K)]|[Hn _]].
      + now rewrite (nodup_unique _ _ _ _ NDb A A').
      + exfalso. apply Hn. split; [exact B|]. apply in_map_iff. exists (name, t). auto.
    - exists um. split; [exact Mr|]. split; [exact Sum|]. split; [exact Lum|]. split; [exact Jum|]. intros z. rewrite Kum. unfold dictionary. split.
      + intros H. right. split; [|exact H]. intros [A B]. apply in_map_iff in B as ([k t] & Ek & B). cbn [fst] in Ek. subst k. destruct (Mc _ _ B A) as (m & Hm).
        apply (find_none _ _ Ef) in Hm. cbn [fst] in Hm. assert (X : str_eqb name name = true) by (now apply str_eqb_spec). congruence.
      + intros [[A (t & B & _)]|[_ H]]; [|exact H]. exfalso. destruct (Mc _ _ B A) as (m & Hm).
        apply (find_none _ _ Ef) in Hm. cbn [fst] in Hm. assert (X : str_eqb name name = true) by (now apply str_eqb_spec). congruence. }
  assert (COV : forall name y, right_symbols am y -> translated (dictionary ms ab bi name) y -> covered (trimmer_of moved rest name) ap y).
  { intros name y R H. destruct (TR name) as (t0 & M0 & S0 & L0 & J0 & K0). apply (translated_covered am ab ap t0 _ M0); [|exact R].
    eapply translated_ext; [|exact H]. intros z. apply K0. }
  assert (COV' : forall name y, right_symbols am y -> covered (trimmer_of moved rest name) ap y -> shaped y ->
     (forall k t, In (k, t) bi -> ~ reads_sym t ab plus_sym /\ ~ reads_sym t ab (STag w_any_char)) \/ ~ In plus_sym y -> translated (dictionary ms ab bi name) y).
  { intros name y R H Sh Hj. destruct (TR name) as (t0 & M0 & S0 & L0 & J0 & K0). apply (translated_ext (known t0 ab)); [intros z; apply K0|].
    destruct L0 as [L0|L0].
    - apply (covered_translated am ab ap t0 _ M0 Pl L0 y S0 H R Sh). destruct Hj as [Hj|Hj]; [left; auto|now right].
    - exfalso. clear - H L0 M0. induction H as [y z H Hk|y z r H Hb _ IH]; [|exact IH].
      destruct (mo_known' _ _ _ _ _ M0 z Hk) as [Hz|(z1 & n & z2 & _ & _ & Hz)]; exact (L0 _ Hz). }
  destruct (sections_spec am ap moved rest Im) with (l := mono) as (N3 & out & E3 & O1 & O2); [|exact Gm|].
  { intros name. destruct (TR name) as (t0 & M0 & _). split; [exact (mo_wf _ _ _ _ _ M0)|]. split; [exact (mo_syms _ _ _ _ _ M0)|exact (mo_free _ _ _ _ _ M0)]. }
  exists (N1 + N2 + N3)%nat, out. split; [|split; [|split; [|split]]].
  - intros fuel Hf. rewrite (E1 fuel) by lia. cbn [obind]. rewrite Em. cbn [obind]. specialize (E2 fuel ltac:(lia)).
    destruct (appendDotStar loops um) as [d| | | |] eqn:Ed; try discriminate. cbn [obind] in *. rewrite E2. cbn [obind]. rewrite (E3 fuel) by lia. reflexivity.
  - intros n t H. destruct (O1 n t H) as (t0 & H1 & H2 & H3 & _). split; [exact H2|]. split; [exact H3|]. apply in_map_iff. exists (n, t0). auto.
  - intros n x y c Hx (t & H1 & H2) H3. assert (C := COV n _ (written_right _ _ _ _ _ H2) H3).
    destruct (O2 n t H1) as [(t' & A & _ & _ & B & _)|H4]; [|exfalso; eapply H4; eauto]. destruct (proj2 (B x y) (conj (ex_intro _ c H2) C)) as (c' & H5). exists c', t'. auto.
  - intros n x y c (t' & H1 & H2). destruct (O1 n t' H1) as (t & A & _ & _ & B & _). destruct (proj1 (B x y) (ex_intro _ c H2)) as [(c0 & H3) H4].
    split; [exists c0, t; auto|]. intros Sh Hj. apply COV'; [eapply written_right; exact H3|exact H4|exact Sh|]. destruct Hj as [Hj|Hj]; [now left|right]. intros X. apply Hj. unfold without_marks in X. now apply filter_In in X.
  - intros n t H Hw. split.
    + intros x y c (t' & H1 & H2). destruct (O1 n t' H1) as (t0 & A & _ & _ & _ & B). rewrite (nodup_unique _ _ _ _ NDm A H) in B. exact (proj1 (B Hw) x y c H2).
    + intros Sw x y c Hx H2 H3. assert (C := COV n _ (written_right _ _ _ _ _ H2) H3).
      destruct (O2 n t H) as [(t' & A & _ & _ & _ & B)|H4]; [|exfalso; eapply H4; eauto]. exists t'. split; [exact A|]. exact (proj2 (B Hw) Sw x y c H2 C).
Qed.

(** * Examples *)
Lemma paths_sound : forall n t p L l q, paths n t p = Some L -> In (l, q) L -> path t p l q.
Proof.
  induction n as [|n IH]; intros t p L l q E H; [discriminate|]. cbn [paths] in E. 
  assert (G : forall xs L, fold_right (fun (x : arc) acc => match paths n t (a_dst x), acc with
      | Some l, Some r => Some (map (fun e => ((a_tag x, a_wt x) :: fst e, snd e)) l ++ r) | _, _ => None end) (Some [([], p)]) xs = Some L ->
      (forall x, In x xs -> In x (arcs_of t p)) -> In (l, q) L -> path t p l q).
  { induction xs as [|x xs IHx]; cbn [fold_right]; intros L0 E0 Sub H0.
    - injection E0 as <-. destruct H0 as [[= <- <-]|[]]. constructor.
    - destruct (paths n t (a_dst x)) as [R1|] eqn:E1; [|discriminate]. destruct (fold_right _ _ xs) as [R|] eqn:E2; [|discriminate]. injection E0 as <-.
      apply in_app_or in H0 as [H0|H0]; [|apply (IHx R); auto; intros y Hy; apply Sub; now right].
      apply in_map_iff in H0 as ([l' q'] & [= <- <-] & H0). destruct x as [b [d w]]. cbn [a_tag a_dst a_wt fst snd] in *. econstructor; [apply Sub; now left|]. eapply IH; eauto. }
  exact (G _ _ E (fun x Hx => Hx) H).
Qed.
(** Decided for transducers without cycles *)
Definition sectionb (t : transducer) : bool :=
  match paths 20 t (initial t) with
  | Some L => forallb (fun f => existsb (fun e => (snd e =? fst f)%nat) L) (finals t)
      && forallb (fun e => match paths 20 t (snd e) with Some L' => existsb (fun e' => existsb (fun f => (fst f =? snd e')%nat) (finals t)) L' | None => false end) L
      && negb (existsb (fun arcs => existsb (fun x => (a_dst x =? initial t)%nat) arcs) (trans t))
  | None => false
  end.
Lemma sectionb_section : forall a t, wfb t = true -> all_readable t a = true -> finals t <> [] -> sectionb t = true -> dictionary_section a t.
Proof.
  intros a t Hw Hr Hf H. unfold sectionb in H. destruct (paths 20 t (initial t)) as [L|] eqn:E; [|discriminate]. apply andb_prop in H as [H H3]. apply andb_prop in H as [H1 H2].
  rewrite forallb_forall in H1, H2. apply negb_true_iff in H3. constructor; auto using wfb_wf, all_readable_symbols.
  - intros p (f & Hp). apply H1 in Hp. apply existsb_exists in Hp as ([l q] & Hl & Eq). apply Nat.eqb_eq in Eq. cbn [fst snd] in Eq. subst q. exists l. eapply paths_sound; eauto.
  - intros l p Hp. assert (Hin := paths_all _ _ _ _ _ _ Hp E). apply H2 in Hin. cbn [snd] in Hin. destruct (paths 20 t p) as [L'|] eqn:E'; [|discriminate].
    apply existsb_exists in Hin as ([l' q] & A & B). apply existsb_exists in B as ([q' f] & B & C). apply Nat.eqb_eq in C. cbn [fst snd] in C. subst q'.
    exists l', q. split; [eapply paths_sound; eauto|exists f; exact B].
  - intros (p & b & w & Ha). assert (Lt := has_arc_lt _ _ _ _ _ Ha). assert (X : existsb (fun arcs => existsb (fun x => (a_dst x =? initial t)%nat) arcs) (trans t) = true); [|congruence].
    apply existsb_exists. exists (arcs_of t p). split; [exact (nth_In (trans t) [] Lt)|]. apply existsb_exists. exists (b, (initial t, w)). split; [exact Ha|]. cbn. apply Nat.eqb_refl.
Qed.
Lemma analyser_analyser : forall a t, wfb t = true -> all_readable t a = true -> finals t <> [] -> forallb (fun s => negb (writesb t a s)) separators = true ->
  writesb t a hash_sym = false \/ writesb t a plus_sym = false -> analyser_section a t.
Proof.
  intros a t Hw Hr Hf Hs Hq. rewrite forallb_forall in Hs. constructor; auto using wfb_wf, all_readable_symbols.
  - intros s H. apply Hs, negb_true_iff in H. now apply writesb_writes.
  - destruct Hq; [left|right]; now apply writesb_writes.
Qed.
Definition right_plainb (a : alphabet) : bool :=
  forallb (fun p => match getSymbol (snd p) a with
                    | Ok n => if ustr_eq_dec n w_any_tag then false else if ustr_eq_dec n w_any_char then false else if ustr_eq_dec n [35] then false else true
                    | _ => true end) (filter (fun p => snd p <? 0) (spairinv a)).
Lemma right_plainb_plain : forall a, right_plainb a = true -> plain_right a.
Proof.
  intros a H n (b & l & c & Hd & Hc & Hn). unfold right_plainb in H. rewrite forallb_forall in H. unfold decode in Hd. destruct (b <? 0); [discriminate|].
  destruct (nth_error (spairinv a) (Z.to_nat b)) as [q|] eqn:E; [|discriminate]. injection Hd as ->. apply nth_error_In in E.
  specialize (H (l, c)). cbn [snd] in H. rewrite Hn in H. assert (X : In (l, c) (filter (fun p => snd p <? 0) (spairinv a))) by (apply filter_In; split; [exact E|cbn; lia]).
  apply H in X. destruct (ustr_eq_dec n w_any_tag); [discriminate|]. destruct (ustr_eq_dec n w_any_char); [discriminate|]. destruct (ustr_eq_dec n [35]); [discriminate|]. auto.
Qed.
Definition readsb (t : transducer) (a : alphabet) (s : symbol) : bool :=
  existsb (fun arcs => existsb (fun x => if ustr_eq_dec (match fst (symbols_of a (a_tag x)) with STag n => -1 :: n | SChar c => [c] end) (match s with STag n => -1 :: n | SChar c => [c] end) then true else false) arcs) (trans t).
Lemma readsb_reads : forall t a s, all_readable t a = true -> readsb t a s = false -> ~ reads_sym t a s.
Proof.
  intros t a s R H (p & b & q & w & o & Ha & Hd). pose proof (symbols_are _ _ _ _ _ _ _ R Ha Hd) as E. assert (L := has_arc_lt _ _ _ _ _ Ha).
  assert (X : readsb t a s = true); [|congruence]. apply existsb_exists. exists (arcs_of t p). split; [exact (nth_In (trans t) [] L)|].
  apply existsb_exists. exists (b, (q, w)). split; [exact Ha|]. cbn [a_tag fst]. rewrite <- E. cbn [fst]. destruct (ustr_eq_dec _ _); [reflexivity|congruence].
Qed.

Definition main_ : ustr := [109].
Definition other_ : ustr := [111].
Definition third_ : ustr := [116].
(** b : b *)
Definition bOnly : transducer := mkT 0 [(1%nat, 0)] [[(3, (1%nat, 0))]; []].
(** The section "m" is matched by name, "o" is not: with the other section of the dictionary it
    keeps only what begins with b. *)
Example C64_example : exists out, lt_trim 60 [main_] mA [(main_, mT); (other_, mT)] bA [(main_, bT); (third_, bOnly)] = Ok out
  /\ analyser_section mA mT /\ dictionary_section bA bT /\ dictionary_section bA bOnly /\ unhashed bT bA /\ unhashed bOnly bA /\ plain_right mA
  /\ (~ reads_sym bT bA plus_sym /\ ~ reads_sym bT bA (STag w_any_char))
  /\ analysed mA out main_ [SChar 97] [SChar 97; STag n_; STag mark_R] 5 /\ analysed mA out main_ [SChar 98] [SChar 98; STag n_] 4
  /\ analysed mA out other_ [SChar 98] [SChar 98; STag n_] 4
  /\ (forall c, ~ analysed mA out other_ [SChar 97] [SChar 97; STag n_; STag mark_R] c)
  /\ translated (dictionary [main_] bA [(main_, bT); (third_, bOnly)] main_) [SChar 98; STag n_]
  /\ shaped [SChar 98; STag n_].
Proof.
  eexists. split; [vm_compute; reflexivity|].
  split; [apply analyser_analyser; try reflexivity; [discriminate|left; reflexivity]|].
  split; [apply sectionb_section; try reflexivity; discriminate|]. split; [apply sectionb_section; try reflexivity; discriminate|].
  split; [split; apply readsb_reads; reflexivity|]. split; [split; apply readsb_reads; reflexivity|]. split; [now apply right_plainb_plain|].
  split; [split; apply readsb_reads; reflexivity|].
  split; [eexists; split; [left; reflexivity|]; match goal with |- srel ?t ?a _ _ _ => apply (srel_run t a [(1, 1); (3, 4); (8, 0)] 4 0 eq_refl); [run|cbn; tauto] end|].
  split; [eexists; split; [left; reflexivity|]; match goal with |- srel ?t ?a _ _ _ => apply (srel_run t a [(2, 3); (3, 1)] 4 0 eq_refl); [run|cbn; tauto] end|].
  split; [eexists; split; [right; left; reflexivity|]; match goal with |- srel ?t ?a _ _ _ => apply (srel_run t a [(2, 3); (3, 1)] 2 0 eq_refl); [run|cbn; tauto] end|].
  split; [|split].
  - intros c (t & [E|[E|[]]] & H); [discriminate|]. injection E as <-. related 10%nat H.
  - apply translated_last. exists [SChar 98], [SChar 98], [STag n_]. split; [reflexivity|]. split; [repeat constructor|]. split; [|repeat constructor; exists n_; reflexivity].
    left. split; [now left|]. exists bT. split; [now left|]. exists [SChar 98], 0. apply (srel_run bT bA [(3, 0)] 2 0 eq_refl); [run|cbn; tauto].
  - intros u n c v E. destruct u as [|s0 [|s1 [|s2 u]]]; discriminate.
Qed.

(** * What the tool does not do *)
(** 1 a:a, 2 b:b, 3 c:c, 4 #:# *)
Definition sA : alphabet := after [OpPair (97, 97); OpPair (98, 98); OpPair (99, 99); OpPair (35, 35)].
(** a, ab *)
Definition sD : transducer := mkT 0 [(1%nat, 0); (2%nat, 0)] [[(1, (1%nat, 0))]; [(2, (2%nat, 0))]; []].
(** ab : a<n>b *)
Definition sT : transducer := mkT 0 [(3%nat, 0)] [[(1, (1%nat, 0))]; [(3, (2%nat, 0))]; [(2, (3%nat, 0))]; []].
(** Tags are let through wherever a word of the dictionary ends, also if a longer one goes on:
    a<n>b is kept, with a and ab in the dictionary. *)
Theorem C64_middle_refuted : ~ forall ms am mono ab bi fuel out, alph_inv0 am -> alph_inv0 ab -> plain_right am ->
  Forall (fun s => analyser_section am (snd s)) mono -> Forall (fun s => dictionary_section ab (snd s)) bi -> Forall (fun s => unhashed (snd s) ab) bi ->
  NoDup (map fst mono) -> NoDup (map fst bi) -> lt_trim fuel ms am mono ab bi = Ok out ->
  forall n x y c, analysed am out n x y c -> ~ In plus_sym y -> translated (dictionary ms ab bi n) (without_marks y).
Proof.
  intros H.
  assert (K : translated (dictionary [] sA [(main_, sD)] main_) (without_marks [SChar 97; STag n_; SChar 98])).
  { refine (H [] mA [(main_, sT)] sA [(main_, sD)] 60%nat _ _ _ _ _ _ _ _ _ _ main_ [SChar 97; SChar 98] [SChar 97; STag n_; SChar 98] 0 _ _);
      [apply after_inv0|apply after_inv0|now apply right_plainb_plain| | | | | |vm_compute; reflexivity| |].
    - constructor; [|constructor]. apply analyser_analyser; try reflexivity; [discriminate|left; reflexivity].
    - constructor; [|constructor]. apply sectionb_section; try reflexivity; discriminate.
    - constructor; [|constructor]. split; apply readsb_reads; reflexivity.
    - repeat constructor. intros [].
    - repeat constructor. intros [].
    - eexists. split; [left; reflexivity|]. match goal with |- srel ?t ?a _ _ _ => apply (srel_run t a [(1, 0); (3, 0); (2, 0)] 3 0 eq_refl); [run|cbn; tauto] end.
    - intros [E|[E|[E|[]]]]; discriminate. }
  change (without_marks [SChar 97; STag n_; SChar 98]) with [SChar 97; STag n_; SChar 98] in K. 
  assert (W : forall z', dictionary [] sA [(main_, sD)] main_ z' -> (length z' <= 2)%nat).
  { intros z' [[[] _]|[_ (n & t & [[= <- <-]|[]] & _ & y & c & Hk)]]. eapply (related_all 10) in Hk; [|vm_compute; reflexivity|vm_compute; reflexivity].
    cbn [In] in Hk. repeat (destruct Hk as [Hk|Hk]; [injection Hk as <- _ _; cbn; lia|]). destruct Hk. }
  inversion K as [y E|y rest E _ Ey].
  - destruct E as (z & z' & ts & Ez & Ha & Hd & Ht). destruct z as [|s0 [|s1 [|s2 z]]]; cbn in Ez.
    + subst ts. inversion Ht as [|? ? (n & X) _]; discriminate.
    + injection Ez as <- Ez. subst ts. inversion Ht as [|? ? _ Ht']; subst. inversion Ht' as [|? ? (n & X) _]; discriminate.
    + injection Ez as <- <- Ez. subst ts. inversion Ht as [|? ? (n & X) _]; discriminate.
    + apply W in Hd. assert (L : length (s0 :: s1 :: s2 :: z) = length z') by (clear - Ha; induction Ha; cbn; congruence). cbn in L. lia.
  - destruct y as [|s0 [|s1 [|s2 [|s3 y]]]]; discriminate.
Qed.
(** a, with weight 2 and a final weight of 7 *)
Definition wT : transducer := mkT 0 [(1%nat, 7)] [[(1, (1%nat, 2))]; []].
(** The weight of a lone final state is lost. *)
Theorem C64_weights_refuted : ~ forall ms am mono ab bi fuel out, alph_inv0 am -> alph_inv0 ab -> plain_right am ->
  Forall (fun s => analyser_section am (snd s)) mono -> Forall (fun s => dictionary_section ab (snd s)) bi -> Forall (fun s => unhashed (snd s) ab) bi ->
  NoDup (map fst mono) -> NoDup (map fst bi) -> Forall (fun s => single_weights (snd s)) mono -> lt_trim fuel ms am mono ab bi = Ok out ->
  forall n x y c, analysed am out n x y c -> analysed am mono n x y c.
Proof.
  intros H.
  assert (K : analysed mA [(main_, wT)] main_ [SChar 97] [SChar 97] 2).
  { refine (H [] mA [(main_, wT)] sA [(main_, sD)] 60%nat _ _ _ _ _ _ _ _ _ _ _ main_ [SChar 97] [SChar 97] 2 _);
      [apply after_inv0|apply after_inv0|now apply right_plainb_plain| | | | | | |vm_compute; reflexivity|].
    - constructor; [|constructor]. apply analyser_analyser; try reflexivity; [discriminate|left; reflexivity].
    - constructor; [|constructor]. apply sectionb_section; try reflexivity; discriminate.
    - constructor; [|constructor]. split; apply readsb_reads; reflexivity.
    - repeat constructor. intros [].
    - repeat constructor. intros [].
    - constructor; [|constructor]. cbn [snd]. split.
      + intros p b q w w' A B. unfold has_arc, arcs_of, wT in A, B. cbn in A, B. destruct p as [|[|[|p]]]; cbn in A, B; try contradiction. destruct A as [A|[]], B as [B|[]]. congruence.
      + intros p w A. unfold has_arc, arcs_of, wT in A. cbn in A. destruct p as [|[|[|p]]]; cbn in A; try contradiction. destruct A as [A|[]]. congruence.
    - eexists. split; [left; reflexivity|]. match goal with |- srel ?t ?a _ _ _ => apply (srel_run t a [(1, 2)] 1 0 eq_refl); [run|cbn; tauto] end. }
  destruct K as (t & [[= <-]|[]] & K). related 10%nat K.
Qed.
(** 1 a:a, 2 b:b, 3 c:c, 4 :#, 5 x:, 6 :<n> *)
Definition gA : alphabet := after [OpInclude n_; OpPair (97, 97); OpPair (98, 98); OpPair (99, 99); OpPair (0, 35); OpPair (120, 0); OpPair (0, -1)].
(** a#c *)
Definition gD : transducer := mkT 0 [(3%nat, 0)] [[(1, (1%nat, 0))]; [(4, (2%nat, 0))]; [(3, (3%nat, 0))]; []].
(** x : nothing *)
Definition eT : transducer := mkT 0 [(1%nat, 0)] [[(1, (1%nat, 0)); (5, (1%nat, 0))]; []].
(** ac : a#c, ac : a<n>#c *)
Definition gT : transducer := mkT 0 [(3%nat, 0)] [[(1, (1%nat, 0))]; [(4, (2%nat, 0)); (6, (4%nat, 0))]; [(3, (3%nat, 0))]; []; [(4, (2%nat, 0))]].
(** If every word of the dictionary has a '#', the initial state becomes final: analyses of
    nothing are kept. *)
Theorem C64_hash_sound_refuted : ~ forall ms am mono ab bi fuel out, alph_inv0 am -> alph_inv0 ab -> plain_right am ->
  Forall (fun s => analyser_section am (snd s)) mono -> Forall (fun s => dictionary_section ab (snd s)) bi ->
  NoDup (map fst mono) -> NoDup (map fst bi) -> lt_trim fuel ms am mono ab bi = Ok out ->
  forall n x c, analysed am out n x [] c -> translated (dictionary ms ab bi n) [].
Proof.
  intros H.
  assert (K : translated (dictionary [] sA [(main_, gD)] main_) []).
  { refine (H [] gA [(main_, eT)] sA [(main_, gD)] 60%nat _ _ _ _ _ _ _ _ _ main_ [SChar 120] 0 _);
      [apply after_inv0|apply after_inv0|now apply right_plainb_plain| | | | |vm_compute; reflexivity|].
    - constructor; [|constructor]. apply analyser_analyser; try reflexivity; [discriminate|left; reflexivity].
    - constructor; [|constructor]. apply sectionb_section; try reflexivity; discriminate.
    - repeat constructor. intros [].
    - repeat constructor. intros [].
    - eexists. split; [left; reflexivity|]. match goal with |- srel ?t ?a _ _ _ => apply (srel_run t a [(5, 0)] 1 0 eq_refl); [run|cbn; tauto] end. }
  inversion K as [y E|y rest E _ Ey]; [|destruct y; discriminate]. destruct E as (z & z' & ts & Ez & Ha & Hd & Ht). symmetry in Ez. apply app_eq_nil in Ez as [-> ->]. inversion Ha; subst.
  destruct Hd as [[[] _]|[_ (n & t & [[= <- <-]|[]] & _ & y & c & Hk)]]. related 10%nat Hk.
Qed.
(** A word with a '#' and no tag is lost, though it is in the dictionary; with the tag before
    the '#' it is kept. *)
Theorem C64_untagged_refuted : ~ forall ms am mono ab bi fuel out, alph_inv0 am -> alph_inv0 ab -> plain_right am ->
  Forall (fun s => analyser_section am (snd s)) mono -> Forall (fun s => dictionary_section ab (snd s)) bi ->
  NoDup (map fst mono) -> NoDup (map fst bi) -> lt_trim fuel ms am mono ab bi = Ok out ->
  forall n x y c, analysed am mono n x y c -> dictionary ms ab bi n y -> exists c', analysed am out n x y c'.
Proof.
  intros H.
  destruct (H [] gA [(main_, gT)] sA [(main_, gD)] 60%nat (match lt_trim 60 [] gA [(main_, gT)] sA [(main_, gD)] with Ok o => o | _ => [] end)) with (n := main_) (x := [SChar 97; SChar 99]) (y := [SChar 97; hash_sym; SChar 99]) (c := 0) as (c' & K);
      [apply after_inv0|apply after_inv0|now apply right_plainb_plain| | | | |vm_compute; reflexivity| | |].
  - constructor; [|constructor]. apply analyser_analyser; try reflexivity; [discriminate|right; reflexivity].
  - constructor; [|constructor]. apply sectionb_section; try reflexivity; discriminate.
  - repeat constructor. intros [].
  - repeat constructor. intros [].
  - exists gT. split; [now left|]. apply (srel_run gT gA [(1, 0); (4, 0); (3, 0)] 3 0 eq_refl); [run|cbn; tauto].
  - right. split; [intros [[] _]|]. exists main_, gD. split; [now left|]. split; [intros []|]. exists [SChar 97; hash_sym; SChar 99], 0. apply (srel_run gD sA [(1, 0); (4, 0); (3, 0)] 3 0 eq_refl); [run|cbn; tauto].
  - eassert (E : lt_trim 60 [] gA [(main_, gT)] sA [(main_, gD)] = Ok _) by (vm_compute; reflexivity).
    destruct K as (t & K & R). rewrite E in K. clear E. destruct K as [K|[]]. injection K as <-. related 10%nat R.
Qed.
Example C64_tagged_example : exists out, lt_trim 60 [] gA [(main_, gT)] sA [(main_, gD)] = Ok out
  /\ analysed gA out main_ [SChar 97; SChar 99] [SChar 97; STag n_; hash_sym; SChar 99] 0.
Proof.
  eexists. split; [vm_compute; reflexivity|]. eexists. split; [left; reflexivity|].
  match goal with |- srel ?t ?a _ _ _ => apply (srel_run t a [(1, 0); (6, 0); (4, 0); (3, 0)] 4 0 eq_refl); [run|cbn; tauto] end.
Qed.
(** 1 a:a, 2 b:b, 3 c:c, 4 #:#, 5 <n>:<n>, 6 <v>:<v> *)
Definition v_ : ustr := [60; 118; 62].
Definition xA : alphabet := after [OpInclude n_; OpInclude v_; OpPair (97, 97); OpPair (98, 98); OpPair (99, 99); OpPair (35, 35); OpPair (-1, -1); OpPair (-2, -2)].
(** a#b<n>, a#c<v>, minimised *)
Definition xD : transducer :=
  mkT 0 [(5%nat, 0)] [[(1, (1%nat, 0))]; [(4, (2%nat, 0))]; [(2, (3%nat, 0)); (3, (4%nat, 0))]; [(5, (5%nat, 0))]; [(6, (5%nat, 0))]; []].
(** ac : a<n>#c *)
Definition xT : transducer := mkT 0 [(4%nat, 0)] [[(1, (1%nat, 0))]; [(6, (2%nat, 0))]; [(4, (3%nat, 0))]; [(3, (4%nat, 0))]; []].
(** Lemma queues that come before different tags are mixed up where the words of the dictionary
    end in the same state: with a#b<n> and a#c<v>, the analysis a<n>#c is kept. *)
Theorem C64_hash_mixed_refuted : ~ forall ms am mono ab bi fuel out, alph_inv0 am -> alph_inv0 ab -> plain_right am ->
  Forall (fun s => analyser_section am (snd s)) mono -> Forall (fun s => dictionary_section ab (snd s)) bi ->
  NoDup (map fst mono) -> NoDup (map fst bi) -> lt_trim fuel ms am mono ab bi = Ok out ->
  forall n x l t q c, analysed am out n x (l ++ STag t :: hash_sym :: q) c -> (forall s, In s (l ++ q) -> exists c, s = SChar c /\ s <> hash_sym /\ s <> plus_sym) ->
    dictionary ms ab bi n (l ++ hash_sym :: q) \/ dictionary ms ab bi n (l ++ hash_sym :: q ++ [STag t]).
Proof.
  intros H.
  assert (K : dictionary [] xA [(main_, xD)] main_ [SChar 97; hash_sym; SChar 99] \/ dictionary [] xA [(main_, xD)] main_ [SChar 97; hash_sym; SChar 99; STag n_]).
  { refine (H [] gA [(main_, xT)] xA [(main_, xD)] 60%nat _ _ _ _ _ _ _ _ _ main_ [SChar 97; SChar 99] [SChar 97] n_ [SChar 99] 0 _ _);
      [apply after_inv0|apply after_inv0|now apply right_plainb_plain| | | | |vm_compute; reflexivity| |].
    - constructor; [|constructor]. apply analyser_analyser; try reflexivity; [discriminate|right; reflexivity].
    - constructor; [|constructor]. apply sectionb_section; try reflexivity; discriminate.
    - repeat constructor. intros [].
    - repeat constructor. intros [].
    - eexists. split; [left; reflexivity|]. match goal with |- srel ?t ?a _ _ _ => apply (srel_run t a [(1, 0); (6, 0); (4, 0); (3, 0)] 4 0 eq_refl); [run|cbn; tauto] end.
    - intros s [<-|[<-|[]]]; eexists; (split; [reflexivity|split; discriminate]). }
  destruct K as [K|K]; destruct K as [[[] _]|[_ (n & t & [[= <- <-]|[]] & _ & y & c & Hk)]]; related 10%nat Hk.
Qed.

Print Assumptions C64_kept.
Print Assumptions C64_middle_refuted.
Print Assumptions C64_weights_refuted.
Print Assumptions C64_hash_sound_refuted.
Print Assumptions C64_untagged_refuted.
Print Assumptions C64_hash_mixed_refuted.
