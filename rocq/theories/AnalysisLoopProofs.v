(** Proofs for C56: the whole of an analysis. *)
From Verif Require Import Base CompressionModel AlphabetModel StateModel StateSpec StatePathProofs StateProps
  FinalsModel FinalsProps StringModel InputModel InputProps StreamModel StreamProps ProcessorModel
  ProcessorProofs CompoundProofs CompoundProps LookupProps AnalysisSpec BufferModel BufferProps AnalysisProofs AnalysisScan.
Notation source := StreamModel.source.

Section Loop.
  Context (P : processor) (cs : bool) (HP : plain_dix P cs) (tail : list Z) (Ht : tail_ok tail) (rounds : nat).
  Notation letter := (letter P).
  Notation matches := (matches P cs).
  Notation living := (living P cs).
  Notation ready := (ready P tail).
  Notation fine := (fine P).
  Notation prepared := (prepared P cs).
  Notation scanning := (scanning P tail).
  Notation found := (found P cs).
  Context (init : analyses) (Hinit : initial_state P = Ok init).

  Definition emptied (src : source) : Prop :=
    exists t, rel Size (s_buf (empty_buffer src)) t /\ t_at t = t_len t.
  Definition finished (src : source) : Prop :=
    s_blanks src = [] /\ behind tail (s_file src) /\ emptied src.
  Definition fresh (its : list item) (n : nat) (a : analyser) : Prop :=
    scanning its n 0 0 a /\ found (symbols its) (a_start a) a 0.

  Lemma rel_emptied : forall src t p bl f, rel Size (s_buf src) t ->
    emptied src /\ emptied (set_pos p src) /\ emptied (mkS f (s_buf src) bl) /\ emptied (mkS f (s_buf (set_pos p src)) bl).
  Proof.
    intros src t p bl f [A B C D E F G].
    assert (K : rel Size (mkB (b_size (s_buf src)) (b_buf (s_buf src)) (b_last (s_buf src)) (b_last (s_buf src))) (mkTape (t_all t) (t_len t))).
    { constructor; cbn; auto; try tauto. unfold t_len in *. cbn. lia. }
    assert (K2 : exists t, rel Size (mkB (b_size (s_buf src)) (b_buf (s_buf src)) (b_last (s_buf src)) (b_last (s_buf src))) t
      /\ t_at t = t_len t) by (eexists; split; [exact K|reflexivity]).
    unfold emptied. cbn. auto.
  Qed.

  Lemma init_alive : good P cs [] -> init <> [] /\ living [].
  Proof.
    intros G. assert (L : living []).
    { exists [], false, [], (p_root P). split; constructor. }
    split; [|exact L]. apply (state_living P cs [] init); auto. unfold state_of. rewrite Hinit. reflexivity.
  Qed.

  Lemma next_fresh : forall its out src start kk n a, good P cs [] -> cut P cs tail its out src start kk n ->
    (kk <= length its)%nat ->
    a_src a = src -> a_state a = init -> a_lf a = [] -> a_sf a = [] -> a_start a = getPos (s_buf (a_src a)) ->
    a_incond a = false -> a_cpL a = false -> a_postblank a = false -> a_preblank a = false ->
    fresh (skipn kk its) (n - kk) a.
  Proof.
    intros its out src start kk n a G (C1 & C2 & C3 & C4 & C5) Hkk A1 A2 A3 A4 A5 A6 A7 A8 A9.
    pose proof (h_n _ _ _ _ _ _ C3) as (N1 & N2 & N3). split.
    - constructor; rewrite ?A2, ?A4; auto.
      + constructor.
        * rewrite A5, A1. eapply held_next; eauto.
        * rewrite A1, C4. f_equal. rewrite firstn_skipn_comm. repeat f_equal. lia.
        * intros j Hj Hj2 Hw. rewrite skipn_length in Hj2. rewrite <- skipn_map, nth_skipn in Hw.
          specialize (C5 (kk + j)%nat ltac:(lia) ltac:(lia) Hw). lia.
      + unfold state_of. rewrite Hinit. reflexivity.
      + now apply init_alive.
    - left. split; [auto|]. split; [auto|]. intros j Hj. lia.
  Qed.

  (** The rounds up to the next token *)
  Lemma token_loop : forall its, fine its -> prepared (symbols its) -> (length its < rounds)%nat -> its <> [] ->
    forall d k n a, (length its - k <= d)%nat -> (k <= length its)%nat ->
    scanning its n k k a -> found (symbols its) (a_start a) a k -> living (firstn k (symbols its)) ->
    exists N out val a' kk n' src start, (N <= S d)%nat /\
      (forall fuel, analysis_loop P rounds (N + fuel) init a
         = if val =? 0 then Ok (out ++ concat (s_blanks (a_src a')), mkS (s_file (a_src a')) (s_buf (a_src a')) [])
           else let! (more, s) := analysis_loop P rounds fuel init a' in Ok (out ++ more, s))
      /\ (a_src a' = src \/ val = 0 /\ exists p, a_src a' = set_pos p src)
      /\ cut P cs tail its out src start kk n'
      /\ (val = 0 -> n' = S (length its)) /\ (val = 0 <-> exhausted P cs (symbols its))
      /\ a_state a' = init /\ a_lf a' = [] /\ a_sf a' = [] /\ a_start a' = getPos (s_buf (a_src a'))
      /\ a_incond a' = false /\ a_cpL a' = false /\ a_postblank a' = false /\ a_preblank a' = false.
  Proof.
    intros its Hok Hp Hrounds Hne d. induction d as [|d IH]; intros k n a Hd Hk Hs Hf Hl.
    all: assert (Dec : ((k < length its)%nat /\ living (firstn (S k) (symbols its))) \/ dead P cs (symbols its) k).
    1, 3: destruct (pr_good _ _ _ Hp (S k)) as (st & Est & _);
      pose proof (state_living P cs _ st (good_firstn P cs _ (S k) (pr_good _ _ _ Hp)) Est) as L;
      destruct (Nat.eq_dec k (length its)) as [->|];
      [right; split; [now rewrite map_length|split; [exact Hl|rewrite map_length; lia]]|];
      (destruct st as [|x st]; [right; split; [now rewrite map_length|split; [exact Hl|intros _ X; now apply L in X]]
                              |left; split; [lia|apply L; discriminate]]).
    1: destruct Dec as [[D _]|Dec]; [lia|].
    2: destruct Dec as [[D1 D2]|Dec].
    2:{ destruct (round_alive P cs HP tail Ht rounds its n k a init Hok Hp D1 Hs Hf D2) as (val & a1 & Er & Nz & S1 & F1).
        destruct (IH (S k) _ a1 ltac:(lia) ltac:(lia) S1 F1 D2) as (N & out & val' & a' & kk & n' & src & start & Nd & El & Rest).
        exists (S N), out, val', a', kk, n', src, start. split; [lia|]. split; [|exact Rest].
        intros fuel. cbn [Nat.add analysis_loop]. rewrite Er. cbn [obind].
        replace (val =? 0) with false by (symmetry; now apply Z.eqb_neq). rewrite El.
        destruct (val' =? 0); [reflexivity|]. destruct (analysis_loop P rounds fuel init a') as [[more s]| | | |]; reflexivity. }
    all: destruct (round_dead P cs HP tail Ht rounds its n k a init Hok Hp Hrounds Hne Hs Hf Dec)
      as (out & val & a' & kk & n' & src & start & Er & Rest);
      exists 1%nat, out, val, a', kk, n', src, start; (split; [lia|]); (split; [|exact Rest]);
      intros fuel; cbn [Nat.add analysis_loop]; rewrite Er; reflexivity.
  Qed.

  (** nothing is left *)
  Lemma loop_end : forall n a, prepared [] -> fresh [] n a ->
    exists src, (forall fuel, (1 <= fuel)%nat -> analysis_loop P rounds fuel init a = Ok ([], src)) /\ finished src.
  Proof.
    intros n a Hp [Hs Hf]. destruct (init_alive (good_firstn P cs _ 0 (pr_good _ _ _ Hp))) as [Ia L0].
    destruct (round_noted P cs HP tail Ht rounds [] n 0 a init (Forall_nil _) Hp (le_n 0) Hs Hf L0) as (a' & E & [R' S' A' Sf' (Fl1 & Fl2 & Fl3)] & F').
    cbn [map nth] in E. cbv zeta in E. rewrite (step_zero P) in E. cbn [obind] in E.
    destruct (pd_space _ _ HP) as (_ & Sp0 & _).
    assert (N0 : isAlphabetic P 0 = false) by (apply isAlphabetic_not; intros X; apply (pd_letters _ _ HP) in X; tauto).
    unfold emit, crossing in E. rewrite Fl1 in E. cbn [andb obind] in E. rewrite N0, Sf' in E. cbn [andb obind negb firstn map] in E.
    change (utf16_text []) with (@nil Z) in E. unfold printChar in E. rewrite Sp0 in E.
    change (is_escaped 0) with false in E. cbn [app Z.eqb obind] in E.
    pose proof (rd_blanks _ _ _ _ _ _ _ R') as B. rewrite firstn_nil in B. change (blanks []) with (@nil ustr) in B.
    destruct (h_buf _ _ _ _ _ _ (rd_held _ _ _ _ _ _ _ R')) as (t & base & Rt & _).
    pose proof (h_n _ _ _ _ _ _ (rd_held _ _ _ _ _ _ _ R')) as (N1 & N2 & N3).
    pose proof (h_file _ _ _ _ _ _ (rd_held _ _ _ _ _ _ _ R')) as Hfile.
    cbn [length] in *. replace (Nat.max n 1) with 1%nat in * by lia. cbn [Nat.leb] in Hfile.
    destruct (rel_emptied (a_src a') t (a_last a' + 1) [] (s_file (a_src a')) Rt) as (_ & _ & K1 & K2).
    change (0 =? 0) with true in E. cbn [andb] in E.
    destruct (negb (isEmpty (s_buf (mkS (s_file (a_src a')) (s_buf (a_src a')) (s_blanks (a_src a')))))).
    - exists (mkS (s_file (a_src a')) (s_buf (set_pos (a_last a' + 1) (a_src a'))) []). split.
      + intros [|fuel] Hfu; [lia|]. cbn [analysis_loop]. rewrite E. cbn [obind Z.eqb app a_src set_pos s_blanks s_file s_buf].
        rewrite B. reflexivity.
      + split; [reflexivity|]. split; [exact Hfile|exact K2].
    - exists (mkS (s_file (a_src a')) (s_buf (a_src a')) []). split.
      + intros [|fuel] Hfu; [lia|]. cbn [analysis_loop]. rewrite E. cbn [obind Z.eqb app a_src set_pos s_blanks s_file s_buf].
        rewrite B. reflexivity.
      + split; [reflexivity|]. split; [exact Hfile|exact K1].
  Qed.

  Theorem loop_spec : forall m its n a, (length its <= m)%nat -> fine its -> (forall j, prepared (skipn j (symbols its))) ->
    (length its < rounds)%nat -> fresh its n a ->
    exists N out src, (N <= S m * S m)%nat /\ (forall fuel, (N <= fuel)%nat -> analysis_loop P rounds fuel init a = Ok (out, src))
      /\ analysed P cs its out /\ finished src.
  Proof.
    intros m. induction m as [|m IH]; intros its n a Hm Hok Hp Hrounds Hfr.
    { destruct its; [|cbn in Hm; lia]. destruct (loop_end n a (Hp 0%nat) Hfr) as (src & E & F).
      exists 1%nat, [], src. split; [lia|]. split; [exact E|]. split; [constructor|exact F]. }
    assert (Cases : its = [] \/ its <> []) by (destruct its; [left; reflexivity|right; discriminate]).
    destruct Cases as [->|Hne].
    { destruct (loop_end n a (Hp 0%nat) Hfr) as (src & E & F). exists 1%nat, [], src. split; [lia|]. split; [exact E|]. split; [constructor|exact F]. }
    assert (G0 : good P cs []) by (exact (good_firstn P cs _ 0 (pr_good _ _ _ (Hp 0%nat)))).
    destruct Hfr as [Hs Hf]. pose proof (Hp 0%nat) as Hp0. cbn [skipn] in Hp0.
    destruct (token_loop its Hok Hp0 Hrounds Hne (length its) 0 n a ltac:(lia) ltac:(lia) Hs Hf (proj2 (init_alive G0)))
      as (N & out & val & a' & kk & n' & src & start & Nd & El & Hsrc & Hc & Hn & Hx & A2 & A3 & A4 & A5 & A6 & A7 & A8 & A9).
    pose proof Hc as (C1 & C2 & C3 & C4 & C5). pose proof (h_n _ _ _ _ _ _ C3) as (N1 & N2 & N3).
    assert (Hkk : (kk <= length its)%nat).
    { inversion C1 as [k lf L| i r E|k lf X R]; subst.
      - destruct L as [[L _] _]. rewrite map_length in L. lia.
      - cbn. lia.
      - destruct R as [R _]. now rewrite map_length in R. }
    destruct (Z.eq_dec val 0) as [V|V].
    - specialize (Hn V). apply Hx in V as X. rewrite (proj2 (Z.eqb_eq val 0) V) in El.
      assert (B : s_blanks (a_src a') = blanks (skipn kk its)).
      { replace (s_blanks (a_src a')) with (s_blanks src) by (destruct Hsrc as [->|[_ (p & ->)]]; reflexivity).
        rewrite C4, Hn, firstn_all2 by lia. reflexivity. }
      exists N, (out ++ concat (blanks (skipn kk its))), (mkS (s_file (a_src a')) (s_buf (a_src a')) []). split; [lia|]. split; [|split].
      + intros fuel Hfu. replace fuel with (N + (fuel - N))%nat by lia. rewrite El, B. reflexivity.
      + now apply an_last.
      + destruct (h_buf _ _ _ _ _ _ C3) as (t & base & Rt & _). split; [reflexivity|]. split.
        * pose proof (h_file _ _ _ _ _ _ C3) as Hfile. subst n'. replace (S (length its) <=? length its)%nat with false in Hfile
            by (symmetry; apply Nat.leb_gt; lia).
          cbn [s_file]. destruct Hsrc as [->|[_ (p & ->)]]; exact Hfile.
        * destruct Hsrc as [->|[_ (p & ->)]]; [apply (rel_emptied src t 0 [] (s_file src) Rt)|apply (rel_emptied src t p [] (s_file src) Rt)].
    - destruct Hsrc as [Hsrc|[X _]]; [|contradiction].
      assert (Fr : fresh (skipn kk its) (n' - kk) a') by (eapply next_fresh; eauto).
      destruct (IH (skipn kk its) (n' - kk)%nat a') as (N' & more & src' & Nd' & E' & An & Fin); auto.
      + rewrite skipn_length. lia.
      + unfold AnalysisScan.fine in *. rewrite <- (firstn_skipn kk its) in Hok. now apply Forall_app in Hok.
      + intros j. rewrite <- skipn_map, skipn_plus. apply Hp.
      + rewrite skipn_length. lia.
      + exists (N + N')%nat, (out ++ more), src'. split; [lia|]. split; [|split; [|exact Fin]].
        * intros fuel Hfu. replace fuel with (N + (fuel - N))%nat by lia. rewrite El.
          rewrite (proj2 (Z.eqb_neq val 0) V), E' by lia. reflexivity.
        * apply (an_more _ _ its out kk more); auto. intros Y. now apply Hx in Y.
  Qed.
End Loop.
