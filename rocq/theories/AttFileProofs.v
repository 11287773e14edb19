(** AT&T files: the compiled sections. *)
From Verif Require Import Base CompressionModel SerialiserModel AlphabetModel AlphabetProofs TransducerModel TransducerSpec TransducerProofs RelabelSpec RelabelProofs ComposeSpec AttModel AttSpec AttTextProofs AttProofs AttGraphProofs AttWalkProofs AttSplitProofs.

(** * A transducer among the others *)
Lemma place_split : forall ms o m, Forall ranged ms -> Forall (fun m => m <> []) ms -> In m ms ->
  exists A B p, place o ms = A ++ map (shift p) m ++ B /\ outside p (p + top_state m) A /\ outside p (p + top_state m) B /\ o <= p
    /\ In (start_of m + p) (starts o ms) /\ (forall s, In s (starts o ms) -> p <= s <= p + top_state m -> s = start_of m + p).
Proof.
  assert (AB : forall ms o s, Forall ranged ms -> Forall (fun m => m <> []) ms -> In s (starts o ms) -> o <= s).
  { induction ms as [|m ms IH]; intros o s R N H; [destruct H|]. inversion R; inversion N; subst. destruct H as [<-|H].
    - assert (K := start_ranged m ltac:(assumption) ltac:(assumption)). lia.
    - apply IH in H; auto. assert (K := top_pos m). lia. }
  induction ms as [|m0 ms IH]; intros o m R N Hm; [destruct Hm|]. inversion R as [|? ? R1 R2]; inversion N as [|? ? N1 N2]; subst. cbn [place starts].
  destruct Hm as [<-|Hm].
  - exists [], (place (o + top_state m0 + 1) ms), o. split; [reflexivity|]. split; [intros ? ? []|]. split; [|split; [lia|split; [now left|]]].
    + intros l q Hl Hq. right. apply (place_above ms _ l q R2) in Hl; [|exact Hq]. lia.
    + intros s [<-|Hs] P; [reflexivity|]. apply AB in Hs; auto. lia.
  - destruct (IH (o + top_state m0 + 1) m R2 N2 Hm) as (A & B & p & E & HA & HB & Hp & Hs & U).
    exists (map (shift o) m0 ++ A), B, p. rewrite E, <- app_assoc. split; [reflexivity|]. split; [|split; [exact HB|split; [|split; [now right|]]]].
    + apply outside_app; [|exact HA]. intros l q Hl Hq. left. apply (shift_states o m0 l q R1) in Hl; [|exact Hq]. lia.
    + assert (K := top_pos m0). lia.
    + intros s [<-|Hs'] P; [|now apply U]. assert (K := start_ranged m0 N1 R1). lia.
Qed.
Lemma placed_into : forall A B m o s q u l w, outside o (o + top_state m) A -> outside o (o + top_state m) B -> ranged m -> 0 <= s <= top_state m ->
  In (LArc q (s + o) u l w) (A ++ map (shift o) m ++ B) -> exists q', q = q' + o /\ In (LArc q' s u l w) m /\ 0 <= q' <= top_state m.
Proof.
  intros A B m o s q u l w HA HB R Hs H. apply in_app_or in H as [H|H]; [|apply in_app_or in H as [H|H]].
  - specialize (HA _ (s + o) H (or_intror (or_introl eq_refl))). lia.
  - apply in_map_iff in H as ([p p' u' l' w'|p w'] & E & H); [|discriminate]. injection E as <- E2 -> -> ->. replace p' with s in H by lia.
    exists p. split; [reflexivity|]. split; [exact H|]. apply (R _ p H). cbn. auto.
  - specialize (HB _ (s + o) H (or_intror (or_introl eq_refl))). lia.
Qed.
Lemma placed_without : forall rl K A B m o s0 n, outside o (o + top_state m) A -> outside o (o + top_state m) B -> ranged m ->
  reached_without rl K (A ++ map (shift o) m ++ B) s0 n -> forall s, n = s + o -> 0 <= s <= top_state m ->
  exists q, s0 = q + o /\ 0 <= q <= top_state m /\ reached_without rl K m q s.
Proof.
  intros rl K A B m o s0 n HA HB R H. induction H as [|n1 n u l w H IH Hl NK]; intros s -> Hs.
  - exists s. split; [reflexivity|]. split; [exact Hs|constructor].
  - apply placed_into in Hl as (q' & -> & Hl & Hq'); auto. destruct (IH q' eq_refl Hq') as (q & E & Hq & H'). exists q. split; [exact E|]. split; [exact Hq|].
    econstructor; eassumption.
Qed.

Section File.
  Context (u_ispunct u_isspace u_islower u_isupper : Z -> bool) (u_toupper u_tolower : Z -> Z).
  Notation built := (built u_ispunct u_isspace u_islower u_isupper u_toupper u_tolower).
  Notation typed := (typed u_ispunct u_isspace).
  Notation chain_arc := (chain_arc u_ispunct u_isspace).
  Notation compile := (att_compile u_ispunct u_isspace u_islower u_isupper u_toupper u_tolower).
  Notation word_char := (word_char u_ispunct u_isspace).
  Notation from_char := (from_char u_ispunct u_isspace u_islower u_isupper u_toupper u_tolower).

  Lemma word_char_letter : forall c, word_char c = true <-> word_letter u_ispunct u_isspace c.
  Proof.
    intros c. unfold AttGraphProofs.word_char, word_letter, combining_mark, is_word_punct. rewrite !orb_true_iff, !andb_true_iff, negb_true_iff, orb_false_iff, !Z.leb_le. tauto.
  Qed.
  Lemma from_char_letter : forall c v, (forall w, letter_of u_ispunct u_isspace u_islower u_isupper u_toupper u_tolower c w -> 0 <= w < 65536) ->
    (from_char c v <-> letter_of u_ispunct u_isspace u_islower u_isupper u_toupper u_tolower c v).
  Proof.
    intros c v H. unfold AttGraphProofs.from_char, letter_of in *. rewrite word_char_letter.
    split; intros (W & K); (split; [exact W|]).
    - destruct K as [->|[[E ->]|(E1 & E2 & ->)]].
      + left. apply Z.mod_small. apply H. auto.
      + right. left. split; [exact E|]. apply Z.mod_small. apply H. auto.
      + right. right. split; [exact E1|]. split; [exact E2|]. apply Z.mod_small. apply H. split; [exact W|]. auto.
    - assert (P : 0 <= v < 65536) by (apply H; auto). rewrite <- (Z.mod_small v 65536) by exact P.
      destruct K as [->|[[E ->]|(E1 & E2 & ->)]]; auto.
  Qed.

  Lemma has_type_0 : forall t, has_type 0 t.
  Proof. intros t. apply Z.land_0_r. Qed.
  Lemma sem_words : forall g fins start t corr a rl ms x C T g', taken g fins start T t corr -> g = g' -> shaped (x_graph x) g' -> a = x_alph x -> fins = x_finals x ->
    built rl x C (place 1 ms) (starts 1 ms) -> Forall ranged ms -> Forall (fun m => m <> []) ms ->
    start = (if (1 <? length ms)%nat then 0 else 1) -> ms <> [] -> (forall m, ms = [m] -> start_of m = 0) ->
    forall u v c, section_means rl t a u v c -> file_means ms u v c.
  Proof.
    intros g fins start t corr a rl ms x C T g' TK -> SH -> -> B R N -> NM H1 u v c H.
    assert (K : exists y z, srel t (x_alph x) y z c /\ u = up rl y z /\ v = up rl z y).
    { unfold section_means in H. destruct rl; [exists v, u|exists u, v]; auto. }
    clear H. destruct K as (y & z & (tr & f & Acc & <- & <- & Wt) & -> & ->).
    destruct (section_sound _ _ _ _ _ _ _ _ _ TK Acc) as (n' & P & F).
    apply (gpath_shaped T (x_alph x) (x_graph x)) in P; [|exact SH].
    assert (Fl := proj1 (b_finals _ _ _ _ _ _ _ _ _ _ _ B n' f) F).
    assert (Pn : 1 <= n').
    { assert (E : exists l, In l (place 1 ms) /\ In n' (line_states l)).
      { clear -Fl. induction Fl as [|m s f l Nl Fl (k & Hk & Hs)]; [eexists; split; [now left|now left]|]. exists k. split; [now right|exact Hs]. }
      destruct E as (l & Hl & Hs). apply (place_above ms 1 l n' R Hl Hs). }
    destruct (path_chains _ _ _ _ _ _ rl x C _ _ B _ _ _ P ltac:(lia)) as [W _].
    apply (place_means ms 1 [] (up rl (sym_in tr) (sym_out tr)) (up rl (sym_out tr) (sym_in tr)) c R N); [intros ? ? []|]. cbn [app].
    destruct (1 <? length ms)%nat eqn:EM.
    - specialize (W ltac:(lia)). apply (cwalk_start _ _ _ _ _ _ _ _ _ _ _ B) in W as [->|(s & Hs & W)]; [lia|].
      exists s. split; [exact Hs|]. apply (cwalk_walk _ _ _ _ _ _ _ _ _ _ _ B) in W as [W _].
      + exists n', (weight_of tr), f. split; [exact W|]. split; [exact Fl|lia].
      + destruct (b_start _ _ _ _ _ _ _ _ _ _ _ B s Hs) as (k & Hk & (_ & E & _)). destruct (b_chain _ _ _ _ _ _ _ _ _ _ _ B k Hk) as (_ & _ & _ & _ & Q). lia.
    - destruct ms as [|m [|m' ms]]; [congruence| |cbn in EM; discriminate EM].
      exists 1. split; [left; rewrite (H1 m eq_refl); reflexivity|]. specialize (W ltac:(lia)).
      apply (cwalk_walk _ _ _ _ _ _ _ _ _ _ _ B) in W as [W _]; [|lia]. exists n', (weight_of tr), f. split; [exact W|]. split; [exact Fl|lia].
  Qed.
  (** A graph with all chains open. *)
  Lemma plain_open : forall rl x C L S c, built rl x C L S -> In c C -> open_chain x 0 (x_graph x) c.
  Proof.
    intros rl x C L S c B Hc i Hi. destruct (b_arc2 _ _ _ _ _ _ _ _ _ _ _ B c i Hc Hi) as (t & G & (E1 & E2 & E3 & _)).
    exists t. split; [exact G|]. split; [apply has_type_0|]. auto.
  Qed.
  Lemma map_in : forall (tr tr' : list ((symbol * symbol) * Z)), map fst tr' = map fst tr -> sym_in tr' = sym_in tr /\ sym_out tr' = sym_out tr.
  Proof.
    intros tr tr' E. unfold sym_in, sym_out.
    assert (K : forall (h : symbol * symbol -> symbol), map (fun x => h (fst x)) tr' = map (fun x => h (fst x)) tr).
    { intros h. rewrite <- (map_map fst h tr'), <- (map_map fst h tr), E. reflexivity. }
    split; f_equal; apply K.
  Qed.
  Lemma file_nonempty : forall hfst text ms, file_says hfst text ms -> ms <> [].
  Proof. intros hfst text ms H. destruct H; discriminate. Qed.

  Theorem compile_plain : forall hfst rl text ms, file_says hfst text ms -> fits ms -> (forall m, ms = [m] -> start_of m = 0) ->
    exists letters a t, compile hfst rl false text = Ok (letters, a, [(main_name, t)]) /\ wf t
      /\ (forall u v c, section_means rl t a u v c -> file_means ms u v c)
      /\ (forall u v c, file_means ms u v c -> exists c', section_means rl t a u v c')
      /\ (Forall weights_agree ms -> forall u v c, file_means ms u v c -> section_means rl t a u v c).
  Proof.
    intros hfst rl text ms FS FI H1. destruct (file_ranged _ _ _ FS) as [R N]. assert (NM := file_nonempty _ _ _ FS).
    destruct (text_ok u_ispunct u_isspace u_islower u_isupper u_toupper u_tolower hfst rl text ms FS FI) as (x & C & g & E & Mu & B).
    destruct (extract_transducer_ok x (if (1 <? length ms)%nat then 0 else 1) 0) as (t & corr & Et & TK).
    exists (x_letters x), (x_alph x), t. split.
    { unfold att_compile, att_parse. rewrite E. cbn [obind]. rewrite Mu. unfold att_sections. rewrite Et. reflexivity. }
    split; [exact (tk_wf _ _ _ _ _ _ TK)|]. split.
    { eapply sem_words; try eassumption; try reflexivity. apply shaped_refl. }
    assert (FWD : forall u v c, file_means ms u v c -> exists tr f n', gpath 0 (x_graph x) (x_alph x) (if (1 <? length ms)%nat then 0 else 1) tr n'
      /\ zfind n' (x_finals x) = Some f /\ sym_in tr = up rl u v /\ sym_out tr = up rl v u /\ weight_of tr + f = c).
    { intros u v c H. apply (place_means ms 1 [] u v c R N) in H as (s & Hs & (n' & d & f & W & F & ->)); [|intros ? ? []]. cbn [app] in W, F.
      apply (walk_cwalk _ _ _ _ _ _ _ _ _ _ _ B) in W.
      assert (W' : cwalk (x_alph x) C (if (1 <? length ms)%nat then 0 else 1) (up rl u v) (up rl v u) d n').
      { destruct (1 <? length ms)%nat eqn:EM.
        - eapply start_cwalk; eassumption.
        - destruct ms as [|m [|m' ms]]; [congruence| |cbn in EM; discriminate EM]. apply place_start in Hs. rewrite (H1 m eq_refl) in Hs. cbn in Hs. now subst s. }
      destruct (chains_path _ _ _ _ _ _ _ _ _ _ _ B 0 (x_graph x) _ _ _ _ _ W') as (tr & P & I & O & Wt).
      - intros c Hc. eapply plain_open; eassumption.
      - exists tr, f, n'. split; [exact P|]. split; [now apply (b_finals _ _ _ _ _ _ _ _ _ _ _ B)|]. rewrite Wt. auto. }
    assert (SEC : forall tr f u v, accepts_trace (as_symbols (x_alph x)) t tr f -> sym_in tr = up rl u v -> sym_out tr = up rl v u -> section_means rl t (x_alph x) u v (weight_of tr + f)).
    { intros tr f u v A I O. unfold section_means, up in *. destruct rl; exists tr, f; auto. }
    split.
    - intros u v c H. destruct (FWD u v c H) as (tr & f & n' & P & F & I & O & W). destruct (section_complete _ _ _ _ _ _ _ _ _ _ TK P F) as (tr' & A & Em & _).
      apply map_in in Em as [E1 E2]. eexists. apply (SEC tr' f u v A); congruence.
    - intros WA u v c H. destruct (FWD u v c H) as (tr & f & n' & P & F & I & O & W). destruct (section_complete _ _ _ _ _ _ _ _ _ _ TK P F) as (tr' & A & _ & Et').
      rewrite Et' in A.
      + rewrite <- W. apply (SEC tr f u v A I O).
      + eapply arcs_agree; [exact B|]. now apply place_agree.
  Qed.
  Theorem compile_letters : forall hfst rl splitting text ms letters a secs, file_says hfst text ms -> fits ms ->
    compile hfst rl splitting text = Ok (letters, a, secs) ->
    forall v, In v letters <-> exists m l c, In m ms /\ In l m /\ In (SChar c) (line_chars l) /\ from_char c v.
  Proof.
    intros hfst rl splitting text ms letters a secs FS FI H v.
    destruct (text_ok u_ispunct u_isspace u_islower u_isupper u_toupper u_tolower hfst rl text ms FS FI) as (x & C & g & E & Mu & B).
    assert (EL : letters = x_letters x).
    { unfold att_compile, att_parse in H. rewrite E in H. cbn [obind] in H. destruct splitting.
      - destruct (classify_forwards _ _); cbn [obind] in H; try discriminate. destruct (classify_backwards _ _ _ _ _) as [[ty gr]| | | |]; cbn [obind] in H; try discriminate.
        destruct (att_sections _ _ _); cbn [obind] in H; try discriminate. now injection H as <- _ _.
      - cbn [obind] in H. destruct (att_sections _ _ _); cbn [obind] in H; try discriminate. now injection H as <- _ _. }
    subst letters.
    assert (PL : forall ms o l, In l (place o ms) -> exists m p k, In m ms /\ In k m /\ l = shift p k).
    { clear. induction ms as [|m ms IH]; intros o l; cbn [place]; [intros []|]. intros H. apply in_app_or in H as [H|H].
      - apply in_map_iff in H as (k & <- & Hk). exists m, o, k. split; [now left|auto].
      - apply IH in H as (m' & p & k & H1 & H2 & H3). exists m', p, k. split; [now right|auto]. }
    assert (SC : forall o l, line_chars (shift o l) = line_chars l) by (intros o []; reflexivity).
    split.
    - intros Hv. destruct (b_letters _ _ _ _ _ _ _ _ _ _ _ B v Hv) as (l & c & Hl & Hc & Hf). apply PL in Hl as (m & p & k & Hm & Hk & ->). rewrite SC in Hc.
      exists m, k, c. auto.
    - intros (m & l & c & Hm & Hl & Hc & Hf).
      assert (K : exists o, In (shift o l) (place 1 ms)).
      { clear -Hm Hl. generalize 1 as p. induction ms as [|m0 ms IH]; intros p; [destruct Hm|]. cbn [place]. destruct Hm as [->|Hm].
        - exists p. apply in_or_app. left. now apply in_map.
        - destruct (IH Hm (p + top_state m0 + 1)) as (o & Ho). exists o. apply in_or_app. now right. }
      destruct K as (o & K). apply (b_known _ _ _ _ _ _ _ _ _ _ _ B (shift o l) c v K); [now rewrite SC|exact Hf].
  Qed.
  Theorem compile_split_sound : forall hfst rl text ms letters a secs, file_says hfst text ms -> fits ms -> (forall m, ms = [m] -> start_of m = 0) ->
    compile hfst rl true text = Ok (letters, a, secs) ->
    forall name t, In (name, t) secs -> (name = main_name \/ name = final_name) /\ wf t /\ forall u v c, section_means rl t a u v c -> file_means ms u v c.
  Proof.
    intros hfst rl text ms letters a secs FS FI H1 H. destruct (file_ranged _ _ _ FS) as [R N]. assert (NM := file_nonempty _ _ _ FS).
    destruct (text_ok u_ispunct u_isspace u_islower u_isupper u_toupper u_tolower hfst rl text ms FS FI) as (x & C & g & E & Mu & B).
    unfold att_compile, att_parse in H. rewrite E in H. cbn [obind] in H. rewrite Mu in H.
    destruct (forwards_ok (if (1 <? length ms)%nat then 0 else 1) (x_graph x)) as (g1 & E1 & R1 & _). rewrite E1 in H. cbn [obind] in H.
    destruct (classify_backwards _ _ _ _ _) as [[ty g2]| | | |] eqn:E2; cbn [obind] in H; try discriminate. apply backwards_shaped in E2.
    assert (SH : shaped (x_graph x) g2) by (eapply shaped_trans; [apply retyped_shaped, R1|exact E2]).
    unfold att_sections in H.
    destruct (extract_transducer_ok (with_graph g2 x) (if (1 <? length ms)%nat then 0 else 1) 1) as (t1 & corr1 & Et1 & TK1).
    destruct (extract_transducer_ok (with_graph g2 x) (if (1 <? length ms)%nat then 0 else 1) 2) as (t2 & corr2 & Et2 & TK2).
    rewrite Et1, Et2 in H. cbn [obind with_graph x_letters x_alph] in H. injection H as <- <- <-.
    intros name t Ht. apply in_app_or in Ht as [Ht|[Ht|[]]].
    - destruct (0 <? length (concat (trans t2)))%nat; [|destruct Ht]. destruct Ht as [[= <- <-]|[]]. split; [now right|]. split; [exact (tk_wf _ _ _ _ _ _ TK2)|].
      eapply sem_words; try eassumption; reflexivity.
    - injection Ht as <- <-. split; [now left|]. split; [exact (tk_wf _ _ _ _ _ _ TK1)|]. eapply sem_words; try eassumption; reflexivity.
  Qed.
End File.
