(** Proofs for C80: ignored characters make no difference to what the analyser prints. *)
From Verif Require Import Base CompressionModel AlphabetModel StateModel StateSpec FinalsModel BufferModel StringModel InputModel InputProps
  StreamModel StreamProps ProcessorModel AnalysisSpec AnalysisProofs CharFileModel CharFileSpec.

Section Simulation.
  (** One processor, and another that ignores fewer characters *)
  Context (P : processor) (H91 : p_ignored P 91 = false) (H92 : p_ignored P 92 = false) (H0 : p_ignored P 0 = false).
  Notation ig := (p_ignored P).
  Context (few : Z -> bool) (Few : forall c, few c = true -> ig c = true).
  Notation P0 := (with_chars few (p_rcx P) P).
  Notation read0 := (readAnalysis few (p_alpha P)).
  Notation read := (readAnalysis ig (p_alpha P)).

  (** The buffer can be written to. *)
  Definition sound (b : buffer Z) : Prop := b_size b = 2048 /\ length (b_buf b) = 2048%nat /\ 0 <= b_last b <= 2048.
  Definition same (s s' : source) : Prop :=
    s_buf s = s_buf s' /\ s_blanks s = s_blanks s' /\ sound (s_buf s)
    /\ ((exists T T', at_text (s_file s) T /\ at_text (s_file s') T' /\ thinned ig T T') \/ s_file s = mkI [] true [] /\ s_file s' = mkI [] true []).
  (** Outcomes alike in all but the source *)
  Definition alike {A} (o : outcome (A * source)) (o' : outcome (A * source)) : Prop :=
    match o, o' with
    | Ok (x, s), Ok (x', s') => x = x' /\ same s s'
    | Exit, Exit | Throw, Throw | UB, UB | NoFuel, NoFuel => True
    | _, _ => False
    end.

  Lemma set_cell_length : forall {A} i (v : option A) l, length (set_cell i v l) = length l.
  Proof. intros A i v l. revert i. induction l as [|x l IH]; intros [|i]; cbn; auto. Qed.
  Lemma sound_add : forall v b, sound b -> exists b', add v b = Ok b' /\ sound b'.
  Proof.
    intros v b (S1 & S2 & S3). unfold add. rewrite S1, S2.
    assert (E : (if b_last b =? 2048 then 0 else b_last b) = b_last b mod 2048).
    { destruct (b_last b =? 2048) eqn:E; [apply Z.eqb_eq in E; now rewrite E|apply Z.eqb_neq in E; symmetry; apply Z.mod_small; lia]. }
    rewrite E. pose proof (Z.mod_pos_bound (b_last b) 2048 ltac:(lia)).
    replace ((b_last b mod 2048 <? 0) || (Z.of_nat 2048 <=? b_last b mod 2048)) with false by lia.
    eexists. split; [reflexivity|]. split; [reflexivity|]. cbn [b_buf b_last]. rewrite set_cell_length. split; [exact S2|lia].
  Qed.
  Lemma sound_next : forall b v b', sound b -> next b = Ok (v, b') -> sound b'.
  Proof.
    intros b v b' (S1 & S2 & S3) H. unfold next in H. destruct (negb (b_cur b =? b_last b)).
    - destruct (read_cell _ _); try discriminate. cbn [obind] in H. injection H as _ <-. split; auto.
    - destruct (last_elem b); try discriminate. cbn [obind] in H. injection H as _ <-. split; auto.
  Qed.
  Lemma sound_move : forall b c, sound b -> sound (mkB (b_size b) (b_buf b) c (b_last b)).
  Proof. intros b c (S1 & S2 & S3). split; [exact S1|]. split; [exact S2|exact S3]. Qed.

  (** ** Reading *)
  Lemma skip_more : forall n v f r, skip_ignored ig n v f = Ok r -> forall m, (n <= m)%nat -> skip_ignored ig m v f = Ok r.
  Proof.
    induction n as [|n IH]; intros v f r H m L.
    - cbn [skip_ignored] in H. destruct m; cbn [skip_ignored]; destruct (ig v) eqn:E; try discriminate H; exact H.
    - destruct m as [|m]; [lia|]. cbn [skip_ignored] in *. destruct (ig v); [|exact H].
      destruct (get f) as [[v' f']| | | |]; cbn [obind] in *; try discriminate H. apply (IH _ _ _ H). lia.
  Qed.
  Lemma get_size : forall f c T f', at_text f (c :: T) -> get f = Ok (c, f') -> (i_size f' < i_size f)%nat.
  Proof.
    intros [bs e buf] c T f' (He & rest & Hs & Ht & Hb & Hl) H. cbn [i_eof i_buf i_bytes] in *. subst e.
    unfold get, fill in H. cbn [i_buf] in H. destruct buf as [|x buf]; cbn [app] in *.
    - subst rest. inversion Hs; subst. unfold utf8_text in H. cbn [map concat] in H. rewrite utf8_read in H by auto.
      cbn [obind i_buf i_bytes i_eof] in H. injection H as <-. unfold i_size. cbn [i_bytes i_buf length]. unfold utf8_text. cbn [map concat]. rewrite app_length.
      assert (1 <= length (utf8 c))%nat; [|lia]. unfold utf8.
      repeat match goal with |- context [if ?b then _ else _] => destruct b end; cbn; lia.
    - cbn [obind i_buf i_bytes i_eof] in H. injection H as _ <-. unfold i_size. cbn [i_bytes i_buf length]. lia.
  Qed.
  Lemma read_skip : forall f b bl c T, at_text f (c :: T) -> ig c = true -> c <> U_EOF -> T <> [] -> hd 0 T <> U_EOF -> isEmpty b = true ->
    exists f1, at_text f1 T /\ forall r, read (mkS f1 b bl) = Ok r -> read (mkS f b bl) = Ok r.
  Proof.
    intros f b bl c T Ha Hc He Hne Hh Eb. destruct (get_at _ _ _ Ha) as (f1 & E1 & A1 & _). exists f1. split; [exact A1|].
    destruct T as [|d T]; [congruence|]. destruct (get_at _ _ _ A1) as (f2 & E2 & A2 & _). pose proof (get_size _ _ _ _ A1 E2) as L.
    unfold readAnalysis. cbn [s_buf s_file s_blanks]. rewrite Eb. cbn [negb]. rewrite E1, E2. cbn [obind].
    rewrite (at_text_eof _ _ A1), (at_text_eof _ _ A2). cbn [hd] in Hh. rewrite (proj2 (Z.eqb_neq c U_EOF)), (proj2 (Z.eqb_neq d U_EOF)) by auto.
    change (skip_ignored ig (2 + i_size f1) c f1) with (if ig c then let! (val, f) := get f1 in skip_ignored ig (1 + i_size f1) val f else Ok (c, f1)).
    rewrite Hc, E2. cbn [obind].
    destruct (skip_ignored ig (2 + i_size f2) d f2) as [[v f3]| | | |] eqn:E; cbn [obind]; try discriminate.
    rewrite (skip_more _ _ _ _ E (1 + i_size f1)) by lia. cbn [obind]. auto.
  Qed.
  Lemma item_head : forall i T, item_ok ig i -> hd 0 (item_text i ++ T) <> U_EOF.
  Proof. intros [c|c|b|b] T H; cbn in *; unfold U_EOF in *; try discriminate. tauto. Qed.
  Lemma thinned_head : forall T T', thinned ig T T' -> hd 0 T <> U_EOF.
  Proof.
    intros T T' H. destruct H as [|c T T' Hc Hs He Hn H|i T T' Hi H|T T' H]; [discriminate|exact He| |discriminate].
    now apply item_head.
  Qed.
  Lemma few_not : forall c, ig c = false -> few c = false.
  Proof. intros c H. destruct (few c) eqn:E; auto. apply Few in E. congruence. Qed.
  Let F0 := few_not _ H0.
  Let F91 := few_not _ H91.
  Let F92 := few_not _ H92.
  Lemma item_few : forall i, item_ok ig i -> item_ok few i.
  Proof. intros [c|c|b|b] H; cbn in *; auto. intuition. now apply few_not. Qed.
  (** From a text and from the same text without ignored characters the same is read. *)
  Lemma read_thinned : forall T T', thinned ig T T' -> forall f f' b bl, at_text f T -> at_text f' T' -> isEmpty b = true ->
    sound b -> exists v s1 s1', read (mkS f b bl) = Ok (v, s1) /\ read0 (mkS f' b bl) = Ok (v, s1') /\ same s1 s1'.
  Proof.
    intros T T' H. induction H as [|c T T' Hc Hs He Hn H IH|i T T' Hi H IH|T T' H IH]; intros f f' b bl Ha Ha' Eb Sb.
    - destruct (sound_add 0 b Sb) as (b' & Eb' & Sb').
      destruct (read_tail ig (p_alpha P) f b bl [] I H0 Eb Ha) as (f1 & F1 & R1). destruct (read_tail few (p_alpha P) f' b bl [] I F0 Eb Ha') as (f1' & F1' & R1').
      rewrite (R1 _ Eb'), (R1' _ Eb'). do 3 eexists. split; [reflexivity|]. split; [reflexivity|].
      cbn [behind] in F1, F1'. subst. split; [reflexivity|]. split; [reflexivity|]. split; [exact Sb'|]. right. split; reflexivity.
    - destruct (read_skip f b bl c T Ha Hc He Hn (thinned_head _ _ H) Eb) as (f1 & A1 & R).
      destruct (IH f1 f' b bl A1 Ha' Eb Sb) as (v & s1 & s1' & R1 & R2 & S12). exists v, s1, s1'. auto.
    - destruct (sound_add (item_symbol i) b Sb) as (b' & Eb' & Sb').
      destruct (read_item ig (p_alpha P) i f b bl T Hi H91 H92 Eb Ha) as (f1 & F1 & R1).
      destruct (read_item few (p_alpha P) i f' b bl T' (item_few _ Hi) F91 F92 Eb Ha') as (f1' & F1' & R1').
      rewrite (R1 _ Eb'), (R1' _ Eb'). do 3 eexists. split; [reflexivity|]. split; [reflexivity|].
      split; [reflexivity|]. split; [reflexivity|]. split; [exact Sb'|]. left. exists T, T'. auto.
    - destruct (sound_add 0 b Sb) as (b' & Eb' & Sb').
      destruct (read_tail ig (p_alpha P) f b bl (0 :: T) eq_refl H0 Eb Ha) as (f1 & F1 & R1). destruct (read_tail few (p_alpha P) f' b bl (0 :: T') eq_refl F0 Eb Ha') as (f1' & F1' & R1').
      rewrite (R1 _ Eb'), (R1' _ Eb'). do 3 eexists. split; [reflexivity|]. split; [reflexivity|].
      cbn [behind] in F1, F1'. split; [reflexivity|]. split; [reflexivity|]. split; [exact Sb'|]. left. exists T, T'. auto.
  Qed.
  Lemma read_same : forall s s', same s s' -> alike (read s) (read0 s').
  Proof.
    intros [f b bl] [f' b' bl'] (Eb & Ebl & Sb & F). cbn [s_buf s_blanks s_file] in *. subst b' bl'. destruct F as [(T & T' & A & A' & Th)|[-> ->]].
    - destruct (isEmpty b) eqn:E.
      + destruct (read_thinned T T' Th f f' b bl A A' E Sb) as (v & s1 & s1' & -> & -> & R). cbn. auto.
      + unfold readAnalysis. cbn [s_buf s_file s_blanks]. rewrite E. cbn [negb]. destruct (next b) as [[v b']| | | |] eqn:En; cbn; auto.
        split; [reflexivity|]. split; [reflexivity|]. split; [reflexivity|]. split; [eapply sound_next; eauto|]. left. exists T, T'. auto.
    - unfold readAnalysis. cbn [s_buf s_file s_blanks]. destruct (negb (isEmpty b)).
      + destruct (next b) as [[v b']| | | |] eqn:En; cbn; auto.
        split; [reflexivity|]. split; [reflexivity|]. split; [reflexivity|]. split; [eapply sound_next; eauto|]. now right.
      + destruct (sound_add 0 b Sb) as (b' & Eb' & Sb'). cbn. rewrite Eb'. cbn.
        split; [reflexivity|]. split; [reflexivity|]. split; [reflexivity|]. split; [exact Sb'|]. now right.
  Qed.

  (** ** The analyser *)
  Lemma alike_bind : forall {A B} (o o' : outcome (A * source)) (k k' : A * source -> outcome (B * source)), alike o o' ->
    (forall x s s', same s s' -> alike (k (x, s)) (k' (x, s'))) -> alike (obind o k) (obind o' k').
  Proof.
    intros A B o o' k k' H K. destruct o as [[x s]| | | |], o' as [[x' s']| | | |]; cbn in *; auto; try contradiction.
    destruct H as [<- H]. now apply K.
  Qed.
  Lemma same_move : forall s s' c, same s s' ->
    same (mkS (s_file s) (mkB (b_size (s_buf s)) (b_buf (s_buf s)) c (b_last (s_buf s))) (s_blanks s))
         (mkS (s_file s') (mkB (b_size (s_buf s')) (b_buf (s_buf s')) c (b_last (s_buf s'))) (s_blanks s')).
  Proof.
    intros s s' c (E1 & E2 & E3 & E4). rewrite <- E1, <- E2. split; [reflexivity|]. split; [reflexivity|].
    split; [now apply sound_move|exact E4].
  Qed.
  Lemma same_set : forall s s' p, same s s' -> same (set_pos p s) (set_pos p s').
  Proof.
    intros [f b bl] [f' b' bl'] p H. pose proof H as (E1 & E2 & _). cbn [s_buf s_blanks] in *. subst b' bl'. exact (same_move _ _ _ H).
  Qed.
  Lemma same_back : forall s s' p, same s s' -> same (go_back p s) (go_back p s').
  Proof.
    intros [f b bl] [f' b' bl'] p H. pose proof H as (E1 & E2 & _). cbn [s_buf s_blanks] in *. subst b' bl'. exact (same_move _ _ _ H).
  Qed.
  Lemma same_blanks : forall s s' bl, same s s' -> same (mkS (s_file s) (s_buf s) bl) (mkS (s_file s') (s_buf s') bl).
  Proof. intros s s' bl (E1 & E2 & E3 & E4). split; [exact E1|]. split; [reflexivity|]. split; [exact E3|exact E4]. Qed.
  Context (rounds : nat).
  Lemma P0_alphabetic : isAlphabetic P0 = isAlphabetic P. Proof. reflexivity. Qed.
  Lemma P0_blank : lastBlank P0 = lastBlank P. Proof. reflexivity. Qed.
  Lemma P0_char : printChar P0 = printChar P. Proof. reflexivity. Qed.
  Lemma P0_first : firstNotAlpha P0 = firstNotAlpha P. Proof. reflexivity. Qed.
  Lemma P0_compound : compoundAnalysis P0 = compoundAnalysis P. Proof. reflexivity. Qed.
  Lemma P0_lowering : compoundAnalysisOrLowering P0 = compoundAnalysisOrLowering P. Proof. reflexivity. Qed.
  Lemma P0_initial : initial_state P0 = initial_state P. Proof. reflexivity. Qed.
  Lemma P0_step : take_step P0 = take_step P. Proof. reflexivity. Qed.
  Lemma P0_note : note_final P0 = note_final P. Proof. reflexivity. Qed.
  Lemma P0_read : readAnalysis (p_ignored P0) (p_alpha P0) = read0. Proof. reflexivity. Qed.
  Lemma P0_alpha : p_alpha P0 = p_alpha P. Proof. reflexivity. Qed.
  Ltac plain := rewrite ?P0_read, ?P0_alphabetic, ?P0_blank, ?P0_char, ?P0_first, ?P0_compound, ?P0_lowering, ?P0_initial, ?P0_step, ?P0_note, ?P0_alpha.
  Lemma run_same : forall n v sf s s', same s s' -> alike (alphabetic_run P n v sf s) (alphabetic_run P0 n v sf s').
  Proof.
    induction n as [|n IH]; intros v sf s s' H; cbn [alphabetic_run]; [exact I|]. plain.
    destruct (getSymbol v (p_alpha P)) as [x| | | |]; cbn [obind]; try exact I.
    apply alike_bind; [now apply read_same|]. intros w s1 s1' H1. destruct (negb (w =? 0) && isAlphabetic P w); [now apply IH|].
    cbn. auto.
  Qed.
  Lemma unknown_same : forall st sf s s', same s s' -> alike (unknown_word P st sf s) (unknown_word P0 st sf s').
  Proof.
    intros st sf s s' H. unfold unknown_word. plain. destruct (firstNotAlpha P sf) as [[|n] u].
    - cbn. split; [reflexivity|]. now apply same_set.
    - destruct (compoundAnalysisOrLowering P (firstn u sf)) as [lf| | | |]; cbn [obind]; try exact I.
      split; [reflexivity|]. now apply same_set.
  Qed.
  Lemma known_same : forall l n sf lf s s', same s s' -> alike (known_word l n sf lf s) (known_word l n sf lf s').
  Proof.
    intros l n sf lf s s' H. pose proof H as (_ & E & _). unfold known_word. rewrite <- E.
    destruct (printWordPopBlank (firstn n sf) lf (s_blanks s)) as [[out bl]| | | |]; cbn [obind]; try exact I.
    split; [reflexivity|]. apply same_back, same_set. now apply same_blanks.
  Qed.
  Definition with_src (s : source) (a : analyser) : analyser :=
    mkA s (a_state a) (a_lf a) (a_sf a) (a_cpL a) (a_start a) (a_last a) (a_last_size a) (a_incond a) (a_postblank a) (a_preblank a).
  Lemma crossing_same : forall v a s s', same s s' ->
    alike (crossing P rounds v (with_src s a)) (crossing P0 rounds v (with_src s' a)).
  Proof.
    intros v a s s' H. unfold crossing. plain. cbn [with_src a_cpL a_sf a_last_size a_src].
    destruct (a_cpL a && isAlphabetic P v && match a_sf a with [] => false | _ => true end && (a_last_size a <=? lastBlank P (a_sf a))%nat).
    2:{ cbn. auto. }
    apply (alike_bind (alphabetic_run P rounds v (a_sf a) s) (alphabetic_run P0 rounds v (a_sf a) s')); [now apply run_same|].
    intros [w sf] s1 s1' H1. destruct (compoundAnalysis P sf) as [lf| | | |]; cbn [obind]; try exact I.
    destruct lf as [|c lf].
    - split; [reflexivity|]. now apply same_back.
    - pose proof (same_back _ _ 1 H1) as H2. pose proof H2 as (E & _). rewrite <- E.
      destruct (BufferModel.peek (s_buf (go_back 1 s1))) as [x| | | |]; cbn [obind]; try exact I. split; [reflexivity|exact H2].
  Qed.
  Lemma emit_same : forall v a s s', same s s' -> alike (emit P rounds v (with_src s a)) (emit P0 rounds v (with_src s' a)).
  Proof.
    intros v a s s' H. unfold emit. plain. apply alike_bind; [now apply crossing_same|].
    intros [[cross w] sf] s1 s1' H1. cbn [with_src a_last a_last_size a_lf a_postblank a_preblank a_incond a_start].
    pose proof H1 as (_ & Ebl & _).
    assert (K : forall f : ustr -> ustr, alike (let! (out, s) := known_word (a_last a) (a_last_size a) sf (a_lf a) s1 in Ok (f out, w, s))
      (let! (out, s) := known_word (a_last a) (a_last_size a) sf (a_lf a) s1' in Ok (f out, w, s))).
    { intros f. apply alike_bind; [now apply known_same|]. intros out s2 s2' H2. cbn. auto. }
    assert (U : forall (x : Z) sf s2 s2', same s2 s2' -> alike (let! (out, s) := unknown_word P (a_start a) sf s2 in Ok (out, x, s))
      (let! (out, s) := unknown_word P0 (a_start a) sf s2' in Ok (out, x, s))).
    { intros x sf0 s2 s2' H2. apply alike_bind; [now apply unknown_same|]. intros out s3 s3' H3. cbn. auto. }
    destruct cross as [|c cross].
    - destruct (negb (isAlphabetic P w) && match sf with [] => true | _ => false end).
      { rewrite <- Ebl. destruct (printChar P w (s_blanks s1)) as [out bl]. cbn. split; [reflexivity|]. now apply same_blanks. }
      destruct (a_postblank a); [apply (K (fun out => out ++ [32]))|]. destruct (a_preblank a); [apply (K (fun out => [32] ++ out))|].
      destruct (a_incond a); [apply (K (fun out => out))|].
      destruct (isAlphabetic P w && ((lastBlank P sf <? a_last_size a)%nat || match a_lf a with [] => true | _ => false end)).
      + apply (alike_bind (alphabetic_run P rounds w sf s1) (alphabetic_run P0 rounds w sf s1')); [now apply run_same|].
        intros [x sf'] s2 s2' H2. now apply U.
      + destruct (a_lf a); [now apply U|apply (K (fun out => out))].
    - rewrite <- Ebl. destruct (printWordPopBlank sf (c :: cross) (s_blanks s1)) as [[out bl]| | | |]; cbn [obind]; try exact I.
      split; [reflexivity|]. now apply same_blanks.
  Qed.
  Definition alike_round (o o' : outcome (ustr * Z * analyser)) : Prop :=
    match o, o' with
    | Ok (x, a), Ok (x', a') => x = x' /\ exists s s', same s s' /\ a = with_src s a /\ a' = with_src s' a
    | Exit, Exit | Throw, Throw | UB, UB | NoFuel, NoFuel => True
    | _, _ => False
    end.
  Lemma note_same : forall v a s s', same s s' ->
    match note_final P v (with_src s a), note_final P0 v (with_src s' a) with
    | Ok b, Ok b' => b = with_src s b /\ b' = with_src s' b
    | Exit, Exit | Throw, Throw | UB, UB | NoFuel, NoFuel => True
    | _, _ => False
    end.
  Proof.
    intros v a s s' (E & _). plain. unfold note_final.
    cbn [with_src a_src a_state a_lf a_sf a_cpL a_start a_last a_last_size a_incond a_postblank a_preblank]. rewrite <- E.
    repeat match goal with
    | |- context [if ?c then _ else _] => destruct c
    | |- context [obind (filter_finals ?p ?x ?y) _] => destruct (filter_finals p x y); cbn [obind]
    end; try exact I; split; reflexivity.
  Qed.
  Lemma round_same : forall init a s s', same s s' -> alike_round (round P rounds init (with_src s a)) (round P0 rounds init (with_src s' a)).
  Proof.
    intros init a s s' H. unfold round. plain. cbn [with_src a_src a_state a_lf a_sf a_cpL a_start a_last a_last_size a_incond a_postblank a_preblank].
    pose proof (read_same s s' H) as R. destruct (read s) as [[v s1]| | | |], (read0 s') as [[v' s1']| | | |]; cbn [alike] in R; try contradiction; cbn [obind]; try exact I.
    destruct R as [<- H1]. pose proof (note_same v a s1 s1' H1) as N. rewrite P0_note in N. fold (with_src s1 a). fold (with_src s1' a).
    destruct (note_final P v (with_src s1 a)) as [b| | | |], (note_final P v (with_src s1' a)) as [b'| | | |]; try contradiction; cbn [obind]; try exact I.
    destruct N as [Eb Eb']. rewrite Eb in Eb' |- *. rewrite Eb'. clear b' Eb'. clear Eb.
    cbn [with_src a_src a_state a_lf a_sf a_cpL a_start a_last a_last_size a_incond a_postblank a_preblank].
    destruct (take_step P v (a_state b)) as [st| | | |]; cbn [obind]; try exact I. destruct st as [|x st].
    - fold (with_src s1 b). pose proof (emit_same v b s1 s1' H1) as E.
      change (mkA s1 (a_state b) (a_lf b) (a_sf b) (a_cpL b) (a_start b) (a_last b) (a_last_size b) (a_incond b) (a_postblank b) (a_preblank b)) with (with_src s1 b).
      change (mkA s1' (a_state b) (a_lf b) (a_sf b) (a_cpL b) (a_start b) (a_last b) (a_last_size b) (a_incond b) (a_postblank b) (a_preblank b)) with (with_src s1' b).
      change (with_src s1' (with_src s1 b)) with (with_src s1' b).
      destruct (emit P rounds v (with_src s1 b)) as [[[out w] s2]| | | |], (emit P0 rounds v (with_src s1' b)) as [[[out' w'] s2']| | | |]; cbn [alike] in E; try contradiction; cbn [obind]; try exact I.
      destruct E as [E H2]. injection E as <- <-. pose proof H2 as (Eb2 & _). rewrite <- Eb2.
      split; [reflexivity|]. destruct ((w =? 0) && negb (isEmpty (s_buf s2))).
      + exists (set_pos (a_last b + 1) s2), (set_pos (a_last b + 1) s2'). pose proof (same_set _ _ (a_last b + 1) H2) as H3. split; [exact H3|].
        pose proof H3 as (Eb3 & _). split; [reflexivity|]. rewrite <- Eb3. reflexivity.
      + exists s2, s2'. split; [exact H2|]. split; [reflexivity|]. rewrite <- Eb2. reflexivity.
    - destruct (if v =? 0 then Ok [] else getSymbol v (p_alpha P)) as [y| | | |]; cbn [obind]; try exact I.
      split; [reflexivity|]. exists s1, s1'. split; [exact H1|]. split; reflexivity.
  Qed.
  Lemma loop_same : forall n init a s s', same s s' ->
    alike (analysis_loop P rounds n init (with_src s a)) (analysis_loop P0 rounds n init (with_src s' a)).
  Proof.
    induction n as [|n IH]; intros init a s s' H; cbn [analysis_loop]; [exact I|].
    pose proof (round_same init a s s' H) as R.
    destruct (round P rounds init (with_src s a)) as [[[out v] b]| | | |], (round P0 rounds init (with_src s' a)) as [[[out' v'] b']| | | |]; cbn [alike_round] in R; try contradiction; cbn [obind]; try exact I.
    destruct R as [E (s1 & s1' & H1 & E1 & E1')]. injection E as <- <-. rewrite E1 in E1'. rewrite E1, E1'. cbn [with_src a_src].
    pose proof H1 as (Eb & Ebl & _). destruct (v =? 0).
    - cbn. rewrite Ebl. split; [reflexivity|]. now apply same_blanks.
    - apply alike_bind; [exact (IH init b s1 s1' H1)|]. intros more s2 s2' H2. cbn. auto.
  Qed.
  Lemma analysis_same : forall s s', same s s' -> alike (analysis P rounds s) (analysis P0 rounds s').
  Proof.
    intros s s' H. pose proof H as (E & _). unfold analysis. plain. destruct (initial_state P) as [init| | | |]; cbn [obind]; try exact I.
    rewrite <- E. exact (loop_same rounds init (mkA s init [] [] false (getPos (s_buf s)) 0 0 false false false) s s' H).
  Qed.
  Lemma flush_same : forall n s s', same s s' -> alike (null_flush P rounds n s) (null_flush P0 rounds n s').
  Proof.
    induction n as [|n IH]; intros s s' H; cbn [null_flush].
    - assert (E : eof (s_file s) = eof (s_file s')).
      { destruct H as (_ & _ & _ & [(T & T' & A & A' & _)|[-> ->]]); [|reflexivity]. now rewrite (at_text_eof _ _ A), (at_text_eof _ _ A'). }
      rewrite <- E. destruct (eof (s_file s)); [cbn; auto|exact I].
    - assert (E : eof (s_file s) = eof (s_file s')).
      { destruct H as (_ & _ & _ & [(T & T' & A & A' & _)|[-> ->]]); [|reflexivity]. now rewrite (at_text_eof _ _ A), (at_text_eof _ _ A'). }
      rewrite <- E. destruct (eof (s_file s)); [cbn; auto|].
      apply alike_bind; [now apply analysis_same|]. intros out s1 s1' H1.
      apply alike_bind.
      + apply IH. destruct s1 as [f b bl], s1' as [f' b' bl']. pose proof H1 as (E1 & E2 & _). cbn [s_buf s_blanks] in *. subst b' bl'. exact (same_move _ _ _ H1).
      + intros more s2 s2' H2. cbn. auto.
  Qed.
End Simulation.
