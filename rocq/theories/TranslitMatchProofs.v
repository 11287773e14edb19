(** Proofs for C68: the runs of the dictionary, and the text of a match. *)
From Coq Require Import Permutation Sorted.
From Verif Require Import Base CompressionModel AlphabetModel StateModel StateSpec StatePathProofs FinalsModel FinalsProps
  StringModel StringProps InputModel InputProps StreamModel StreamProps ProcessorModel TranslitModel TranslitSpec.

Section Matches.
  Context (P : processor) (cs : bool) (U : usable P).
  Notation find := (p_find P).
  Notation root := (p_root P).
  Notation alpha := (p_alpha P).
  Notation choices := (map (fun c => override_choice P c cs)).

  (** * Runs *)
  Lemma folds_test : forall c, p_isupper P c && negb cs = true <-> folds P cs c.
  Proof. intros c. unfold folds. rewrite andb_true_iff, negb_true_iff. tauto. Qed.
  Lemma writes_one : forall c o, p_isupper P c && negb cs = false -> writes P cs c o o.
  Proof. intros c o H. right. split; [|reflexivity]. intros [F _]. apply folds_test in F. congruence. Qed.
  Lemma writes_over : forall c o x, folds P cs c -> writes P cs c o x <-> x = override (p_tolower P c) c o.
  Proof.
    intros c o x F. unfold writes, override. destruct (o =? p_tolower P c) eqn:E; split.
    - intros [(_ & _ & ->)|[N _]]; [reflexivity|]. exfalso. apply N. split; [exact F|lia].
    - intros ->. left. repeat split; try apply F. lia.
    - intros [(_ & X & _)|[_ ->]]; [lia|reflexivity].
    - intros ->. right. split; [intros [_ X]; lia|reflexivity].
  Qed.
  Lemma fold_choice : forall c, c <> 0 -> folds P cs c -> exists opts,
    override_choice P c cs = Some (override (p_tolower P c) c, opts)
    /\ forall p i d, In (i, d) (opts p) <-> (i = c /\ d = false) \/ (i = p_tolower P c /\ d = true).
  Proof.
    intros c Hc F. unfold override_choice. apply folds_test in F. rewrite F. pose proof (us_lower P U c Hc) as Hl.
    unfold over4, over3, overriding. replace (c =? 0) with false by lia. replace (p_tolower P c =? 0) with false by lia. cbn [orb].
    destruct (c =? p_tolower P c) eqn:E.
    - eexists. split; [reflexivity|]. intros p i d. cbn [In]. split.
      + intros [X|[X|[]]]; injection X as <- <-; auto.
      + intros [[-> ->]|[-> ->]]; auto.
    - eexists. split; [reflexivity|]. intros p i d. cbn [In]. split.
      + intros [X|[X|[X|[]]]]; injection X as <- <-; auto.
      + intros [[-> ->]|[-> ->]]; auto.
  Qed.
  Lemma plain_choice : forall c, p_isupper P c && negb cs = false ->
    override_choice P c cs = if c =? 0 then None else Some (StateModel.same, fun _ => [(c, false)]).
  Proof.
    intros c H. unfold override_choice. rewrite H. unfold one, alternatives. cbn [existsb fst]. rewrite orb_false_r. reflexivity.
  Qed.
  Lemma zero_choice : override_choice P 0 cs = None.
  Proof.
    rewrite plain_choice; [reflexivity|]. destruct (p_isupper P 0) eqn:E; [|reflexivity].
    apply (us_upper P U) in E. lia.
  Qed.
  Lemma cpath_reads : forall p w s d q, cpath find p (choices w) s d q <-> reads P cs p w s d q.
  Proof.
    intros p w s d q. split.
    - intros H. remember (choices w) as L eqn:EL. revert w EL.
      induction H as [p|p o q w l s d r Ho Hp IH|p ov opts i d o q w l s b r Hi Ho Hp IH]; intros v EL.
      + destruct v; [constructor|discriminate].
      + apply rd_eps with (q := q); auto.
      + destruct v as [|c v]; [discriminate|]. cbn [map] in EL. injection EL as Ec EL.
        destruct (Z.eq_dec c 0) as [->|Hc]; [rewrite zero_choice in Ec; discriminate|].
        destruct (p_isupper P c && negb cs) eqn:F.
        * pose proof (proj1 (folds_test c) F) as F'. destruct (fold_choice c Hc F') as (opts' & E' & K).
          rewrite E' in Ec. injection Ec as -> ->. apply K in Hi.
          assert (Hi0 : (i =? 0) = false).
          { pose proof (us_lower P U c Hc). destruct Hi as [[-> _]|[-> _]]; lia. }
          rewrite Hi0. cbn [app].
          assert (W : writes P cs c o (override (p_tolower P c) c o)) by now apply writes_over.
          destruct Hi as [[-> ->]|[-> ->]]; cbn [orb].
          -- eapply rd_same; eauto.
          -- eapply rd_lower; eauto.
        * rewrite plain_choice in Ec by auto. replace (c =? 0) with false in Ec by lia. injection Ec as -> ->.
          destruct Hi as [Hi|[]]. injection Hi as <- <-. replace (c =? 0) with false by lia. cbn [orb app].
          eapply rd_same; eauto. now apply writes_one.
    - intros H. induction H as [p|p o q w l s d r Ho Hp IH|p c o x q w l s d r Hc Ho Hw Hp IH|p c o x q w l s d r Hc Hf Ho Hw Hp IH].
      + constructor.
      + apply cp_eps with (q := q); auto.
      + cbn [map]. destruct (p_isupper P c && negb cs) eqn:F.
        * pose proof (proj1 (folds_test c) F) as F'. destruct (fold_choice c Hc F') as (opts' & E' & K). rewrite E'.
          apply writes_over in Hw; [|exact F']. subst x.
          pose proof (cp_sym find p (override (p_tolower P c) c) opts' c false o q w (choices l) s d r) as J.
          replace (c =? 0) with false in J by lia. cbn [orb app] in J. apply J; auto. apply K. now left.
        * rewrite plain_choice by auto. replace (c =? 0) with false by lia.
          assert (x = o).
          { destruct Hw as [(X & _)|[_ X]]; [apply folds_test in X; congruence|exact X]. }
          subst x. pose proof (cp_sym find p StateModel.same (fun _ => [(c, false)]) c false o q w (choices l) s d r) as J.
          replace (c =? 0) with false in J by lia. cbn [orb app] in J. apply J; auto. now left.
      + cbn [map]. destruct (fold_choice c Hc Hf) as (opts' & E' & K). rewrite E'.
        apply writes_over in Hw; [|exact Hf]. subst x.
        pose proof (cp_sym find p (override (p_tolower P c) c) opts' (p_tolower P c) true o q w (choices l) s d r) as J.
        pose proof (us_lower P U c Hc). replace (p_tolower P c =? 0) with false in J by lia. cbn [orb app] in J.
        apply J; auto. apply K. now right.
  Qed.

  (** [st] is the state after [w]. *)
  Definition after (w : list Z) (st : analyses) : Prop := forall q s d, In (mkV q s d) st <-> reads P cs root w s d q.
  Lemma after_init : forall init, initial_state P = Ok init -> after [] init.
  Proof. intros init H q s d. rewrite <- cpath_reads. eapply init_holds. exact H. Qed.
  Lemma after_step : forall w c st st', after w st -> beCaseSensitive P st = cs -> step_override P c st = Ok st' ->
    after (w ++ [c]) st'.
  Proof.
    intros w c st st' Ha Hb H q s d. rewrite <- cpath_reads, map_app. unfold step_override, offer in H. rewrite Hb in H.
    cbn [map]. eapply step_holds; [|exact H]. intros q' s' d'. rewrite (Ha q' s' d'). symmetry. apply cpath_reads.
  Qed.
  Lemma final_iff : forall w st, after w st ->
    (isFinal (all_finals P) st = true <-> ~ unknown P cs w) /\ (isFinal (all_finals P) st = false <-> unknown P cs w).
  Proof.
    intros w st Ha.
    assert (K : isFinal (all_finals P) st = true <-> exists s d c, accepts P cs w s d c).
    { unfold isFinal, accepts. rewrite existsb_exists. split.
      - intros ([q s d] & Hin & Hf). cbn [v_where] in Hf. apply Ha in Hin.
        destruct (final_weight q (all_finals P)) as [fw|] eqn:E; [|discriminate].
        exists s, d, (fw + fold_right Z.add 0 (map snd s)), q, fw. auto.
      - intros (s & d & c & q & fw & Hr & Hf & _). exists (mkV q s d). split; [now apply Ha|]. cbn [v_where]. now rewrite Hf. }
    assert (N : (exists s d c, accepts P cs w s d c) -> unknown P cs w -> False).
    { intros (s & d & c & H) Hu. exact (Hu s d c H). }
    destruct (isFinal (all_finals P) st) eqn:E.
    - split; split; intros H; try congruence.
      + intros Hu. apply N; [now apply K|exact Hu].
      + exfalso. apply N; [now apply K|exact H].
    - assert (Hu : unknown P cs w).
      { intros s d c H. assert (X : false = true); [apply K; exists s, d, c; exact H|discriminate X]. }
      split; split; intros H; try congruence; try (intros; congruence); first [exact Hu | exfalso; exact (H Hu) | idtac].
  Qed.
  Lemma after_nil : forall w v st, after w st -> st = [] -> unknown P cs (w ++ v).
  Proof.
    intros w v st Ha -> s d c (q & fw & Hr & _ & _).
    assert (K : forall p l s d q, reads P cs p l s d q -> forall a b, l = a ++ b ->
      exists s1 d1 q1, reads P cs p a s1 d1 q1).
    { clear. intros p l s d q H. induction H as [p|p o q w l s d r Ho Hp IH|p c o x q w l s d r Hc Ho Hw Hp IH|p c o x q w l s d r Hc Hf Ho Hw Hp IH];
        intros a b E.
      - symmetry in E. apply app_eq_nil in E as [-> ->]. exists [], false, p. constructor.
      - destruct (IH a b E) as (s1 & d1 & q1 & R). eexists. exists d1, q1. eapply rd_eps; eauto.
      - destruct a as [|y a]; [exists [], false, p; constructor|]. injection E as -> E.
        destruct (IH a b E) as (s1 & d1 & q1 & R). eexists. exists d1, q1. eapply rd_same; eauto.
      - destruct a as [|y a]; [exists [], false, p; constructor|]. injection E as -> E.
        destruct (IH a b E) as (s1 & d1 & q1 & R). eexists. exists true, q1. eapply rd_lower; eauto. }
    destruct (K _ _ _ _ _ Hr w v eq_refl) as (s1 & d1 & q1 & R). apply Ha in R. destruct R.
  Qed.

  (** ** Symbols written *)
  (** Letters that may be folded are characters of the BMP. *)
  Definition sym_ok (c : Z) : Prop := folds P cs c -> plain_char c.
  Lemma reads_out : forall p w s d q, reads P cs p w s d q -> Forall sym_ok w -> Forall (fun x => out_symbol P (fst x)) s.
  Proof.
    intros p w s d q H. induction H as [p|p o q w l s d r Ho Hp IH|p c o x q w l s d r Hc Ho Hw Hp IH|p c o x q w l s d r Hc Hf Ho Hw Hp IH];
      intros Hs.
    - constructor.
    - apply Forall_app. split; [|auto]. destruct (o =? 0); constructor; [|constructor]. cbn [fst]. eapply us_arcs; eauto.
    - inversion Hs as [|? ? H1 H2]; subst. constructor; [|auto]. cbn [fst].
      destruct Hw as [(F & _ & ->)|[_ ->]]; [right; left; now apply H1|eapply us_arcs; eauto].
    - inversion Hs as [|? ? H1 H2]; subst. constructor; [|auto]. cbn [fst].
      destruct Hw as [(F & _ & ->)|[_ ->]]; [right; left; now apply H1|eapply us_arcs; eauto].
  Qed.

  (** * Texts *)
  Definition piece_of (c : Z) : ustr :=
    if c <? 0 then nth (Z.to_nat (- c - 1)) (slexicinv alpha) [] else [c].
  Definition text_of (l : list Z) : ustr :=
    concat (map (fun c => (if is_escaped c then [92] else []) ++ piece_of c) l).
  Definition nonzero (c : Z) : Prop := plain_char c \/ named_tag P c.

  Lemma piece_char : forall c, plain_char c -> piece_of c = [c].
  Proof. intros c [H _]. unfold piece_of. now replace (c <? 0) with false by lia. Qed.
  Lemma piece_tag : forall c, named_tag P c -> exists b, piece_of c = 60 :: b ++ [62] /\ ~ In 62 b
    /\ symbol_code_const (piece_of c) alpha = c /\ is_escaped c = false.
  Proof.
    intros c (b & Hc & Hn & Hb & Hf). exists b. unfold piece_of. replace (c <? 0) with true by lia.
    rewrite (nth_error_nth _ _ _ Hn). split; [reflexivity|]. split; [exact Hb|]. split.
    - unfold symbol_code_const. now rewrite Hf.
    - destruct (is_escaped c) eqn:E; [|reflexivity]. apply is_escaped_range in E. lia.
  Qed.
  Lemma first_cp_plain : forall c r cp rest, plain_char c -> first_cp cp rest -> cp ++ rest = c :: r -> cp = [c] /\ rest = r.
  Proof.
    intros c r cp rest [_ Hc] [(x & -> & _)|(x & y & -> & Hl & _)] E; cbn [app] in E; injection E as -> E.
    - auto.
    - exfalso. unfold is_lead in Hl. lia.
  Qed.
  Lemma tag_split : forall b b' r r', ~ In 62 b -> ~ In 62 b' -> b ++ 62 :: r = b' ++ 62 :: r' -> b = b' /\ r = r'.
  Proof.
    induction b as [|x b IH]; intros [|y b'] r r' H H' E; cbn [app] in E.
    - injection E. auto.
    - injection E as E1 E2. exfalso. apply H'. left. auto.
    - injection E as E1 E2. exfalso. apply H. left. auto.
    - injection E as -> E. destruct (IH b' r r') as [-> ->]; auto; intros X; [apply H|apply H']; now right.
  Qed.
  Lemma symbols_of_text : forall l ps, Forall nonzero l -> symbols_of (text_of l) ps -> ps = map piece_of l.
  Proof.
    induction l as [|c l IH]; intros ps Hl H; unfold text_of in *; cbn [map concat] in *.
    - remember [] as t eqn:Et. destruct H as [| |c r l Hc H|t' r l Ht H|r l Hr H|c r l Hc H1 H2 H]; try discriminate; auto.
      exfalso. apply app_eq_nil in Et as [-> _]. destruct Hc as [(x & E & _)|(x & y & E & _)]; discriminate.
    - inversion Hl as [|? ? Hc Hl']; subst.
      set (rest := concat (map (fun c => (if is_escaped c then [92] else []) ++ piece_of c) l)) in *.
      destruct Hc as [Hc|Hc].
      + rewrite (piece_char c Hc) in *. destruct (is_escaped c) eqn:Ec.
        * cbn [app] in H. remember (92 :: c :: rest) as t eqn:Et.
          destruct H as [| |c' r l0 Hc' H|t' r l0 Ht H|r l0 Hr H|c' r l0 Hc' H1 H2 H]; try discriminate.
          -- injection Et as Et. destruct (first_cp_plain c rest c' r Hc Hc' Et) as [-> ->]. f_equal. now apply IH.
          -- destruct Hc' as [(x & -> & _)|(x & y & -> & Hl1 & _)]; cbn [app] in Et; injection Et as -> Et; [congruence|discriminate Hl1].
        * cbn [app] in H. remember (c :: rest) as t eqn:Et.
          assert (Hm : ~ meta c) by (rewrite <- meta_iff; congruence).
          destruct H as [| |c' r l0 Hc' H|t' r l0 Ht H|r l0 Hr H|c' r l0 Hc' H1 H2 H]; try discriminate.
          -- injection Et as <- _. exfalso. apply Hm. vm_compute. tauto.
          -- injection Et as <- _. exfalso. apply Hm. vm_compute. tauto.
          -- injection Et as <- _. exfalso. apply Hm. vm_compute. tauto.
          -- injection Et as <- _. exfalso. apply Hm. vm_compute. tauto.
          -- destruct (first_cp_plain c rest c' r Hc Hc' Et) as [-> ->]. f_equal. now apply IH.
      + destruct (piece_tag c Hc) as (b & Eb & Hb & _ & Ee). rewrite Ee, Eb in *. cbn [app] in H. rewrite <- app_assoc in H. cbn [app] in H.
        remember (60 :: b ++ 62 :: rest) as t eqn:Et.
        destruct H as [| |c' r l0 Hc' H|t' r l0 Ht H|r l0 Hr H|c' r l0 Hc' H1 H2 H]; try discriminate.
        * injection Et as Et. destruct (tag_split _ _ _ _ Ht Hb Et) as [-> ->]. f_equal. now apply IH.
        * injection Et as Et. exfalso. apply Hr. rewrite Et. apply in_app_iff. right. now left.
        * destruct Hc' as [(x & -> & _)|(x & y & -> & Hl1 & _)]; cbn [app] in Et; injection Et as -> Et; [congruence|discriminate Hl1].
  Qed.
  Lemma tokenize_text : forall l, Forall nonzero l -> tokenize P (text_of l) = Ok l.
  Proof.
    intros l Hl. unfold tokenize, pieces.
    destruct (C50_symbols (text_of l) 0 [] ltac:(lia) eq_refl) as (ps & E & Hs). unfold symbols in E. rewrite E. cbn [obind].
    rewrite (symbols_of_text l ps Hl Hs). clear E Hs ps. induction Hl as [|c l Hc Hl IH]; [reflexivity|].
    cbn [map piece_codes]. rewrite IH. destruct Hc as [Hc|Hc].
    - rewrite (piece_char c Hc). reflexivity.
    - destruct (piece_tag c Hc) as (b & Eb & _ & Es & _). rewrite Eb in *. cbn [app]. destruct (b ++ [62]) as [|y z] eqn:Ey.
      + destruct b; discriminate.
      + cbn [obind]. rewrite Es. reflexivity.
  Qed.

  (** ** Spelling *)
  Lemma nonzero_up : forall c, nonzero c -> nonzero (up P c) /\ is_escaped (up P c) = is_escaped c.
  Proof.
    intros c [Hc|Hc]; unfold up.
    - pose proof (us_toupper P U c Hc) as [H1 H2]. destruct Hc as [Hc Hs]. replace (0 <? c) with true by lia.
      split; [now left|]. destruct (is_escaped c) eqn:E.
      + rewrite (us_fixed P U c); [exact E|]. right. now apply meta_iff.
      + destruct (is_escaped (p_toupper P c)) eqn:E'; [|reflexivity]. apply meta_iff, H2, meta_iff in E'. congruence.
    - pose proof Hc as (b & Hn & _). replace (0 <? c) with false by lia. split; [now right|reflexivity].
  Qed.
  Lemma nz_filter : forall s, Forall (fun x : Z * Z => out_symbol P (fst x)) s ->
    Forall nonzero (filter (fun c => negb (c =? 0)) (map fst s)).
  Proof.
    intros s H. induction H as [|x s Hx H IH]; [constructor|]. cbn [map filter].
    destruct (fst x =? 0) eqn:E; cbn [negb]; [exact IH|]. constructor; [|exact IH]. destruct Hx as [Hx|Hx]; [lia|exact Hx].
  Qed.
  Lemma get_symbol_text : forall c, nonzero c -> getSymbol c alpha = Ok (piece_of c).
  Proof.
    intros c [Hc|Hc].
    - rewrite piece_char by auto. destruct Hc as [Hc Hs]. unfold getSymbol. replace (c =? 0) with false by lia.
      replace (c <? 0) with false by lia. unfold append_cp. replace (c <=? 65535) with true by lia. cbn [app].
      rewrite Z.mod_small by (change (2 ^ 16) with 65536; lia). reflexivity.
    - destruct Hc as (b & Hc & Hn & _). unfold getSymbol, piece_of. replace (c =? 0) with false by lia.
      replace (c <? 0) with true by lia. rewrite Hn. now rewrite (nth_error_nth _ _ _ Hn).
  Qed.
  Lemma spell_text : forall s upper, Forall (fun x : Z * Z => out_symbol P (fst x)) s ->
    spell (p_toupper P) alpha is_escaped upper s
      = Ok (text_of ((if upper then map (up P) else fun l => l) (filter (fun c => negb (c =? 0)) (map fst s))),
            fold_right Z.add 0 (map snd s)).
  Proof.
    intros s upper H. induction H as [|[c w] s Hx H IH]; [destruct upper; reflexivity|]. cbn [spell map fst snd filter fold_right] in *.
    rewrite IH. cbn [obind]. destruct Hx as [->|Hx].
    - unfold getSymbolCase, getSymbol. cbn. destruct upper; reflexivity.
    - assert (Hc : c <> 0) by (destruct Hx as [[Hx _]|(b & Hx & _)]; lia).
      replace (c =? 0) with false by lia. cbn [negb]. destruct (nonzero_up c Hx) as [Hu Eu].
      assert (G : getSymbolCase (p_toupper P) c upper alpha = Ok (piece_of (if upper then up P c else c))).
      { unfold getSymbolCase. destruct upper; cbn [andb].
        - rewrite andb_true_r. destruct (0 <? c) eqn:E.
          + unfold up in *. rewrite E in *. pose proof (get_symbol_text _ Hu) as G. rewrite <- G.
            destruct Hx as [Hx|(b & Hx & _)]; [|lia]. destruct (us_toupper P U c Hx) as [[Hx1 _] _].
            unfold getSymbol. replace (p_toupper P c =? 0) with false by lia. replace (p_toupper P c <? 0) with false by lia. reflexivity.
          + unfold up. rewrite E. now apply get_symbol_text.
        - rewrite andb_false_r. now apply get_symbol_text. }
      rewrite G. cbn [obind]. f_equal. f_equal. destruct upper; unfold text_of; cbn [map concat]; rewrite ?Eu, <- ?app_assoc; reflexivity.
  Qed.
  (** The first unit of a text *)
  Lemma text_head : forall c l, nonzero c -> exists x t,
    text_of (c :: l) = x :: t /\ text_of (up P c :: l) = (p_toupper P x mod 2 ^ 16) :: t /\ (x = 126 <-> c = 126).
  Proof.
    intros c l Hc. destruct (nonzero_up c Hc) as [Hu Eu]. unfold text_of. cbn [map concat]. rewrite Eu.
    destruct Hc as [Hc|Hc].
    - unfold up in *. pose proof Hc as [Hr _]. replace (0 <? c) with true in * by lia.
      destruct (us_toupper P U c Hc) as [Hup _].
      rewrite (piece_char c Hc), (piece_char _ Hup). destruct (is_escaped c) eqn:E.
      + rewrite (us_fixed P U c) by (right; now apply meta_iff). exists 92, (c :: concat (map (fun c => (if is_escaped c then [92] else []) ++ piece_of c) l)).
        rewrite (us_fixed P U 92) by (right; vm_compute; tauto). cbn [app]. repeat split; try reflexivity; try lia.
        intros ->. discriminate E.
      + cbn [app]. eexists. eexists. split; [reflexivity|]. split; [|tauto]. f_equal. rewrite Z.mod_small; [reflexivity|].
        change (2 ^ 16) with 65536. destruct Hup as [Hup _]. lia.
    - destruct (piece_tag c Hc) as (b & Eb & _ & _ & Ee). pose proof Hc as (b' & Hn & _). unfold up. replace (0 <? c) with false by lia.
      rewrite Ee, Eb. cbn [app]. eexists. eexists. split; [reflexivity|]. split; [|lia].
      rewrite (us_fixed P U 60) by (right; vm_compute; tauto). reflexivity.
  Qed.
  Lemma first_up_text : forall l, Forall nonzero l -> first_up (p_toupper P) 0 (text_of l) = Ok (text_of (capital P l)).
  Proof.
    intros l Hl. unfold first_up. replace (length (text_of l) <? 0)%nat with false by reflexivity.
    pose proof (us_fixed P U 0 ltac:(now left)) as H0.
    destruct l as [|c l].
    - cbn [text_of map concat nth]. replace (0 =? 126) with false by reflexivity. rewrite H0. reflexivity.
    - inversion Hl as [|? ? Hc Hl']; subst. destruct (text_head c l Hc) as (x & t & E1 & E2 & Hx). cbn [capital].
      rewrite E1. cbn [nth]. destruct (c =? 126) eqn:Ec.
      + replace (x =? 126) with true by lia. assert (c = 126) by lia. subst c. assert (x = 126) by lia. subst x.
        assert (Et : t = text_of l).
        { unfold text_of in E1 |- *. cbn [map concat] in E1. change (is_escaped 126) with false in E1. cbn [app] in E1.
          change (piece_of 126) with [126] in E1. cbn [app] in E1. now injection E1. }
        subst t. destruct l as [|d l].
        * cbn [text_of map concat nth length Nat.ltb Nat.leb]. rewrite H0. reflexivity.
        * inversion Hl' as [|? ? Hd _]; subst. destruct (text_head d l Hd) as (y & t & F1 & F2 & _).
          assert (G : forall l', text_of (126 :: l') = 126 :: text_of l') by reflexivity.
          rewrite G, F1, F2. cbn [nth length Nat.ltb Nat.leb put_nth]. reflexivity.
      + replace (x =? 126) with false by lia. cbn [length Nat.ltb Nat.leb nth put_nth]. now rewrite E2.
  Qed.
  Lemma nonzero_recased : forall u f l, Forall nonzero l -> Forall nonzero (recased P u f l).
  Proof.
    intros u f l H. unfold recased.
    assert (M : Forall nonzero (if u then map (up P) l else l)).
    { destruct u; [|exact H]. apply Forall_map. eapply Forall_impl; [|exact H]. intros c Hc. now apply nonzero_up. }
    destruct f; [|exact M]. destruct M as [|c r Hc Hr]; [constructor|]. cbn [capital]. destruct (c =? 126).
    - constructor; [exact Hc|]. destruct Hr as [|d r Hd Hr]; constructor; auto. now apply nonzero_up.
    - constructor; auto. now apply nonzero_up.
  Qed.

  (** * The match noted *)
  Lemma responses_text : forall u f st, (forall s, In s st -> Forall (fun x => out_symbol P (fst x)) (v_seq s)) ->
    exists resp, responses (p_toupper P) (all_finals P) alpha is_escaped u f 0 st = Ok resp
      /\ (isFinal (all_finals P) st = true -> resp <> [])
      /\ forall t c, In (t, c) resp <-> exists s fw, In s st /\ final_weight (v_where s) (all_finals P) = Some fw
           /\ c = fw + fold_right Z.add 0 (map snd (v_seq s))
           /\ t = text_of (recased P (v_dirty s && u) (v_dirty s && f) (filter (fun c => negb (c =? 0)) (map fst (v_seq s)))).
  Proof.
    intros u f. induction st as [|s st IH]; intros Hs.
    - exists []. split; [reflexivity|]. split; [discriminate|]. intros t c. split; [intros []|intros (s & fw & [] & _)].
    - destruct IH as (resp & E & Hne & Hin). { intros s' Hs'. apply Hs. now right. }
      cbn [responses isFinal existsb]. destruct (final_weight (v_where s) (all_finals P)) as [fw|] eqn:Ew.
      + assert (Ho : Forall (fun x => out_symbol P (fst x)) (v_seq s)) by (apply Hs; now left).
        rewrite (spell_text (v_seq s) (v_dirty s && u) Ho). cbn [obind].
        set (l := filter (fun c => negb (c =? 0)) (map fst (v_seq s))) in *.
        assert (Hl : Forall nonzero l) by now apply nz_filter.
        assert (Ht : (if v_dirty s && f then first_up (p_toupper P) 0 (text_of ((if v_dirty s && u then map (up P) else fun l => l) l))
                      else Ok (text_of ((if v_dirty s && u then map (up P) else fun l => l) l)))
                     = Ok (text_of (recased P (v_dirty s && u) (v_dirty s && f) l))).
        { unfold recased. assert (M : Forall nonzero (if v_dirty s && u then map (up P) l else l)) by exact (nonzero_recased (v_dirty s && u) false l Hl).
          destruct (v_dirty s && u); destruct (v_dirty s && f); try reflexivity; now apply first_up_text. }
        rewrite Ht. cbn [obind]. rewrite E. cbn [obind]. eexists. split; [reflexivity|]. split; [discriminate|].
        intros t c. cbn [In]. rewrite Hin. split.
        * intros [X|(s' & fw' & A & B)]; [|exists s', fw'; split; [now right|exact B]].
          injection X as <- <-. exists s, fw. split; [now left|]. auto.
        * intros (s' & fw' & [<-|A] & B & Ec & Et); [|right; exists s', fw'; auto].
          left. rewrite Ew in B. injection B as <-. now rewrite Ec, Et.
      + rewrite E. exists resp. split; [reflexivity|]. split; [exact Hne|].
        intros t c. rewrite Hin. split.
        * intros (s' & fw' & A & B). exists s', fw'. split; [now right|exact B].
        * intros (s' & fw' & [<-|A] & B); [destruct B as [B _]; congruence|]. exists s', fw'. auto.
  Qed.

  Lemma best_match : forall w st, is_sort (p_sort P) -> after w st -> Forall sym_ok w -> isFinal (all_finals P) st = true ->
    exists r, filterFinals (p_toupper P) (p_sort P) (all_finals P) alpha is_escaped (p_weights P)
        1 (p_maxClasses P) (all_upper P w) (starts_upper P w) 0 st = Ok (47 :: text_of r)
      /\ translates P cs w r /\ Forall nonzero r.
  Proof.
    intros w st Hsort Ha Hw Hf.
    destruct (responses_text (all_upper P w) (starts_upper P w) st) as (resp & E & Hne & Hin).
    { intros [q s d] H. apply Ha in H. cbn [v_seq]. eapply reads_out; eauto. }
    specialize (Hne Hf). unfold filterFinals, filterFinalsArray. rewrite E. cbn [obind].
    destruct (Hsort resp) as [Hp Hs]. unfold NFinals. destruct (p_sort P resp) as [|[t c] l] eqn:El.
    { apply Permutation_sym, Permutation_nil in Hp. congruence. }
    cbn [take_finals]. replace ((0 <? 1) && (0 <? p_maxClasses P)) with true.
    2: { symmetry. rewrite andb_true_iff. pose proof (us_classes P U). lia. }
    assert (T : forall b, take_finals (1 - 1) b l = []) by (intros b; destruct l; reflexivity). rewrite T.
    cbn [unseen fst]. destruct (in_dec ustr_eq_dec t []) as [[]|_]. rewrite (us_weights P U). cbn [display obind map concat].
    assert (Hi : In (t, c) resp) by (eapply Permutation_in; [apply Permutation_sym; exact Hp|now left]).
    apply Hin in Hi as ([q s d] & fw & Hst & Hfw & Hc & Ht). cbn [v_where v_seq v_dirty] in *. apply Ha in Hst.
    eexists. split; [rewrite Ht, app_nil_r; reflexivity|]. split.
    - exists s, d, c. split; [exists q, fw; auto|]. split; [|reflexivity].
      intros s' d' c' (q' & fw' & Hr' & Hfw' & Hc').
      assert (Hi' : In (text_of (recased P (d' && all_upper P w) (d' && starts_upper P w) (filter (fun c => negb (c =? 0)) (map fst s'))), c') resp).
      { apply Hin. exists (mkV q' s' d'), fw'. cbn [v_where v_seq v_dirty]. split; [now apply Ha|]. auto. }
      eapply Permutation_in in Hi'; [|exact Hp]. destruct Hi' as [X|Hi']; [injection X as _ ->; lia|].
      inversion Hs as [|? ? _ Hall]; subst. rewrite Forall_forall in Hall. exact (Hall _ Hi').
    - apply nonzero_recased, nz_filter. eapply reads_out; eauto.
  Qed.

  Lemma text_last : forall r, Forall nonzero r -> (last (47 :: text_of r) 0 =? 32) = (last r 0 =? 32).
  Proof.
    intros r H. destruct r as [|c r] using rev_ind; [reflexivity|]. clear IHr. apply Forall_app in H as [_ H]. inversion H as [|? ? Hc _]; subst.
    rewrite last_last. unfold text_of. rewrite map_app, concat_app. cbn [map concat]. rewrite app_nil_r.
    destruct Hc as [Hc|Hc].
    - rewrite (piece_char c Hc), !app_assoc, app_comm_cons, last_last. reflexivity.
    - destruct (piece_tag c Hc) as (b & Eb & _ & _ & Ee). rewrite Ee, Eb. cbn [app].
      rewrite (app_comm_cons b [62] 60), app_assoc, app_comm_cons, last_last.
      destruct Hc as (b' & Hc & _). lia.
  Qed.
  Lemma text_init : forall r, Forall nonzero (r ++ [32]) -> removelast (47 :: text_of (r ++ [32])) = 47 :: text_of r.
  Proof.
    intros r _. unfold text_of. rewrite map_app, concat_app. cbn [map concat]. change (is_escaped 32) with false.
    change (piece_of 32) with [32]. cbn [app]. rewrite app_comm_cons, removelast_last. reflexivity.
  Qed.
End Matches.
