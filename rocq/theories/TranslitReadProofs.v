(** Proofs for C68: reading the words of a text. *)
From Verif Require Import Base CompressionModel AlphabetModel StateModel StateSpec FinalsModel StringModel
  InputModel InputProps StreamModel StreamProps ProcessorModel TranslitModel TranslitSpec.

Section Read.
  Context (P : processor).
  Context (Hsp : forall c, In c [0; 60; 91; 92; U_EOF] -> p_isspace P c = false).
  Notation sp := (p_isspace P).

  (** Where a blank ends, and where reading it comes to *)
  Inductive tstop : list Z -> (inf -> Prop) -> Prop :=
  | ts_end : tstop [] ended
  | ts_bound r : tstop (91 :: 91 :: r) (fun f => at_text f (91 :: r))
  | ts_char c r : sp c = false -> c <> 91 -> tstop (c :: r) (fun f => at_text f (c :: r)).


  Lemma tblank_loop_spec : forall b, tblank sp b -> forall rest E f ret fuel, tstop rest E ->
    at_text f (b ++ rest) -> (length b < fuel)%nat ->
    exists f', tblank_loop P fuel f ret = Ok (ret ++ utf16_text b, f') /\ E f'.
  Proof.
    intros b Hb. induction Hb as [|c r Hc Hlt Hb IH|b r Hbody Hhd Hb IH]; intros rest E f ret fuel Hst Ha Hf;
      (destruct fuel as [|fuel]; [lia|]); cbn [tblank_loop]; rewrite (at_text_eof _ _ Ha).
    - cbn [app] in Ha. cbn [utf16_text map concat]. rewrite app_nil_r. destruct Hst as [|r|c r Hc Hn].
      + rewrite (get_end _ Ha). cbn [obind]. rewrite Hsp by (cbn; auto 10).
        replace (U_EOF =? 91) with false by reflexivity. unfold unget. cbn [i_buf length Nat.ltb Nat.leb UBUF obind i_bytes i_eof].
        eexists. split; [reflexivity|]. split; [reflexivity|]. split; [reflexivity|]. now right.
      + destruct (get_at _ _ _ Ha) as (f1 & -> & A1 & L1 & S1). cbn [obind]. rewrite Hsp by (cbn; auto 10).
        replace (91 =? 91) with true by reflexivity.
        destruct (peek_at _ _ _ A1) as (f2 & -> & A2 & L2 & _). cbn [obind].
        replace (91 =? 91) with true by reflexivity. eauto.
      + destruct (get_at _ _ _ Ha) as (f1 & -> & A1 & L1 & S1). cbn [obind]. rewrite Hc.
        replace (c =? 91) with false by lia.
        assert (Hl : (length (i_buf f) <= 3)%nat) by (destruct Ha as (_ & x & _ & _ & _ & H); exact H).
        destruct (unget_at f1 c r A1 S1 ltac:(lia)) as (f2 & -> & A2 & _). cbn [obind]. eauto.
    - cbn [app length] in *. destruct (get_at _ _ _ Ha) as (f1 & -> & A1 & L1 & S1). cbn [obind]. rewrite Hc.
      destruct (IH rest E f1 (ret ++ [c mod 2 ^ 16]) fuel Hst A1 ltac:(lia)) as (f' & -> & HE). exists f'. split; [|exact HE].
      rewrite utf16_text_cons, <- app_assoc. do 3 f_equal. unfold utf16. replace (c <? 65536) with true by lia.
      rewrite Z.mod_small; [reflexivity|]. destruct S1. change (2 ^ 16) with 65536. lia.
    - cbn [app length] in *. rewrite <- app_assoc in Ha. cbn [app] in Ha.
      destruct (get_at _ _ _ Ha) as (f1 & -> & A1 & L1 & S1). cbn [obind]. rewrite Hsp by (cbn; auto 10).
      replace (91 =? 91) with true by reflexivity.
      assert (K : exists d l, b ++ 93 :: r ++ rest = d :: l /\ d <> 91).
      { destruct b as [|d b]; [exists 93, (r ++ rest); split; [reflexivity|lia]|]. exists d, (b ++ 93 :: r ++ rest).
        split; [reflexivity|]. now apply Hhd. }
      destruct K as (d & l & Ed & Hd). rewrite Ed in A1. destruct (peek_at _ _ _ A1) as (f2 & -> & A2 & L2 & _).
      cbn [obind]. replace (d =? 91) with false by lia. rewrite <- Ed in A2.
      destruct (C42_block f2 91 93 b (r ++ rest) S1 ltac:(lia) ltac:(lia) Hbody A2) as (f3 & -> & A3). cbn [obind].
      rewrite app_length in Hf. cbn [length] in Hf.
      destruct (IH rest E f3 (ret ++ utf16_text (91 :: b ++ [93])) fuel Hst A3 ltac:(lia)) as (f' & -> & HE).
      exists f'. split; [|exact HE]. rewrite <- app_assoc, <- utf16_text_app. do 3 f_equal. cbn [app]. f_equal.
      rewrite <- app_assoc. reflexivity.
  Qed.
  Lemma tblank_units : forall b, tblank sp b -> utf16_text b = [] -> b = [].
  Proof. intros b _ H. now apply utf16_text_nil in H. Qed.
  Lemma readTBlank_spec : forall b rest E f blanks, tblank sp b -> tstop rest E -> at_text f (b ++ rest) ->
    exists f', readTBlank P f blanks
      = Ok (match b with [] => (false, f', blanks) | _ => (true, f', blanks ++ [utf16_text b]) end) /\ E f'.
  Proof.
    intros b rest E f blanks Hb Hst Ha. unfold readTBlank. pose proof (at_text_size _ _ Ha) as Hl. rewrite app_length in Hl.
    destruct (tblank_loop_spec b Hb rest E f [] (2 + i_size f) Hst Ha ltac:(lia)) as (f' & -> & HE). cbn [obind app].
    exists f'. split; [|exact HE]. destruct b as [|c b]; [reflexivity|].
    destruct (utf16_text (c :: b)) eqn:Eu; [apply utf16_text_nil in Eu; discriminate|reflexivity].
  Qed.

  (** ** Words *)
  Lemma letter_head : forall l, letter_ok P l -> ~ is_gap l -> exists c r, letter_text l = c :: r
    /\ sp c = false /\ c <> 91 /\ c <> 0.
  Proof.
    intros [c|c|b|b] H G; cbn [letter_text letter_ok is_gap] in *; try tauto.
    - destruct H as [H1 H2]. exists c, []. split; [reflexivity|]. split; [exact H1|]. cbn [In] in H2. lia.
    - exists 92, [c]. split; [reflexivity|]. split; [apply Hsp; cbn; auto 10|lia].
    - exists 60, (b ++ [62]). split; [reflexivity|]. split; [apply Hsp; cbn; auto 10|lia].
  Qed.
  (** What may stand behind a word *)
  Definition word_stop (rest : list Z) : Prop := exists c r, rest = c :: r /\ (sp c = true \/ c = 91 \/ c = 0).
  Lemma plain_loop_spec : forall ls, Forall (letter_ok P) ls -> Forall (fun l => ~ is_gap l) ls ->
    forall rest f word fuel, word_stop rest -> at_text f (concat (map letter_text ls) ++ rest) ->
    (length (concat (map letter_text ls)) < fuel)%nat ->
    exists f', plain_loop P fuel f word = Ok (f', word ++ map (letter_symbol P) ls) /\ at_text f' rest.
  Proof.
    intros ls Hok. induction Hok as [|l ls Hl Hok IH]; intros Hg rest f word fuel Hst Ha Hf;
      (destruct fuel as [|fuel]; [lia|]); cbn [plain_loop]; rewrite (at_text_eof _ _ Ha).
    - cbn [map concat app] in *. destruct Hst as (c & r & -> & Hc).
      destruct (get_at _ _ _ Ha) as (f1 & -> & A1 & L1 & S1). cbn [obind].
      replace (p_isspace P c || (c =? 91) || (c =? 0)) with true.
      2: { symmetry. destruct Hc as [-> | [-> | ->]]; rewrite ?orb_true_r; reflexivity. }
      assert (Hl : (length (i_buf f) <= 3)%nat) by (destruct Ha as (_ & x & _ & _ & _ & H); exact H).
      destruct (unget_at f1 c r A1 S1 ltac:(lia)) as (f2 & -> & A2 & _). cbn [obind]. rewrite app_nil_r. eauto.
    - inversion Hg as [|? ? G Gs]; subst. cbn [map concat] in *. rewrite app_length in Hf. rewrite <- app_assoc in Ha.
      specialize (IH Gs rest).
      assert (K : forall f2 x, at_text f2 (concat (map letter_text ls) ++ rest) -> (1 <= length (letter_text l))%nat ->
        exists f', plain_loop P fuel f2 (word ++ [x]) = Ok (f', word ++ x :: map (letter_symbol P) ls) /\ at_text f' rest).
      { intros f2 x A2 L. destruct (IH f2 (word ++ [x]) fuel Hst A2 ltac:(lia)) as (f' & -> & A'). exists f'.
        rewrite <- app_assoc. auto. }
      destruct l as [c|c|b|b]; cbn [letter_text letter_ok letter_symbol is_gap] in *; try tauto; cbn [app] in Ha;
        destruct (get_at _ _ _ Ha) as (f1 & -> & A1 & L1 & S1); cbn [obind].
      + destruct Hl as [H1 H2]. cbn [In] in H2. rewrite H1. replace (c =? 91) with false by lia.
        replace (c =? 0) with false by lia. replace (c =? 92) with false by lia. replace (c =? 60) with false by lia.
        cbn [orb]. apply K; [exact A1|cbn; lia].
      + rewrite (Hsp 92) by (cbn; auto 10). replace (92 =? 91) with false by reflexivity. replace (92 =? 0) with false by reflexivity.
        replace (92 =? 92) with true by reflexivity. cbn [orb].
        destruct (get_at _ _ _ A1) as (f2 & -> & A2 & L2 & S2). cbn [obind]. apply K; [exact A2|cbn; lia].
      + rewrite (Hsp 60) by (cbn; auto 10). replace (60 =? 91) with false by reflexivity. replace (60 =? 0) with false by reflexivity.
        replace (60 =? 92) with false by reflexivity. replace (60 =? 60) with true by reflexivity. cbn [orb].
        rewrite <- app_assoc in A1. cbn [app] in A1.
        destruct (C42_block f1 60 62 b _ S1 ltac:(lia) ltac:(lia) Hl A1) as (f2 & -> & A2). cbn [obind].
        apply K; [exact A2|cbn; lia].
  Qed.

  Lemma wbound_loop_spec : forall ls, Forall (letter_ok P) ls -> gaps_apart ls ->
    forall rest f blanks word fuel, at_text f (concat (map letter_text ls) ++ 91 :: 91 :: rest) ->
    (length (concat (map letter_text ls)) < fuel)%nat ->
    exists f', wbound_loop P fuel f blanks word
      = Ok (f', blanks ++ gaps ls, word ++ map (letter_symbol P) ls) /\ at_text f' (91 :: rest).
  Proof.
    intros ls Hok. induction Hok as [|l ls Hl Hok IH]; intros Hg rest f blanks word fuel Ha Hf;
      (destruct fuel as [|fuel]; [lia|]); cbn [wbound_loop]; rewrite (at_text_eof _ _ Ha).
    - cbn [map concat app] in *.
      destruct (readTBlank_spec [] _ _ f blanks (tb_nil _) (ts_bound rest) Ha) as (f1 & -> & A1). cbn [obind].
      destruct (get_at _ _ _ A1) as (f2 & -> & A2 & L2 & S2). cbn [obind]. replace (91 =? 91) with true by reflexivity.
      assert (Hl : (length (i_buf f1) <= 3)%nat) by (destruct A1 as (_ & x & _ & _ & _ & H); exact H).
      destruct (unget_at f2 91 rest A2 S2 ltac:(lia)) as (f3 & -> & A3 & _). cbn [obind gaps map concat]. rewrite !app_nil_r. eauto.
    - cbn [gaps_apart] in Hg. destruct Hg as [Hadj Hg]. specialize (IH Hg rest). cbn [map concat] in *.
      rewrite app_length in Hf. rewrite <- app_assoc in Ha.
      assert (D : is_gap l \/ ~ is_gap l) by (destruct l; cbn; tauto). destruct D as [D|D].
      + destruct l as [c|c|b|b]; cbn [is_gap] in D; try tauto. cbn [letter_text letter_ok letter_symbol] in *.
        destruct Hl as [Hb Hne]. destruct b as [|x b]; [congruence|].
        assert (Lb : (1 <= length (x :: b))%nat) by (cbn; lia).
        destruct ls as [|l2 ls].
        * cbn [map concat app] in Ha.
          destruct (readTBlank_spec (x :: b) _ _ f blanks Hb (ts_bound rest) Ha) as (f1 & -> & A1). cbn [obind].
          destruct (peek_at _ _ _ A1) as (f2 & -> & A2 & L2 & _). cbn [obind]. replace (91 =? 91) with true by reflexivity.
          exists f2. split; [reflexivity|exact A2].
        * assert (G2 : ~ is_gap l2) by (intros X; apply Hadj; split; [exact I|exact X]).
          inversion Hok as [|? ? Hl2 _]; subst.
          destruct (letter_head l2 Hl2 G2) as (c & t & Et & Hc1 & Hc2 & Hc3).
          assert (Et' : concat (map letter_text (l2 :: ls)) ++ 91 :: 91 :: rest
                        = c :: t ++ concat (map letter_text ls) ++ 91 :: 91 :: rest).
          { cbn [map concat]. rewrite Et. cbn [app]. now rewrite <- app_assoc. }
          rewrite Et' in Ha.
          destruct (readTBlank_spec (x :: b) _ _ f blanks Hb (ts_char c _ Hc1 Hc2) Ha) as (f1 & -> & A1). cbn [obind].
          destruct (peek_at _ _ _ A1) as (f2 & -> & A2 & L2 & _). cbn [obind]. replace (c =? 91) with false by lia.
          rewrite <- Et' in A2.
          destruct (IH f2 (blanks ++ [utf16_text (x :: b)]) (word ++ [32]) fuel A2 ltac:(lia)) as (f' & -> & A').
          exists f'. rewrite <- !app_assoc. auto.
      + destruct (letter_head l Hl D) as (c0 & t0 & Et & Hc1 & Hc2 & Hc3).
        pose proof Ha as Ha'. rewrite Et in Ha'. cbn [app] in Ha'.
        destruct (readTBlank_spec [] _ _ f blanks (tb_nil _) (ts_char c0 _ Hc1 Hc2) Ha') as (f1 & -> & A1'). cbn [obind].
        assert (A1 : at_text f1 (letter_text l ++ concat (map letter_text ls) ++ 91 :: 91 :: rest)) by (rewrite Et; exact A1').
        clear A1' Ha'.
        assert (Eg : gaps (l :: ls) = gaps ls) by (destruct l; cbn [is_gap] in D; try tauto; reflexivity). rewrite Eg.
        assert (K : forall f2 x, at_text f2 (concat (map letter_text ls) ++ 91 :: 91 :: rest) ->
          exists f', wbound_loop P fuel f2 blanks (word ++ [x]) = Ok (f', blanks ++ gaps ls, word ++ x :: map (letter_symbol P) ls)
            /\ at_text f' (91 :: rest)).
        { intros f2 x A2. rewrite Et in Hf. cbn [length] in Hf.
          destruct (IH f2 blanks (word ++ [x]) fuel A2 ltac:(lia)) as (f' & -> & A'). exists f'.
          rewrite <- app_assoc. auto. }
        destruct l as [c|c|b|b]; cbn [letter_text letter_ok letter_symbol is_gap] in *; try tauto; cbn [app] in A1;
          destruct (get_at _ _ _ A1) as (f2 & -> & A2 & L2 & S2); cbn [obind].
        * destruct Hl as [H1 H2]. cbn [In] in H2. replace (c =? 91) with false by lia.
          replace (c =? 0) with false by lia. replace (c =? 92) with false by lia. replace (c =? 60) with false by lia.
          apply K; exact A2.
        * replace (92 =? 91) with false by reflexivity. replace (92 =? 92) with true by reflexivity.
          destruct (get_at _ _ _ A2) as (f3 & -> & A3 & L3 & S3). cbn [obind]. apply K; exact A3.
        * replace (60 =? 91) with false by reflexivity. replace (60 =? 92) with false by reflexivity.
          replace (60 =? 60) with true by reflexivity.
          rewrite <- app_assoc in A2. cbn [app] in A2.
          destruct (C42_block f2 60 62 b _ S2 ltac:(lia) ltac:(lia) Hl A2) as (f3 & -> & A3). cbn [obind].
          apply K; exact A3.
  Qed.

  (** The word-bound blank as it is queued *)
  Definition bound_text (o : option ustr) : ustr := match o with Some b => [91; 91] ++ b ++ [93; 93] | None => [] end.

  Lemma word_nonempty : forall i, ti_letters i <> [] -> map (letter_symbol P) (ti_letters i) <> [].
  Proof. intros i H. destruct (ti_letters i); [congruence|discriminate]. Qed.

  Lemma item_head : forall i rest, titem_ok P i -> exists c r, titem_text i ++ rest = c :: r /\ c <> 0.
  Proof.
    intros i rest (Hb & Hne & Hl & Hp & Hi). unfold titem_text. destruct Hb as [|c r Hc Hlt Hb|b r Hbody Hhd Hb].
    - destruct (ti_bound i) as [b|]; [cbn [app]; eexists; eexists; split; [reflexivity|lia]|].
      destruct (ti_letters i) as [|l ls]; [congruence|]. inversion Hl as [|? ? H1 H2]; subst. inversion Hi as [|? ? G1 G2]; subst.
      destruct (letter_head l H1 G1) as (c & t & Et & _ & _ & Hc). cbn [map concat app]. rewrite Et. cbn [app].
      eexists; eexists; split; [reflexivity|exact Hc].
    - cbn [app]. eexists; eexists; split; [reflexivity|]. intros ->. rewrite Hsp in Hc by (cbn; auto 10). discriminate.
    - cbn [app]. eexists; eexists; split; [reflexivity|lia].
  Qed.
  (** Behind an item: no restriction if it is word-bound *)
  Definition item_stop (i : titem) (rest : list Z) : Prop := ti_bound i = None -> word_stop rest.
  Lemma readTWord_item : forall i rest f qb qw qs, titem_ok P i -> item_stop i rest -> at_text f (titem_text i ++ rest) ->
    let u := unit_of_item P i in
    exists f', readTWord P (mkQ f qb qw qs)
      = Ok (true, mkQ f' (qb ++ u_blank u :: u_inner u) (qw ++ [bound_text (u_bound u)]) (qs ++ [u_syms u]))
      /\ at_text f' rest.
  Proof.
    intros i rest f qb qw qs Hok Hst Ha u. unfold readTWord. cbn [q_file q_blanks q_wblanks q_words].
    rewrite (at_text_eof _ _ Ha). destruct (item_head i rest Hok) as (c & r & E & Hc). pose proof Ha as Ha'. rewrite E in Ha'.
    destruct (peek_at _ _ _ Ha') as (f1 & -> & A1 & L1 & _). cbn [obind]. replace (c =? 0) with false by lia.
    rewrite <- E in A1. clear Ha Ha' E c r Hc. destruct Hok as (Hb & Hne & Hl & Hp & Hi). unfold titem_text in A1.
    assert (W : forall (A : Type) (w : list Z) (a b : A), w = u_syms u -> match w with [] => a | _ => b end = b).
    { intros A w a b ->. unfold u, unit_of_item. cbn [u_syms]. destruct (ti_letters i); [congruence|reflexivity]. }
    assert (B : forall f2 : inf, (let! (b, f, blanks) :=
              Ok (match ti_blank i with [] => (false, f2, qb) | _ => (true, f2, qb ++ [utf16_text (ti_blank i)]) end) in
              Ok (f, (if b : bool then blanks else blanks ++ [[]]))) = Ok (f2, qb ++ [u_blank u])).
    { intros f2. unfold u, unit_of_item. cbn [u_blank]. destruct (ti_blank i); reflexivity. }
    destruct (ti_bound i) as [b|] eqn:Eb.
    - destruct Hi as (Hbody & Hclose & Hap). rewrite <- app_assoc in A1. cbn [app] in A1.
      rewrite <- !app_assoc in A1. cbn [app] in A1. rewrite <- !app_assoc in A1. cbn [app] in A1.
      destruct (readTBlank_spec (ti_blank i) _ _ f1 qb Hb (ts_bound _) A1) as (f2 & -> & A2).
      specialize (B f2).
      remember (match ti_blank i with [] => (false, f2, qb) | _ :: _ => (true, f2, qb ++ [utf16_text (ti_blank i)]) end) as X eqn:EX.
      destruct X as [[b0 f0] bl0]. cbn [obind] in B |- *. injection B as -> Ebl. rewrite Ebl. clear EX Ebl.
      destruct (peek_at _ _ _ A2) as (f3 & -> & A3 & L3 & S3). cbn [obind]. replace (91 =? 91) with true by reflexivity.
      destruct (get_at _ _ _ A3) as (f4 & -> & A4 & L4 & _). cbn [obind].
      destruct (C42_wblank f4 b _ Hbody A4) as (f5 & -> & A5). cbn [obind].
      pose proof (at_text_size _ _ A5) as Hsz. rewrite app_length in Hsz.
      match goal with |- context [wbound_loop P ?n f5 ?bl []] =>
        destruct (wbound_loop_spec (ti_letters i) Hl Hap _ f5 bl [] n A5 ltac:(lia)) as (f6 & -> & A6) end.
      cbn [obind]. destruct (peek_at _ _ _ A6) as (f7 & -> & A7 & L7 & _). cbn [obind]. replace (91 =? 91) with true by reflexivity.
      destruct (get_at _ _ _ A7) as (f8 & -> & A8 & L8 & _). cbn [obind].
      destruct (C42_wblank f8 (ti_close i) rest Hclose) as (f9 & -> & A9).
      { rewrite <- ?app_assoc in A8. cbn [app] in A8. exact A8. }
      cbn [obind]. rewrite W by reflexivity. exists f9. split; [|exact A9].
      unfold u, unit_of_item. cbn [u_blank u_inner u_bound u_syms]. rewrite Eb. cbn [option_map bound_text]. rewrite <- app_assoc. do 4 f_equal.
      cbn [app]. rewrite !utf16_text_cons, utf16_text_app. reflexivity.
    - specialize (Hst Eb). cbn [app] in A1. rewrite <- app_assoc in A1.
      assert (Ns : exists c0 r0, concat (map letter_text (ti_letters i)) ++ rest = c0 :: r0 /\ sp c0 = false /\ c0 <> 91).
      { destruct (ti_letters i) as [|l ls]; [congruence|]. inversion Hl as [|? ? H1 H2]; subst. inversion Hi as [|? ? G1 G2]; subst.
        destruct (letter_head l H1 G1) as (c & t & Et & Hc1 & Hc2 & _). cbn [map concat]. rewrite Et. cbn [app].
        eexists; eexists; split; [reflexivity|]. auto. }
      destruct Ns as (c0 & r0 & E0 & Hc1 & Hc2). rewrite E0 in A1.
      destruct (readTBlank_spec (ti_blank i) _ _ f1 qb Hb (ts_char c0 r0 Hc1 Hc2) A1) as (f2 & -> & A2).
      specialize (B f2).
      remember (match ti_blank i with [] => (false, f2, qb) | _ :: _ => (true, f2, qb ++ [utf16_text (ti_blank i)]) end) as X eqn:EX.
      destruct X as [[b0 f0] bl0]. cbn [obind] in B |- *. injection B as -> Ebl. rewrite Ebl. clear EX Ebl.
      destruct (peek_at _ _ _ A2) as (f3 & -> & A3 & L3 & S3). cbn [obind]. replace (c0 =? 91) with false by lia.
      rewrite <- E0 in A3. pose proof (at_text_size _ _ A3) as Hsz. rewrite app_length in Hsz.
      destruct (plain_loop_spec (ti_letters i) Hl Hi rest f3 [] (2 + i_size f3) Hst A3 ltac:(lia)) as (f4 & -> & A4).
      cbn [obind app]. rewrite W by reflexivity. exists f4. split; [|exact A4].
      unfold u, unit_of_item. cbn [u_blank u_inner u_bound u_syms]. rewrite Eb. cbn [option_map bound_text]. do 4 f_equal.
      f_equal. clear - Hi. induction Hi as [|l ls G _ IH]; [reflexivity|]. destruct l; cbn [is_gap] in G; try tauto; exact IH.
  Qed.

  (** ** The end of a section *)
  (** Nothing more is read: at the end, or before a NUL *)
  Inductive tend : (inf -> Prop) -> Prop :=
  | te_end : tend ended
  | te_null rest : tend (fun f => at_text f (0 :: rest)).
  Definition end_text (E : inf -> Prop) (t : list Z) : Prop :=
    (t = [] /\ E = ended) \/ exists rest, t = 0 :: rest /\ E = (fun f => at_text f (0 :: rest)).
  Lemma readTWord_stopped : forall t E f qb qw qs, end_text E t -> E f ->
    exists f', readTWord P (mkQ f qb qw qs) = Ok (false, mkQ f' qb qw qs) /\ E f'.
  Proof.
    intros t E f qb qw qs [[-> ->]|(rest & -> & ->)] HE; unfold readTWord; cbn [q_file q_blanks q_wblanks q_words].
    - pose proof HE as (H1 & _). unfold eof. rewrite H1. eauto.
    - rewrite (at_text_eof _ _ HE). destruct (peek_at _ _ _ HE) as (f1 & -> & A1 & _). cbn [obind].
      replace (0 =? 0) with true by reflexivity. eauto.
  Qed.
  Lemma readTWord_tail : forall b t E f qb qw qs, tblank sp b -> end_text E t -> at_text f (b ++ t) ->
    exists f' tb, readTWord P (mkQ f qb qw qs) = Ok (false, mkQ f' (qb ++ tb) qw qs)
      /\ concat tb = utf16_text b /\ E f'.
  Proof.
    intros b t E f qb qw qs Hb Ht Ha. unfold readTWord. cbn [q_file q_blanks q_wblanks q_words].
    rewrite (at_text_eof _ _ Ha). destruct Ht as [[-> ->]|(rest & -> & ->)].
    - destruct b as [|c b].
      + cbn [app] in Ha. rewrite (peek_end _ Ha). cbn [obind]. replace (U_EOF =? 0) with false by reflexivity.
        unfold readTBlank. cbn. eexists. exists [[]]. split; [reflexivity|]. split; [reflexivity|]. unfold ended. cbn. auto.
      + assert (Hc : c <> 0).
        { intros ->. inversion Hb as [|? ? H1|]; subst. rewrite Hsp in H1 by (cbn; auto 10). discriminate. }
        destruct (peek_at f c (b ++ []) Ha) as (f1 & -> & A1 & _). cbn [obind]. replace (c =? 0) with false by lia.
        destruct (readTBlank_spec (c :: b) [] _ f1 qb Hb ts_end A1) as (f2 & -> & A2). cbn [obind].
        assert (Hp : exists f3 x, peek f2 = Ok (x, f3) /\ ended f3 /\ (x =? 91) = false).
        { destruct A2 as (H1 & H2 & H3). destruct f2 as [bs e buf]. cbn in H1, H2, H3. subst. unfold peek, fill. cbn [i_buf].
          destruct H3 as [-> | ->]; cbn; eexists; eexists; (split; [reflexivity|]); (split; [|reflexivity]); unfold ended; cbn; auto. }
        destruct Hp as (f3 & x & -> & A3 & Hx). cbn [obind]. rewrite Hx. pose proof A3 as (H1 & _).
        cbn [plain_loop Nat.add]. unfold eof. rewrite H1. cbn [obind]. exists f3, [utf16_text (c :: b)]. split; [reflexivity|].
        split; [cbn [concat]; now rewrite app_nil_r|exact A3].
    - destruct b as [|c b].
      + cbn [app] in Ha. destruct (peek_at _ _ _ Ha) as (f1 & -> & A1 & _). cbn [obind]. replace (0 =? 0) with true by reflexivity.
        exists f1, []. rewrite app_nil_r. auto.
      + assert (Hc : c <> 0).
        { intros ->. inversion Hb as [|? ? H1|]; subst. rewrite Hsp in H1 by (cbn; auto 10). discriminate. }
        destruct (peek_at f c (b ++ 0 :: rest) Ha) as (f1 & -> & A1 & _). cbn [obind]. replace (c =? 0) with false by lia.
        destruct (readTBlank_spec (c :: b) _ _ f1 qb Hb (ts_char 0 rest (Hsp 0 ltac:(cbn; auto 10)) ltac:(lia)) A1) as (f2 & -> & A2).
        cbn [obind]. destruct (peek_at _ _ _ A2) as (f3 & -> & A3 & L3 & _). cbn [obind]. replace (0 =? 91) with false by reflexivity.
        destruct (plain_loop_spec [] ltac:(constructor) ltac:(constructor) (0 :: rest) f3 [] (2 + i_size f3)) as (f4 & E4 & A4).
        { exists 0, rest. auto. }
        { exact A3. }
        { cbn. lia. }
        rewrite E4. cbn [obind map app]. exists f4, [utf16_text (c :: b)]. split; [reflexivity|].
        split; [cbn [concat]; now rewrite app_nil_r|exact A4].
  Qed.
End Read.
