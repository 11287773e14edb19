(** The stream format: specification and proofs (C40, C41). *)
From Coq Require String Ascii.
From Verif Require Import Base CompressionModel AlphabetModel AlphabetProofs BufferModel StringModel
  InputModel InputProps StreamModel.

(** * Specification *)
(** The parts of a reading: characters, escaped characters, tags and chunks; 60 and 62 are
    the angle brackets, 123 and 125 the braces, 47 '/', 36 '$'. *)
Inductive piece := PChar (c : Z) | PEsc (c : Z) | PTag (body : list Z) | PChunk (body : list Z).
Definition piece_ok (p : piece) : Prop :=
  match p with
  | PChar c => c <> 47 /\ c <> 36 /\ c <> 0 /\ c <> 60 /\ c <> 123 /\ c <> 92
  | PEsc c => True
  | PTag b => block_body 62 b
  | PChunk b => block_body 125 b
  end.
Definition piece_text (p : piece) : list Z :=
  match p with
  | PChar c => [c] | PEsc c => [92; c] | PTag b => 60 :: b ++ [62] | PChunk b => 123 :: b ++ [125]
  end.
Definition piece_content (p : piece) : list Z := match p with PChunk _ => [] | _ => piece_text p end.
Definition piece_chunk (p : piece) : list Z := match p with PChunk _ => piece_text p | _ => [] end.
Definition pieces_text (l : list piece) : list Z := concat (map piece_text l).
Definition pieces_content (l : list piece) : list Z := concat (map piece_content l).
Definition pieces_chunk (l : list piece) : list Z := concat (map piece_chunk l).
(** The tags of a list of pieces, and its symbols in an alphabet *)
Definition piece_tags (l : list piece) : list (list Z) :=
  concat (map (fun p => match p with PTag b => [utf16_text (piece_text p)] | _ => [] end) l).
Definition piece_symbols (a : alphabet) (l : list piece) : list Z :=
  concat (map (fun p => match p with
                        | PChar c => [c] | PEsc c => [c]
                        | PTag _ => [symbol_code (utf16_text (piece_text p)) a]
                        | PChunk _ => []
                        end) l).

(** A reading: an optional mark ( * @ # = % ) and its pieces *)
Definition marks (c : Z) : Prop := In c [42; 64; 35; 61; 37].
Record rtext := mkT { t_mark : option Z; t_pieces : list piece }.
Definition r_text (r : rtext) : list Z :=
  match t_mark r with Some m => [m] | None => [] end ++ pieces_text (t_pieces r).
Definition rtext_ok (r : rtext) : Prop :=
  Forall piece_ok (t_pieces r)
  /\ match t_mark r with
     | Some m => marks m
     | None => forall c, hd_error (pieces_text (t_pieces r)) = Some c -> ~ marks c
     end.
Fixpoint readings_text (l : list rtext) : list Z :=
  match l with
  | [] => []
  | [r] => r_text r
  | r :: l => r_text r ++ 47 :: readings_text l
  end.

(** Between two units: blanks, superblanks, and word-bound blanks not followed by a unit;
    [last] says that no unit follows (the end of the text, or a NUL). *)
Inductive gap (last : bool) : list Z -> Prop :=
| gap_blank b : blank false b -> gap last b
| gap_wblank b body g : blank false b -> wblank_body body -> gap last g -> (last = false -> g <> []) ->
    gap last (b ++ 91 :: 91 :: body ++ 93 :: 93 :: g).
(** A word-bound blank of a unit *)
Definition wordblank (w : list Z) : Prop :=
  w = [] \/ exists body, w = 91 :: 91 :: body ++ [93; 93] /\ wblank_body body.

(** * Proofs *)
Lemma ascii_scalar : forall c, 0 <= c < 128 -> scalar c.
Proof. intros c H. split; lia. Qed.
Lemma utf16_ascii : forall c, 0 <= c < 128 -> utf16 c = [c].
Proof. intros c H. unfold utf16. replace (c <? 65536) with true by (symmetry; apply Z.ltb_lt; lia). reflexivity. Qed.

(** symbols as they are collected *)
Fixpoint collect (add : bool) (l : list piece) (alpha : option alphabet) : list Z * option alphabet :=
  match l with
  | [] => ([], alpha)
  | p :: l =>
      let '(s, alpha) :=
        match p with
        | PChar c => (char_symbol c alpha, alpha)
        | PEsc c => (char_symbol c alpha, alpha)
        | PTag b => tag_symbol (utf16_text (piece_text p)) alpha add
        | PChunk _ => ([], alpha)
        end in
      let '(s', alpha) := collect add l alpha in (s ++ s', alpha)
  end.

Lemma at_text_scalar : forall f c l, at_text f (c :: l) -> scalar c.
Proof. intros f c l H. now destruct (get_at _ _ _ H) as (_ & _ & _ & _ & S). Qed.

Lemma reading_loop_spec : forall add ps, Forall piece_ok ps ->
  forall e rest c text f content symbols chunk alpha fuel,
  e = 47 \/ e = 36 \/ e = 0 -> scalar c -> c :: text = pieces_text ps ++ e :: rest -> at_text f text ->
  (length ps <= fuel)%nat ->
  exists f', reading_loop fuel add c f content symbols chunk alpha
    = Ok (e, f', content ++ utf16_text (pieces_content ps), symbols ++ fst (collect add ps alpha),
          chunk ++ utf16_text (pieces_chunk ps), snd (collect add ps alpha))
    /\ at_text f' rest.
Proof.
  intros add ps Hps. induction Hps as [|p ps Hp Hps IH];
    intros e rest c text f content symbols chunk alpha fuel He Hc Ht Ha Hf.
  - cbn [pieces_text map concat app] in Ht.
    assert (c = e) by congruence. assert (text = rest) by congruence. subst c text.
    exists f. split; auto. cbn [pieces_content pieces_chunk map concat utf16_text collect fst snd].
    rewrite !app_nil_r. destruct fuel; cbn [reading_loop]; rewrite (at_text_eof _ _ Ha), orb_false_r;
      (destruct He as [-> | [-> | ->]]; reflexivity).
  - destruct fuel as [|fuel]; [cbn in Hf; lia|]. cbn [length] in Hf. cbn [reading_loop].
    unfold pieces_text in Ht. cbn [map concat] in Ht. rewrite <- app_assoc in Ht. fold (pieces_text ps) in Ht.
    rewrite (at_text_eof _ _ Ha), orb_false_r.
    unfold pieces_content, pieces_chunk. cbn [map concat]. fold (pieces_content ps) (pieces_chunk ps).
    rewrite !utf16_text_app. cbn [collect].
    destruct p as [x|x|b|b]; cbn [piece_text piece_content piece_chunk] in *; cbn [app] in Ht.
    + assert (c = x) by congruence. assert (Et : text = pieces_text ps ++ e :: rest) by congruence. subst c.
      destruct Hp as (H1 & H2 & H3 & H4 & H5 & H6).
      rewrite !(proj2 (Z.eqb_neq x _)) by assumption. cbn [orb].
      destruct text as [|y text]; [destruct (pieces_text ps); discriminate|].
      destruct (get_at _ _ _ Ha) as (f1 & -> & A1 & _ & S1). cbn [obind].
      destruct (IH e rest y text f1 (append_cp content x) (symbols ++ char_symbol x alpha) chunk alpha fuel He S1 Et A1 ltac:(lia))
        as (f' & -> & A'). exists f'. split; auto.
      rewrite append_cp_utf16 by auto. destruct (collect add ps alpha) as [s' alpha'] eqn:Ec. cbn [fst snd].
      change (utf16_text []) with (@nil Z). cbn [app].
      change (utf16_text [x]) with (utf16 x ++ []). rewrite app_nil_r, <- !app_assoc. reflexivity.
    + assert (c = 92) by congruence. assert (Et : text = x :: pieces_text ps ++ e :: rest) by congruence. subst c text.
      cbn [Z.eqb orb Pos.eqb].
      destruct (get_at _ _ _ Ha) as (f1 & -> & A1 & _ & S1). cbn [obind].
      destruct (pieces_text ps ++ e :: rest) as [|y text] eqn:Et; [destruct (pieces_text ps); discriminate|].
      destruct (get_at _ _ _ A1) as (f2 & -> & A2 & _ & S2). cbn [obind].
      destruct (IH e rest y text f2 (append_cp (append_cp content 92) x) (symbols ++ char_symbol x alpha) chunk alpha fuel He S2 (eq_sym Et) A2 ltac:(lia))
        as (f' & -> & A'). exists f'. split; auto.
      rewrite !append_cp_utf16 by auto. destruct (collect add ps alpha) as [s' alpha'] eqn:Ec. cbn [fst snd].
      change (utf16_text []) with (@nil Z). cbn [app].
      change (utf16_text [92; x]) with (utf16 92 ++ utf16 x ++ []). rewrite app_nil_r, <- !app_assoc. reflexivity.
    + assert (c = 60) by congruence. subst c. cbn [Z.eqb orb Pos.eqb].
      assert (Et : text = b ++ 62 :: pieces_text ps ++ e :: rest).
      { assert (text = (b ++ [62]) ++ pieces_text ps ++ e :: rest) by congruence. now rewrite <- app_assoc in H. }
      rewrite Et in Ha.
      destruct (C42_block f 60 62 b _ ltac:(apply ascii_scalar; lia) ltac:(lia) ltac:(lia) Hp Ha) as (f1 & -> & A1).
      cbn [obind].
      assert (Es : piece_text (PTag b) = 60 :: b ++ [62]) by reflexivity. rewrite <- Es.
      destruct (tag_symbol (utf16_text (piece_text (PTag b))) alpha add) as [sy alpha1] eqn:Eg.
      destruct (pieces_text ps ++ e :: rest) as [|y t] eqn:Ey; [destruct (pieces_text ps); discriminate|].
      destruct (get_at _ _ _ A1) as (f2 & -> & A2 & _ & S2). cbn [obind].
      destruct (IH e rest y t f2 (content ++ utf16_text (piece_text (PTag b))) (symbols ++ sy) chunk alpha1 fuel He S2 (eq_sym Ey) A2 ltac:(lia))
        as (f' & -> & A'). exists f'. split; auto.
      destruct (collect add ps alpha1) as [s' alpha'] eqn:Ec. cbn [fst snd].
      change (utf16_text []) with (@nil Z). cbn [app]. rewrite <- !app_assoc. reflexivity.
    + assert (c = 123) by congruence. subst c. cbn [Z.eqb orb Pos.eqb].
      assert (Et : text = b ++ 125 :: pieces_text ps ++ e :: rest).
      { assert (text = (b ++ [125]) ++ pieces_text ps ++ e :: rest) by congruence. now rewrite <- app_assoc in H. }
      rewrite Et in Ha.
      destruct (C42_block f 123 125 b _ ltac:(apply ascii_scalar; lia) ltac:(lia) ltac:(lia) Hp Ha) as (f1 & -> & A1).
      cbn [obind].
      destruct (pieces_text ps ++ e :: rest) as [|y t] eqn:Ey; [destruct (pieces_text ps); discriminate|].
      destruct (get_at _ _ _ A1) as (f2 & -> & A2 & _ & S2). cbn [obind].
      destruct (IH e rest y t f2 content symbols (chunk ++ utf16_text (123 :: b ++ [125])) alpha fuel He S2 (eq_sym Ey) A2 ltac:(lia))
        as (f' & -> & A'). exists f'. split; auto.
      destruct (collect add ps alpha) as [s' alpha'] eqn:Ec. cbn [fst snd].
      change (utf16_text []) with (@nil Z). cbn [app]. rewrite <- !app_assoc. reflexivity.
Qed.

(** what is collected for a list of readings *)
Fixpoint collect_all (add : bool) (l : list rtext) (alpha : option alphabet) : list reading * option alphabet :=
  match l with
  | [] => ([], alpha)
  | r :: l =>
      let '(s, alpha) := collect add (t_pieces r) alpha in
      let '(rs, alpha) := collect_all add l alpha in
      (mkR (match t_mark r with Some m => m | None => 0 end) (utf16_text (pieces_content (t_pieces r))) s :: rs, alpha)
  end.
Definition chunks (l : list rtext) : list Z := concat (map (fun r => pieces_chunk (t_pieces r)) l).

Lemma is_mark_iff : forall c, is_mark c = true <-> marks c.
Proof.
  intros c. unfold is_mark, marks. rewrite existsb_exists. split.
  - intros (x & Hx & E). apply Z.eqb_eq in E. now subst.
  - intros H. exists c. split; auto. apply Z.eqb_refl.
Qed.

Lemma pieces_length : forall l, Forall piece_ok l -> (length l <= length (pieces_text l))%nat.
Proof.
  intros l. induction l as [|p l IH]; intros H; [apply Nat.le_refl|]. inversion H; subst.
  unfold pieces_text. cbn [map concat length]. rewrite app_length. fold (pieces_text l). specialize (IH H3).
  enough (1 <= length (piece_text p))%nat by lia. destruct p; cbn; lia.
Qed.

Lemma unit_loop_spec : forall add rs, Forall rtext_ok rs -> rs <> [] ->
  forall e rest c f readings chunk alpha fuel,
  e = 36 \/ e = 0 -> c <> 36 -> c <> 0 -> at_text f (readings_text rs ++ e :: rest) ->
  (length rs < fuel)%nat ->
  exists f', unit_loop fuel add c f readings chunk alpha
    = Ok (e, f', readings ++ fst (collect_all add rs alpha), chunk ++ utf16_text (chunks rs),
          snd (collect_all add rs alpha))
    /\ at_text f' rest.
Proof.
  intros add rs Hrs. induction Hrs as [|r rs Hr Hrs IH]; intros Hne e rest c f readings chunk alpha fuel He H36 H0 Ha Hf;
    [congruence|].
  destruct fuel as [|fuel]; [lia|]. cbn [length] in Hf. cbn [unit_loop].
  rewrite (at_text_eof _ _ Ha). rewrite !(proj2 (Z.eqb_neq c _)) by assumption. cbn [orb].
  (* the text of this reading, its end [z], and what follows *)
  assert (exists z after, (z = 47 \/ z = 36 \/ z = 0) /\ readings_text (r :: rs) ++ e :: rest = r_text r ++ z :: after
    /\ (rs = [] /\ z = e /\ after = rest \/ rs <> [] /\ z = 47 /\ after = readings_text rs ++ e :: rest))
    as (z & after & Hz & Et & Hcase).
  { destruct rs as [|r2 rs].
    - exists e, rest. split; [tauto|]. split; [reflexivity|]. left. auto.
    - exists 47, (readings_text (r2 :: rs) ++ e :: rest). split; [tauto|].
      split; [|right; repeat split; congruence]. cbn [readings_text]. rewrite <- app_assoc. reflexivity. }
  rewrite Et in Ha. destruct Hr as [Hp Hm].
  assert (Hread : exists f0 c0 text0, (let! (p, f) := InputModel.peek f in
        let! (mark, f) := if is_mark p then (let! (_, f) := get f in Ok (p, f)) else Ok (0, f) in
        let! (c, f) := get f in
        Ok (mark, c, f)) = Ok (match t_mark r with Some m => m | None => 0 end, c0, f0)
      /\ c0 :: text0 = pieces_text (t_pieces r) ++ z :: after /\ at_text f0 text0 /\ scalar c0).
  { unfold r_text in Ha. destruct (t_mark r) as [m|].
    - cbn [app] in Ha. destruct (peek_at _ _ _ Ha) as (f1 & -> & A1 & _ & S1). cbn [obind].
      apply is_mark_iff in Hm. rewrite Hm. destruct (get_at _ _ _ A1) as (f2 & -> & A2 & _ & _). cbn [obind].
      destruct (pieces_text (t_pieces r) ++ z :: after) as [|c0 text0] eqn:E; [destruct (pieces_text (t_pieces r)); discriminate|].
      destruct (get_at _ _ _ A2) as (f3 & -> & A3 & _ & S3). cbn [obind]. exists f3, c0, text0. auto.
    - cbn [app] in Ha.
      destruct (pieces_text (t_pieces r) ++ z :: after) as [|c0 text0] eqn:E; [destruct (pieces_text (t_pieces r)); discriminate|].
      destruct (peek_at _ _ _ Ha) as (f1 & -> & A1 & _ & S1). cbn [obind].
      assert (Hn : is_mark c0 = false).
      { apply not_true_iff_false. rewrite is_mark_iff. destruct (pieces_text (t_pieces r)) as [|y ys].
        - assert (c0 = z) by (cbn [app] in E; congruence). subst c0. unfold marks. cbn [In].
          destruct Hz as [-> | [-> | ->]]; intuition discriminate.
        - assert (c0 = y) by (cbn [app] in E; congruence). subst c0. apply Hm. reflexivity. }
      rewrite Hn. cbn [obind]. destruct (get_at _ _ _ A1) as (f2 & -> & A2 & _ & S2). cbn [obind].
      exists f2, c0, text0. auto. }
  destruct Hread as (f0 & c0 & text0 & Hread & E0 & A0 & S0).
  destruct (InputModel.peek f) as [[p f1]| | | |]; try discriminate Hread. cbn [obind] in *.
  destruct (if is_mark p then (let! (_, f) := get f1 in Ok (p, f)) else Ok (0, f1)) as [[mark f2]| | | |];
    try discriminate Hread. cbn [obind] in *.
  destruct (get f2) as [[c3 f3]| | | |]; try discriminate Hread. cbn [obind] in *.
  assert (mark = match t_mark r with Some m => m | None => 0 end) by congruence.
  assert (c3 = c0) by congruence. assert (f3 = f0) by congruence. subst mark c3 f3. clear Hread f1 f2 p.
  pose proof (at_text_size _ _ A0) as Hsz.
  destruct (reading_loop_spec add (t_pieces r) Hp z after c0 text0 f0 [] [] chunk alpha (2 + i_size f0)
    ltac:(tauto) S0 E0 A0) as (f4 & -> & A4).
  { pose proof (pieces_length _ Hp). apply (f_equal (@length _)) in E0. rewrite app_length in E0.
    cbn [length] in E0. lia. }
  cbn [obind app]. cbn [collect_all]. destruct (collect add (t_pieces r) alpha) as [s alpha1] eqn:Ec. cbn [fst snd].
  assert (Ech : utf16_text (chunks (r :: rs)) = utf16_text (pieces_chunk (t_pieces r)) ++ utf16_text (chunks rs)).
  { unfold chunks. cbn [map concat]. apply utf16_text_app. }
  rewrite Ech. destruct Hcase as [(-> & -> & ->)|(Hrs' & -> & ->)].
  - exists f4. split; auto. cbn [collect_all fst snd]. unfold chunks. cbn [map concat].
    change (utf16_text []) with (@nil Z). rewrite !app_nil_r.
    destruct fuel; cbn [unit_loop]; rewrite (at_text_eof _ _ A4), orb_false_r;
      (destruct He as [-> | ->]; reflexivity).
  - destruct (IH Hrs' e rest 47 f4 (readings ++ [mkR match t_mark r with Some m => m | None => 0 end
        (utf16_text (pieces_content (t_pieces r))) s]) (chunk ++ utf16_text (pieces_chunk (t_pieces r))) alpha1 fuel
        He ltac:(lia) ltac:(lia) A4 ltac:(lia)) as (f' & -> & A').
    exists f'. split; auto. destruct (collect_all add rs alpha1) as [rr alpha2]. cbn [fst snd].
    rewrite <- !app_assoc. reflexivity.
Qed.

Lemma readings_length : forall rs, (length rs <= S (length (readings_text rs)))%nat.
Proof.
  induction rs as [|r [|r2 rs] IH]; [cbn; lia| cbn [length]; lia|].
  change (readings_text (r :: r2 :: rs)) with (r_text r ++ 47 :: readings_text (r2 :: rs)).
  rewrite app_length. cbn [length] in *. lia.
Qed.

Lemma reader_unit : forall b, gap false b -> forall fuel r w rs e rest, rd_eof r = false ->
  wordblank w -> Forall rtext_ok rs -> rs <> [] -> e = 36 \/ e = 0 ->
  at_text (rd_file r) (b ++ w ++ 94 :: readings_text rs ++ e :: rest) -> (length b < fuel)%nat ->
  exists f', reader_next fuel r
    = Ok (mkRd f' (e =? 0) false (utf16_text b) (utf16_text w) (fst (collect_all (rd_add r) rs (rd_alpha r)))
            (utf16_text (chunks rs)) (snd (collect_all (rd_add r) rs (rd_alpha r))) (rd_add r))
    /\ at_text f' rest.
Proof.
  intros b Hb. induction Hb as [b Hb|b body g Hb Hbody Hg IH Hne];
    intros fuel r w rs e rest Hr Hw Hrs Hne' He Ha Hf; destruct fuel as [|fuel]; try lia; cbn [reader_next]; rewrite Hr.
  - assert (Hst : stops false (w ++ 94 :: readings_text rs ++ e :: rest)).
    { destruct Hw as [->|(body & -> & _)]; [right; left; cbn [app]; eauto|].
      right; right. split; auto. cbn [app]. eauto. }
    destruct (C42_blank false _ _ _ Hb Hst Ha) as (f1 & -> & A1 & _).
    specialize (A1 ltac:(destruct w; discriminate)). cbn [obind].
    (* the unit itself *)
    assert (U : forall f2 wb, at_text f2 (readings_text rs ++ e :: rest) ->
      exists f', (let! (c, f, readings, chunk, alpha) :=
              unit_loop (2 + i_size f2) (rd_add r) 94 f2 [] [] (rd_alpha r) in
            Ok (mkRd f (c =? 0) (negb (c =? 0) && ((c =? U_EOF) || eof f)) (utf16_text b) wb readings
                  chunk alpha (rd_add r)))
       = Ok (mkRd f' (e =? 0) false (utf16_text b) wb (fst (collect_all (rd_add r) rs (rd_alpha r)))
            (utf16_text (chunks rs)) (snd (collect_all (rd_add r) rs (rd_alpha r))) (rd_add r))
         /\ at_text f' rest).
    { intros f2 wb A2. pose proof (at_text_size _ _ A2) as Hz. rewrite app_length in Hz. cbn [length] in Hz.
      pose proof (readings_length rs).
      destruct (unit_loop_spec (rd_add r) rs Hrs Hne' e rest 94 f2 [] [] (rd_alpha r) (2 + i_size f2) He
        ltac:(lia) ltac:(lia) A2 ltac:(lia)) as (f' & -> & A'). cbn [obind app].
      exists f'. split; auto. rewrite (at_text_eof _ _ A').
      destruct He as [-> | ->]; reflexivity. }
    destruct Hw as [->|(body & -> & Hbody)].
    + cbn [app] in A1. destruct (get_at _ _ _ A1) as (f2 & -> & A2 & _). cbn [obind].
      replace (94 =? 91) with false by reflexivity. replace (94 =? 0) with false by reflexivity.
      rewrite (at_text_eof _ _ A2). apply U. exact A2.
    + cbn [app] in A1. destruct (get_at _ _ _ A1) as (f2 & -> & A2 & _). cbn [obind].
      replace (91 =? 91) with true by reflexivity.
      destruct (get_at _ _ _ A2) as (f3 & -> & A3 & _). cbn [obind].
      rewrite <- app_assoc in A3. cbn [app] in A3.
      destruct (C42_wblank _ _ _ Hbody A3) as (f4 & -> & A4). cbn [obind].
      destruct (peek_at _ _ _ A4) as (f5 & -> & A5 & _). cbn [obind].
      replace (negb (94 =? 94)) with false by reflexivity.
      destruct (get_at _ _ _ A5) as (f6 & -> & A6 & _). cbn [obind].
      replace (94 =? 0) with false by reflexivity.
      rewrite (at_text_eof _ _ A6). apply U. exact A6.
  - set (tail := w ++ 94 :: readings_text rs ++ e :: rest) in *.
    rewrite <- app_assoc in Ha. cbn [app] in Ha. rewrite <- app_assoc in Ha. cbn [app] in Ha.
    destruct (C42_blank false _ b _ Hb (or_intror (or_intror (conj eq_refl (ex_intro _ _ eq_refl)))) Ha)
      as (f1 & -> & A1 & _). specialize (A1 ltac:(discriminate)). cbn [obind].
    destruct (get_at _ _ _ A1) as (f2 & -> & A2 & _). cbn [obind].
    replace (91 =? 91) with true by reflexivity.
    destruct (get_at _ _ _ A2) as (f3 & -> & A3 & _). cbn [obind].
    destruct (C42_wblank _ _ _ Hbody A3) as (f4 & -> & A4). cbn [obind].
    assert (Hh : exists c t, g = c :: t /\ c <> 94).
    { assert (Bn : forall x, blank false x -> x = [] \/ exists c t, x = c :: t /\ c <> 94).
      { intros x Hx. inversion Hx; subst; [left; auto|..]; right; eexists _, _; (split; [reflexivity|]); auto; lia. }
      destruct Hg as [x Hx|x xb xg Hx _ _ _].
      - destruct (Bn x Hx) as [->|(c & t & -> & Hc)]; [exfalso; apply Hne; auto|]. eauto.
      - destruct (Bn x Hx) as [->|(c & t & -> & Hc)]; cbn [app]; eexists _, _; (split; [reflexivity|]); auto. lia. }
    destruct Hh as (c & t & -> & Hc).
    cbn [app] in A4. destruct (peek_at _ _ _ A4) as (f5 & -> & A5 & _). cbn [obind].
    rewrite (proj2 (Z.eqb_neq c 94)) by auto. cbn [negb].
    destruct (IH fuel (mkRd f5 false false (utf16_text b) (utf16_text (91 :: 91 :: body ++ [93; 93])) [] []
       (rd_alpha r) (rd_add r)) w rs e rest eq_refl Hw Hrs Hne' He A5) as (f' & E & A').
    { rewrite app_length in Hf. cbn [length] in *. rewrite app_length in Hf. cbn [length] in Hf. lia. }
    exists f'. split; auto. rewrite E. cbn [obind rd_file rd_null rd_eof rd_blank rd_wblank rd_readings rd_chunk rd_alpha rd_add].
    f_equal. f_equal. rewrite <- !utf16_text_app. f_equal.
    rewrite <- app_assoc. f_equal. cbn [app]. rewrite <- app_assoc. reflexivity.
Qed.

(** Before a NUL, or the end *)
Lemma reader_null : forall b, gap true b -> forall fuel r rest, rd_eof r = false ->
  at_text (rd_file r) (b ++ 0 :: rest) -> (length b < fuel)%nat ->
  exists f', reader_next fuel r = Ok (mkRd f' true false (utf16_text b) [] [] [] (rd_alpha r) (rd_add r))
    /\ at_text f' rest.
Proof.
  intros b Hb. induction Hb as [b Hb|b body g Hb Hbody Hg IH _];
    intros fuel r rest Hr Ha Hf; destruct fuel as [|fuel]; try lia; cbn [reader_next]; rewrite Hr.
  - assert (Hst : stops false (0 :: rest)) by (right; left; eexists _, _; split; [reflexivity|]; auto).
    destruct (C42_blank false _ _ _ Hb Hst Ha) as (f1 & -> & A1 & _). specialize (A1 ltac:(discriminate)).
    cbn [obind]. destruct (get_at _ _ _ A1) as (f2 & -> & A2 & _). cbn [obind].
    replace (0 =? 91) with false by reflexivity. replace (0 =? 0) with true by reflexivity. eauto.
  - rewrite <- app_assoc in Ha. cbn [app] in Ha. rewrite <- app_assoc in Ha. cbn [app] in Ha.
    destruct (C42_blank false _ b _ Hb (or_intror (or_intror (conj eq_refl (ex_intro _ _ eq_refl)))) Ha)
      as (f1 & -> & A1 & _). specialize (A1 ltac:(discriminate)). cbn [obind].
    destruct (get_at _ _ _ A1) as (f2 & -> & A2 & _). cbn [obind].
    replace (91 =? 91) with true by reflexivity.
    destruct (get_at _ _ _ A2) as (f3 & -> & A3 & _). cbn [obind].
    destruct (C42_wblank _ _ _ Hbody A3) as (f4 & -> & A4). cbn [obind].
    assert (Hh : exists c t, g ++ 0 :: rest = c :: t /\ c <> 94).
    { assert (Bn : forall x, blank false x -> x = [] \/ exists c t, x = c :: t /\ c <> 94).
      { intros x Hx. inversion Hx; subst; [left; auto|..]; right; eexists _, _; (split; [reflexivity|]); auto; lia. }
      destruct Hg as [x Hx|x xb xg Hx _ _ _].
      - destruct (Bn x Hx) as [->|(c & t & -> & Hc)]; cbn [app]; eexists _, _; (split; [reflexivity|]); auto. lia.
      - destruct (Bn x Hx) as [->|(c & t & -> & Hc)]; cbn [app]; eexists _, _; (split; [reflexivity|]); auto. lia. }
    destruct Hh as (c & t & Ec & Hc). rewrite Ec in A4.
    destruct (peek_at _ _ _ A4) as (f5 & -> & A5 & _). cbn [obind].
    rewrite (proj2 (Z.eqb_neq c 94)) by auto. cbn [negb]. rewrite <- Ec in A5.
    destruct (IH fuel (mkRd f5 false false (utf16_text b) (utf16_text (91 :: 91 :: body ++ [93; 93])) [] []
       (rd_alpha r) (rd_add r)) rest eq_refl A5) as (f' & E & A').
    { rewrite app_length in Hf. cbn [length] in *. rewrite app_length in Hf. cbn [length] in Hf. lia. }
    exists f'. split; auto. rewrite E. cbn [obind rd_file rd_null rd_eof rd_blank rd_wblank rd_readings rd_chunk rd_alpha rd_add].
    f_equal. f_equal. rewrite <- !utf16_text_app. f_equal.
    rewrite <- app_assoc. f_equal. cbn [app]. rewrite <- app_assoc. reflexivity.
Qed.

Lemma reader_ended : forall fuel r, rd_eof r = false -> ended (rd_file r) -> (0 < fuel)%nat ->
  exists f', reader_next fuel r = Ok (mkRd f' false true [] [] [] [] (rd_alpha r) (rd_add r)).
Proof.
  intros fuel r Hr He Hf. destruct fuel as [|fuel]; [lia|]. cbn [reader_next]. rewrite Hr.
  destruct (rd_file r) as [bs e buf]. destruct He as (He & Hb & Hu). cbn in He, Hb, Hu. subst e bs.
  unfold readBlank. cbn [Nat.add blank_loop eof i_eof obind].
  destruct Hu as [-> | ->]; cbn [get fill i_buf internal_read i_eof i_bytes obind eof];
    replace (U_EOF =? 91) with false by reflexivity; replace (U_EOF =? 0) with false by reflexivity; eauto.
Qed.
Lemma reader_end : forall b, gap true b -> forall fuel r, rd_eof r = false ->
  at_text (rd_file r) b -> (length b < fuel)%nat ->
  exists f', reader_next fuel r = Ok (mkRd f' false true (utf16_text b) [] [] [] (rd_alpha r) (rd_add r)).
Proof.
  intros b Hb. induction Hb as [b Hb|b body g Hb Hbody Hg IH _];
    intros fuel r Hr Ha Hf; destruct fuel as [|fuel]; try lia; cbn [reader_next]; rewrite Hr.
  - rewrite <- (app_nil_r b) in Ha.
    destruct (C42_blank false _ _ _ Hb (or_introl eq_refl) Ha) as (f1 & -> & _ & En). specialize (En eq_refl).
    cbn [obind]. destruct f1 as [bs e buf]. destruct En as (He & Hbs & Hu). cbn in He, Hbs, Hu. subst e bs.
    destruct Hu as [-> | ->]; cbn [get fill i_buf internal_read i_eof i_bytes obind eof];
      replace (U_EOF =? 91) with false by reflexivity; replace (U_EOF =? 0) with false by reflexivity; eauto.
  - destruct (C42_blank false _ b _ Hb (or_intror (or_intror (conj eq_refl (ex_intro _ _ eq_refl)))) Ha)
      as (f1 & -> & A1 & _). specialize (A1 ltac:(discriminate)). cbn [obind].
    destruct (get_at _ _ _ A1) as (f2 & -> & A2 & _). cbn [obind].
    replace (91 =? 91) with true by reflexivity.
    destruct (get_at _ _ _ A2) as (f3 & -> & A3 & _). cbn [obind].
    destruct (C42_wblank _ _ _ Hbody A3) as (f4 & -> & A4). cbn [obind].
    assert (Hlen : (length g < fuel)%nat).
    { rewrite app_length in Hf. cbn [length] in *. rewrite app_length in Hf. cbn [length] in Hf. lia. }
    assert (Hu : utf16_text (b ++ 91 :: 91 :: body ++ 93 :: 93 :: g)
      = (utf16_text b ++ utf16_text (91 :: 91 :: body ++ [93; 93])) ++ utf16_text g).
    { rewrite <- !utf16_text_app. f_equal. rewrite <- app_assoc. f_equal. cbn [app]. rewrite <- app_assoc. reflexivity. }
    rewrite Hu. clear Hu. destruct g as [|c t].
    + rewrite (peek_end _ A4). cbn [obind]. replace (negb (U_EOF =? 94)) with true by reflexivity.
      destruct (reader_ended fuel (mkRd (mkI [] true [U_EOF]) false false (utf16_text b) (utf16_text (91 :: 91 :: body ++ [93; 93])) [] []
       (rd_alpha r) (rd_add r)) eq_refl ltac:(split; [reflexivity|]; split; auto) ltac:(lia)) as (f' & ->).
      exists f'. reflexivity.
    + assert (Hc : c <> 94).
      { assert (Bn : forall x, blank false x -> x = [] \/ exists c t, x = c :: t /\ c <> 94).
        { intros x Hx. inversion Hx; subst; [left; auto|..]; right; eexists _, _; (split; [reflexivity|]); auto; lia. }
        inversion Hg as [x Hx Ex|x xb xg Hx ? ? ? Ex].
        - destruct (Bn _ Hx) as [E|(c' & t' & E & Hc)]; congruence.
        - destruct (Bn _ Hx) as [E|(c' & t' & E & Hc)]; subst x; cbn [app] in Ex; [|congruence].
          assert (c = 91) by congruence. lia. }
      destruct (peek_at _ _ _ A4) as (f5 & -> & A5 & _). cbn [obind].
      rewrite (proj2 (Z.eqb_neq c 94)) by auto. cbn [negb].
      destruct (IH fuel (mkRd f5 false false (utf16_text b) (utf16_text (91 :: 91 :: body ++ [93; 93])) [] []
         (rd_alpha r) (rd_add r)) eq_refl A5 Hlen) as (f' & E). exists f'. rewrite E. reflexivity.
Qed.

(** * C55: the reader *)
(** The parts of a stream: units with the text before them, and NULs *)
Inductive item := Unit (b w : list Z) (rs : list rtext) | Null (b : list Z).
Definition item_ok (i : item) : Prop :=
  match i with
  | Unit b w rs => gap false b /\ wordblank w /\ Forall rtext_ok rs /\ rs <> []
  | Null b => gap true b
  end.
Definition item_text (i : item) : list Z :=
  match i with
  | Unit b w rs => b ++ w ++ [94] ++ readings_text rs ++ [36]
  | Null b => b ++ [0]
  end.
Definition stream_text (l : list item) (tail : list Z) : list Z := concat (map item_text l) ++ tail.

(** the alphabet after adding tags *)
Definition add_tags (l : list (list Z)) (a : alphabet) : alphabet := fold_left (fun a t => includeSymbol t a) l a.

Definition known (s : list Z) (a : alphabet) : Prop := map_find ustr_eq_dec s (slexic a) <> None.
Lemma include_keeps : forall s t a, known s a ->
  map_find ustr_eq_dec s (slexic (includeSymbol t a)) = map_find ustr_eq_dec s (slexic a).
Proof.
  intros s t a H. unfold known in H. unfold includeSymbol.
  destruct (map_find ustr_eq_dec t (slexic a)) eqn:E; auto. cbn [slexic].
  generalize (- (Z.of_nat (length (slexic a)) + 1)). intros v.
  induction (slexic a) as [|[k x] m IH]; cbn [map_find map_set] in *; [congruence|].
  destruct (ustr_eq_dec t k) as [->|Ht]; [discriminate|]. cbn [map_find].
  destruct (ustr_eq_dec s k); auto.
Qed.
Lemma include_known : forall t a, known t (includeSymbol t a).
Proof.
  intros t a. unfold known, includeSymbol. destruct (map_find ustr_eq_dec t (slexic a)) eqn:E; [congruence|]. cbn [slexic].
  generalize (- (Z.of_nat (length (slexic a)) + 1)). intros v. clear E.
  induction (slexic a) as [|[k x] m IH]; cbn [map_find map_set].
  - destruct (ustr_eq_dec t t); congruence.
  - destruct (ustr_eq_dec t k) as [->|Ht]; cbn [map_find].
    + destruct (ustr_eq_dec k k); congruence.
    + destruct (ustr_eq_dec t k); congruence.
Qed.
Lemma add_tags_keeps : forall l s a, known s a ->
  known s (add_tags l a) /\ symbol_code s (add_tags l a) = symbol_code s a.
Proof.
  induction l as [|t l IH]; intros s a H; [split; auto|]. cbn [add_tags fold_left].
  assert (H' : known s (includeSymbol t a)) by (unfold known; rewrite include_keeps; auto).
  destruct (IH s (includeSymbol t a) H') as [K E]. unfold add_tags in K, E. split; [exact K|]. rewrite E.
  unfold symbol_code. now rewrite include_keeps.
Qed.
Lemma add_tags_app : forall l m a, add_tags (l ++ m) a = add_tags m (add_tags l a).
Proof. intros l m a. apply fold_left_app. Qed.
Lemma add_tags_known : forall l s a, In s l -> known s (add_tags l a).
Proof.
  induction l as [|t l IH]; intros s a H; [destruct H|]. destruct H as [->|H]; cbn [add_tags fold_left].
  - apply (add_tags_keeps l s), include_known.
  - now apply IH.
Qed.

(** the alphabet left behind by reading pieces *)
Definition grown (add : bool) (l : list piece) (a : alphabet) : alphabet :=
  if add then add_tags (piece_tags l) a else a.
Lemma piece_symbols_later : forall l m a, (forall t, In t (piece_tags l) -> known t a) ->
  piece_symbols (add_tags m a) l = piece_symbols a l.
Proof.
  induction l as [|p l IH]; intros m a H; [reflexivity|]. unfold piece_symbols. cbn [map concat].
  fold (piece_symbols (add_tags m a) l) (piece_symbols a l). rewrite IH.
  - f_equal. destruct p; auto. f_equal. apply add_tags_keeps. apply H. unfold piece_tags. cbn [map concat]. left. reflexivity.
  - intros t Ht. apply H. unfold piece_tags. cbn [map concat]. apply in_or_app. right. exact Ht.
Qed.
Lemma collect_some : forall add l a,
  collect add l (Some a) = (piece_symbols (grown add l a) l, Some (grown add l a)).
Proof.
  intros add. induction l as [|p l IH]; intros a; [unfold grown; destruct add; reflexivity|]. cbn [collect].
  destruct p as [x|x|b|b]; cbn [char_symbol].
  - rewrite IH. unfold grown, piece_tags. cbn [map concat app]. reflexivity.
  - rewrite IH. unfold grown, piece_tags. cbn [map concat app]. reflexivity.
  - cbn [tag_symbol]. set (t := utf16_text (piece_text (PTag b))). rewrite IH. unfold grown. destruct add.
    + unfold piece_tags. cbn [map concat]. fold t (piece_tags l). cbn [app].
      change (add_tags (t :: piece_tags l) a) with (add_tags (piece_tags l) (includeSymbol t a)).
      f_equal. unfold piece_symbols at 2. cbn [map concat].
      fold t (piece_symbols (add_tags (piece_tags l) (includeSymbol t a)) l). cbn [app]. f_equal.
      symmetry. apply add_tags_keeps, include_known.
    + reflexivity.
  - rewrite IH. unfold grown, piece_tags. cbn [map concat app]. reflexivity.
Qed.
Lemma collect_none : forall add l, collect add l None = ([], None).
Proof.
  intros add. induction l as [|p l IH]; [reflexivity|]. cbn [collect].
  destruct p; cbn [char_symbol tag_symbol]; rewrite IH; reflexivity.
Qed.

(** The readings of a unit with their symbols in the alphabet [a] *)
Definition tags_of (rs : list rtext) : list (list Z) := concat (map (fun r => piece_tags (t_pieces r)) rs).
Definition after_tags (add : bool) (rs : list rtext) (alpha : option alphabet) : option alphabet :=
  match alpha with
  | None => None
  | Some a => Some (if add then add_tags (tags_of rs) a else a)
  end.
Definition expected (alpha : option alphabet) (r : rtext) : reading :=
  mkR (match t_mark r with Some m => m | None => 0 end) (utf16_text (pieces_content (t_pieces r)))
    (match alpha with None => [] | Some a => piece_symbols a (t_pieces r) end).
Lemma collect_all_spec : forall add rs alpha,
  collect_all add rs alpha = (map (expected (after_tags add rs alpha)) rs, after_tags add rs alpha).
Proof.
  intros add. induction rs as [|r rs IH]; intros alpha.
  - destruct alpha; [|reflexivity]. destruct add; reflexivity.
  - cbn [collect_all map]. destruct alpha as [a|].
    + rewrite collect_some. rewrite IH. unfold after_tags, grown. destruct add; [|reflexivity].
      assert (E : add_tags (tags_of (r :: rs)) a = add_tags (tags_of rs) (add_tags (piece_tags (t_pieces r)) a)).
      { unfold tags_of. cbn [map concat]. apply add_tags_app. }
      rewrite E. f_equal. f_equal. unfold expected. f_equal.
      symmetry. apply piece_symbols_later. intros t Ht. now apply add_tags_known.
    + rewrite collect_none, IH. reflexivity.
Qed.

(** One unit: its blank, word-bound blank, readings with marks, contents and symbols, and
    its chunks; the reader is left right behind it. *)
Theorem C55_unit : forall r b w rs rest, rd_eof r = false ->
  gap false b -> wordblank w -> Forall rtext_ok rs -> rs <> [] ->
  at_text (rd_file r) (item_text (Unit b w rs) ++ rest) ->
  let alpha := after_tags (rd_add r) rs (rd_alpha r) in
  exists f', next_unit r = Ok (mkRd f' false false (utf16_text b) (utf16_text w) (map (expected alpha) rs)
      (utf16_text (chunks rs)) alpha (rd_add r))
    /\ at_text f' rest.
Proof.
  intros r b w rs rest Hr Hb Hw Hrs Hne Ha alpha. unfold next_unit.
  pose proof (at_text_size _ _ Ha) as Hz. unfold item_text in *. rewrite <- !app_assoc in Ha. cbn [app] in Ha.
  rewrite !app_length in Hz.
  destruct (reader_unit b Hb (2 + i_size (rd_file r)) r w rs 36 rest Hr Hw Hrs Hne (or_introl eq_refl)) as (f' & E & A').
  { exact Ha. }
  { lia. }
  rewrite collect_all_spec in E. cbn [fst snd] in E. exists f'. auto.
Qed.

(** What is seen of a reader after a call of next *)
Record seen := mkSeen {
  n_blank : ustr; n_wblank : ustr; n_readings : list reading; n_chunk : ustr; n_null : bool; n_eof : bool
}.
Definition look (r : reader) : seen :=
  mkSeen (rd_blank r) (rd_wblank r) (rd_readings r) (rd_chunk r) (rd_null r) (rd_eof r).
(** The whole stream, as the callers of next read it (fst_processor.cc:1276, 1738, 2007, 2082) *)
Fixpoint read_stream (fuel : nat) (r : reader) : outcome (list seen) :=
  if rd_eof r then Ok []
  else
    match fuel with
    | O => NoFuel
    | S fuel =>
        let! r := next_unit r in
        let! l := read_stream fuel r in
        Ok (look r :: l)
    end.
(** ... and what should be seen *)
Fixpoint to_see (add : bool) (l : list item) (tail : list Z) (alpha : option alphabet) : list seen :=
  match l with
  | [] => [mkSeen (utf16_text tail) [] [] [] false true]
  | Unit b w rs :: l =>
      let alpha := after_tags add rs alpha in
      mkSeen (utf16_text b) (utf16_text w) (map (expected alpha) rs) (utf16_text (chunks rs)) false false
        :: to_see add l tail alpha
  | Null b :: l => mkSeen (utf16_text b) [] [] [] true false :: to_see add l tail alpha
  end.

Lemma item_read : forall i r rest, item_ok i -> rd_eof r = false -> at_text (rd_file r) (item_text i ++ rest) ->
  exists r', next_unit r = Ok r' /\ rd_eof r' = false /\ at_text (rd_file r') rest /\ rd_add r' = rd_add r
    /\ rd_alpha r' = match i with Unit _ _ rs => after_tags (rd_add r) rs (rd_alpha r) | Null _ => rd_alpha r end
    /\ look r' = match i with
       | Unit b w rs => mkSeen (utf16_text b) (utf16_text w) (map (expected (after_tags (rd_add r) rs (rd_alpha r))) rs)
                         (utf16_text (chunks rs)) false false
       | Null b => mkSeen (utf16_text b) [] [] [] true false
       end.
Proof.
  intros [b w rs|b] r rest Hi Hr Ha.
  - destruct Hi as (Hb & Hw & Hrs & Hne).
    destruct (C55_unit r b w rs rest Hr Hb Hw Hrs Hne Ha) as (f' & -> & A'). eexists. split; [reflexivity|].
    cbn [rd_eof rd_file rd_add rd_alpha look]. repeat split; auto; apply A'.
  - cbn [item_text] in Ha. pose proof (at_text_size _ _ Ha) as Hz. rewrite !app_length in Hz. cbn [length] in Hz.
    rewrite <- app_assoc in Ha. cbn [app] in Ha.
    destruct (reader_null b Hi (2 + i_size (rd_file r)) r rest Hr Ha ltac:(lia)) as (f' & E & A').
    unfold next_unit. rewrite E. eexists. split; [reflexivity|].
    cbn [rd_eof rd_file rd_add rd_alpha look]. repeat split; auto; apply A'.
Qed.
Lemma tail_read : forall r tail, gap true tail -> rd_eof r = false -> at_text (rd_file r) tail ->
  exists r', next_unit r = Ok r' /\ look r' = mkSeen (utf16_text tail) [] [] [] false true.
Proof.
  intros r tail Ht Hr Ha. pose proof (at_text_size _ _ Ha) as Hz.
  destruct (reader_end tail Ht (2 + i_size (rd_file r)) r Hr Ha ltac:(lia)) as (f' & E).
  unfold next_unit. rewrite E. eexists. split; reflexivity.
Qed.

(** A whole stream is read unit by unit, whatever its length. *)
Theorem C55_stream : forall l tail alpha add, Forall item_ok l -> gap true tail ->
  Forall scalar (stream_text l tail) ->
  read_stream (2 + length l) (new_reader (open_file (utf8_text (stream_text l tail))) alpha add)
  = Ok (to_see add l tail alpha).
Proof.
  intros l tail alpha add Hl Ht Hs.
  assert (G : forall l r, Forall item_ok l -> rd_eof r = false -> at_text (rd_file r) (stream_text l tail) ->
    read_stream (2 + length l) r = Ok (to_see (rd_add r) l tail (rd_alpha r))).
  { clear - Ht. induction l as [|i l IH]; intros r Hl Hr Ha.
    - cbn [length Nat.add read_stream]. rewrite Hr. unfold stream_text in Ha. cbn [map concat app] in Ha.
      destruct (tail_read r tail Ht Hr Ha) as (r' & -> & L). cbn [obind].
      assert (E : rd_eof r' = true) by (change (rd_eof r') with (n_eof (look r')); now rewrite L). rewrite E.
      cbn [obind to_see]. now rewrite L.
    - inversion Hl as [|? ? Hi Hl']; subst. unfold stream_text in Ha. cbn [map concat] in Ha. rewrite <- app_assoc in Ha.
      destruct (item_read i r _ Hi Hr Ha) as (r' & E & Er & A' & Eadd & Ealpha & L).
      cbn [length]. change (2 + S (length l))%nat with (S (2 + length l)). cbn [read_stream].
      rewrite Hr, E. cbn [obind]. rewrite (IH r' Hl' Er A'). cbn [obind]. rewrite L, Eadd, Ealpha.
      destruct i; reflexivity. }
  apply G; auto. apply at_text_open. exact Hs.
Qed.

(** * C41: merging and unmerging *)
(** Some reading of the unit contains the text [t]. *)
Definition has (t : list Z) (rs : list rtext) : Prop :=
  exists r a b, In r rs /\ pieces_content (t_pieces r) = a ++ t ++ b.
Definition no_chunk (rs : list rtext) : Prop :=
  forall r p, In r rs -> In p (t_pieces r) -> match p with PChunk _ => False | _ => True end.
(** The surface form: the first reading without its mark *)
Definition form (rs : list rtext) : list Z :=
  match rs with [] => [] | r :: _ => pieces_content (t_pieces r) end.

(** A unit kept, or a sequence of units to be merged: the first, and the others with what
    stands before them *)
Inductive seg := Keep (i : item) | Merge (b w : list Z) (rs : list rtext) (more : list (list Z * list Z * list rtext)).
Definition unit_of (u : list Z * list Z * list rtext) : item := let '(b, w, rs) := u in Unit b w rs.
Definition seg_items (s : seg) : list item :=
  match s with Keep i => [i] | Merge b w rs more => Unit b w rs :: map unit_of more end.
Definition source (l : list seg) (tail : list Z) : list Z := stream_text (concat (map seg_items l)) tail.

(** <MERGE_END> is in the last unit only. *)
Fixpoint ends_last (rs : list rtext) (more : list (list Z * list Z * list rtext)) : Prop :=
  match more with
  | [] => has MERGE_END rs
  | (_, _, rs') :: more => ~ has MERGE_END rs /\ ends_last rs' more
  end.
(** Text between merged units which keeps its meaning inside a unit: no escapes, no '/' or
    '$' or brace outside of angle brackets, and these in pairs *)
Definition plain_blank (b : list Z) : Prop :=
  ~ In 92 b /\ exists ps, b = pieces_text ps /\ Forall piece_ok ps
    /\ (forall p, In p ps -> match p with PChunk _ => False | _ => True end).
Definition seg_ok (s : seg) : Prop :=
  Forall item_ok (seg_items s)
  /\ match s with
     | Keep (Unit _ _ rs) => no_chunk rs /\ ~ has MERGE_BEG rs /\ ~ has MERGED rs
     | Keep (Null _) => True
     | Merge _ _ rs more =>
         has MERGE_BEG rs /\ ends_last rs more
         /\ (exists c t, form rs = c :: t /\ ~ marks c)
         /\ ~ In 0 (form rs)
         /\ Forall (fun u => let '(b, w, rs) := u in plain_blank b /\ ~ In 0 w /\ ~ In 0 (form rs)) more
     end.

(** What is wanted in the end: the units outside as they were, and the merged words and
    the text between them as running text; a word-bound blank is followed by "^$". *)
Definition restored_more (u : list Z * list Z * list rtext) : list Z :=
  let '(b, w, rs) := u in b ++ w ++ match w with [] => [] | _ => [94; 36] end ++ form rs.
Definition restored (s : seg) : list Z :=
  match s with
  | Keep i => item_text i
  | Merge b w rs more => b ++ w ++ form rs ++ concat (map restored_more more)
  end.

(** The merged stream, and what the generator makes of it; [s] is the merged word. *)
Definition merged_tag : piece := PTag [77; 69; 82; 71; 69; 68].
Definition merged_item (p : seg * list piece) : item :=
  match p with
  | (Keep i, _) => i
  | (Merge b w _ _, s) => Unit b w [mkT None s; mkT None (s ++ [merged_tag])]
  end.
Definition generated_item (p : seg * list piece) : item :=
  match p with
  | (Keep i, _) => i
  | (Merge b w _ _, s) => Unit b w [mkT None (s ++ [merged_tag]); mkT None s]
  end.

(** ** Proofs *)
Lemma is_prefix_iff : forall p s, is_prefix p s = true <-> exists b, s = p ++ b.
Proof.
  induction p as [|x p IH]; intros s; cbn [is_prefix]; [split; [intros _; exists s; reflexivity|auto]|].
  destruct s as [|y s]; [split; [discriminate|intros (b & E); discriminate]|].
  rewrite andb_true_iff, IH, Z.eqb_eq. split.
  - intros (-> & b & ->). exists b. reflexivity.
  - intros (b & E). cbn [app] in E. split; [congruence|]. exists b. congruence.
Qed.
Lemma contains_iff : forall p s, contains p s = true <-> exists a b, s = a ++ p ++ b.
Proof.
  intros p s. unfold contains. induction s as [|y s IH]; cbn [find_in].
  - destruct (is_prefix p []) eqn:E.
    + apply is_prefix_iff in E as (b & E). split; auto. intros _. exists [], b. exact E.
    + split; [discriminate|]. intros (a & b & H). symmetry in H. apply app_eq_nil in H as [-> H].
      apply app_eq_nil in H as [-> ->]. discriminate.
  - destruct (is_prefix p (y :: s)) eqn:E.
    + apply is_prefix_iff in E as (b & E). split; auto. intros _. exists [], b. exact E.
    + destruct (find_in p s) eqn:F.
      * split; auto. intros _. destruct (proj1 IH eq_refl) as (a & b & ->). exists (y :: a), b. reflexivity.
      * split; [discriminate|]. intros (a & b & H). destruct a as [|x a].
        -- cbn [app] in H. assert (is_prefix p (y :: s) = true) by (apply is_prefix_iff; eauto). congruence.
        -- cbn [app] in H. apply IH. exists a, b. congruence.
Qed.

Lemma utf16_prefix : forall p, Forall (fun c => 0 <= c < 128) p -> forall l b, Forall scalar l ->
  utf16_text l = p ++ b -> exists b', l = p ++ b'.
Proof.
  induction p as [|x p IH]; intros Hp l b Hl E; [exists l; reflexivity|]. inversion Hp; subst.
  destruct l as [|c l]; [discriminate|]. inversion Hl as [|? ? Hc Hl']; subst.
  rewrite utf16_text_cons in E. unfold utf16 in E. destruct (c <? 65536) eqn:Ec; cbn [app] in E.
  - assert (c = x) by congruence. assert (E' : utf16_text l = p ++ b) by congruence. subst c.
    destruct (IH H2 l b Hl' E') as (b' & ->). exists b'. reflexivity.
  - exfalso. assert (E0 : 55296 + (c - 65536) / 1024 = x) by congruence. apply Z.ltb_ge in Ec.
    assert (0 <= (c - 65536) / 1024) by (apply Z.div_pos; lia). lia.
Qed.
Lemma utf16_infix : forall x p, Forall (fun c => 0 <= c < 128) (x :: p) -> forall l a b, Forall scalar l ->
  utf16_text l = a ++ (x :: p) ++ b -> exists a' b', l = a' ++ (x :: p) ++ b'.
Proof.
  intros x p Hp. induction l as [|c l IH]; intros a b Hl E.
  - symmetry in E. apply app_eq_nil in E as [_ E]. discriminate.
  - inversion Hl as [|? ? Hc Hl']; subst. destruct a as [|y a].
    { destruct (utf16_prefix _ Hp (c :: l) b Hl E) as (b' & E'). exists [], b'. exact E'. }
    rewrite utf16_text_cons in E. unfold utf16 in E. destruct (c <? 65536) eqn:Ec; cbn [app] in E.
    + assert (E' : utf16_text l = a ++ (x :: p) ++ b) by (cbn [app]; congruence).
      destruct (IH a b Hl' E') as (a' & b' & ->). exists (c :: a'), b'. reflexivity.
    + destruct a as [|z a].
      * exfalso. cbn [app] in E. assert (E0 : 56320 + (c - 65536) mod 1024 = x) by congruence.
        inversion Hp; subst. pose proof (Z.mod_pos_bound (c - 65536) 1024 ltac:(lia)). lia.
      * cbn [app] in E. assert (E' : utf16_text l = a ++ (x :: p) ++ b) by (cbn [app]; congruence).
        destruct (IH a b Hl' E') as (a' & b' & ->). exists (c :: a'), b'. reflexivity.
Qed.
Lemma utf16_ascii_text : forall p, Forall (fun c => 0 <= c < 128) p -> utf16_text p = p.
Proof.
  induction p as [|x p IH]; intros H; [reflexivity|]. inversion H; subst.
  rewrite utf16_text_cons, utf16_ascii, IH by auto. reflexivity.
Qed.
Definition readings_scalar (rs : list rtext) : Prop := Forall (fun r => Forall scalar (pieces_content (t_pieces r))) rs.
Lemma any_has : forall x p, Forall (fun c => 0 <= c < 128) (x :: p) -> forall r alpha rs, readings_scalar rs ->
  rd_readings r = map (expected alpha) rs -> (any_reading (x :: p) r = true <-> has (x :: p) rs).
Proof.
  intros x p Hp r alpha rs Hs E. unfold any_reading. rewrite E, existsb_exists. split.
  - intros (y & Hy & Hc). apply in_map_iff in Hy as (t & <- & Ht). cbn [expected r_content] in Hc.
    apply contains_iff in Hc as (a & b & Hc). unfold readings_scalar in Hs. rewrite Forall_forall in Hs.
    destruct (utf16_infix x p Hp _ a b (Hs t Ht) Hc) as (a' & b' & E'). exists t, a', b'. auto.
  - intros (t & a & b & Ht & Ec). exists (expected alpha t). split; [now apply in_map|].
    cbn [expected r_content]. apply contains_iff. rewrite Ec, !utf16_text_app, (utf16_ascii_text _ Hp). eauto.
Qed.

Lemma is_escaped_range : forall c, is_escaped c = true -> 0 < c < 128.
Proof.
  intros c H. unfold is_escaped in H. rewrite existsb_exists in H. destruct H as (x & Hx & E). apply Z.eqb_eq in E.
  subst x. cbn [In escaped_chars] in Hx. lia.
Qed.
Lemma writeEscaped_app : forall a b, writeEscaped (a ++ b) = writeEscaped a ++ writeEscaped b.
Proof. induction a as [|c a IH]; intros b; [reflexivity|]. cbn [writeEscaped app]. rewrite IH. apply app_assoc. Qed.
Lemma writeEscaped_utf16 : forall l, Forall scalar l -> writeEscaped (utf16_text l) = utf16_text (writeEscaped l).
Proof.
  induction l as [|c l IH]; intros H; [reflexivity|]. inversion H as [|? ? Hc Hl]; subst. cbn [writeEscaped].
  rewrite utf16_text_cons, utf16_text_app, writeEscaped_app, IH by auto. f_equal.
  unfold utf16. destruct (c <? 65536) eqn:Ec.
  - cbn [writeEscaped]. rewrite app_nil_r. destruct (is_escaped c) eqn:E.
    + apply is_escaped_range in E. symmetry. apply utf16_ascii_text. repeat constructor; lia.
    + rewrite utf16_text_cons. unfold utf16. rewrite Ec. reflexivity.
  - apply Z.ltb_ge in Ec. pose proof (Z.mod_pos_bound (c - 65536) 1024 ltac:(lia)).
    assert (0 <= (c - 65536) / 1024) by (apply Z.div_pos; lia).
    assert (N : forall x, 128 <= x -> is_escaped x = false).
    { intros x Hx. apply not_true_iff_false. intros E. apply is_escaped_range in E. lia. }
    cbn [writeEscaped]. rewrite !N by lia. cbn [app]. rewrite utf16_text_cons. unfold utf16.
    replace (c <? 65536) with false by (symmetry; apply Z.ltb_ge; lia). reflexivity.
Qed.
Lemma writeEscaped_scalar : forall l, Forall scalar l -> Forall scalar (writeEscaped l).
Proof.
  induction l as [|c l IH]; intros H; [constructor|]. inversion H; subst. cbn [writeEscaped]. apply Forall_app.
  split; auto. destruct (is_escaped c); [constructor; [apply ascii_scalar; lia|]|]; auto.
Qed.

(** escaped text as pieces *)
Definition esc_pieces (l : list Z) : list piece := map (fun c => if is_escaped c then PEsc c else PChar c) l.
Lemma esc_pieces_text : forall l, pieces_text (esc_pieces l) = writeEscaped l.
Proof.
  induction l as [|c l IH]; [reflexivity|]. unfold pieces_text, esc_pieces in *. cbn [map concat writeEscaped].
  rewrite IH. destruct (is_escaped c); reflexivity.
Qed.
Lemma esc_pieces_ok : forall l, ~ In 0 l -> Forall piece_ok (esc_pieces l).
Proof.
  intros l H. unfold esc_pieces. apply Forall_map, Forall_forall. intros c Hc.
  destruct (is_escaped c) eqn:E; [exact I|]. cbn [piece_ok].
  assert (c <> 0) by (intros ->; contradiction).
  repeat split; auto; intros ->; vm_compute in E; discriminate.
Qed.
Definition chunkless (ps : list piece) : Prop := forall p, In p ps -> match p with PChunk _ => False | _ => True end.
Lemma esc_pieces_chunkless : forall l, chunkless (esc_pieces l).
Proof. intros l p H. apply in_map_iff in H as (c & <- & _). destruct (is_escaped c); exact I. Qed.
Lemma pieces_text_app : forall a b, pieces_text (a ++ b) = pieces_text a ++ pieces_text b.
Proof. intros a b. unfold pieces_text. now rewrite map_app, concat_app. Qed.
Lemma chunkless_app : forall a b, chunkless a -> chunkless b -> chunkless (a ++ b).
Proof. intros a b Ha Hb p H. apply in_app_or in H as [H|H]; [exact (Ha p H)|exact (Hb p H)]. Qed.
Lemma chunkless_content : forall ps, chunkless ps -> pieces_content ps = pieces_text ps.
Proof.
  induction ps as [|p ps IH]; intros H; [reflexivity|]. unfold pieces_content, pieces_text. cbn [map concat].
  fold (pieces_content ps) (pieces_text ps). rewrite IH; [|intros q Hq; apply H; right; exact Hq].
  f_equal. specialize (H p (or_introl eq_refl)). destruct p; [reflexivity..|contradiction].
Qed.

(** the merged word *)
Definition more_surface (u : list Z * list Z * list rtext) : list Z :=
  let '(b, w, rs) := u in
  b ++ writeEscaped w ++ match w with [] => [] | _ => writeEscaped [94; 36] end ++ writeEscaped (form rs).
Definition surface_text (rs : list rtext) (more : list (list Z * list Z * list rtext)) : list Z :=
  writeEscaped (form rs) ++ concat (map more_surface more).
Definition good (p : seg * list piece) : Prop :=
  match p with
  | (Keep _, _) => True
  | (Merge b w rs more, s) => Forall piece_ok s /\ chunkless s /\ pieces_text s = surface_text rs more
  end.
Lemma surface_pieces : forall more,
  Forall (fun u => let '(b, w, rs) := u in plain_blank b /\ ~ In 0 w /\ ~ In 0 (form rs)) more ->
  exists s, Forall piece_ok s /\ chunkless s /\ pieces_text s = concat (map more_surface more).
Proof.
  induction more as [|[[b w] rs] more IH]; intros H.
  - exists []. split; [constructor|]. split; [intros p []|reflexivity].
  - inversion H as [|? ? Hu Hm]; subst. destruct Hu as ((_ & ps & -> & Hps & Hc) & H0w & H0f).
    destruct (IH Hm) as (s & S1 & S2 & S3).
    exists (ps ++ esc_pieces w ++ match w with [] => [] | _ => esc_pieces [94; 36] end ++ esc_pieces (form rs) ++ s).
    split; [|split].
    + repeat (apply Forall_app; split); auto using esc_pieces_ok.
      destruct w; [constructor|]. apply esc_pieces_ok. cbn. lia.
    + repeat apply chunkless_app; auto using esc_pieces_chunkless.
      destruct w; [intros p []|]. apply esc_pieces_chunkless.
    + cbn [map concat more_surface]. rewrite !pieces_text_app, !esc_pieces_text, S3, <- !app_assoc.
      f_equal. f_equal. destruct w; reflexivity.
Qed.
Lemma seg_pieces : forall l, Forall seg_ok l -> exists l2, map fst l2 = l /\ Forall good l2.
Proof.
  induction l as [|s l IH]; intros H; [exists []; split; auto|]. inversion H as [|? ? Hs Hl]; subst.
  destruct (IH Hl) as (l2 & E & G). destruct s as [i|b w rs more].
  - exists ((Keep i, []) :: l2). split; [cbn; now rewrite E|]. constructor; auto. exact I.
  - destruct Hs as (_ & _ & _ & _ & H0 & Hm). destruct (surface_pieces more Hm) as (s & S1 & S2 & S3).
    exists ((Merge b w rs more, esc_pieces (form rs) ++ s) :: l2). split; [cbn; now rewrite E|]. constructor; auto.
    split; [apply Forall_app; split; auto using esc_pieces_ok|].
    split; [apply chunkless_app; auto using esc_pieces_chunkless|].
    unfold surface_text. now rewrite pieces_text_app, esc_pieces_text, S3.
Qed.

Lemma at_text_all : forall f t, at_text f t -> Forall scalar t.
Proof. intros f t (_ & rest & Hs & -> & _). exact Hs. Qed.
Lemma content_in_text : forall ps, Forall scalar (pieces_text ps) -> Forall scalar (pieces_content ps).
Proof.
  induction ps as [|p ps IH]; intros H; [constructor|]. unfold pieces_text, pieces_content in *. cbn [map concat] in *.
  apply Forall_app in H as [H1 H2]. apply Forall_app. split; auto. destruct p; auto. constructor.
Qed.
Lemma readings_text_scalar : forall rs, Forall scalar (readings_text rs) -> readings_scalar rs.
Proof.
  induction rs as [|r [|r2 rs] IH]; intros H; [constructor| |].
  - constructor; [|constructor]. cbn [readings_text] in H. apply Forall_app in H as [_ H]. now apply content_in_text.
  - change (readings_text (r :: r2 :: rs)) with (r_text r ++ 47 :: readings_text (r2 :: rs)) in H.
    apply Forall_app in H as [H1 H2]. inversion H2; subst. constructor; [|now apply IH].
    apply Forall_app in H1 as [_ H1]. now apply content_in_text.
Qed.
Lemma form_scalar : forall rs, readings_scalar rs -> Forall scalar (form rs).
Proof. intros [|r rs] H; [constructor|]. now inversion H. Qed.

Lemma ascii_tags : Forall (fun c => 0 <= c < 128) MERGE_BEG /\ Forall (fun c => 0 <= c < 128) MERGE_END
  /\ Forall (fun c => 0 <= c < 128) MERGED.
Proof. repeat split; repeat constructor; lia. Qed.

Lemma unit_read : forall b w rs r rest, item_ok (Unit b w rs) -> rd_eof r = false ->
  at_text (rd_file r) (item_text (Unit b w rs) ++ rest) ->
  exists r', next_unit r = Ok r' /\ rd_eof r' = false /\ at_text (rd_file r') rest
    /\ rd_blank r' = utf16_text b /\ rd_wblank r' = utf16_text w /\ rd_null r' = false
    /\ (exists alpha, rd_readings r' = map (expected alpha) rs)
    /\ readings_scalar rs /\ Forall scalar b /\ Forall scalar w
    /\ (any_reading MERGE_BEG r' = true <-> has MERGE_BEG rs)
    /\ (any_reading MERGE_END r' = true <-> has MERGE_END rs)
    /\ (any_reading MERGED r' = true <-> has MERGED rs).
Proof.
  intros b w rs r rest Hi Hr Ha. destruct (item_read _ r rest Hi Hr Ha) as (r' & E & Er & A' & _ & _ & L).
  exists r'. pose proof (at_text_all _ _ Ha) as Hs. unfold item_text in Hs.
  repeat rewrite Forall_app in Hs. destruct Hs as ((Hb & Hw & _ & Hrs & _) & _).
  apply readings_text_scalar in Hrs.
  assert (Lr : rd_readings r' = map (expected (after_tags (rd_add r) rs (rd_alpha r))) rs)
    by (change (rd_readings r') with (n_readings (look r')); now rewrite L).
  destruct ascii_tags as (T1 & T2 & T3).
  split; [exact E|]. split; [exact Er|]. split; [exact A'|].
  split; [change (rd_blank r') with (n_blank (look r')); now rewrite L|].
  split; [change (rd_wblank r') with (n_wblank (look r')); now rewrite L|].
  split; [change (rd_null r') with (n_null (look r')); now rewrite L|].
  split; [eauto|]. do 3 (split; [assumption|]).
  split; [|split]; eapply any_has; eauto.
Qed.

Lemma utf16_text_nil : forall l, utf16_text l = [] -> l = [].
Proof.
  intros [|c l] H; [reflexivity|]. rewrite utf16_text_cons in H. unfold utf16 in H. destruct (c <? 65536); discriminate.
Qed.
(** what a unit adds to a surface already begun *)
Lemma surface_step : forall b w rs s, Forall scalar w -> Forall scalar (form rs) ->
  appendEscaped
    match utf16_text w with
    | [] => appendEscaped (utf16_text s ++ utf16_text b) (utf16_text w)
    | _ => appendEscaped (appendEscaped (utf16_text s ++ utf16_text b) (utf16_text w)) [94; 36]
    end (utf16_text (form rs))
  = utf16_text (s ++ more_surface (b, w, rs)).
Proof.
  intros b w rs s Hw Hf. unfold appendEscaped, more_surface. rewrite !writeEscaped_utf16 by auto.
  rewrite !utf16_text_app. destruct w as [|c w].
  - cbn [writeEscaped]. change (utf16_text []) with (@nil Z). cbn [app]. rewrite <- !app_assoc. reflexivity.
  - destruct (utf16_text (c :: w)) eqn:E; [apply utf16_text_nil in E; discriminate|]. clear E.
    change (writeEscaped [94; 36]) with [92; 94; 92; 36].
    change (utf16_text [92; 94; 92; 36]) with [92; 94; 92; 36]. rewrite <- !app_assoc. reflexivity.
Qed.
Lemma first_form : forall alpha rs, rs <> [] ->
  forall surface, match map (expected alpha) rs with [] => surface | x :: _ => appendEscaped surface (r_content x) end
    = appendEscaped surface (utf16_text (form rs)).
Proof. intros alpha [|r rs] H surface; [congruence|]. reflexivity. Qed.

Lemma merged_utf16 : forall x y, utf16_text ([94] ++ x ++ [47] ++ y ++ MERGED ++ [36])
  = [94] ++ utf16_text x ++ [47] ++ utf16_text y ++ MERGED ++ [36].
Proof. intros x y. rewrite !utf16_text_app. reflexivity. Qed.

Lemma merge_rest : forall more rs, ends_last rs more -> more <> [] -> Forall (fun u => item_ok (unit_of u)) more ->
  forall n rest K,
  (forall fuel r, rd_eof r = false -> at_text (rd_file r) rest -> (n <= fuel)%nat -> merge_loop fuel r false [] = Ok K) ->
  forall fuel r s, s <> [] -> rd_eof r = false ->
  at_text (rd_file r) (concat (map item_text (map unit_of more)) ++ rest) -> (length more + n <= fuel)%nat ->
  merge_loop fuel r true (utf16_text s)
  = Ok (utf16_text ([94] ++ (s ++ concat (map more_surface more)) ++ [47] ++ (s ++ concat (map more_surface more)) ++ MERGED ++ [36]) ++ K).
Proof.
  induction more as [|[[b w] rs1] more IH]; intros rs He Hne Hok n rest K HK fuel r s Hs Hr Ha Hf; [congruence|].
  destruct fuel as [|fuel]; [cbn [length] in Hf; lia|]. cbn [length] in Hf. cbn [merge_loop]. rewrite Hr.
  cbn [map concat unit_of] in Ha. rewrite <- app_assoc in Ha.
  inversion Hok as [|? ? Hi Hok']; subst. cbn [unit_of] in Hi.
  destruct (unit_read _ _ _ _ _ Hi Hr Ha) as (r' & E & Er & A' & Eb & Ew & En & (alpha & Erd) & Sr & Sb & Sw & _ & HE & _).
  rewrite E. cbn [obind orb]. rewrite Eb, Ew, En, Erd.
  destruct (utf16_text s) eqn:Es; [apply utf16_text_nil in Es; contradiction|]. rewrite <- Es.
  assert (Hne1 : rs1 <> []) by apply Hi.
  rewrite (first_form alpha rs1 Hne1). rewrite (surface_step b w rs1 s Sw (form_scalar _ Sr)).
  cbn [ends_last] in He. destruct He as [_ He].
  assert (Es' : s ++ concat (map more_surface ((b, w, rs1) :: more))
    = (s ++ more_surface (b, w, rs1)) ++ concat (map more_surface more)) by (cbn [map concat]; apply app_assoc).
  rewrite Es'. set (s' := s ++ more_surface (b, w, rs1)) in *.
  destruct more as [|u more].
  - cbn [ends_last] in He. apply HE in He. rewrite He. cbn [orb].
    rewrite (HK fuel r' Er) by (auto; lia). cbn [obind map concat]. rewrite app_nil_r.
    rewrite merged_utf16. cbn [app]. rewrite <- !app_assoc. reflexivity.
  - destruct u as [[b2 w2] rs2].
    assert (Hnot : any_reading MERGE_END r' = false).
    { apply not_true_iff_false. rewrite HE. cbn [ends_last] in He. apply He. }
    rewrite Hnot. cbn [orb].
    rewrite (IH rs1 He ltac:(discriminate) Hok' n rest K HK fuel r' s'); auto; try lia.
    + unfold s'. destruct s; [congruence|discriminate].
Qed.

(** a unit written as read *)
Lemma write_readings_expected : forall alpha rs, Forall rtext_ok rs -> no_chunk rs ->
  write_readings (map (expected alpha) rs) = utf16_text (readings_text rs).
Proof.
  intros alpha. induction rs as [|r rs IH]; intros Hok Hc; [reflexivity|]. inversion Hok as [|? ? Hr Hok']; subst.
  cbn [map write_readings].
  assert (Er : (if r_mark (expected alpha r) =? 0 then [] else append_cp [] (r_mark (expected alpha r)))
      ++ r_content (expected alpha r) = utf16_text (r_text r)).
  { unfold r_text. rewrite utf16_text_app. cbn [expected r_mark r_content].
    rewrite (chunkless_content (t_pieces r)); [|intros p Hp; exact (Hc r p (or_introl eq_refl) Hp)]. f_equal.
    destruct (t_mark r) as [m|] eqn:Em; [|reflexivity]. destruct Hr as [_ Hm]. rewrite Em in Hm.
    unfold marks in Hm. cbn [In] in Hm.
    destruct Hm as [<-|[<-|[<-|[<-|[<-|[]]]]]]; reflexivity. }
  destruct rs as [|r2 rs].
  - cbn [map]. rewrite app_nil_r. exact Er.
  - change (readings_text (r :: r2 :: rs)) with (r_text r ++ [47] ++ readings_text (r2 :: rs)).
    rewrite !utf16_text_app, <- IH; auto; [|intros x p Hx; apply Hc; right; exact Hx].
    rewrite <- Er, <- app_assoc. reflexivity.
Qed.
Lemma write_unit_expected : forall alpha rs, Forall rtext_ok rs -> no_chunk rs -> rs <> [] ->
  write_unit (map (expected alpha) rs) = utf16_text ([94] ++ readings_text rs ++ [36]).
Proof.
  intros alpha rs Hok Hc Hne. unfold write_unit. rewrite !utf16_text_app, <- (write_readings_expected alpha) by auto.
  destruct rs; [congruence|reflexivity].
Qed.

Lemma stream_text_cons : forall i l tail, stream_text (i :: l) tail = item_text i ++ stream_text l tail.
Proof. intros i l tail. unfold stream_text. cbn [map concat]. now rewrite <- app_assoc. Qed.

Lemma merge_all : forall tail, gap true tail -> forall l2, Forall seg_ok (map fst l2) -> Forall good l2 ->
  forall fuel r, rd_eof r = false -> at_text (rd_file r) (source (map fst l2) tail) ->
  (length (concat (map seg_items (map fst l2))) + 1 <= fuel)%nat ->
  merge_loop fuel r false [] = Ok (utf16_text (stream_text (map merged_item l2) tail)).
Proof.
  intros tail Ht. induction l2 as [|[s ps] l2 IH]; intros Hok Hg fuel r Hr Ha Hf.
  - destruct fuel as [|fuel]; [cbn in Hf; lia|]. cbn [merge_loop]. rewrite Hr.
    cbn [map source concat] in Ha. unfold source, stream_text in *. cbn [map concat app] in *.
    destruct (tail_read r tail Ht Hr Ha) as (r' & -> & L). cbn [obind].
    assert (E1 : rd_readings r' = []) by (change (rd_readings r') with (n_readings (look r')); now rewrite L).
    assert (E2 : rd_blank r' = utf16_text tail) by (change (rd_blank r') with (n_blank (look r')); now rewrite L).
    assert (E3 : rd_wblank r' = []) by (change (rd_wblank r') with (n_wblank (look r')); now rewrite L).
    assert (E4 : rd_null r' = false) by (change (rd_null r') with (n_null (look r')); now rewrite L).
    assert (E5 : rd_eof r' = true) by (change (rd_eof r') with (n_eof (look r')); now rewrite L).
    unfold any_reading. rewrite E1, E2, E3, E4. cbn [existsb orb].
    destruct fuel; cbn [merge_loop]; rewrite E5; cbn [obind app write_unit]; now rewrite !app_nil_r.
  - cbn [map fst] in Hok, Ha, Hf. inversion Hok as [|? ? Hs Hok']; subst. inversion Hg as [|? ? G Hg']; subst.
    cbn [map]. rewrite stream_text_cons, utf16_text_app.
    unfold source in Ha. cbn [map concat] in Ha, Hf. rewrite app_length in Hf.
    specialize (IH Hok' Hg').
    destruct s as [i|b w rs more].
    + cbn [seg_items app length] in Ha, Hf. rewrite stream_text_cons in Ha.
      fold (source (map fst l2) tail) in Ha. cbn [merged_item].
      destruct fuel as [|fuel]; [lia|]. cbn [merge_loop]. rewrite Hr.
      destruct Hs as [Hi Hk]. inversion Hi as [|? ? Hi' _]; subst. destruct i as [b w rs|b].
      * destruct Hk as (Hc & Hb & _).
        destruct (unit_read _ _ _ _ _ Hi' Hr Ha) as (r' & E & Er & A' & Eb & Ew & En & (alpha & Erd) & Sr & Sb & Sw & HB & HE & _).
        rewrite E. cbn [obind orb].
        assert (N : any_reading MERGE_BEG r' = false) by (apply not_true_iff_false; rewrite HB; exact Hb).
        rewrite N, Eb, Ew, En, Erd. cbn [orb].
        destruct Hi' as (_ & _ & Hrt & Hne).
        rewrite write_unit_expected by auto.
        assert (R : merge_loop fuel r' false [] = Ok (utf16_text (stream_text (map merged_item l2) tail)))
          by (apply IH; auto; lia).
        destruct (any_reading MERGE_END r'); cbn [orb]; rewrite R; cbn [obind];
          f_equal; cbn [item_text]; rewrite !utf16_text_app, <- !app_assoc; reflexivity.
      * destruct (item_read _ r _ Hi' Hr Ha) as (r' & E & Er & A' & _ & _ & L). rewrite E. cbn [obind orb].
        assert (E1 : rd_readings r' = []) by (change (rd_readings r') with (n_readings (look r')); now rewrite L).
        assert (E2 : rd_blank r' = utf16_text b) by (change (rd_blank r') with (n_blank (look r')); now rewrite L).
        assert (E3 : rd_wblank r' = []) by (change (rd_wblank r') with (n_wblank (look r')); now rewrite L).
        assert (E4 : rd_null r' = true) by (change (rd_null r') with (n_null (look r')); now rewrite L).
        unfold any_reading. rewrite E1, E2, E3, E4. cbn [existsb orb].
        rewrite (IH fuel r' Er A') by lia. cbn [obind write_unit item_text app].
        f_equal. rewrite utf16_text_app, app_nil_r, <- app_assoc. reflexivity.
    + cbn [seg_items app length] in Ha, Hf. rewrite map_length in Hf.
      rewrite stream_text_cons in Ha. unfold stream_text in Ha. rewrite map_app, concat_app, <- app_assoc in Ha.
      fold (stream_text (concat (map seg_items (map fst l2))) tail) in Ha. fold (source (map fst l2) tail) in Ha.
      destruct Hs as [Hi (HBeg & Hends & (c & t & Hform & Hmark) & H0 & Hm)].
      cbn [seg_items] in Hi. inversion Hi as [|? ? Hi' Him]; subst.
      destruct G as (_ & _ & Gt). cbn [merged_item item_text].
      destruct fuel as [|fuel]; [lia|]. cbn [merge_loop]. rewrite Hr.
      destruct (unit_read _ _ _ _ _ Hi' Hr Ha) as (r' & E & Er & A' & Eb & Ew & En & (alpha & Erd) & Sr & Sb & Sw & HB & HE & _).
      rewrite E. cbn [obind orb]. apply HB in HBeg. rewrite HBeg. cbn [orb]. rewrite Eb, Ew, En, Erd.
      assert (Hne1 : rs <> []) by apply Hi'. rewrite (first_form alpha rs Hne1).
      assert (Es : appendEscaped [] (utf16_text (form rs)) = utf16_text (writeEscaped (form rs))).
      { unfold appendEscaped. cbn [app]. apply writeEscaped_utf16, form_scalar, Sr. }
      rewrite Es.
      assert (Etext : readings_text [mkT None ps; mkT None (ps ++ [merged_tag])]
        = surface_text rs more ++ [47] ++ surface_text rs more ++ MERGED).
      { cbn [readings_text r_text t_mark t_pieces app]. unfold r_text. cbn [t_mark t_pieces app].
        rewrite pieces_text_app, Gt. reflexivity. }
      rewrite Etext.
      assert (Eout : utf16_text (b ++ w ++ [94] ++ (surface_text rs more ++ [47] ++ surface_text rs more ++ MERGED) ++ [36])
        = utf16_text b ++ utf16_text w ++ utf16_text ([94] ++ surface_text rs more ++ [47] ++ surface_text rs more ++ MERGED ++ [36])).
      { rewrite <- !utf16_text_app. f_equal. rewrite <- !app_assoc. reflexivity. }
      rewrite Eout, merged_utf16.
      destruct more as [|u more].
      * cbn [ends_last] in Hends. apply HE in Hends. rewrite Hends. cbn [orb].
        cbn [map concat app] in A'. rewrite (IH fuel r' Er A') by (cbn [length] in Hf; lia). cbn [obind].
        unfold surface_text. cbn [map concat]. rewrite !app_nil_r. f_equal. rewrite <- !app_assoc. reflexivity.
      * assert (Hnot : any_reading MERGE_END r' = false).
        { apply not_true_iff_false. rewrite HE. destruct u as [[? ?] ?]. apply Hends. }
        rewrite Hnot. cbn [orb].
        rewrite (merge_rest (u :: more) rs Hends ltac:(discriminate) (proj1 (Forall_map unit_of item_ok (u :: more)) Him)
           (length (concat (map seg_items (map fst l2))) + 1)%nat (source (map fst l2) tail)
           (utf16_text (stream_text (map merged_item l2) tail))
           ltac:(intros; apply IH; auto) fuel r' (writeEscaped (form rs))); auto.
        -- cbn [obind]. fold (surface_text rs (u :: more)). rewrite merged_utf16. f_equal. rewrite <- !app_assoc. reflexivity.
        -- rewrite Hform. cbn [writeEscaped]. destruct (is_escaped c); discriminate.
        -- lia.
Qed.

(** removing one level of escaping *)
Lemma unescape_writeEscaped : forall l x, unescape false (writeEscaped l ++ x) = l ++ unescape false x.
Proof.
  induction l as [|c l IH]; intros x; [reflexivity|]. cbn [writeEscaped]. destruct (is_escaped c) eqn:E.
  - cbn [app unescape]. replace (92 =? 92) with true by reflexivity. f_equal. apply IH.
  - cbn [app unescape]. assert (c <> 92) by (intros ->; vm_compute in E; discriminate).
    rewrite (proj2 (Z.eqb_neq c 92)) by auto. f_equal. apply IH.
Qed.
Lemma unescape_plain : forall b x, ~ In 92 b -> unescape false (b ++ x) = b ++ unescape false x.
Proof.
  induction b as [|c b IH]; intros x H; [reflexivity|]. cbn [app unescape]. cbn [In] in H.
  rewrite (proj2 (Z.eqb_neq c 92)) by (intros ->; apply H; auto). f_equal. apply IH. tauto.
Qed.
Lemma utf16_no_backslash : forall b, Forall scalar b -> ~ In 92 b -> ~ In 92 (utf16_text b).
Proof.
  induction b as [|c b IH]; intros Hs H; [auto|]. inversion Hs as [|? ? Hc Hs']; subst. cbn [In] in H.
  rewrite utf16_text_cons. intros K. apply in_app_or in K as [K|K]; [|apply IH in K; auto].
  destruct Hc as [Hc _]. unfold utf16 in K. destruct (c <? 65536) eqn:E; cbn [In] in K; [tauto|].
  apply Z.ltb_ge in E. pose proof (Z.mod_pos_bound (c - 65536) 1024 ltac:(lia)).
  assert (0 <= (c - 65536) / 1024) by (apply Z.div_pos; lia). lia.
Qed.
Definition more_scalar (u : list Z * list Z * list rtext) : Prop :=
  let '(b, w, rs) := u in Forall scalar b /\ Forall scalar w /\ Forall scalar (form rs).
Lemma unescape_more : forall more, Forall more_scalar more ->
  Forall (fun u => let '(b, w, rs) := u in plain_blank b /\ ~ In 0 w /\ ~ In 0 (form rs)) more ->
  unescape false (utf16_text (concat (map more_surface more))) = utf16_text (concat (map restored_more more)).
Proof.
  induction more as [|[[b w] rs] more IH]; intros Hs H; [reflexivity|].
  inversion Hs as [|? ? Hu Hs']; subst. destruct Hu as (Sb & Sw & Sf).
  inversion H as [|? ? Hu H']; subst. destruct Hu as ((Hb & _) & _ & _).
  cbn [map concat more_surface restored_more]. rewrite !utf16_text_app.
  rewrite <- !app_assoc, unescape_plain by now apply utf16_no_backslash. f_equal.
  rewrite <- !writeEscaped_utf16 by auto.
  rewrite unescape_writeEscaped. f_equal.
  destruct w as [|c w].
  - change (utf16_text []) with (@nil Z). cbn [app].
    rewrite unescape_writeEscaped, IH by auto. reflexivity.
  - change (utf16_text (writeEscaped [94; 36])) with (writeEscaped [94; 36]). rewrite unescape_writeEscaped.
    change (utf16_text [94; 36]) with [94; 36]. f_equal.
    rewrite unescape_writeEscaped, IH by auto. reflexivity.
Qed.
Lemma unescape_surface : forall rs more, Forall scalar (form rs) -> Forall more_scalar more ->
  Forall (fun u => let '(b, w, rs) := u in plain_blank b /\ ~ In 0 w /\ ~ In 0 (form rs)) more ->
  unescape false (utf16_text (surface_text rs more)) = utf16_text (form rs ++ concat (map restored_more more)).
Proof.
  intros rs more Hf Hs Hm. unfold surface_text. rewrite !utf16_text_app, <- writeEscaped_utf16 by auto.
  rewrite unescape_writeEscaped, unescape_more by auto. reflexivity.
Qed.

(** the merged units can be read again *)
Lemma surface_head : forall rs more c t, form rs = c :: t -> ~ marks c ->
  forall x, forall y, hd_error (surface_text rs more ++ y) = Some x -> ~ marks x.
Proof.
  intros rs more c t E H x y Hx. unfold surface_text in Hx. rewrite E in Hx. cbn [writeEscaped] in Hx.
  destruct (is_escaped c) eqn:Ee; cbn [app hd_error] in Hx.
  - assert (x = 92) by congruence. subst x. unfold marks. cbn [In]. lia.
  - assert (x = c) by congruence. now subst x.
Qed.
Lemma merged_readings_ok : forall b w rs more ps, seg_ok (Merge b w rs more) -> good (Merge b w rs more, ps) ->
  rtext_ok (mkT None ps) /\ rtext_ok (mkT None (ps ++ [merged_tag])) /\ gap false b /\ wordblank w.
Proof.
  intros b w rs more ps [Hi (_ & _ & (c & t & Hform & Hmark) & _)] (G1 & G2 & G3).
  inversion Hi as [|? ? Hi' _]; subst. destruct Hi' as (Hb & Hw & _).
  split; [|split; [|auto]].
  - split; [exact G1|]. cbn [t_mark t_pieces]. rewrite G3. intros x Hx.
    apply (surface_head rs more c t Hform Hmark x []). now rewrite app_nil_r.
  - split.
    + apply Forall_app. split; auto. constructor; [|constructor]. cbn [piece_ok merged_tag].
      repeat (apply bb_char; [discriminate..|]). apply bb_nil.
    + cbn [t_mark t_pieces]. rewrite pieces_text_app, G3. intros x Hx. eapply surface_head; eauto.
Qed.
Lemma items_ok : forall l2, Forall seg_ok (map fst l2) -> Forall good l2 ->
  Forall item_ok (map merged_item l2) /\ Forall item_ok (map generated_item l2).
Proof.
  induction l2 as [|[s ps] l2 IH]; intros Hok Hg; [split; constructor|]. cbn [map fst] in Hok.
  inversion Hok as [|? ? Hs Hok']; subst. inversion Hg as [|? ? G Hg']; subst. destruct (IH Hok' Hg') as [I1 I2].
  cbn [map]. destruct s as [i|b w rs more].
  - destruct Hs as [Hi _]. inversion Hi; subst. split; constructor; auto.
  - destruct (merged_readings_ok _ _ _ _ _ Hs G) as (R1 & R2 & R3 & R4).
    split; constructor; auto; cbn [merged_item generated_item item_ok]; repeat split; auto; discriminate.
Qed.

Definition seg_scalar (s : seg) : Prop :=
  match s with
  | Keep i => Forall scalar (item_text i)
  | Merge b w rs more => Forall scalar b /\ Forall scalar w /\ Forall scalar (form rs) /\ Forall more_scalar more
  end.
Lemma unit_scalar : forall b w rs, Forall scalar (item_text (Unit b w rs)) ->
  Forall scalar b /\ Forall scalar w /\ Forall scalar (form rs).
Proof.
  intros b w rs H. cbn [item_text] in H. repeat rewrite Forall_app in H.
  destruct H as (Hb & Hw & _ & Hrs & _). auto using form_scalar, readings_text_scalar.
Qed.
Lemma source_scalar : forall l tail, Forall scalar (source l tail) -> Forall seg_scalar l /\ Forall scalar tail.
Proof.
  intros l tail. unfold source, stream_text. induction l as [|s l IH]; intros H.
  - cbn in H. auto.
  - cbn [map concat] in H. rewrite map_app, concat_app in H.
    apply Forall_app in H as [H Ht]. apply Forall_app in H as [H1 H2].
    destruct IH as [I1 I2]; [apply Forall_app; auto|]. split; auto. constructor; auto.
    destruct s as [i|b w rs more]; cbn [seg_items map concat] in H1.
    + rewrite app_nil_r in H1. exact H1.
    + apply Forall_app in H1 as [H0 H1]. apply unit_scalar in H0 as (Sb & Sw & Sf). do 3 (split; [assumption|]).
      clear - H1. induction more as [|[[b w] rs] more IH]; [constructor|]. cbn [map concat unit_of] in H1.
      apply Forall_app in H1 as [H0 H1]. constructor; auto. now apply unit_scalar.
Qed.
Lemma surface_scalar : forall rs more, Forall scalar (form rs) -> Forall more_scalar more ->
  Forall scalar (surface_text rs more).
Proof.
  intros rs more Hf Hm. unfold surface_text. apply Forall_app. split; [now apply writeEscaped_scalar|].
  induction Hm as [|[[b w] rs'] more (Sb & Sw & Sf) Hm IH]; [constructor|]. cbn [map concat more_surface].
  repeat (apply Forall_app; split); auto using writeEscaped_scalar.
  destruct w; [constructor|]. apply writeEscaped_scalar. repeat (constructor; [apply ascii_scalar; lia|]). constructor.
Qed.
Lemma generated_scalar : forall l2 tail, Forall seg_scalar (map fst l2) -> Forall good l2 -> Forall scalar tail ->
  Forall scalar (stream_text (map generated_item l2) tail).
Proof.
  intros l2 tail Hs Hg Ht. unfold stream_text. apply Forall_app. split; auto.
  induction l2 as [|[s ps] l2 IH]; [constructor|]. cbn [map fst] in Hs. inversion Hs as [|? ? H1 H2]; subst.
  inversion Hg as [|? ? G1 G2]; subst. cbn [map concat]. apply Forall_app. split; [|now apply IH].
  destruct s as [i|b w rs more]; [exact H1|]. destruct H1 as (Sb & Sw & Sf & Sm). destruct G1 as (_ & _ & G3).
  cbn [generated_item item_text readings_text r_text t_mark t_pieces app]. unfold r_text. cbn [t_mark t_pieces app].
  rewrite pieces_text_app, G3.
  pose proof (surface_scalar rs more Sf Sm) as Hx. clear G3. generalize dependent (surface_text rs more). intros x Hx.
  assert (A : forall c, 0 <= c < 128 -> scalar c) by apply ascii_scalar.
  assert (Hy : Forall scalar (pieces_text [merged_tag])).
  { repeat (constructor; [apply A; lia|]). constructor. }
  generalize dependent (pieces_text [merged_tag]). intros y Hy.
  repeat (rewrite Forall_app || rewrite Forall_cons_iff).
  assert (scalar 94 /\ scalar 47 /\ scalar 36) as (S1 & S2 & S3) by (repeat split; lia).
  assert (S4 : Forall scalar []) by constructor. tauto.
Qed.

Lemma unmerge_all : forall tail, gap true tail -> forall l2, Forall seg_ok (map fst l2) -> Forall good l2 ->
  Forall seg_scalar (map fst l2) ->
  forall fuel r, rd_eof r = false -> at_text (rd_file r) (stream_text (map generated_item l2) tail) ->
  (length l2 + 1 <= fuel)%nat ->
  unmerge_loop fuel r = Ok (utf16_text (concat (map restored (map fst l2)) ++ tail)).
Proof.
  intros tail Ht. induction l2 as [|[s ps] l2 IH]; intros Hok Hg Hsc fuel r Hr Ha Hf.
  - destruct fuel as [|fuel]; [cbn in Hf; lia|]. cbn [unmerge_loop]. rewrite Hr.
    unfold stream_text in *. cbn [map concat app] in *.
    destruct (tail_read r tail Ht Hr Ha) as (r' & -> & L). cbn [obind].
    assert (E1 : rd_readings r' = []) by (change (rd_readings r') with (n_readings (look r')); now rewrite L).
    assert (E2 : rd_blank r' = utf16_text tail) by (change (rd_blank r') with (n_blank (look r')); now rewrite L).
    assert (E3 : rd_wblank r' = []) by (change (rd_wblank r') with (n_wblank (look r')); now rewrite L).
    assert (E4 : rd_null r' = false) by (change (rd_null r') with (n_null (look r')); now rewrite L).
    assert (E5 : rd_eof r' = true) by (change (rd_eof r') with (n_eof (look r')); now rewrite L).
    unfold any_reading. rewrite E1, E2, E3, E4. cbn [existsb orb].
    destruct fuel; cbn [unmerge_loop]; rewrite E5; cbn [obind app write_unit]; now rewrite !app_nil_r.
  - cbn [map fst] in Hok, Hsc. cbn [map length] in Ha, Hf. inversion Hok as [|? ? Hs Hok']; subst.
    inversion Hg as [|? ? G Hg']; subst. inversion Hsc as [|? ? Sc Hsc']; subst.
    rewrite stream_text_cons in Ha. specialize (IH Hok' Hg' Hsc').
    destruct fuel as [|fuel]; [lia|]. cbn [unmerge_loop]. rewrite Hr. cbn [map concat fst]. rewrite <- app_assoc, utf16_text_app.
    destruct s as [i|b w rs more].
    + cbn [generated_item] in Ha. cbn [restored].
      destruct Hs as [Hi Hk]. inversion Hi as [|? ? Hi' _]; subst. destruct i as [b w rs|b].
      * destruct Hk as (Hc & _ & Hb).
        destruct (unit_read _ _ _ _ _ Hi' Hr Ha) as (r' & E & Er & A' & Eb & Ew & En & (alpha & Erd) & Sr & Sb & Sw & _ & _ & HM).
        rewrite E. cbn [obind].
        assert (N : any_reading MERGED r' = false) by (apply not_true_iff_false; rewrite HM; exact Hb).
        rewrite (IH fuel r' Er A') by lia. cbn [obind]. rewrite N, Eb, Ew, En, Erd.
        destruct Hi' as (_ & _ & Hrt & Hne). rewrite write_unit_expected by auto.
        f_equal. cbn [item_text]. rewrite !utf16_text_app, <- !app_assoc. reflexivity.
      * destruct (item_read _ r _ Hi' Hr Ha) as (r' & E & Er & A' & _ & _ & L). rewrite E. cbn [obind].
        assert (E1 : rd_readings r' = []) by (change (rd_readings r') with (n_readings (look r')); now rewrite L).
        assert (E2 : rd_blank r' = utf16_text b) by (change (rd_blank r') with (n_blank (look r')); now rewrite L).
        assert (E3 : rd_wblank r' = []) by (change (rd_wblank r') with (n_wblank (look r')); now rewrite L).
        assert (E4 : rd_null r' = true) by (change (rd_null r') with (n_null (look r')); now rewrite L).
        rewrite (IH fuel r' Er A') by lia. cbn [obind].
        unfold any_reading. rewrite E1, E2, E3, E4. cbn [existsb write_unit item_text app].
        f_equal. rewrite !utf16_text_app, <- ?app_assoc. reflexivity.
    + destruct (merged_readings_ok _ _ _ _ _ Hs G) as (R1 & R2 & R3 & R4).
      cbn [generated_item] in Ha.
      assert (Hi : item_ok (Unit b w [mkT None (ps ++ [merged_tag]); mkT None ps])) by (repeat split; auto; discriminate).
      destruct (unit_read _ _ _ _ _ Hi Hr Ha) as (r' & E & Er & A' & Eb & Ew & En & (alpha & Erd) & Sr & Sb & Sw & _ & _ & HM).
      rewrite E. cbn [obind]. destruct G as (_ & G2 & G3).
      assert (N : any_reading MERGED r' = true).
      { apply HM. eexists _, _, []. split; [left; reflexivity|]. cbn [t_pieces].
        rewrite chunkless_content; [|apply chunkless_app; auto; intros p [<-|[]]; exact I].
        rewrite pieces_text_app, app_nil_r. reflexivity. }
      rewrite (IH fuel r' Er A') by lia. cbn [obind]. rewrite N, Eb, Ew, En, Erd. cbn [map last expected r_content t_pieces].
      rewrite (chunkless_content _ G2), G3.
      destruct Sc as (_ & _ & Sf & Sm). destruct Hs as (_ & _ & _ & _ & _ & Hm).
      rewrite unescape_surface by auto. cbn [restored]. f_equal.
      rewrite !utf16_text_app, <- !app_assoc. reflexivity.
Qed.

Lemma items_bound : forall l tail, Forall item_ok l -> (length l <= length (stream_text l tail))%nat.
Proof.
  induction l as [|i l IH]; intros tail H; [cbn; lia|]. rewrite stream_text_cons, app_length. inversion H; subst.
  specialize (IH tail H3). cbn [length]. enough (1 <= length (item_text i))%nat by lia.
  destruct i; cbn [item_text]; rewrite !app_length; cbn [length]; lia.
Qed.
Lemma segs_items_ok : forall l, Forall seg_ok l -> Forall item_ok (concat (map seg_items l)).
Proof.
  induction l as [|s l IH]; intros H; [constructor|]. inversion H; subst. cbn [map concat].
  apply Forall_app. split; [apply H2|auto].
Qed.

(** Merging joins the marked sequences and leaves the rest alone; the result is a stream
    that can be read; after the generator has turned round each merged unit, unmerging
    gives back the words and the text between them. *)
Theorem C41_roundtrip : forall a l tail, Forall seg_ok l -> gap true tail -> Forall scalar (source l tail) ->
  exists l2, map fst l2 = l
    /\ Forall item_ok (map merged_item l2)
    /\ quoteMerge a (open_file (utf8_text (source l tail)))
       = Ok (utf16_text (stream_text (map merged_item l2) tail))
    /\ quoteUnmerge a (open_file (utf8_text (stream_text (map generated_item l2) tail)))
       = Ok (utf16_text (concat (map restored l) ++ tail)).
Proof.
  intros a l tail Hok Ht Hs. destruct (seg_pieces l Hok) as (l2 & <- & Hg). exists l2. split; [reflexivity|].
  destruct (items_ok l2 Hok Hg) as [I1 I2]. split; [exact I1|].
  destruct (source_scalar _ _ Hs) as [Ss St]. pose proof (generated_scalar l2 tail Ss Hg St) as Hs2. split.
  - unfold quoteMerge. apply merge_all; auto.
    + apply at_text_open. exact Hs.
    + pose proof (at_text_size _ _ (at_text_open _ Hs)) as Hz. unfold source in Hz.
      pose proof (items_bound _ tail (segs_items_ok _ Hok)). unfold source. lia.
  - unfold quoteUnmerge. apply unmerge_all; auto.
    + apply at_text_open. exact Hs2.
    + pose proof (at_text_size _ _ (at_text_open _ Hs2)) as Hz.
      pose proof (items_bound _ tail I2) as Hl. rewrite map_length in Hl. lia.
Qed.

(** Texts in ASCII *)
Fixpoint txt (s : String.string) : list Z :=
  match s with
  | String.EmptyString => []
  | String.String c r => Z.of_nat (Ascii.nat_of_ascii c) :: txt r
  end.
Import String.StringSyntax.
Arguments txt s%string_scope.
(** tests/lt_merge: WordblankTest and EscapedUnmergeTest *)
Example C41_example :
  quoteMerge new_alphabet (open_file (txt "^x/y<MERGE_BEG>$[[tf:i:a]]^ve\/ldig/v<adv>$ ^z/z<MERGE_END>$ ^bra/bra<adj>$."))
  = Ok (txt "^x\[\[tf:i:a\]\]\^\$ve\\\/ldig z/x\[\[tf:i:a\]\]\^\$ve\\\/ldig z<MERGED>$ ^bra/bra<adj>$.")
  /\ quoteUnmerge new_alphabet (open_file (txt "^x\[\[tf:i:a\]\]\^\$ve\\\/ldig z<MERGED>/x\[\[tf:i:a\]\]\^\$ve\\\/ldig z$ ^bra/bra<adj>$."))
  = Ok (txt "x[[tf:i:a]]^$ve\/ldig z ^bra/bra<adj>$.").
Proof. vm_compute. auto. Qed.
Lemma gap_nil : gap false [].
Proof. apply gap_blank. constructor. Qed.
(** The hypotheses of C41_roundtrip hold of the stream of the first test above. *)
Definition chars (s : list Z) : list piece := map PChar s.
Example C41_roundtrip_example :
  let l := [Merge [] [] [mkT None (chars (txt "x")); mkT None [PChar 121; PTag (txt "MERGE_BEG")]]
              [([], txt "[[tf:i:a]]", [mkT None (chars (txt "ve") ++ [PEsc 47] ++ chars (txt "ldig")); mkT None (chars (txt "v") ++ [PTag (txt "adv")])]);
               ([32], [], [mkT None (chars (txt "z")); mkT None [PChar 122; PTag (txt "MERGE_END")]])];
            Keep (Unit [32] [] [mkT None (chars (txt "bra")); mkT None (chars (txt "bra") ++ [PTag (txt "adj")])])] in
  Forall seg_ok l /\ gap true (txt ".")
  /\ source l (txt ".") = txt "^x/y<MERGE_BEG>$[[tf:i:a]]^ve\/ldig/v<adv>$ ^z/z<MERGE_END>$ ^bra/bra<adj>$."
  /\ concat (map restored l) ++ txt "." = txt "x[[tf:i:a]]^$ve\/ldig z ^bra/bra<adj>$.".
Proof.
  assert (Hno : forall t rs, contains t (concat (map (fun r => pieces_content (t_pieces r) ++ [10]) rs)) = false -> ~ has t rs).
  { intros t rs E (r & a & b & Hi & Ht). apply not_true_iff_false in E. apply E. apply contains_iff.
    apply in_split in Hi as (l1 & l2 & ->). rewrite map_app, concat_app. cbn [map concat]. rewrite Ht.
    eexists (concat (map (fun r => pieces_content (t_pieces r) ++ [10]) l1) ++ a).
    exists (b ++ [10] ++ concat (map (fun r => pieces_content (t_pieces r) ++ [10]) l2)).
    rewrite <- !app_assoc. reflexivity. }
  assert (Hbb : forall c t, forallb (fun x => negb ((x =? c) || (x =? 92) || (x =? 0))) t = true -> block_body c t).
  { intros c t. induction t as [|x t IH]; intros H; [constructor|]. cbn [forallb] in H. apply andb_true_iff in H as [H1 H2].
    apply negb_true_iff, orb_false_iff in H1 as [H1 H3]. apply orb_false_iff in H1 as [H1 H4].
    apply Z.eqb_neq in H1, H3, H4. apply bb_char; auto. }
  assert (Hpc : forall t, forallb (fun x => negb (existsb (Z.eqb x) [47; 36; 0; 60; 123; 92])) t = true -> Forall piece_ok (chars t)).
  { intros t. induction t as [|x t IH]; intros H; [constructor|]. cbn [forallb] in H. apply andb_true_iff in H as [H1 H2].
    constructor; [|auto]. apply negb_true_iff in H1. cbn [existsb] in H1. repeat (apply orb_false_iff in H1 as [? H1]).
    cbn [piece_ok]. repeat split; apply Z.eqb_neq; assumption. }
  assert (Hw : wblank_body (txt "tf:i:a")).
  { unfold txt. do 6 (apply wb_char; [vm_compute; congruence..|]). constructor. }
  assert (Hs : gap false [32]).
  { apply gap_blank. apply bl_char; [vm_compute; congruence..|constructor]. }
  assert (Hr : forall ps, Forall piece_ok ps -> forall c, hd_error (pieces_text ps) = Some c -> ~ marks c -> rtext_ok (mkT None ps)).
  { intros ps H c E N. split; [exact H|]. cbn [t_mark t_pieces]. rewrite E. intros x Hx. injection Hx as <-. exact N. }
  assert (Hr1 : rtext_ok (mkT None (chars (txt "x")))) by (eapply Hr; [apply Hpc; reflexivity|reflexivity|vm_compute; intuition congruence]).
  assert (Hr2 : rtext_ok (mkT None [PChar 121; PTag (txt "MERGE_BEG")])).
  { eapply Hr; [|reflexivity|vm_compute; intuition congruence]. constructor; [vm_compute; intuition congruence|].
    constructor; [|constructor]. apply Hbb. reflexivity. }
  assert (Hr3 : rtext_ok (mkT None (chars (txt "ve") ++ [PEsc 47] ++ chars (txt "ldig")))).
  { eapply Hr; [|reflexivity|vm_compute; intuition congruence]. apply Forall_app. split; [apply Hpc; reflexivity|].
    apply Forall_cons; [exact I|apply Hpc; reflexivity]. }
  assert (Hr4 : rtext_ok (mkT None (chars (txt "v") ++ [PTag (txt "adv")]))).
  { eapply Hr; [|reflexivity|vm_compute; intuition congruence]. apply Forall_app. split; [apply Hpc; reflexivity|].
    apply Forall_cons; [apply Hbb; reflexivity|constructor]. }
  assert (Hr5 : rtext_ok (mkT None (chars (txt "z")))) by (eapply Hr; [apply Hpc; reflexivity|reflexivity|vm_compute; intuition congruence]).
  assert (Hr6 : rtext_ok (mkT None [PChar 122; PTag (txt "MERGE_END")])).
  { eapply Hr; [|reflexivity|vm_compute; intuition congruence]. constructor; [vm_compute; intuition congruence|].
    constructor; [|constructor]. apply Hbb. reflexivity. }
  assert (Hr7 : rtext_ok (mkT None (chars (txt "bra")))) by (eapply Hr; [apply Hpc; reflexivity|reflexivity|vm_compute; intuition congruence]).
  assert (Hr8 : rtext_ok (mkT None (chars (txt "bra") ++ [PTag (txt "adj")]))).
  { eapply Hr; [|reflexivity|vm_compute; intuition congruence]. apply Forall_app. split; [apply Hpc; reflexivity|].
    apply Forall_cons; [apply Hbb; reflexivity|constructor]. }
  assert (Hi : forall b w r1 r2, gap false b -> wordblank w -> rtext_ok r1 -> rtext_ok r2 -> item_ok (Unit b w [r1; r2])).
  { intros b w r1 r2 H1 H2 H3 H4. split; [exact H1|]. split; [exact H2|]. split; [|discriminate].
    constructor; [exact H3|]. constructor; [exact H4|constructor]. }
  intros l. split; [|split; [|split; reflexivity]].
  - constructor; [|constructor; [|constructor]].
    + split.
      * cbn [seg_items map unit_of]. constructor; [apply Hi; auto using gap_nil; now left|].
        constructor; [apply Hi; auto using gap_nil; right; exists (txt "tf:i:a"); now split|].
        constructor; [apply Hi; auto using gap_nil; now left|constructor].
      * split; [|split; [|split; [|split]]].
        -- eexists. exists [121], []. split; [right; left; reflexivity|reflexivity].
        -- cbn [ends_last]. split; [apply Hno; reflexivity|]. split; [apply Hno; reflexivity|].
           eexists. exists [122], []. split; [right; left; reflexivity|reflexivity].
        -- exists 120, []. split; [reflexivity|]. vm_compute. intuition congruence.
        -- vm_compute. intuition congruence.
        -- constructor; [|constructor; [|constructor]].
           ++ split; [|split; vm_compute; intuition congruence]. split; [intros []|]. exists []. split; [reflexivity|].
              split; [constructor|intros p []].
           ++ split; [|split; vm_compute; intuition congruence]. split; [vm_compute; intuition congruence|].
              exists [PChar 32]. split; [reflexivity|]. split; [apply (Hpc [32]); reflexivity|intros p [<- | []]; exact I].
    + split; [constructor; [apply Hi; auto; now left|constructor]|]. split; [|split; apply Hno; reflexivity].
      intros r p [<- | [<- | []]] Hp; vm_compute in Hp; intuition (subst; exact I).
  - apply gap_blank. apply bl_char; [vm_compute; congruence..|constructor].
Qed.
(** The text between merged words is not escaped: a slash in it ends the reading, and
    unmerging loses what stands before it. *)
Theorem C41_blank_refuted :
  quoteMerge new_alphabet (open_file (txt "^a/b<MERGE_BEG>$ / ^c/d<MERGE_END>$")) = Ok (txt "^a / c/a / c<MERGED>$")
  /\ quoteUnmerge new_alphabet (open_file (txt "^a / c<MERGED>/a / c$")) = Ok (txt " c").
Proof. vm_compute. auto. Qed.
(** Without <MERGE_END> everything from <MERGE_BEG> to the end of the text is lost. *)
Theorem C41_unclosed_refuted :
  quoteMerge new_alphabet (open_file (txt "^a/b<MERGE_BEG>$ ^c/d<n>$ e")) = Ok [].
Proof. vm_compute. reflexivity. Qed.
(** Unmerging the merged stream itself keeps the tag. *)
Theorem C41_direct_refuted :
  quoteMerge new_alphabet (open_file (txt "^a/b<MERGE_BEG><MERGE_END>$")) = Ok (txt "^a/a<MERGED>$")
  /\ quoteUnmerge new_alphabet (open_file (txt "^a/a<MERGED>$")) = Ok (txt "a<MERGED>").
Proof. vm_compute. auto. Qed.

(** C55: what is read for a stream with a word-bound blank, a mark, a chunk and a NUL *)
Example C55_example :
  read_stream 10 (new_reader (open_file (txt "[b] x[[w]]^a\/b<n>/*c{^d<v>$}$[[u]] " ++ [0] ++ txt "z")) (Some new_alphabet) true)
  = Ok [mkSeen (txt "[b] x") (txt "[[w]]")
          [mkR 0 (txt "a\/b<n>") [97; 47; 98; -1]; mkR 42 (txt "c") [99]] (txt "{^d<v>$}") false false;
        mkSeen (txt "[[u]] ") [] [] [] true false;
        mkSeen (txt "z") [] [] [] false true].
Proof. vm_compute. reflexivity. Qed.

(** * C40: escapes *)
(** The characters with a meaning in the stream: [ ] { } ^ $ / \ @ < > *)
Definition meta (c : Z) : Prop := In c (txt "[]{}^$/\@<>").
(** [t] is text in which every character with a meaning has its own backslash, and [s] is
    what it says. *)
Inductive says : list Z -> list Z -> Prop :=
| says_nil : says [] []
| says_char c t s : ~ meta c -> says t s -> says (c :: t) (c :: s)
| says_esc c t s : says t s -> says (92 :: c :: t) (c :: s).

Lemma meta_iff : forall c, is_escaped c = true <-> meta c.
Proof.
  intros c. unfold is_escaped, meta. rewrite existsb_exists.
  assert (P : forall x, In x escaped_chars <-> In x (txt "[]{}^$/\@<>")).
  { intros x. vm_compute txt. cbn [In escaped_chars]. tauto. }
  split.
  - intros (x & Hx & E). apply Z.eqb_eq in E. subst x. now apply P.
  - intros H. exists c. rewrite Z.eqb_refl. split; [now apply P|reflexivity].
Qed.

(** What is written with escapes says the text, has a backslash only before a character
    with a meaning, and nothing else is said by it. *)
Theorem C40_escaped : forall s,
  says (writeEscaped s) s
  /\ (forall s', says (writeEscaped s) s' -> s' = s)
  /\ (forall a c b, writeEscaped s = a ++ c :: b -> meta c -> c <> 92 -> exists a', a = a' ++ [92]).
Proof.
  intros s. split; [|split].
  - induction s as [|c s IH]; [constructor|]. cbn [writeEscaped]. destruct (is_escaped c) eqn:E; cbn [app].
    + apply says_esc. exact IH.
    + apply says_char; auto. rewrite <- meta_iff. congruence.
  - induction s as [|c s IH]; intros s' H.
    + inversion H. reflexivity.
    + cbn [writeEscaped] in H. destruct (is_escaped c) eqn:E; cbn [app] in H.
      * inversion H; subst.
        -- exfalso. apply H2. apply meta_iff. reflexivity.
        -- f_equal. auto.
      * assert (c <> 92) by (intros ->; vm_compute in E; discriminate). inversion H; subst; [f_equal; auto|congruence].
  - induction s as [|c s IH]; intros a x b H Hx H92; [destruct a; discriminate|].
    cbn [writeEscaped] in H. destruct (is_escaped c) eqn:E; cbn [app] in H.
    + destruct a as [|y a]; cbn [app] in H; [assert (x = 92) by congruence; contradiction|].
      assert (y = 92) by congruence. subst y. destruct a as [|y a]; [exists []; reflexivity|]. cbn [app] in H.
      assert (y = c) by congruence. subst y.
      destruct (IH a x b ltac:(congruence) Hx H92) as (a' & ->). exists (92 :: c :: a'). reflexivity.
    + destruct a as [|y a]; cbn [app] in H.
      * assert (x = c) by congruence. subst x. apply meta_iff in Hx. congruence.
      * destruct (IH a x b ltac:(congruence) Hx H92) as (a' & ->). exists (y :: a'). reflexivity.
Qed.
Example C40_escaped_example : writeEscaped (txt "a/b\c^") = txt "a\/b\\c\^".
Proof. reflexivity. Qed.

(** ** Read back by readAnalysis *)
Definition buffer_ok (b : buffer Z) : Prop :=
  b_size b = 2048 /\ length (b_buf b) = 2048%nat /\ b_cur b = b_last b /\ 0 <= b_last b <= 2048.
Lemma set_cell_length : forall (l : list (option Z)) i v, length (set_cell i v l) = length l.
Proof. induction l as [|x l IH]; intros [|i] v; cbn; auto. Qed.
Lemma add_ok : forall v b, buffer_ok b -> exists b', add v b = Ok b' /\ buffer_ok b'.
Proof.
  intros v b (H1 & H2 & H3 & H4). unfold add. rewrite H1, H2.
  set (last := if b_last b =? 2048 then 0 else b_last b).
  assert (0 <= last < 2048).
  { unfold last. destruct (b_last b =? 2048) eqn:E; [lia|]. apply Z.eqb_neq in E. lia. }
  replace ((last <? 0) || (Z.of_nat 2048 <=? last)) with false.
  - eexists. split; [reflexivity|]. unfold buffer_ok. cbn [b_size b_buf b_cur b_last]. rewrite set_cell_length. repeat split; auto; lia.
  - symmetry. apply orb_false_iff. split; [apply Z.ltb_ge; lia|apply Z.leb_gt; lia].
Qed.
Definition spaces (s : list Z) : list (list Z) := map (fun c => [c]) (filter (Z.eqb 32) s).

Lemma read_one : forall ignored a c rest src, scalar c -> c <> 0 -> c <> U_EOF ->
  (forall x, c = x -> ~ meta c -> ignored c = false) -> ignored 92 = false ->
  buffer_ok (s_buf src) -> at_text (s_file src) (writeEscaped [c] ++ rest) ->
  exists src', readAnalysis ignored a src = Ok (c, src') /\ buffer_ok (s_buf src') /\ at_text (s_file src') rest
    /\ s_blanks src' = s_blanks src ++ spaces [c].
Proof.
  intros ignored a c rest [f b bl] Hc H0 HE Hi H92 Hb Ha. cbn [s_buf s_file s_blanks] in *. unfold readAnalysis.
  cbn [s_buf s_file s_blanks].
  assert (Eb : isEmpty b = true) by (unfold isEmpty; destruct Hb as (_ & _ & -> & _); apply Z.eqb_refl).
  rewrite Eb. cbn [negb].
  destruct (add_ok c b Hb) as (b' & Eadd & Hb').
  unfold spaces. cbn [filter map writeEscaped app] in *.
  destruct (is_escaped c) eqn:E; cbn [app] in Ha.
  - destruct (get_at _ _ _ Ha) as (f1 & -> & A1 & _). cbn [obind]. rewrite (at_text_eof _ _ A1).
    replace (92 =? U_EOF) with false by reflexivity. cbn [Nat.add skip_ignored]. rewrite H92. cbn [obind].
    replace (92 =? 60) with false by reflexivity. replace (92 =? 91) with false by reflexivity.
    replace (92 =? 92) with true by reflexivity.
    destruct (get_at _ _ _ A1) as (f2 & -> & A2 & _). cbn [obind]. rewrite Eadd. cbn [obind].
    eexists. split; [reflexivity|]. cbn [s_buf s_file s_blanks]. do 2 (split; [assumption|]).
    assert (32 =? c = false) by (apply Z.eqb_neq; intros <-; vm_compute in E; discriminate).
    rewrite H. cbn [map]. now rewrite app_nil_r.
  - assert (Hn : ~ meta c) by (rewrite <- meta_iff; congruence).
    assert (Hne : forall x, is_escaped x = true -> c =? x = false) by (intros x Hx; apply Z.eqb_neq; intros ->; congruence).
    destruct (get_at _ _ _ Ha) as (f1 & -> & A1 & _). cbn [obind]. rewrite (at_text_eof _ _ A1).
    rewrite (proj2 (Z.eqb_neq c U_EOF)) by auto. cbn [Nat.add skip_ignored]. rewrite (Hi c eq_refl Hn). cbn [obind].
    rewrite (Hne 60), (Hne 91), (Hne 92) by reflexivity. rewrite E, Eadd. cbn [obind].
    eexists. split; [reflexivity|]. cbn [s_buf s_file s_blanks]. do 2 (split; [assumption|]).
    rewrite (Z.eqb_sym 32 c). destruct (c =? 32) eqn:E32; [|reflexivity]. apply Z.eqb_eq in E32. now subst c.
Qed.

(** Escaped text is read back symbol by symbol and then 0, and every space leaves its
    blank, for every text without NUL and U+FFFF and with no ignored character (those with
    a meaning are escaped and may be ignored ones, the backslash excepted). *)
Theorem C40_read_back : forall ignored a s, Forall scalar s -> ignored 92 = false ->
  Forall (fun c => c <> 0 /\ c <> U_EOF /\ (~ meta c -> ignored c = false)) s ->
  exists src, read_symbols ignored a (S (length s)) (new_source (open_file (utf8_text (writeEscaped s)))) = Ok (s, src)
    /\ s_blanks src = spaces s.
Proof.
  intros ignored a s Hs H92 Hok.
  assert (G : forall s src, Forall scalar s -> Forall (fun c => c <> 0 /\ c <> U_EOF /\ (~ meta c -> ignored c = false)) s ->
    buffer_ok (s_buf src) -> at_text (s_file src) (writeEscaped s) ->
    exists src', read_symbols ignored a (S (length s)) src = Ok (s, src') /\ s_blanks src' = s_blanks src ++ spaces s).
  { clear s Hs Hok. induction s as [|c s IH]; intros src Hs Hok Hb Ha.
    - cbn [length read_symbols]. unfold readAnalysis.
      assert (Eb : isEmpty (s_buf src) = true) by (unfold isEmpty; destruct Hb as (_ & _ & -> & _); apply Z.eqb_refl).
      rewrite Eb. cbn [negb writeEscaped] in *. rewrite (get_end _ Ha). cbn [obind eof i_eof].
      destruct (add_ok 0 _ Hb) as (b' & -> & _). cbn [obind]. eexists. split; [reflexivity|]. cbn [s_blanks].
      now rewrite app_nil_r.
    - inversion Hs as [|? ? Hc Hs']; subst. inversion Hok as [|? ? (K1 & K2 & K3) Hok']; subst.
      change (writeEscaped (c :: s)) with (writeEscaped ([c] ++ s)) in Ha. rewrite writeEscaped_app in Ha.
      destruct (read_one ignored a c _ src Hc K1 K2 ltac:(auto) H92 Hb Ha) as (src1 & E & B1 & A1 & L1).
      destruct (IH src1 Hs' Hok' B1 A1) as (src2 & E2 & L2).
      exists src2. cbn [length]. change (S (S (length s))) with (S (S (length s))). cbn [read_symbols].
      rewrite E. cbn [obind]. rewrite (proj2 (Z.eqb_neq c 0)) by auto.
      cbn [read_symbols] in E2. rewrite E2. cbn [obind]. split; [reflexivity|].
      rewrite L2, L1, <- app_assoc. f_equal. unfold spaces. cbn [filter]. destruct (32 =? c); reflexivity. }
  destruct (G s (new_source (open_file (utf8_text (writeEscaped s)))) Hs Hok) as (src & E & L).
  - unfold new_source, buffer_ok. cbn [s_buf b_size b_buf b_cur b_last]. rewrite repeat_length. repeat split; lia.
  - cbn [s_file new_source]. apply at_text_open. now apply writeEscaped_scalar.
  - exists src. auto.
Qed.
Example C40_read_back_example : exists src,
  read_symbols default_ignored new_alphabet 20 (new_source (open_file (txt "a\/b \<\\"))) = Ok (txt "a/b <\", src)
  /\ s_blanks src = [[32]].
Proof. eexists. split; vm_compute; reflexivity. Qed.
(** An ignored character at the very end leaves U+FFFF in the text read. *)
Theorem C40_ignored_refuted : exists src,
  read_symbols default_ignored new_alphabet 20 (new_source (open_file (utf8_text (writeEscaped [97; 173])))) = Ok ([97; 65535], src).
Proof. eexists. vm_compute. reflexivity. Qed.

(** ** Read back by StreamReader *)
Definition slashed (rs : list rtext) : list Z := concat (map (fun r => 47 :: r_text r) rs).
Lemma readings_slashed : forall rs r, readings_text (r :: rs) = r_text r ++ slashed rs.
Proof.
  induction rs as [|r' rs IH]; intros r; [cbn; now rewrite app_nil_r|].
  change (readings_text (r :: r' :: rs)) with (r_text r ++ 47 :: readings_text (r' :: rs)). rewrite IH. reflexivity.
Qed.
Lemma esc_symbols : forall a s, piece_symbols a (esc_pieces s) = s.
Proof.
  induction s as [|c s IH]; [reflexivity|]. unfold piece_symbols, esc_pieces in *. cbn [map concat]. rewrite IH.
  destruct (is_escaped c); reflexivity.
Qed.
Lemma esc_content : forall s, pieces_content (esc_pieces s) = writeEscaped s.
Proof. intros s. now rewrite chunkless_content, esc_pieces_text by apply esc_pieces_chunkless. Qed.
Lemma esc_head : forall s c, hd_error (writeEscaped s) = Some c -> c = 92 \/ hd_error s = Some c.
Proof.
  intros [|x s] c H; [discriminate|]. cbn [writeEscaped] in H. destruct (is_escaped x); cbn [app hd_error] in *;
    injection H as <-; auto.
Qed.
Lemma esc_tags : forall s, piece_tags (esc_pieces s) = [].
Proof.
  induction s as [|c s IH]; [reflexivity|]. unfold piece_tags, esc_pieces in *. cbn [map concat]. rewrite IH.
  destruct (is_escaped c); reflexivity.
Qed.
Lemma printed_read : forall a add s rs rest, Forall scalar s -> ~ In 0 s ->
  (forall c, hd_error s = Some c -> ~ In c (txt "*#=%")) -> Forall rtext_ok rs ->
  Forall scalar (slashed rs) -> Forall scalar rest ->
  let alpha := after_tags add rs (Some a) in
  exists r, next_unit (new_reader (open_file (utf8_text ([94] ++ writeEscaped s ++ slashed rs ++ [36] ++ rest))) (Some a) add) = Ok r
    /\ look r = mkSeen [] [] (mkR 0 (writeEscaped (utf16_text s)) s :: map (expected alpha) rs) (utf16_text (chunks rs)) false false
    /\ at_text (rd_file r) rest.
Proof.
  intros a add s rs rest Hs H0 Hm Hrs Hsc Hrest alpha.
  set (r0 := new_reader (open_file (utf8_text ([94] ++ writeEscaped s ++ slashed rs ++ [36] ++ rest))) (Some a) add).
  set (rs1 := mkT None (esc_pieces s) :: rs).
  destruct (C55_unit r0 [] [] rs1 rest) as (f' & E & A').
  - reflexivity.
  - exact gap_nil.
  - left. reflexivity.
  - constructor; [|exact Hrs]. split; cbn [t_mark t_pieces]; [now apply esc_pieces_ok|].
    intros c. rewrite esc_pieces_text. intros H M. destruct (esc_head s c H) as [-> |H'].
    + vm_compute in M. intuition discriminate.
    + assert (c <> 64).
      { intros ->. destruct s as [|x s]; [discriminate|]. cbn in H'. injection H' as ->. vm_compute in H. discriminate. }
      apply (Hm c H'). unfold marks in M. vm_compute txt. cbn [In] in *. intuition congruence.
  - discriminate.
  - unfold r0, new_reader. cbn [rd_file]. unfold item_text, rs1. rewrite readings_slashed. unfold r_text at 1.
    cbn [t_mark t_pieces app]. rewrite esc_pieces_text. rewrite <- !app_assoc. cbn [app]. apply at_text_open.
    constructor; [apply ascii_scalar; lia|]. rewrite !Forall_app. cbn [app]. rewrite Forall_cons_iff.
    do 3 (split; [first [now apply writeEscaped_scalar|assumption|apply ascii_scalar; lia]|]). exact Hrest.
  - eexists. split; [exact E|].
    assert (Ea : after_tags (rd_add r0) rs1 (rd_alpha r0) = alpha).
    { unfold alpha, r0, new_reader. cbn [rd_add rd_alpha after_tags]. unfold tags_of, rs1. cbn [map concat t_pieces].
      now rewrite esc_tags. }
    rewrite Ea. split; [|exact A'].
    unfold look. cbn [rd_blank rd_wblank rd_readings rd_chunk rd_null rd_eof]. unfold rs1. cbn [map]. f_equal.
    + f_equal. unfold expected. cbn [t_mark t_pieces]. rewrite esc_content, writeEscaped_utf16 by auto. f_equal.
      unfold alpha. cbn [after_tags]. apply esc_symbols.
    + unfold chunks. cbn [map concat t_pieces]. f_equal.
      assert (pieces_chunk (esc_pieces s) = []); [|now rewrite H].
      clear. induction s as [|c s IH]; [reflexivity|]. unfold pieces_chunk, esc_pieces in *. cbn [map concat]. rewrite IH.
      destruct (is_escaped c); reflexivity.
Qed.

(** A word printed with its analyses is read back: its surface form, symbol by symbol, then
    the analyses.  [s] is the surface form; it has no NUL and does not begin with a mark. *)
Theorem C40_word : forall a add s rs rest, Forall scalar s -> ~ In 0 s ->
  (forall c, hd_error s = Some c -> ~ In c (txt "*#=%")) -> Forall rtext_ok rs ->
  Forall scalar (slashed rs) -> Forall scalar rest ->
  let alpha := after_tags add rs (Some a) in
  exists out r, printWord (utf16_text s) (utf16_text (slashed rs)) = utf16_text out
    /\ next_unit (new_reader (open_file (utf8_text (out ++ rest))) (Some a) add) = Ok r
    /\ look r = mkSeen [] [] (mkR 0 (writeEscaped (utf16_text s)) s :: map (expected alpha) rs) (utf16_text (chunks rs)) false false
    /\ at_text (rd_file r) rest.
Proof.
  intros a add s rs rest Hs H0 Hm Hrs Hsc Hrest alpha.
  destruct (printed_read a add s rs rest Hs H0 Hm Hrs Hsc Hrest) as (r & E & L & A).
  exists ([94] ++ writeEscaped s ++ slashed rs ++ [36]), r. split; [|split; [|now split]].
  - unfold printWord. rewrite writeEscaped_utf16 by auto. rewrite !utf16_text_app. reflexivity.
  - rewrite <- E. rewrite <- !app_assoc. reflexivity.
Qed.
(** ... and an unknown word with its form marked by a star. *)
Theorem C40_unknown : forall a add s rest, Forall scalar s -> ~ In 0 s ->
  (forall c, hd_error s = Some c -> ~ In c (txt "*#=%")) -> Forall scalar rest ->
  exists out r, printUnknownWord (utf16_text s) = utf16_text out
    /\ next_unit (new_reader (open_file (utf8_text (out ++ rest))) (Some a) add) = Ok r
    /\ look r = mkSeen [] [] [mkR 0 (writeEscaped (utf16_text s)) s; mkR 42 (writeEscaped (utf16_text s)) s] [] false false
    /\ at_text (rd_file r) rest.
Proof.
  intros a add s rest Hs H0 Hm Hrest.
  assert (Es : slashed [mkT (Some 42) (esc_pieces s)] = [47; 42] ++ writeEscaped s).
  { unfold slashed, r_text. cbn [map concat t_mark t_pieces app]. now rewrite app_nil_r, esc_pieces_text. }
  destruct (printed_read a add s [mkT (Some 42) (esc_pieces s)] rest Hs H0 Hm) as (r & E & L & A); auto.
  { constructor; [|constructor]. split; [now apply esc_pieces_ok|]. vm_compute. auto. }
  { rewrite Es. apply Forall_app. split; [|now apply writeEscaped_scalar].
    constructor; [apply ascii_scalar; lia|]. constructor; [apply ascii_scalar; lia|constructor]. }
  exists ([94] ++ writeEscaped s ++ ([47; 42] ++ writeEscaped s) ++ [36]), r. split; [|split; [|split; [|exact A]]].
  - unfold printUnknownWord. rewrite writeEscaped_utf16 by auto. rewrite !utf16_text_app. rewrite <- !app_assoc. reflexivity.
  - rewrite <- E, Es, <- !app_assoc. reflexivity.
  - rewrite L. cbn [map]. unfold expected, chunks. cbn [t_mark t_pieces map concat].
    assert (pieces_chunk (esc_pieces s) = []).
    { clear. induction s as [|c s IH]; [reflexivity|]. unfold pieces_chunk, esc_pieces in *. cbn [map concat]. rewrite IH.
      destruct (is_escaped c); reflexivity. }
    rewrite H. cbn [app]. rewrite esc_content, writeEscaped_utf16 by auto.
    cbn [after_tags]. rewrite esc_symbols. reflexivity.
Qed.
Example C40_word_example :
  printWord (txt "a/<b") (txt "/c\/<n>/d") = txt "^a\/\<b/c\/<n>/d$"
  /\ printUnknownWord (txt "a/b") = txt "^a\/b/*a\/b$".
Proof. vm_compute. auto. Qed.
(** A surface form that begins with a mark is read back without it. *)
Theorem C40_mark_refuted :
  printUnknownWord (txt "#a") = txt "^#a/*#a$"
  /\ exists r, next_unit (new_reader (open_file (txt "^#a/*#a$")) (Some new_alphabet) true) = Ok r
  /\ rd_readings r = [mkR 35 (txt "a") (txt "a"); mkR 42 (txt "#a") (txt "#a")].
Proof. split; [reflexivity|]. eexists. split; vm_compute; reflexivity. Qed.

(** ** writeEscapedPopBlanks and printWordPopBlank *)
(** The text is the escaped one, whatever the blanks; a plain space uses up its blank and
    other blanks are kept and printed after the word. *)
Theorem C40_pop_blanks : forall s blanks,
  (forall t n left, writeEscapedPopBlanks s blanks = Ok (t, n, left) ->
     t = writeEscaped s /\ exists used, blanks = used ++ left /\ Forall (eq [32]) used
       /\ length (filter (Z.eqb 32) s) = (length used + n)%nat)
  /\ (writeEscapedPopBlanks s blanks = UB <-> (length (filter (Z.eqb 32) s) > length blanks)%nat /\ Forall (eq [32]) blanks).
Proof.
  induction s as [|c s IH]; intros blanks.
  - split.
    + intros t n left E. cbn in E. injection E as <- <- <-. split; [reflexivity|]. exists []. now split.
    + cbn. split; [discriminate|lia].
  - cbn [writeEscapedPopBlanks filter writeEscaped]. rewrite (Z.eqb_sym 32 c). destruct (c =? 32) eqn:Ec.
    + apply Z.eqb_eq in Ec. subst c. destruct blanks as [|b bs].
      * cbn [obind]. split; [discriminate|]. cbn [length]. split; [|reflexivity]. intros _. split; [lia|constructor].
      * destruct (ustr_eq_dec b [32]) as [-> |Hb].
        -- cbn [obind]. destruct (IH bs) as [I1 I2]. split.
           ++ intros t n left E. destruct (writeEscapedPopBlanks s bs) as [[[t0 n0] l0]| | | |] eqn:E0; try discriminate.
              cbn [obind] in E. injection E as <- <- <-. destruct (I1 _ _ _ eq_refl) as (-> & used & -> & Hu & Hn).
              split; [reflexivity|]. exists ([32] :: used). split; [reflexivity|]. split; [now constructor|]. cbn [length]. lia.
           ++ destruct (writeEscapedPopBlanks s bs) as [[[t0 n0] l0]| | | |] eqn:E0; cbn [obind length];
                (split; [intros E; try discriminate|intros (Hl & Hf); inversion Hf; subst; try reflexivity;
                   exfalso; assert (X : (length (filter (Z.eqb 32) s) > length bs)%nat /\ Forall (eq [32]) bs) by (split; [lia|assumption]);
                   apply I2 in X; discriminate]).
              destruct I2 as [I2 _]. destruct (I2 eq_refl) as [K1 K2]. split; [lia|now constructor].
        -- cbn [obind]. destruct (IH (b :: bs)) as [I1 I2]. split.
           ++ intros t n left E. destruct (writeEscapedPopBlanks s (b :: bs)) as [[[t0 n0] l0]| | | |] eqn:E0; try discriminate.
              cbn [obind] in E. injection E as <- <- <-. destruct (I1 _ _ _ eq_refl) as (-> & used & Hd & Hu & Hn).
              split; [reflexivity|]. exists used. split; [exact Hd|]. split; [exact Hu|]. cbn [length]. lia.
           ++ assert (N : ~ Forall (eq [32]) (b :: bs)) by (intros K; inversion K; congruence).
              destruct (writeEscapedPopBlanks s (b :: bs)) as [[[t0 n0] l0]| | | |] eqn:E0; cbn [obind];
                (split; [intros E; try discriminate|intros (_ & K); contradiction]).
              destruct I2 as [I2 _]. destruct (I2 eq_refl) as [K1 K2]. contradiction.
    + cbn [obind]. destruct (IH blanks) as [I1 I2]. split.
      * intros t n left E. destruct (writeEscapedPopBlanks s blanks) as [[[t0 n0] l0]| | | |] eqn:E0; try discriminate.
        cbn [obind] in E. injection E as <- <- <-. destruct (I1 _ _ _ eq_refl) as (-> & used & Hd & Hu & Hn).
        split; [reflexivity|]. now exists used.
      * rewrite <- I2. destruct (writeEscapedPopBlanks s blanks) as [[[t0 n0] l0]| | | |]; cbn [obind]; (split; [intros E; first [discriminate E|reflexivity]|intros E; first [discriminate E|reflexivity]]).
Qed.
Example C40_pop_blanks_example :
  printWordPopBlank (txt "a b c") (txt "/x") [[32]; txt "[<i>]"; [32]] = Ok (txt "^a b c/x$[<i>]", [[32]]).
Proof. reflexivity. Qed.

(** One blank is taken from the queue for every space of the word while there are blanks:
    plain spaces, which the word itself shows, and after the first other blank all the rest,
    which are printed after the word unchanged and in order. *)
Theorem C40_pop_blanks_word : forall sf lf blanks out left,
  printWordPopBlank sf lf blanks = Ok (out, left) ->
  exists used kept, blanks = used ++ kept ++ left /\ Forall (eq [32]) used
    /\ length (used ++ kept) = Nat.min (length (filter (Z.eqb 32) sf)) (length blanks)
    /\ out = printWord sf lf ++ concat kept.
Proof.
  intros sf lf blanks out left E. unfold printWordPopBlank in E.
  destruct (C40_pop_blanks sf blanks) as [P _].
  destruct (writeEscapedPopBlanks sf blanks) as [[[t n] l]| | | |]; try discriminate. cbn [obind] in E.
  destruct (P t n l eq_refl) as (-> & used & -> & Hu & Hn).
  assert (left = skipn n l) as -> by congruence.
  assert (out = [94] ++ writeEscaped sf ++ lf ++ [36] ++ concat (firstn n l)) as -> by congruence.
  exists used, (firstn n l). split; [now rewrite firstn_skipn|]. split; [exact Hu|]. split.
  - rewrite !app_length, firstn_length. lia.
  - unfold printWord. now rewrite <- !app_assoc.
Qed.
Example C40_pop_blanks_word_example :
  printWordPopBlank (txt "a b c d") (txt "/x") [[32]; txt "[<i>]"; txt "[]"; [32]] = Ok (txt "^a b c d/x$[<i>][]", [[32]]).
Proof. reflexivity. Qed.

(** ** writeEscapedWithTags *)
(** A lemma without '<' that does not end in a backslash is escaped and its tags are not. *)
Theorem C40_tags : forall lemma tags, ~ In 60 lemma ->
  tags = [] \/ (lemma <> [] /\ last lemma 0 <> 92 /\ hd_error tags = Some 60) ->
  writeEscapedWithTags (lemma ++ tags) = writeEscaped lemma ++ tags.
Proof.
  intros lemma tags H Ht. unfold writeEscapedWithTags.
  assert (G : forall l p, ~ In 60 l -> tags = [] \/ (last l (match p with Some x => x | None => 92 end) <> 92 /\ hd_error tags = Some 60) ->
    escapedWithTags p (l ++ tags) = writeEscaped l ++ tags).
  { clear. induction l as [|c l IH]; intros p H Ht.
    - cbn [app writeEscaped]. destruct Ht as [-> | (Hl & Hh)]; [reflexivity|]. destruct tags as [|t tags]; [discriminate|].
      injection Hh as ->. cbn [last] in Hl. cbn [escapedWithTags]. destruct p as [p|]; [|congruence].
      rewrite (proj2 (Z.eqb_neq p 92)) by auto. reflexivity.
    - cbn [app escapedWithTags writeEscaped].
      assert (c <> 60) by (intros ->; apply H; now left).
      rewrite (proj2 (Z.eqb_neq c 60)) by auto. cbn [andb]. rewrite <- app_assoc. f_equal. apply IH.
      + intros K. apply H. now right.
      + destruct Ht as [-> | (Hl & Hh)]; [now left|]. right. split; auto.
        destruct l as [|x l]; [exact Hl|]. intros E. apply Hl. rewrite <- E. clear. cbn [last].
        revert x. induction l as [|y l IH]; intros x; [reflexivity|]. cbn [last]. apply IH. }
  apply G; auto. destruct Ht as [-> | (H1 & H2 & H3)]; [now left|right]. split; auto.
  destruct lemma as [|x l]; [congruence|]. intros E. apply H2. rewrite <- E. clear. revert x.
  induction l as [|y l IH]; intros x; [reflexivity|]. cbn [last]. apply IH.
Qed.
Example C40_tags_example : writeEscapedWithTags (txt "a/b<n><sg>") = txt "a\/b<n><sg>".
Proof. reflexivity. Qed.
(** With '<' in the lemma the rest is written as it is, so the slash in this one is not
    escaped; after a lemma that ends in a backslash the tag is escaped. *)
Theorem C40_tags_refuted :
  writeEscapedWithTags (txt "a<b/c") = txt "a<b/c" /\ writeEscapedWithTags (txt "a\<n>") = txt "a\\\<n\>".
Proof. vm_compute. auto. Qed.

Print Assumptions C55_unit.
Print Assumptions C55_stream.
Print Assumptions C41_roundtrip.
Print Assumptions C41_blank_refuted.
Print Assumptions C41_unclosed_refuted.
Print Assumptions C41_direct_refuted.
Print Assumptions C40_escaped.
Print Assumptions C40_read_back.
Print Assumptions C40_ignored_refuted.
Print Assumptions C40_word.
Print Assumptions C40_unknown.
Print Assumptions C40_mark_refuted.
Print Assumptions C40_pop_blanks.
Print Assumptions C40_tags.
Print Assumptions C40_tags_refuted.
Print Assumptions C40_pop_blanks_word.
