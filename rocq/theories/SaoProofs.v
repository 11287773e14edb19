(** Proofs for C84. *)
From Verif Require Import Base CompressionModel AlphabetModel StateModel StateSpec StatePathProofs StateProps
  FinalsModel FinalsProps StringModel InputModel InputProps StreamModel StreamProps ProcessorModel
  ProcessorProofs CompoundProofs CompoundProps LookupProps AnalysisSpec BufferModel BufferProps AnalysisProofs
  AnalysisScan TmProofs SaoModel SaoSpec.

(** * Blocks *)
Lemma sao_escaped_iff : forall c, sao_escaped c = true <-> special c.
Proof. intros c. unfold sao_escaped. rewrite !orb_true_iff, !Z.eqb_eq. cbn. intuition congruence. Qed.
Lemma sao_escaped_not : forall c, sao_escaped c = false <-> ~ special c.
Proof. intros c. rewrite <- sao_escaped_iff. destruct (sao_escaped c); split; congruence. Qed.
Lemma special_utf16 : forall c, special c -> utf16 c = [c].
Proof. intros c H. unfold utf16. cbn in H. replace (c <? 65536) with true by lia. reflexivity. Qed.
Lemma special_scalar : forall c, special c -> scalar c.
Proof. intros c H. apply ascii_scalar. cbn in H. lia. Qed.
Lemma utf16_text_snoc : forall x p c, Forall scalar x -> utf16_text x = p ++ [c] -> c < 55296 ->
  exists x1, x = x1 ++ [c] /\ utf16_text x1 = p.
Proof.
  intros x p c Hx E Hc. destruct x as [|e x] using rev_ind; [destruct p; discriminate E|]. clear IHx.
  apply Forall_app in Hx as [_ He]. apply Forall_inv in He. rewrite utf16_text_app in E.
  replace (utf16_text [e]) with (utf16 e) in E by (unfold utf16_text; cbn [map concat]; now rewrite app_nil_r).
  destruct (utf16_units e He) as [(_ & U & _)|(h & l & U & _ & Hl & _)]; rewrite U in E.
  - apply app_inj_tail in E as [E1 ->]. eauto.
  - replace (utf16_text x ++ [h; l]) with ((utf16_text x ++ [h]) ++ [l]) in E by (rewrite <- app_assoc; reflexivity).
    apply app_inj_tail in E as [_ ->]. lia.
Qed.
Lemma ends_utf16 : forall x, Forall scalar x -> endswith (utf16_text x) cdata_close = true ->
  exists x1, x = x1 ++ [93; 93; 62].
Proof.
  intros x Hx H. unfold endswith in H. apply andb_prop in H as [L H]. apply Nat.leb_le in L.
  destruct (list_eq_dec Z.eq_dec (skipn (length (utf16_text x) - length cdata_close) (utf16_text x)) cdata_close) as [E|]; [|discriminate].
  assert (S : utf16_text x = (((firstn (length (utf16_text x) - length cdata_close) (utf16_text x)) ++ [93]) ++ [93]) ++ [62]).
  { rewrite <- (firstn_skipn (length (utf16_text x) - length cdata_close) (utf16_text x)) at 1. rewrite E, <- !app_assoc. reflexivity. }
  destruct (utf16_text_snoc x _ _ Hx S ltac:(lia)) as (x1 & -> & S1). apply Forall_app in Hx as [Hx _].
  destruct (utf16_text_snoc x1 _ _ Hx S1 ltac:(lia)) as (x2 & -> & S2). apply Forall_app in Hx as [Hx _].
  destruct (utf16_text_snoc x2 _ _ Hx S2 ltac:(lia)) as (x3 & -> & _). exists x3. now rewrite <- !app_assoc.
Qed.
Lemma utf16_ascii : forall l, Forall (fun c => 0 <= c < 128) l -> utf16_text l = l.
Proof.
  intros l H. induction H as [|c l Hc _ IH]; [reflexivity|]. rewrite utf16_text_cons, IH. unfold utf16.
  replace (c <? 65536) with true by lia. reflexivity.
Qed.
Lemma ends_app : forall x, endswith (x ++ cdata_close) cdata_close = true.
Proof.
  intros x. unfold endswith. rewrite app_length. replace (length x + length cdata_close - length cdata_close)%nat with (length x) by lia.
  replace (length cdata_close <=? length x + length cdata_close)%nat with true by (symmetry; apply Nat.leb_le; lia).
  rewrite skipn_app, skipn_all, Nat.sub_diag. cbn [app skipn andb].
  destruct (list_eq_dec Z.eq_dec cdata_close cdata_close); congruence.
Qed.
Lemma plain_block : forall u, ~ In 62 u -> ~ In 0 u -> ~ In 92 u -> block_body 62 u.
Proof.
  intros u. induction u as [|c u IH]; intros H1 H2 H3; constructor.
  4: apply IH. all: try (intros ->; cbn in *; now auto). all: intros K; cbn in *; auto.
Qed.
Lemma first_gt : forall y, (exists y0, y = y0 ++ [62]) -> exists u v, y = u ++ 62 :: v /\ ~ In 62 u /\ (v = [] \/ exists v0, v = v0 ++ [62]).
Proof.
  intros y. induction y as [|c y IH]; intros (y0 & E); [destruct y0; discriminate E|].
  destruct (Z.eq_dec c 62) as [->|N].
  - exists [], y. split; [reflexivity|]. split; [easy|]. destruct y0 as [|d y0]; cbn [app] in E; [left; congruence|].
    right. exists y0. congruence.
  - destruct y0 as [|d y0]; cbn [app] in E; [congruence|]. destruct IH as (u & v & E1 & Hu & Hv); [exists y0; congruence|].
    exists (c :: u), v. rewrite E1. split; [reflexivity|]. split; [|exact Hv]. intros [K|K]; auto.
Qed.
Lemma cdata_read : forall k t, (forall x y, t = x ++ [93; 93; 62] ++ y -> y = []) -> (exists z, t = z ++ [93; 93; 62]) ->
  Forall scalar t -> ~ In 0 t -> ~ In 92 t -> forall x y f rest fuel, t = x ++ y -> (y = [] \/ exists y0, y = y0 ++ [62]) ->
  at_text f (y ++ rest) -> (length y <= k)%nat -> (length y < fuel)%nat ->
  exists f', cdata_loop fuel (utf16_text x) f = Ok (utf16_text t, f') /\ at_text f' rest.
Proof.
  intros k t H1 H2 Hs H0 H9. induction k as [|k IH]; intros x y f rest fuel E Hy Ha Lk Lf.
  all: assert (Done : y = [] -> exists f', cdata_loop fuel (utf16_text x) f = Ok (utf16_text t, f') /\ at_text f' rest).
  1,3: (intros ->; rewrite app_nil_r in E; subst x; exists f; split; [|exact Ha]; destruct H2 as (z & ->);
    rewrite utf16_text_app; change (utf16_text [93; 93; 62]) with cdata_close; destruct fuel; cbn [cdata_loop]; now rewrite ends_app).
  - apply Done. destruct y; [auto|cbn in Lk; lia].
  - destruct Hy as [Hy|Hy]; [now apply Done|]. destruct (first_gt y Hy) as (u & v & Ey & Hu & Hv).
    destruct fuel as [|fuel]; [lia|]. cbn [cdata_loop].
    assert (Sx : Forall scalar x) by (rewrite E in Hs; now apply Forall_app in Hs).
    assert (N : endswith (utf16_text x) cdata_close = false).
    { destruct (endswith (utf16_text x) cdata_close) eqn:X; auto. exfalso. destruct (ends_utf16 x Sx X) as (x1 & ->).
      specialize (H1 x1 y). rewrite H1 in Ey by (rewrite E, <- app_assoc; reflexivity). destruct u; discriminate Ey. }
    rewrite N. rewrite Ey, <- app_assoc in Ha. cbn [app] in Ha.
    assert (Iu : forall c, In c u -> In c t) by (intros c K; rewrite E, Ey, !in_app_iff; auto).
    destruct (C42_block f 60 62 u (v ++ rest) (ascii_scalar 60 ltac:(lia)) ltac:(lia) ltac:(lia)) as (f1 & E1 & A1).
    { apply plain_block; auto. }
    { exact Ha. }
    rewrite E1. cbn [obind]. rewrite utf16_text_cons. change (utf16 60) with [60]. cbn [app skipn].
    rewrite <- utf16_text_app. rewrite Ey, app_length in Lk, Lf. cbn [length] in Lk, Lf.
    apply (IH (x ++ u ++ [62]) v f1 rest fuel); auto; try lia. rewrite E, Ey, <- !app_assoc. reflexivity.
Qed.

(** * Reading *)
Lemma parts_text_cons : forall i l, parts_text (i :: l) = part_text i ++ parts_text l.
Proof. reflexivity. Qed.
Definition part_blanks (i : part) : list ustr := match i with Cdata _ => [utf16_text (part_text i)] | _ => [] end.
Lemma part_scalar : forall i, part_ok i -> scalar (part_symbol i) /\ part_symbol i <> 0.
Proof.
  intros [c|c|b]; cbn [part_ok part_symbol]; [tauto| |intros _; split; [apply ascii_scalar; lia|lia]].
  intros H. split; [now apply special_scalar|]. cbn in H. lia.
Qed.
Lemma in_open_no : forall c, In c [60; 33; 91; 67; 68; 65; 84; 65; 91] -> c <> 0 /\ c <> 92 /\ c <> 62 /\ c <> 93 /\ 0 <= c < 128.
Proof. intros c H. cbn in H. lia. Qed.
Lemma close_inside : forall b x y, (forall x y, b ++ [93; 93; 62] = x ++ [93; 93; 62] ++ y -> y = []) ->
  [60; 33; 91; 67; 68; 65; 84; 65; 91] ++ b ++ [93; 93; 62] = x ++ [93; 93; 62] ++ y -> y = [].
Proof.
  intros b x y H E. cbn [app] in E.
  do 9 (destruct x as [|? x]; [discriminate E|]; cbn [app] in E; injection E as ? E; subst).
  exact (H x y E).
Qed.
Lemma part_scalars : forall i, part_ok i -> Forall scalar (part_text i).
Proof.
  intros [c|c|b]; cbn [part_ok part_text].
  - intros [H _]. now constructor.
  - intros H. constructor; [apply ascii_scalar; lia|]. constructor; [now apply special_scalar|constructor].
  - intros (Hb & _). apply Forall_app. split; [|apply Forall_app; split; [exact Hb|]]; apply Forall_forall; intros c Hc;
      apply ascii_scalar; cbn in Hc; lia.
Qed.
Lemma parts_scalar : forall l, Forall part_ok l -> Forall scalar (parts_text l).
Proof.
  intros l H. induction H as [|i l Hi _ IH]; [constructor|]. rewrite parts_text_cons. apply Forall_app. split; auto.
  now apply part_scalars.
Qed.
Lemma read_part : forall i l f b bl, part_ok i -> isEmpty b = true -> file_at f (parts_text (i :: l)) ->
  exists f', file_at f' (parts_text l) /\ forall b', add (part_symbol i) b = Ok b' ->
    readSAO (mkS f b bl) = Ok (part_symbol i, mkS f' b' (bl ++ part_blanks i)).
Proof.
  intros i l f b bl Hi Eb Hf. rewrite parts_text_cons in Hf. unfold readSAO. cbn [s_buf s_file s_blanks]. rewrite Eb. cbn [negb].
  destruct i as [c|c|body].
  - cbn [part_text app part_symbol part_blanks part_ok] in *. destruct Hi as (Hc & H0 & Hm). apply file_at_cons in Hf.
    destruct (get_at _ _ _ Hf) as (f1 & -> & A1 & _). exists f1. split; [now left|]. intros b' Hb. cbn [obind].
    rewrite (at_text_eof _ _ A1), (proj2 (sao_escaped_not c) Hm), Hb. cbn [obind]. now rewrite app_nil_r.
  - cbn [part_text app part_symbol part_blanks part_ok] in *. apply file_at_cons in Hf.
    destruct (get_at _ _ _ Hf) as (f1 & -> & A1 & _). cbn [obind]. rewrite (at_text_eof _ _ A1).
    destruct (get_at _ _ _ A1) as (f2 & E2 & A2 & _). exists f2. split; [now left|]. intros b' Hb.
    replace (sao_escaped 92) with true by reflexivity. replace (92 =? 60) with false by reflexivity.
    replace (92 =? 92) with true by reflexivity. rewrite E2. cbn [obind]. rewrite (proj2 (sao_escaped_iff c) Hi), Hb. cbn [obind].
    now rewrite app_nil_r.
  - pose proof (part_scalars _ Hi) as Hsc. cbn [part_ok] in Hi. destruct Hi as (Hs & H0 & H9 & Hc).
    set (t := part_text (Cdata body)) in *.
    assert (Et : t = 60 :: [33; 91; 67; 68; 65; 84; 65; 91] ++ body ++ [93; 93; 62]) by reflexivity.
    assert (Nt : ~ In 0 t /\ ~ In 92 t).
    { unfold t. cbn [part_text]. rewrite !in_app_iff. split; intros [K|[K|K]]; try (now auto); cbn in K; lia. }
    cbn [part_symbol part_blanks]. fold t. rewrite Et in Hf. cbn [app] in Hf. apply file_at_cons in Hf.
    destruct (get_at _ _ _ Hf) as (f1 & -> & A1 & _). cbn [obind]. rewrite (at_text_eof _ _ A1).
    destruct (first_gt (body ++ [93; 93; 62])) as (u & v & Ey & Hu & Hv).
    { exists (body ++ [93; 93]). rewrite <- app_assoc. reflexivity. }
    assert (Iu : forall c, In c u -> In c t).
    { intros c K. rewrite Et. right. apply in_app_iff. right. rewrite Ey. apply in_app_iff. now left. }
    destruct (C42_block f1 60 62 ([33; 91; 67; 68; 65; 84; 65; 91] ++ u) (v ++ parts_text l) (ascii_scalar 60 ltac:(lia)) ltac:(lia) ltac:(lia))
      as (f2 & E2 & A2).
    { apply plain_block; rewrite in_app_iff; intros [K|K]; try (cbn in K; lia); [now apply Hu|apply (proj1 Nt), Iu, K|apply (proj2 Nt), Iu, K]. }
    { replace (([33; 91; 67; 68; 65; 84; 65; 91] ++ u) ++ 62 :: v ++ parts_text l)
        with ([33; 91; 67; 68; 65; 84; 65; 91] ++ (u ++ 62 :: v) ++ parts_text l) by (rewrite <- !app_assoc; reflexivity).
      rewrite <- Ey. exact A1. }
    pose proof (at_text_size _ _ A2) as Sz. rewrite app_length in Sz.
    destruct (cdata_read (length v) t) with (x := 60 :: ([33; 91; 67; 68; 65; 84; 65; 91] ++ u) ++ [62]) (y := v) (f := f2)
      (rest := parts_text l) (fuel := (2 + i_size f2)%nat) as (f3 & E3 & A3); try tauto; try lia.
    { intros x y E. apply (close_inside body x y Hc). exact E. }
    { exists (60 :: [33; 91; 67; 68; 65; 84; 65; 91] ++ body). rewrite Et. cbn [app]. rewrite <- ?app_assoc. reflexivity. }
    { rewrite Et, Ey. cbn [app]. rewrite <- !app_assoc. reflexivity. }
    exists f3. split; [now left|]. intros b' Hb. replace (sao_escaped 60) with true by reflexivity.
    replace (60 =? 60) with true by reflexivity. rewrite E2. cbn [obind].
    assert (St : startswith (utf16_text (60 :: ([33; 91; 67; 68; 65; 84; 65; 91] ++ u) ++ [62])) cdata_open = true).
    { change (60 :: ([33; 91; 67; 68; 65; 84; 65; 91] ++ u) ++ [62]) with (cdata_open ++ u ++ [62]).
      rewrite utf16_text_app. change (utf16_text cdata_open) with cdata_open. reflexivity. }
    rewrite St, E3. cbn [obind]. rewrite Hb. reflexivity.
Qed.

Definition fresh (l : list part) (r : source) : Prop :=
  (exists t, rel Size (s_buf r) t /\ t_at t = t_len t) /\ file_at (s_file r) (parts_text l).
Definition just (i : part) (l : list part) (r : source) : Prop :=
  (exists all, rel Size (s_buf r) (mkTape (all ++ [part_symbol i]) (Z.of_nat (length all) + 1)))
  /\ file_at (s_file r) (parts_text l).
Definition pending (i : part) (l : list part) (r : source) : Prop :=
  (exists all, rel Size (s_buf r) (mkTape (all ++ [part_symbol i]) (Z.of_nat (length all))))
  /\ file_at (s_file r) (parts_text l).
(** Between two steps: the text [l] is to be read, its first part perhaps again *)
Definition ready (l : list part) (r : source) : Prop :=
  (fresh l r /\ s_blanks r = []) \/ exists i l', l = i :: l' /\ pending i l' r /\ s_blanks r = part_blanks i.
Lemma just_fresh : forall i l r, just i l r -> fresh l r.
Proof.
  intros i l r [(all & R) F]. split; [|exact F]. eexists. split; [exact R|]. unfold t_len. cbn [t_at t_all].
  rewrite app_length. cbn. lia.
Qed.
Lemma ready_read : forall i l r, part_ok i -> ready (i :: l) r ->
  exists r', readSAO r = Ok (part_symbol i, r') /\ just i l r' /\ s_blanks r' = part_blanks i.
Proof.
  intros i l [f b bl] Hi [[[(t & R & Ht) Hf] B]|(i' & l' & E & [(all & R) Hf] & B)]; cbn [s_buf s_file s_blanks] in *.
  - assert (Eb : isEmpty b = true).
    { unfold isEmpty. rewrite (empty_iff Size ltac:(lia) _ _ R). apply Z.eqb_eq. lia. }
    destruct (read_part i l f b bl Hi Eb Hf) as (f' & Hf' & E).
    destruct (add_rel b t (part_symbol i) R) as (b' & Ea & R'). exists (mkS f' b' (bl ++ part_blanks i)).
    split; [auto|]. split; [|cbn [s_blanks]; now rewrite B]. split; [|exact Hf']. exists (t_all t). exact R'.
  - injection E as <- <-.
    assert (Eb : isEmpty b = false).
    { unfold isEmpty. rewrite (empty_iff Size ltac:(lia) _ _ R). apply Z.eqb_neq. unfold t_len. cbn [t_at t_all].
      rewrite app_length. cbn. lia. }
    unfold readSAO. cbn [s_buf s_file s_blanks]. rewrite Eb. cbn [negb].
    destruct (next_rel b _ (part_symbol i) R) as (b' & -> & R').
    { cbn [t_all t_at]. rewrite Nat2Z.id, nth_error_app2, Nat.sub_diag by lia. reflexivity. }
    cbn [obind]. eexists. split; [reflexivity|]. split; [|exact B]. split; [|exact Hf]. exists all. exact R'.
Qed.
Lemma read_end : forall r, ready [] r -> exists r', readSAO r = Ok (0, r') /\ s_blanks r' = [].
Proof.
  intros [f b bl] [[[(t & R & Ht) Hf] B]|(i' & l' & E & _)]; [|discriminate E]. cbn [s_buf s_file s_blanks] in *.
  assert (Eb : isEmpty b = true).
  { unfold isEmpty. rewrite (empty_iff Size ltac:(lia) _ _ R). apply Z.eqb_eq. lia. }
  unfold readSAO. cbn [s_buf s_file s_blanks]. rewrite Eb. cbn [negb].
  rewrite (get_file_end f Hf). cbn [obind eof i_eof]. eexists. split; [reflexivity|exact B].
Qed.
Lemma back_here : forall (b : buffer Z) t, rel Size b t -> back 1 b = back 1 (setPos (getPos b) b).
Proof.
  intros b t R. destruct (r_cur _ _ _ R) as [_ B]. pose proof (r_size _ _ _ R) as S. unfold back, setPos, getPos.
  cbn [b_size b_buf b_cur b_last]. rewrite S. assert (U : u32 (b_cur b) = b_cur b) by (apply Z.mod_small; lia). rewrite U.
  f_equal. destruct (Z.eq_dec (b_cur b) Size) as [->|N]; [reflexivity|]. rewrite (Z.mod_small (b_cur b)) by lia. reflexivity.
Qed.
Lemma just_back : forall i l r, just i l r -> pending i l (go_back 1 r).
Proof.
  intros i l r [(all & R) F]. split; [|exact F]. exists all. cbn [go_back s_buf].
  rewrite (back_here _ _ R). change (mkTape (all ++ [part_symbol i]) (Z.of_nat (length all)))
    with (mkTape (t_all (mkTape (all ++ [part_symbol i]) (Z.of_nat (length all) + 1))) (Z.of_nat (length all))).
  destruct (r_cur _ _ _ R) as [C B]. cbn [t_at] in C. unfold getPos.
  apply back_one_rel; [exact R|exact C|exact B|lia|]. unfold t_len. cbn [t_all]. rewrite app_length. cbn. lia.
Qed.
Lemma just_set : forall i l r, just i l r -> pending i l (go_back 1 (set_pos (getPos (s_buf r)) r)).
Proof.
  intros i l r J. pose proof (just_back i l r J) as K. destruct J as [(all & R) F]. destruct K as [(all' & R') F'].
  split; [|exact F]. exists all'. cbn [go_back set_pos s_buf] in *. rewrite <- (back_here _ _ R). exact R'.
Qed.

(** * What is written for a state *)
Section Texts.
  Context (P : processor).
  Definition nice (s : list (Z * Z)) : Prop :=
    Forall (fun x => (scalar (fst x) /\ scalar (p_toupper P (fst x)))
      \/ (fst x < 0 /\ exists name, nth_error (slexicinv (p_alpha P)) (Z.to_nat (- fst x - 1)) = Some (60 :: name ++ [62]))) s.
  Lemma spell_rendered : forall up s, nice s -> exists t, sao_spell P up s = Ok t /\ rendered (p_alpha P) (p_toupper P) up s t.
  Proof.
    intros up s H. induction H as [|[c w] s Hc Hs (t & E & R)]; [exists []; split; [reflexivity|constructor]|].
    cbn [sao_spell fst] in *. unfold isTag. destruct Hc as [[Hc Hu]|(Hc & name & Hn)].
    - replace (c <? 0) with false by (destruct Hc; lia). destruct (Z.eq_dec c 0) as [->|N0].
      + unfold getSymbolCase, getSymbol. cbn [Z.ltb Z.compare andb Z.eqb obind]. rewrite E. cbn [obind].
        exists t. split; [reflexivity|now constructor].
      + assert (G : getSymbolCase (p_toupper P) c up (p_alpha P) = Ok (utf16 (if up then p_toupper P c else c))).
        { unfold getSymbolCase. replace (0 <? c) with true by (destruct Hc; lia). destruct up; cbn [andb].
          - now rewrite append_cp_utf16.
          - now apply getSymbol_scalar. }
        rewrite G. cbn [obind]. rewrite E. cbn [obind]. destruct (sao_escaped c) eqn:Ec.
        * eexists. split; [reflexivity|]. apply rn_special; auto. now apply sao_escaped_iff.
        * eexists. split; [reflexivity|]. cbn [app]. apply rn_char; auto; [destruct Hc; lia|]. now apply sao_escaped_not.
    - replace (c <? 0) with true by lia. unfold getSymbol. replace (c =? 0) with false by lia.
      replace (c <? 0) with true by lia. rewrite Hn. cbn [obind annotation].
      replace (length (60%Z :: name ++ [62%Z]) <? 2)%nat with false by (symmetry; apply Nat.ltb_ge; cbn [length]; rewrite app_length; cbn; lia).
      cbn [length]. rewrite app_length. cbn [length]. replace (S (length name + 1) - 2)%nat with (length name) by lia.
      rewrite firstn_app, firstn_all, Nat.sub_diag. cbn [firstn]. rewrite app_nil_r, E. cbn [obind].
      assert (Ec : sao_escaped c = false) by (unfold sao_escaped; lia). rewrite Ec.
      eexists. split; [reflexivity|]. cbn [app]. rewrite <- app_assoc. cbn [app]. now apply rn_tag.
  Qed.
  Lemma first_capital : forall t, p_toupper P 0 = 0 -> exists t', first_up (p_toupper P) 0 t = Ok t' /\ capital (p_toupper P) t t'.
  Proof.
    intros t H0. unfold first_up. destruct t as [|c t].
    - cbn [length Nat.ltb Nat.leb nth Z.eqb]. rewrite H0. cbn. exists []. split; [reflexivity|constructor].
    - change (length (c :: t) <? 0)%nat with false. cbn iota. cbn [nth].
      destruct (Z.eqb_spec c 126) as [->|N].
      + destruct t as [|d t].
        * cbn [nth length Nat.ltb Nat.leb]. rewrite H0. cbn. exists [126]. split; [reflexivity|constructor].
        * cbn [nth length Nat.ltb Nat.leb put_nth]. eexists. split; [reflexivity|constructor].
      + cbn [nth length Nat.ltb Nat.leb put_nth]. eexists. split; [reflexivity|now constructor].
  Qed.
  Definition printed (up first : bool) (s : list (Z * Z)) (t : ustr) : Prop :=
    exists t0, rendered (p_alpha P) (p_toupper P) up s t0 /\ (if first then capital (p_toupper P) t0 t else t = t0).
  Lemma filter_sao : forall up first st, p_toupper P 0 = 0 ->
    (forall x, In x st -> final_weight (v_where x) (all_finals P) <> None -> nice (v_seq x)) ->
    exists lf, filterFinalsSAO P up first st = Ok lf
      /\ ((lf = [] /\ isFinal (all_finals P) st = false) \/ exists x t more, In x st /\ final_weight (v_where x) (all_finals P) <> None
           /\ printed up first (v_seq x) t /\ lf = 47 :: t ++ more /\ (more = [] \/ exists m, more = 47 :: m)).
  Proof.
    intros up first st H0. induction st as [|x st IH]; intros H; cbn [filterFinalsSAO].
    - exists []. split; [reflexivity|]. left. auto.
    - destruct IH as (lf & E & C); [intros y Hy; apply H; now right|].
      destruct (final_weight (v_where x) (all_finals P)) as [fw|] eqn:F.
      + destruct (spell_rendered up (v_seq x)) as (t & Et & Rt); [apply H; [now left|congruence]|]. rewrite Et. cbn [obind].
        assert (X : exists t', (if first then first_up (p_toupper P) 0 t else Ok t) = Ok t' /\ printed up first (v_seq x) t').
        { destruct first; [|exists t; split; [reflexivity|now exists t]].
          destruct (first_capital t H0) as (t' & E' & C'). exists t'. split; [exact E'|now exists t]. }
        destruct X as (t' & -> & Pt). cbn [obind]. rewrite E. cbn [obind]. eexists. split; [reflexivity|]. right.
        exists x, t', lf. split; [now left|]. split; [congruence|]. split; [exact Pt|]. split; [reflexivity|].
        destruct C as [[-> _]|(? & ? & more & _ & _ & _ & -> & _)]; [now left|right; eauto].
      + exists lf. split; [exact E|]. destruct C as [[-> Hf]|(y & t & more & Hin & Hw & Hp & -> & Hm)].
        * left. split; [reflexivity|]. unfold isFinal in *. cbn [existsb]. rewrite F. exact Hf.
        * right. exists y, t, more. split; [now right|]. auto.
  Qed.
  Lemma to_slash_at : forall t more, ~ In 47 t -> (more = [] \/ exists m, more = 47 :: m) -> to_slash (t ++ more) = t.
  Proof.
    intros t more. induction t as [|c t IH]; intros H M.
    - destruct M as [->|(m & ->)]; reflexivity.
    - cbn [app to_slash]. rewrite (proj2 (Z.eqb_neq c 47)) by (intros ->; apply H; now left). f_equal. apply IH; auto.
      intros K. apply H. now right.
  Qed.
End Texts.

(** * The loop *)
Notation psymbols := (map part_symbol).
Section Loop.
  Context (P : processor) (cs : bool) (HD : sao_dix P cs).
  Notation isletter i := (letter P (part_symbol i)).

  Lemma letter_alpha : forall c, letter P c -> isAlphabetic P c = true.
  Proof. intros c. apply isAlphabetic_iff. Qed.
  Lemma letter_space : forall c, letter P c -> p_isspace P c = false.
  Proof. intros c H. destruct (p_isspace P c) eqn:E; auto. exfalso. exact (sd_space _ _ HD c E H). Qed.
  Lemma letter_blanks : forall i, isletter i -> part_blanks i = [].
  Proof.
    intros [c|c|b] H; try reflexivity. exfalso. cbn [part_symbol] in H. exact (sd_space _ _ HD 32 (proj1 (sd_blank _ _ HD)) H).
  Qed.
  Lemma symbols_scalar : forall l, Forall part_ok l -> Forall scalar (psymbols l).
  Proof. intros l H. apply Forall_map. eapply Forall_impl; [|exact H]. intros i Hi. apply (part_scalar i Hi). Qed.

  Lemma run_all : forall s, Forall scalar s -> Forall (letter P) s ->
    Z.of_nat (length (utf16_text s)) - Z.of_nat (snd (firstNotAlpha P (utf16_text s))) = 0.
  Proof.
    intros s Hs Hl. destruct (firstNotAlpha_run P s Hs) as (k & R & ->). cbn [snd].
    assert (k = length s).
    { apply (run_unique P s k (length s) R). split; [lia|]. split; [now rewrite firstn_all|lia]. }
    subst k. rewrite firstn_all. lia.
  Qed.
  Lemma sao_run_reads : forall b j i0 l0 sf r rounds, Forall part_ok (j :: b ++ [i0]) -> Forall (fun i => isletter i) (j :: b) -> ~ isletter i0 ->
    fresh (b ++ i0 :: l0) r -> s_blanks r = [] -> (length b < rounds)%nat ->
    exists r', sao_run P rounds (part_symbol j) sf r = Ok (sf ++ utf16_text (psymbols (j :: b)), r')
      /\ just i0 l0 r' /\ s_blanks r' = part_blanks i0.
  Proof.
    intros b. induction b as [|k b IH]; intros j i0 l0 sf r rounds Hok Hl H0 Hf Hb Hr; (destruct rounds as [|rounds]; [cbn in Hr; lia|]);
      cbn [sao_run]; destruct (part_scalar j (Forall_inv Hok)) as [Sj Nj]; rewrite getSymbol_scalar by auto; cbn [obind];
      apply Forall_inv_tail in Hok; cbn [app] in *.
    - destruct (ready_read i0 l0 r (Forall_inv Hok)) as (r' & -> & J & B); [left; auto|]. cbn [obind].
      rewrite (proj2 (isAlphabetic_not P _) H0), andb_false_r. exists r'. split; [|auto]. cbn [map]. rewrite utf16_text_cons. cbn. now rewrite app_nil_r.
    - destruct (ready_read k (b ++ i0 :: l0) r (Forall_inv Hok)) as (r' & -> & J & B); [left; auto|]. cbn [obind].
      apply Forall_inv_tail in Hl. pose proof (Forall_inv Hl) as Lk. rewrite (letter_alpha _ Lk).
      destruct (part_scalar k (Forall_inv Hok)) as [_ Nk]. rewrite (proj2 (Z.eqb_neq _ _) Nk). cbn [negb andb].
      destruct (IH k i0 l0 (sf ++ utf16 (part_symbol j)) r' rounds Hok Hl H0) as (r2 & -> & J2 & B2); auto.
      + eapply just_fresh; eauto.
      + rewrite B. now apply letter_blanks.
      + cbn in Hr. lia.
      + exists r2. split; [|auto]. rewrite <- app_assoc. cbn [map]. now rewrite (utf16_text_cons (part_symbol j)).
  Qed.

  Lemma final_none : forall st, isFinal [] st = false.
  Proof. intros st. unfold isFinal. induction st as [|x st IH]; cbn; auto. Qed.
  Lemma dead_on : forall w c st, good P cs (w ++ [c]) -> state_of P w = Ok st -> ~ living P cs (w ++ [c]) ->
    step_case P c st = Ok [].
  Proof.
    intros w c st G E N. destruct (good_here P cs _ G) as (st1 & E1 & _). pose proof E1 as E2. rewrite state_of_snoc, E in E2.
    cbn [obind] in E2. rewrite E2. f_equal. destruct st1 as [|x st1]; auto. exfalso. apply N.
    apply (state_living P cs _ _ G E1). discriminate.
  Qed.
  Lemma state_nice : forall w st, good P cs w -> state_of P w = Ok st ->
    forall x, In x st -> final_weight (v_where x) (all_finals P) <> None -> nice P (v_seq x).
  Proof.
    intros w st G E [q s d] Hin Hf. apply (state_reads P cs w st G E) in Hin as (l & _ & Hp). cbn [v_where v_seq] in *.
    exact (sd_out _ _ HD l s q Hp Hf).
  Qed.

  Definition start (r : source) (init : analyses) (last : Z) : annotator := mkO r init [] [] last false false.
  (** From within a word: [a] has been read, [b] and [i0] follow *)
  Lemma word_walk : forall b a i0 l0 r st last init rounds fuel,
    Forall part_ok (a ++ b ++ [i0]) -> Forall (fun i => isletter i) (a ++ b) -> ~ isletter i0 -> a ++ b <> [] ->
    good P cs (psymbols (a ++ b ++ [i0])) -> state_of P (psymbols a) = Ok st -> living P cs (psymbols a) ->
    ready (b ++ i0 :: l0) r -> (length b < rounds)%nat -> (length b < fuel)%nat ->
    exists t r' last' fuel', pending i0 l0 r' /\ s_blanks r' = part_blanks i0 /\ word_shown P cs (psymbols (a ++ b)) t
      /\ (fuel <= fuel' + S (length b) /\ fuel' < fuel)%nat
      /\ sao_loop P rounds fuel init (mkO r st [] (utf16_text (psymbols a)) last false false)
         = let! more := sao_loop P rounds fuel' init (start r' init last') in Ok (t ++ more).
  Proof.
    intros b. induction b as [|j b IH]; intros a i0 l0 r st last init rounds fuel Hok Hl H0 Hne G Est Hlv Hr Lr Lf;
      (destruct fuel as [|fuel]; [lia|]); cbn [sao_loop o_src].
    - (* the word ends *)
      cbn [app] in *. rewrite app_nil_r in *. pose proof (proj1 (Forall_app _ _ _) Hok) as [Hoa Ho0]. apply Forall_inv in Ho0.
      destruct (ready_read i0 l0 r Ho0 Hr) as (r1 & -> & J & B). cbn [obind]. destruct (part_scalar i0 Ho0) as [S0 N0].
      rewrite (proj2 (Z.eqb_neq _ _) N0). cbn [o_state o_lf o_sf o_last o_incond o_postblank].
      rewrite map_app in G. cbn [map] in G. pose proof (good_firstn P cs _ (length (psymbols a)) G) as Ga.
      rewrite firstn_app, firstn_all, Nat.sub_diag in Ga. cbn [firstn] in Ga. rewrite app_nil_r in Ga.
      assert (Dead : step_case P (part_symbol i0) st = Ok []).
      { apply (dead_on (psymbols a)); auto. intros K. apply (sd_letters _ _ HD) in K. apply Forall_app in K as [_ K].
        apply Forall_inv in K. contradiction. }
      assert (Sa : Forall scalar (psymbols a)) by now apply symbols_scalar.
      assert (La : Forall (letter P) (psymbols a)) by now apply Forall_map.
      assert (Na : utf16_text (psymbols a) <> []).
      { intros E. apply AnalysisScan.utf16_text_empty in E. destruct a; [congruence|discriminate E]. }
      pose proof (proj2 (isAlphabetic_not P _) H0) as Al. unfold sao_note. cbn [o_src o_state o_lf o_sf o_last o_incond o_postblank].
      rewrite (sd_incond _ _ HD), (sd_postblank _ _ HD), !final_none, Al. cbn [negb].
      destruct (isFinal (all_finals P) st) eqn:F.
      + pose proof (proj1 (state_accepting P cs _ _ _ Ga Est) F) as Acc.
        set (first := p_isupper P (nth 0 (utf16_text (psymbols a)) 0)).
        set (up := first && p_isupper P (List.last (utf16_text (psymbols a)) 0)).
        assert (U : (if first then match utf16_text (psymbols a) with [] => UB | sf => Ok (p_isupper P (List.last sf 0)) end else Ok false)
                    = Ok up).
        { unfold up. destruct first; [|reflexivity]. destruct (utf16_text (psymbols a)); [congruence|reflexivity]. }
        rewrite U. cbn [obind].
        destruct (filter_sao P up first st (sd_zero _ _ HD) (state_nice _ _ Ga Est)) as (lf & -> & [[_ C]|(x & t & more & Hin & Hw & Hp & -> & Hm)]);
          [congruence|]. cbn [obind o_src o_state o_lf o_sf o_last o_incond o_postblank].
        rewrite Dead. cbn [obind].
        assert (An : annotated P cs (psymbols a) t).
        { destruct x as [q s d]. apply (state_reads P cs _ _ Ga Est) in Hin as (l & Rd & Pt). destruct Hp as (t0 & Rn & Cp).
          exists l, d, s, q, t0, first, up. cbn [v_where v_seq] in *.
          split; [exact Rd|]. split; [exact Pt|]. split; [exact Hw|]. split; [|split; [reflexivity|split; [exact Rn|exact Cp]]].
          unfold first. destruct (utf16_text (psymbols a)); reflexivity. }
        unfold sao_emit. cbn [o_src o_state o_lf o_sf o_last o_incond o_postblank]. rewrite Al. cbn [negb andb].
        destruct (utf16_text (psymbols a)) as [|u us] eqn:Eu; [congruence|]. cbn [printSAOWord].
        rewrite (to_slash_at t more (sd_slash _ _ HD _ _ An) Hm). cbn [obind]. rewrite app_nil_r.
        exists t, (go_back 1 (set_pos (getPos (s_buf r1)) r1)), (getPos (s_buf r1)), fuel.
        split; [now apply just_set|]. split; [exact B|]. split; [left; auto|]. split; [cbn; lia|]. reflexivity.
      + assert (NA : ~ accepting P cs (all_finals P) (psymbols a)).
        { intros K. apply (state_accepting P cs _ _ _ Ga Est) in K. congruence. }
        destruct (utf16_text (psymbols a)) as [|u us] eqn:Eu; [congruence|]. cbn [obind o_src o_state o_lf o_sf o_last o_incond o_postblank].
        rewrite Dead. cbn [obind]. unfold sao_emit. cbn [o_src o_state o_lf o_sf o_last o_incond o_postblank]. rewrite Al. cbn [negb andb].
        unfold sao_unknown. rewrite <- Eu, (run_all _ Sa La), Z.add_0_r. cbn [obind].
        eexists _, (go_back 1 r1), last, fuel.
        split; [now apply just_back|]. split; [exact B|]. split; [right; split; [exact NA|reflexivity]|].
        split; [cbn; lia|]. rewrite ?Eu. reflexivity.
    - (* one more letter *)
      assert (Hj : part_ok j) by (apply Forall_app in Hok as [_ Hok]; exact (Forall_inv Hok)).
      assert (Lj : isletter j) by (apply Forall_app in Hl as [_ Hl]; exact (Forall_inv Hl)).
      cbn [app] in Hr. destruct (ready_read j (b ++ i0 :: l0) r Hj Hr) as (r1 & -> & J & B). cbn [obind].
      destruct (part_scalar j Hj) as [Sj Nj]. rewrite (letter_blanks j Lj) in B.
      rewrite (proj2 (Z.eqb_neq _ _) Nj). cbn [o_state o_lf o_sf o_last o_incond o_postblank].
      pose proof (letter_alpha _ Lj) as Al. unfold sao_note. cbn [o_src o_state o_lf o_sf o_last o_incond o_postblank].
      rewrite (sd_incond _ _ HD), (sd_postblank _ _ HD), !final_none, Al. cbn [negb].
      rewrite (letter_space _ Lj).
      match goal with |- context [obind (if isFinal _ _ then ?x else ?y) _] =>
        replace (if isFinal (all_finals P) st then x else y) with (Ok (mkO r1 st [] (utf16_text (psymbols a)) last false false))
          by (destruct (isFinal (all_finals P) st); [reflexivity|destruct (utf16_text (psymbols a)); reflexivity]) end.
      cbn [obind o_src o_state o_lf o_sf o_last o_incond o_postblank].
      replace (a ++ j :: b) with ((a ++ [j]) ++ b) in * by (rewrite <- app_assoc; reflexivity).
      replace (a ++ (j :: b) ++ [i0]) with ((a ++ [j]) ++ b ++ [i0]) in * by (rewrite <- app_assoc; reflexivity).
      assert (Gj : good P cs (psymbols (a ++ [j]))).
      { pose proof (good_firstn P cs _ (length (psymbols (a ++ [j]))) G) as K. rewrite (map_app _ (a ++ [j])) in K.
        rewrite firstn_app, firstn_all, Nat.sub_diag in K. cbn [firstn] in K. now rewrite app_nil_r in K. }
      destruct (good_here P cs _ Gj) as (st1 & E1 & _). pose proof E1 as E2. rewrite map_app in E2. cbn [map] in E2.
      rewrite state_of_snoc, Est in E2. cbn [obind] in E2. rewrite E2. cbn [obind].
      destruct st1 as [|x st1].
      + (* it is not in the dictionary *)
        assert (Nl : ~ living P cs (psymbols (a ++ [j]))).
        { intros K. apply (state_living P cs _ _ Gj E1) in K. congruence. }
        unfold sao_emit. cbn [o_src o_state o_lf o_sf o_last o_incond o_postblank]. rewrite Al. cbn [negb andb]. rewrite orb_true_r.
        assert (Hok' : Forall part_ok (j :: b ++ [i0])).
        { rewrite <- app_assoc in Hok. apply Forall_app in Hok as [_ Hok]. exact Hok. }
        assert (Hl' : Forall (fun i => isletter i) (j :: b)).
        { rewrite <- app_assoc in Hl. apply Forall_app in Hl as [_ Hl]. exact Hl. }
        destruct (sao_run_reads b j i0 l0 (utf16_text (psymbols a)) r1 rounds Hok' Hl' H0 (just_fresh _ _ _ J) B) as (r2 & -> & J2 & B2);
          [cbn in Lr; lia|]. cbn [obind].
        replace (utf16_text (psymbols a) ++ utf16_text (psymbols (j :: b))) with (utf16_text (psymbols ((a ++ [j]) ++ b)))
          by (rewrite <- app_assoc, map_app, utf16_text_app; reflexivity).
        unfold sao_unknown. rewrite run_all.
        2: { apply symbols_scalar. rewrite app_assoc in Hok. now apply Forall_app in Hok as [Hok _]. }
        2: { now apply Forall_map. }
        rewrite Z.add_0_r. eexists _, (go_back 1 r2), last, fuel.
        split; [now apply just_back|]. split; [exact B2|]. split; [|split; [cbn; lia|reflexivity]].
        right. split; [|reflexivity]. intros K. apply accepting_living in K. rewrite map_app in K. apply living_prefix in K. contradiction.
      + rewrite getSymbol_scalar by auto. cbn [obind].
        assert (Lv : living P cs (psymbols (a ++ [j]))) by (apply (state_living P cs _ _ Gj E1); discriminate).
        replace (utf16_text (psymbols a) ++ utf16 (part_symbol j)) with (utf16_text (psymbols (a ++ [j])))
          by (rewrite map_app, utf16_text_app; cbn [map]; rewrite utf16_text_cons; cbn; now rewrite app_nil_r).
        destruct (IH (a ++ [j]) i0 l0 r1 (x :: st1) last init rounds fuel) as (t & r' & last' & fuel' & Q1 & Q2 & Q3 & Q4 & Q5); auto.
        * left. split; [eapply just_fresh; eauto|exact B].
        * cbn in Lr. lia.
        * cbn in Lf. lia.
        * exists t, r', last', fuel'. split; [exact Q1|]. split; [exact Q2|]. split; [exact Q3|]. split; [cbn; lia|exact Q5].
  Qed.

  Lemma closed_split : forall l, closed P l -> forall i, hd_error l = Some i -> isletter i ->
    exists w i0 l0, l = w ++ i0 :: l0 /\ w <> [] /\ Forall (fun i => isletter i) w /\ ~ isletter i0 /\ closed P (i0 :: l0).
  Proof.
    intros l. induction l as [|j l IH]; intros Hc i Hi Li; [discriminate Hi|]. injection Hi as ->.
    destruct Hc as [Hc|(a & k & E & Nk)]; [discriminate Hc|]. destruct a as [|a0 a]; cbn [app] in E.
    - assert (i = k) by congruence. subst. contradiction.
    - assert (l = a ++ [k]) by congruence. assert (Hc : closed P l) by (right; eauto). destruct l as [|m l]; [destruct a; discriminate|].
      destruct (letter_dec P (part_symbol m)) as [Lm|Lm].
      + destruct (IH Hc m eq_refl Lm) as (w & i0 & l0 & -> & _ & Fw & N0 & C0). exists (i :: w), i0, l0.
        split; [reflexivity|]. split; [discriminate|]. split; [now constructor|]. auto.
      + exists [i], m, l. split; [reflexivity|]. split; [discriminate|]. split; [auto|]. auto.
  Qed.
  Lemma closed_tail : forall i l, closed P (i :: l) -> closed P l.
  Proof.
    intros i l [H|(a & k & E & N)]; [discriminate H|]. destruct a as [|a0 a]; cbn [app] in E.
    - left. congruence.
    - right. exists a, k. split; [congruence|exact N].
  Qed.

  (** A part that belongs to no word *)
  Lemma other_part : forall i l r init last rounds fuel, part_ok i -> ~ isletter i -> initial_state P = Ok init ->
    good P cs [part_symbol i] -> ready (i :: l) r ->
    exists r' last', ready l r' /\ sao_loop P rounds (S fuel) init (start r init last)
      = let! more := sao_loop P rounds fuel init (start r' init last') in Ok (kept_part i ++ more).
  Proof.
    intros i l r init last rounds fuel Hi Ni Ei G Hr. unfold start. cbn [sao_loop o_src].
    destruct (ready_read i l r Hi Hr) as (r1 & -> & J & B). cbn [obind]. destruct (part_scalar i Hi) as [S0 N0].
    rewrite (proj2 (Z.eqb_neq _ _) N0). cbn [o_state o_lf o_sf o_last o_incond o_postblank].
    assert (E0 : state_of P [] = Ok init) by (unfold state_of; rewrite Ei; reflexivity).
    assert (G0 : good P cs []) by (exact (good_firstn P cs _ 0 G)).
    assert (F : isFinal (all_finals P) init = false).
    { destruct (isFinal (all_finals P) init) eqn:F; auto. exfalso. apply (sd_empty _ _ HD). now apply (state_accepting P cs _ _ _ G0 E0). }
    assert (Dead : step_case P (part_symbol i) init = Ok []).
    { apply (dead_on []); auto. intros K. apply (sd_letters _ _ HD) in K. apply Forall_inv in K. contradiction. }
    pose proof (proj2 (isAlphabetic_not P _) Ni) as Al.
    assert (X : exists lf last', sao_note P (part_symbol i) (mkO r1 init [] [] last false false) = Ok (mkO r1 init lf [] last' false false)).
    { unfold sao_note. cbn [o_src o_state o_lf o_sf o_last o_incond o_postblank]. rewrite F. destruct (p_isspace P (part_symbol i)); eauto. }
    destruct X as (lf & last' & ->). cbn [obind o_src o_state o_lf o_sf o_last o_incond o_postblank]. rewrite Dead. cbn [obind].
    assert (Y : exists r', ready l r' /\ sao_emit P rounds (part_symbol i) (mkO r1 init lf [] last' false false) = Ok (kept_part i, r')).
    { unfold sao_emit. cbn [o_src o_state o_lf o_sf o_last o_incond o_postblank]. rewrite Al. cbn [negb andb]. rewrite B.
      assert (Fr : forall bl, bl = [] -> ready l (mkS (s_file r1) (s_buf r1) bl)).
      { intros bl ->. left. split; [|reflexivity]. destruct (just_fresh _ _ _ J) as [A1 A2]. split; [exact A1|exact A2]. }
      destruct i as [c|c|b].
      - cbn [part_blanks part_symbol] in *. unfold kept_part. cbn [part_text]. rewrite utf16_text_cons. cbn [utf16_text map concat].
        rewrite app_nil_r. assert (Sp : sao_escaped c = false) by (apply sao_escaped_not; cbn [part_ok] in Hi; tauto).
        rewrite Sp, append_cp_utf16 by auto. exists r1. split; [destruct r1 as [f1 b1 bl1]; cbn [s_file s_buf s_blanks] in *; now apply Fr|].
        destruct (p_isspace P c); reflexivity.
      - cbn [part_blanks part_symbol part_ok] in *. rewrite (proj2 (sd_blank _ _ HD) c Hi), (proj2 (sao_escaped_iff c) Hi).
        unfold kept_part. cbn [part_text]. rewrite append_cp_utf16 by auto. rewrite !utf16_text_cons. cbn [utf16_text map concat].
        rewrite app_nil_r. exists r1. split; [destruct r1 as [f1 b1 bl1]; cbn [s_file s_buf s_blanks] in *; now apply Fr|]. reflexivity.
      - cbn [part_symbol] in *. rewrite (proj1 (sd_blank _ _ HD)). unfold part_blanks. eexists. split; [apply Fr; reflexivity|].
        cbn [concat]. rewrite app_nil_r. reflexivity. }
    destruct Y as (r' & Rd & ->). cbn [obind]. exists r', last'. split; [exact Rd|]. reflexivity.
  Qed.

  (** A word the dictionary can read, at the end of the file *)
  Lemma tail_lost : forall b a r st last init rounds fuel, Forall part_ok (a ++ b) -> Forall (fun i => isletter i) b ->
    good P cs (psymbols (a ++ b)) -> state_of P (psymbols a) = Ok st -> living P cs (psymbols (a ++ b)) ->
    ready b r -> (length b < fuel)%nat ->
    sao_loop P rounds fuel init (mkO r st [] (utf16_text (psymbols a)) last false false) = Ok [].
  Proof.
    intros b. induction b as [|j b IH]; intros a r st last init rounds fuel Hok Hl G Est Lv Hr Lf;
      (destruct fuel as [|fuel]; [lia|]); cbn [sao_loop o_src].
    - destruct (read_end r Hr) as (r' & -> & B). cbn [obind Z.eqb]. now rewrite B.
    - assert (Hj : part_ok j) by (apply Forall_app in Hok as [_ Hok]; exact (Forall_inv Hok)).
      pose proof (Forall_inv Hl) as Lj. destruct (ready_read j b r Hj Hr) as (r1 & -> & J & B). cbn [obind].
      destruct (part_scalar j Hj) as [Sj Nj]. rewrite (letter_blanks j Lj) in B.
      rewrite (proj2 (Z.eqb_neq _ _) Nj). cbn [o_state o_lf o_sf o_last o_incond o_postblank].
      pose proof (letter_alpha _ Lj) as Al. unfold sao_note. cbn [o_src o_state o_lf o_sf o_last o_incond o_postblank].
      rewrite (sd_incond _ _ HD), (sd_postblank _ _ HD), !final_none, Al. cbn [negb].
      rewrite (letter_space _ Lj).
      match goal with |- context [obind (if isFinal _ _ then ?x else ?y) _] =>
        replace (if isFinal (all_finals P) st then x else y) with (Ok (mkO r1 st [] (utf16_text (psymbols a)) last false false))
          by (destruct (isFinal (all_finals P) st); [reflexivity|destruct (utf16_text (psymbols a)); reflexivity]) end.
      cbn [obind o_src o_state o_lf o_sf o_last o_incond o_postblank].
      replace (a ++ j :: b) with ((a ++ [j]) ++ b) in * by (rewrite <- app_assoc; reflexivity).
      assert (Gj : good P cs (psymbols (a ++ [j]))).
      { pose proof (good_firstn P cs _ (length (psymbols (a ++ [j]))) G) as K. rewrite (map_app _ (a ++ [j])) in K.
        rewrite firstn_app, firstn_all, Nat.sub_diag in K. cbn [firstn] in K. now rewrite app_nil_r in K. }
      destruct (good_here P cs _ Gj) as (st1 & E1 & _). pose proof E1 as E2. rewrite map_app in E2. cbn [map] in E2.
      rewrite state_of_snoc, Est in E2. cbn [obind] in E2. rewrite E2. cbn [obind].
      assert (Lv1 : living P cs (psymbols (a ++ [j]))) by (rewrite map_app in Lv; now apply living_prefix in Lv).
      apply (state_living P cs _ _ Gj E1) in Lv1. destruct st1 as [|x st1]; [congruence|].
      rewrite getSymbol_scalar by auto. cbn [obind].
      replace (utf16_text (psymbols a) ++ utf16 (part_symbol j)) with (utf16_text (psymbols (a ++ [j])))
        by (rewrite map_app, utf16_text_app; cbn [map]; rewrite utf16_text_cons; cbn; now rewrite app_nil_r).
      apply IH; auto.
      + exact (Forall_inv_tail Hl).
      + left. split; [eapply just_fresh; eauto|exact B].
      + cbn in Lf. lia.
  Qed.

  (** The file ends with letters *)
  Lemma just_end : forall z r, just z [] r -> exists r', readSAO r = Ok (0, r') /\ just z [] r' /\ s_blanks r' = s_blanks r.
  Proof.
    intros z [f b bl] [(all & R) Hf]. cbn [s_buf s_file s_blanks] in *.
    assert (Eb : isEmpty b = true).
    { unfold isEmpty. rewrite (empty_iff Size ltac:(lia) _ _ R). apply Z.eqb_eq. unfold t_len. cbn [t_at t_all]. rewrite app_length. cbn. lia. }
    unfold readSAO. cbn [s_buf s_file s_blanks]. rewrite Eb. cbn [negb].
    rewrite (get_file_end f Hf). cbn [obind eof i_eof]. eexists. split; [reflexivity|]. split; [|reflexivity].
    split; [exists all; exact R|]. right. split; [reflexivity|]. split; [reflexivity|]. split; [reflexivity|]. now left.
  Qed.
  Lemma last_any : forall (l : list part) x d d', List.last (x :: l) d = List.last (x :: l) d'.
  Proof.
    intros l. induction l as [|y l IH]; intros x d d'; [reflexivity|].
    change (List.last (y :: l) d = List.last (y :: l) d'). apply IH.
  Qed.
  Lemma sao_run_end : forall b j sf r rounds z, Forall part_ok (j :: b) -> Forall (fun i => isletter i) (j :: b) ->
    just j b r -> s_blanks r = [] -> (length b < rounds)%nat -> z = List.last (j :: b) j ->
    exists r', sao_run P rounds (part_symbol j) sf r = Ok (sf ++ utf16_text (psymbols (j :: b)), r') /\ just z [] r' /\ s_blanks r' = [].
  Proof.
    intros b. induction b as [|k b IH]; intros j sf r rounds z Hok Hl J B Lr Ez; (destruct rounds as [|rounds]; [cbn in Lr; lia|]);
      cbn [sao_run]; destruct (part_scalar j (Forall_inv Hok)) as [Sj Nj]; rewrite getSymbol_scalar by auto; cbn [obind].
    - cbn in Ez. subst z. destruct (just_end j r J) as (r' & -> & J' & B'). cbn [obind Z.eqb negb andb]. exists r'.
      split; [|split; [exact J'|congruence]]. cbn [map]. rewrite utf16_text_cons. cbn. now rewrite app_nil_r.
    - apply Forall_inv_tail in Hok. apply Forall_inv_tail in Hl. pose proof (Forall_inv Hl) as Lk.
      destruct (ready_read k b r (Forall_inv Hok)) as (r' & -> & J' & B'); [left; split; [eapply just_fresh; eauto|exact B]|]. cbn [obind].
      destruct (part_scalar k (Forall_inv Hok)) as [_ Nk]. rewrite (letter_alpha _ Lk), (proj2 (Z.eqb_neq _ _) Nk). cbn [negb andb].
      destruct (IH k (sf ++ utf16 (part_symbol j)) r' rounds z Hok Hl J') as (r2 & -> & J2 & B2).
      + rewrite B'. now apply letter_blanks.
      + cbn in Lr. lia.
      + rewrite Ez. change (List.last (j :: k :: b) j) with (List.last (k :: b) j). apply last_any.
      + exists r2. split; [|auto]. rewrite <- app_assoc. cbn [map]. now rewrite (utf16_text_cons (part_symbol j)).
  Qed.
  Lemma tail_unknown : forall b a z r st last init rounds fuel, Forall part_ok (a ++ b) -> Forall (fun i => isletter i) (a ++ b) ->
    good P cs (psymbols (a ++ b)) -> state_of P (psymbols a) = Ok st -> living P cs (psymbols a) -> ~ living P cs (psymbols (a ++ b)) ->
    ready b r -> (length b < rounds)%nat -> (length b <= fuel)%nat -> z = List.last b z ->
    exists t r' last' fuel', pending z [] r' /\ s_blanks r' = [] /\ (fuel' < fuel)%nat
      /\ sao_loop P rounds fuel init (mkO r st [] (utf16_text (psymbols a)) last false false)
         = let! more := sao_loop P rounds fuel' init (start r' init last') in Ok (t ++ more).
  Proof.
    intros b. induction b as [|j b IH]; intros a z r st last init rounds fuel Hok Hl G Est La Nl Hr Lr Lf Ez.
    { rewrite app_nil_r in Nl. contradiction. }
    destruct fuel as [|fuel]; [cbn in Lf; lia|]. cbn [sao_loop o_src].
    assert (Hj : Forall part_ok (j :: b)) by (now apply Forall_app in Hok as [_ Hok]).
    assert (Lb : Forall (fun i => isletter i) (j :: b)) by (now apply Forall_app in Hl as [_ Hl]).
    pose proof (Forall_inv Lb) as Lj. destruct (ready_read j b r (Forall_inv Hj) Hr) as (r1 & -> & J & B). cbn [obind].
    destruct (part_scalar j (Forall_inv Hj)) as [Sj Nj]. rewrite (letter_blanks j Lj) in B.
    rewrite (proj2 (Z.eqb_neq _ _) Nj). cbn [o_state o_lf o_sf o_last o_incond o_postblank].
    pose proof (letter_alpha _ Lj) as Al. unfold sao_note. cbn [o_src o_state o_lf o_sf o_last o_incond o_postblank].
    rewrite (sd_incond _ _ HD), (sd_postblank _ _ HD), !final_none, Al. cbn [negb].
    rewrite (letter_space _ Lj).
    match goal with |- context [obind (if isFinal _ _ then ?x else ?y) _] =>
      replace (if isFinal (all_finals P) st then x else y) with (Ok (mkO r1 st [] (utf16_text (psymbols a)) last false false))
        by (destruct (isFinal (all_finals P) st); [reflexivity|destruct (utf16_text (psymbols a)); reflexivity]) end.
    cbn [obind o_src o_state o_lf o_sf o_last o_incond o_postblank].
    replace (a ++ j :: b) with ((a ++ [j]) ++ b) in * by (rewrite <- app_assoc; reflexivity).
    assert (Gj : good P cs (psymbols (a ++ [j]))).
    { pose proof (good_firstn P cs _ (length (psymbols (a ++ [j]))) G) as K. rewrite (map_app _ (a ++ [j])) in K.
      rewrite firstn_app, firstn_all, Nat.sub_diag in K. cbn [firstn] in K. now rewrite app_nil_r in K. }
    destruct (good_here P cs _ Gj) as (st1 & E1 & _). pose proof E1 as E2. rewrite map_app in E2. cbn [map] in E2.
    rewrite state_of_snoc, Est in E2. cbn [obind] in E2. rewrite E2. cbn [obind].
    assert (Lz : forall d, z = List.last (j :: b) d).
    { intros d. rewrite Ez. apply last_any. }
    destruct st1 as [|x st1].
    - unfold sao_emit. cbn [o_src o_state o_lf o_sf o_last o_incond o_postblank]. rewrite Al. cbn [negb andb]. rewrite orb_true_r.
      destruct (sao_run_end b j (utf16_text (psymbols a)) r1 rounds z Hj Lb J B) as (r2 & -> & J2 & B2);
        [cbn in Lr; lia|apply Lz|]. cbn [obind].
      replace (utf16_text (psymbols a) ++ utf16_text (psymbols (j :: b))) with (utf16_text (psymbols ((a ++ [j]) ++ b)))
        by (rewrite <- app_assoc, map_app, utf16_text_app; reflexivity).
      unfold sao_unknown. rewrite run_all; [|now apply symbols_scalar|now apply Forall_map].
      rewrite Z.add_0_r. eexists _, (go_back 1 r2), last, fuel.
      split; [now apply just_back|]. split; [exact B2|]. split; [lia|reflexivity].
    - rewrite getSymbol_scalar by auto. cbn [obind].
      assert (Lv : living P cs (psymbols (a ++ [j]))) by (apply (state_living P cs _ _ Gj E1); discriminate).
      replace (utf16_text (psymbols a) ++ utf16 (part_symbol j)) with (utf16_text (psymbols (a ++ [j])))
        by (rewrite map_app, utf16_text_app; cbn [map]; rewrite utf16_text_cons; cbn; now rewrite app_nil_r).
      destruct (IH (a ++ [j]) z r1 (x :: st1) last init rounds fuel) as (t & r' & last' & fuel' & Q1 & Q2 & Q3 & Q4); auto.
      + left. split; [eapply just_fresh; eauto|exact B].
      + cbn in Lr. lia.
      + cbn in Lf. lia.
      + destruct b as [|m b]; [reflexivity|]. exact (Lz z).
      + exists t, r', last', fuel'. split; [exact Q1|]. split; [exact Q2|]. split; [lia|exact Q4].
  Qed.
  Lemma tail_endless : forall fuel z r last init rounds, part_ok z -> isletter z -> good P cs [part_symbol z] -> initial_state P = Ok init ->
    ~ living P cs [part_symbol z] -> ready [z] r -> (1 < rounds)%nat -> sao_loop P rounds fuel init (start r init last) = NoFuel.
  Proof.
    intros fuel. induction fuel as [fuel IH] using lt_wf_ind. intros z r last init rounds Hz Lz G Ei Nl Hr Lr.
    destruct fuel as [|fuel]; [reflexivity|].
    destruct (tail_unknown [z] [] z r init last init rounds (S fuel)) as (t & r' & last' & fuel' & Pn & B & Lt & E); cbn [app]; auto; try (cbn; lia).
    - unfold state_of. rewrite Ei. reflexivity.
    - exists [], false, [], (p_root P). split; constructor.
    - change (utf16_text (psymbols [])) with (@nil Z) in E. unfold start at 1. rewrite E.
      rewrite (IH fuel' Lt z r' last' init rounds); auto. right. exists z, []. split; [reflexivity|]. split; [exact Pn|].
      now rewrite (letter_blanks z Lz).
  Qed.

  Lemma sao_from : forall v k l r init last rounds fuel, (length l <= k)%nat -> closed P l -> Forall part_ok (l ++ v) ->
    (forall a w b, psymbols (l ++ v) = a ++ w ++ b -> good P cs w) -> initial_state P = Ok init -> ready (l ++ v) r ->
    (length l < rounds)%nat -> (2 * length l + length v < fuel)%nat ->
    exists out r' last' fuel', ready v r' /\ (length v < fuel')%nat /\ shown P cs l out
      /\ sao_loop P rounds fuel init (start r init last) = let! more := sao_loop P rounds fuel' init (start r' init last') in Ok (out ++ more).
  Proof.
    intros v k. induction k as [|k IH]; intros l r init last rounds fuel Lk Hc Hok G Ei Hr Lr Lf; destruct l as [|i l]; try (cbn in Lk; lia).
    1,2: (exists [], r, last, fuel; cbn [app length] in *; split; [exact Hr|]; split; [lia|]; split; [constructor|];
      destruct (sao_loop P rounds fuel init (start r init last)); reflexivity).
    cbn [app] in Hok, G, Hr. pose proof (Forall_inv Hok) as Hi.
    assert (Other : forall j m r1 last1 fuel1, ~ isletter j -> Forall part_ok (j :: m ++ v) -> closed P (j :: m) ->
      (forall a w b, psymbols (j :: m ++ v) = a ++ w ++ b -> good P cs w) -> (length m <= k)%nat -> ready (j :: m ++ v) r1 ->
      (length m < rounds)%nat -> (2 * length (j :: m) + length v <= fuel1)%nat ->
      exists out r' last' fuel', ready v r' /\ (length v < fuel')%nat /\ shown P cs (j :: m) out
      /\ sao_loop P rounds fuel1 init (start r1 init last1) = let! more := sao_loop P rounds fuel' init (start r' init last') in Ok (out ++ more)).
    { intros j m r1 last1 fuel1 Nj Hm Cm Gm Lm Rm Lrm Lfm. cbn [length] in Lfm. destruct fuel1 as [|fuel1]; [lia|].
      destruct (other_part j (m ++ v) r1 init last1 rounds fuel1) as (r' & last' & Rd & E); auto.
      - exact (Forall_inv Hm).
      - apply (Gm [] [part_symbol j] (psymbols (m ++ v))). reflexivity.
      - destruct (IH m r' init last' rounds fuel1) as (out & r2 & last2 & fuel2 & R2 & F2 & So & Eo); auto; try lia.
        + now apply (closed_tail j).
        + exact (Forall_inv_tail Hm).
        + intros a w b E1. apply (Gm (part_symbol j :: a) w b). cbn [map app]. now rewrite E1.
        + exists (kept_part j ++ out), r2, last2, fuel2. split; [exact R2|]. split; [exact F2|]. split; [now constructor|].
          rewrite E, Eo. destruct (sao_loop P rounds fuel2 init (start r2 init last2)); cbn [obind]; auto. now rewrite <- app_assoc. }
    cbn [length] in Lk, Lr.
    destruct (letter_dec P (part_symbol i)) as [Li|Li].
    2: { apply Other; auto; lia. }
    destruct (closed_split (i :: l) Hc i eq_refl Li) as (w & i0 & l0 & E & Nw & Lw & N0 & C0).
    assert (Len : length (i :: l) = (length w + S (length l0))%nat) by (rewrite E, app_length; reflexivity). cbn [length] in Len.
    assert (Wl : (0 < length w)%nat) by (destruct w; [congruence|cbn; lia]).
    assert (E' : i :: l ++ v = w ++ i0 :: l0 ++ v) by (change (i :: l ++ v) with ((i :: l) ++ v); rewrite E, <- app_assoc; reflexivity).
    cbn [length] in Lf. rewrite E' in Hok, Hr, G. rewrite E.
    assert (Hl0 : Forall part_ok (i0 :: l0 ++ v)) by (now apply Forall_app in Hok as [_ Hok]).
    assert (Gw : forall a w1 b, psymbols (i0 :: l0 ++ v) = a ++ w1 ++ b -> good P cs w1).
    { intros a w1 b E1. apply (G (psymbols w ++ a) w1 b). rewrite map_app, E1, <- app_assoc. reflexivity. }
    destruct (word_walk w [] i0 (l0 ++ v) r init last init rounds fuel) as (t & r' & last' & fuel' & Pn & Bl & Ws & Lf' & El); auto; try lia.
    - cbn [app]. apply Forall_app in Hok as [H1 _]. apply Forall_app. split; [exact H1|]. constructor; [exact (Forall_inv Hl0)|constructor].
    - cbn [app]. apply (G [] _ (psymbols (l0 ++ v))). cbn [app]. rewrite !map_app. cbn [map]. rewrite map_app, <- app_assoc. reflexivity.
    - unfold state_of. rewrite Ei. reflexivity.
    - exists [], false, [], (p_root P). split; constructor.
    - destruct (Other i0 l0 r' last' fuel') as (out & r2 & last2 & fuel2 & R2 & F2 & So & Eo); auto; try lia.
      + right. exists i0, (l0 ++ v). auto.
      + cbn [length]. lia.
      + exists (t ++ out), r2, last2, fuel2. split; [exact R2|]. split; [exact F2|]. split; [now apply sh_word|].
        unfold start at 1. cbn [app map] in El. change (utf16_text []) with (@nil Z) in El. rewrite El, Eo.
        destruct (sao_loop P rounds fuel2 init (start r2 init last2)); cbn [obind]; auto. now rewrite <- app_assoc.
  Qed.
End Loop.
