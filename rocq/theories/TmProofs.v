(** Proofs for C77. *)
From Verif Require Import Base CompressionModel AlphabetModel StateModel StateSpec StatePathProofs StateProps
  FinalsModel FinalsProps StringModel InputModel InputProps StreamModel StreamProps ProcessorModel
  ProcessorProofs CompoundProofs CompoundProps LookupProps AnalysisSpec BufferModel BufferProps AnalysisProofs
  TmModel TmSpec.
Notation source := StreamModel.source.

(** * Filling in *)
Lemma fragments_none : forall t, ~ In 41 t -> fragments t = (t, []).
Proof.
  intros t. induction t as [|c t IH]; intros H; [reflexivity|]. cbn [fragments]. rewrite IH by (intros K; apply H; now right).
  rewrite (proj2 (Z.eqb_neq c 41)); [reflexivity|]. intros ->. apply H. now left.
Qed.
Lemma fragments_at : forall a r, ~ In 41 a ->
  fragments (a ++ 41 :: r) = (a, fst (fragments r) :: snd (fragments r)).
Proof.
  intros a r. induction a as [|c a IH]; intros H; cbn [app fragments].
  - destruct (fragments r). reflexivity.
  - rewrite IH by (intros K; apply H; now right).
    rewrite (proj2 (Z.eqb_neq c 41)); [reflexivity|]. intros ->. apply H. now left.
Qed.
Lemma nth_back : forall (a : ustr) x y, nth (length (a ++ [x; y]) - 2) (a ++ [x; y]) 0 = x
  /\ nth (length (a ++ [x; y]) - 1) (a ++ [x; y]) 0 = y.
Proof.
  intros a x y. rewrite app_length. cbn [length]. split.
  - rewrite app_nth2 by lia. replace (length a + 2 - 2 - length a)%nat with 0%nat by lia. reflexivity.
  - rewrite app_nth2 by lia. replace (length a + 2 - 1 - length a)%nat with 1%nat by lia. reflexivity.
Qed.
Lemma marks_test : forall f, ((2 <=? length f)%nat && (nth (length f - 2) f 0 =? 40) && (nth (length f - 1) f 0 =? 35)) = true
  <-> marks f.
Proof.
  intros f. split.
  - intros H. apply andb_prop in H as [H H3]. apply andb_prop in H as [H1 H2]. apply Nat.leb_le in H1.
    apply Z.eqb_eq in H2, H3. exists (firstn (length f - 2) f). rewrite <- (firstn_skipn (length f - 2) f) at 1. f_equal.
    assert (L : length (skipn (length f - 2) f) = 2%nat) by (rewrite skipn_length; lia).
    rewrite <- (firstn_skipn (length f - 2) f) in H2, H3.
    rewrite app_nth2 in H2, H3 by (rewrite ?app_length, ?firstn_length, ?skipn_length; lia).
    revert H2 H3. rewrite !app_length, !firstn_length, !skipn_length.
    replace (Nat.min (length f - 2) (length f) + (length f - (length f - 2)) - 2 - Nat.min (length f - 2) (length f))%nat with 0%nat by lia.
    replace (Nat.min (length f - 2) (length f) + (length f - (length f - 2)) - 1 - Nat.min (length f - 2) (length f))%nat with 1%nat by lia.
    destruct (skipn (length f - 2) f) as [|x [|y [|z w]]]; cbn in L; try lia. cbn. intros -> ->. reflexivity.
  - intros (a & ->). destruct (nth_back a 40 35) as [-> ->]. rewrite app_length. cbn [length].
    replace (2 <=? length a + 2)%nat with true by (symmetry; apply Nat.leb_le; lia). reflexivity.
Qed.

Section Fill.
Context (isdigit : Z -> bool) (HD1 : forall c, ascii_digit c -> isdigit c = true)
  (HD2 : forall c, isdigit c = true -> c < 128 -> ascii_digit c).

Lemma value_from : forall ds n, 0 <= n -> Forall ascii_digit ds ->
  n <= fold_left (fun n c => 10 * n + (c - 48)) ds n.
Proof.
  intros ds. induction ds as [|d ds IH]; intros n Hn H; cbn [fold_left]; [lia|].
  pose proof (Forall_inv H) as Hd. unfold ascii_digit in Hd. specialize (IH (10 * n + (d - 48)) ltac:(lia) (Forall_inv_tail H)). lia.
Qed.
Lemma ref_number_value : forall ds n, 0 <= n -> Forall ascii_digit ds ->
  fold_left (fun n c => 10 * n + (c - 48)) ds n < 2 ^ 31 ->
  ref_number isdigit n ds = Ok (Some (fold_left (fun n c => 10 * n + (c - 48)) ds n)).
Proof.
  intros ds. induction ds as [|d ds IH]; intros n Hn H L; cbn [fold_left ref_number] in *; [reflexivity|].
  pose proof (Forall_inv H) as Hd. rewrite (HD1 _ Hd). unfold ascii_digit in Hd.
  pose proof (value_from ds (10 * n + (d - 48)) ltac:(lia) (Forall_inv_tail H)).
  replace (n * 10 + (d - 48)) with (10 * n + (d - 48)) by lia.
  replace (2 ^ 31 <=? 10 * n + (d - 48)) with false by (symmetry; apply Z.leb_gt; lia).
  apply IH; [lia|exact (Forall_inv_tail H)|exact L].
Qed.
Lemma find_ref_none : forall ns f j, ~ refers f -> find_ref isdigit ns f j = Ok None.
Proof.
  intros ns f j H. induction j as [|j IH]; [reflexivity|]. cbn [find_ref].
  destruct ((3 <? length f - j)%nat && (nth j f 0 =? 92) && (nth (S j) f 0 =? 64) && (nth (S (S j)) f 0 =? 40)) eqn:E; [|exact IH].
  apply andb_prop in E as [E E4]. apply andb_prop in E as [E E3]. apply andb_prop in E as [E1 E2].
  apply Nat.ltb_lt in E1. apply Z.eqb_eq in E2, E3, E4.
  assert (X : exists c r, skipn (j + 3) f = c :: r).
  { destruct (skipn (j + 3) f) as [|c r] eqn:X; eauto. apply (f_equal (@length Z)) in X. rewrite skipn_length in X. cbn in X. lia. }
  destruct X as (c & r & X). rewrite X. cbn [ref_number]. destruct (isdigit c) eqn:Ec; [|exact IH].
  exfalso. apply H. exists (firstn j f), c, r. split.
  - rewrite <- (firstn_skipn j f) at 1. f_equal.
    rewrite (skipn_cons f j 92) by (rewrite <- E2; apply nth_error_nth'; lia).
    rewrite (skipn_cons f (S j) 64) by (rewrite <- E3; apply nth_error_nth'; lia).
    rewrite (skipn_cons f (S (S j)) 40) by (rewrite <- E4; apply nth_error_nth'; lia).
    replace (S (S (S j))) with (j + 3)%nat by lia. rewrite X. reflexivity.
  - destruct (Z_lt_le_dec c 128); [left; auto|right; auto].
Qed.
Lemma find_ref_some : forall ns a ds n j, ds <> [] -> Forall ascii_digit ds -> value ds < 2 ^ 31 -> 1 <= value ds ->
  nth_error ns (Z.to_nat (value ds - 1)) = Some n -> (length a < j)%nat ->
  find_ref isdigit ns (a ++ [92; 64; 40] ++ ds) j = Ok (Some (a ++ n)).
Proof.
  intros ns a ds n j Hne Hd L1 L2 Hn. induction j as [|j IH]; intros Hj; [lia|]. cbn [find_ref].
  destruct (Nat.eq_dec j (length a)) as [->|Nj].
  - rewrite (app_nth2 a _ 0 (n := length a)), (app_nth2 a _ 0 (n := S (length a))), (app_nth2 a _ 0 (n := S (S (length a)))) by lia.
    replace (length a - length a)%nat with 0%nat by lia.
    replace (S (length a) - length a)%nat with 1%nat by lia. replace (S (S (length a)) - length a)%nat with 2%nat by lia.
    cbn [nth app]. rewrite app_length. cbn [length].
    replace (3 <? length a + S (S (S (length ds))) - length a)%nat with true
      by (symmetry; apply Nat.ltb_lt; destruct ds; [congruence|cbn; lia]).
    cbn [Z.eqb Pos.eqb andb].
    assert (Es : skipn (length a + 3) (a ++ 92 :: 64 :: 40 :: ds) = ds).
    { rewrite skipn_app. rewrite skipn_all2 by lia. replace (length a + 3 - length a)%nat with 3%nat by lia. reflexivity. }
    rewrite Es. rewrite (ref_number_value ds 0) by (try lia; auto). cbn [obind]. fold (value ds).
    assert (Hlen : (Z.to_nat (value ds - 1) < length ns)%nat) by (apply nth_error_Some; congruence).
    replace (value ds <? 1) with false by lia. replace (Z.of_nat (length ns) <? value ds) with false by lia. cbn [orb].
    rewrite firstn_app, firstn_all, Nat.sub_diag. cbn [firstn]. rewrite app_nil_r.
    now rewrite (nth_error_nth _ _ _ Hn).
  - assert (X : nth j (a ++ [92; 64; 40] ++ ds) 0 =? 92 = false).
    { rewrite app_nth2 by lia. remember (j - length a)%nat as k. destruct k as [|[|[|k]]]; cbn [nth app]; try lia; try reflexivity.
      destruct (nth_in_or_default k ds 0) as [Hin| ->]; [|reflexivity].
      rewrite Forall_forall in Hd. specialize (Hd _ Hin). unfold ascii_digit in Hd. apply Z.eqb_neq. lia. }
    rewrite X, andb_false_r. cbn [andb]. apply IH. lia.
Qed.
Lemma fill_correct : forall ns q t o q', filled ns q t o q' ->
  fill_fragments isdigit q ns (fst (fragments t)) (snd (fragments t)) = Ok (o, q').
Proof.
  intros ns q t o q' H. induction H as [q t H|x b y q a r o q' Ha Hr IH|a r o q' Ha Hr IH
    |q a ds n r o q' Ha Hne Hd L1 L2 Hn Hr IH|q a r o q' Ha Hm Hf Hr IH].
  - rewrite (fragments_none _ H). reflexivity.
  - change (a ++ [40; 35; 41] ++ r) with (a ++ [40; 35] ++ 41 :: r). rewrite app_assoc.
    rewrite fragments_at by (rewrite in_app_iff; cbn; intuition lia). cbn [fst snd fill_fragments].
    unfold fragment. rewrite (proj2 (marks_test _)) by (now exists a). cbn [mark_blank obind].
    replace (removelast (b ++ [y])) with b by (rewrite removelast_last; reflexivity).
    rewrite app_length. cbn [length]. replace (length a + 2 - 2)%nat with (length a) by lia.
    rewrite firstn_app, firstn_all, Nat.sub_diag. cbn [firstn]. rewrite app_nil_r, IH. cbn [obind]. now rewrite <- app_assoc.
  - change (a ++ [40; 35; 41] ++ r) with (a ++ [40; 35] ++ 41 :: r). rewrite app_assoc.
    rewrite fragments_at by (rewrite in_app_iff; cbn; intuition lia). cbn [fst snd fill_fragments].
    unfold fragment. rewrite (proj2 (marks_test _)) by (now exists a). cbn [mark_blank obind].
    rewrite app_length. cbn [length]. replace (length a + 2 - 2)%nat with (length a) by lia.
    rewrite firstn_app, firstn_all, Nat.sub_diag. cbn [firstn]. rewrite app_nil_r, IH. cbn [obind]. now rewrite <- app_assoc.
  - replace (a ++ [92; 64; 40] ++ ds ++ [41] ++ r) with ((a ++ [92; 64; 40] ++ ds) ++ 41 :: r) by (rewrite <- !app_assoc; reflexivity).
    assert (Hin : ~ In 41 (a ++ [92; 64; 40] ++ ds)).
    { rewrite !in_app_iff. intros [K|[K|K]]; [auto|cbn in K; lia|]. rewrite Forall_forall in Hd. specialize (Hd _ K).
      unfold ascii_digit in Hd. lia. }
    rewrite fragments_at by exact Hin. cbn [fst snd fill_fragments]. unfold fragment.
    set (g := a ++ [92; 64; 40] ++ ds) in *.
    destruct ((2 <=? length g)%nat && (nth (length g - 2) g 0 =? 40) && (nth (length g - 1) g 0 =? 35)) eqn:E; unfold g in *.
    + exfalso. apply marks_test in E as (a' & E). destruct (exists_last Hne) as (ds' & d & ->).
      assert (d = 35).
      { replace (a ++ [92; 64; 40] ++ ds' ++ [d]) with ((a ++ [92; 64; 40] ++ ds') ++ [d]) in E by (rewrite <- !app_assoc; reflexivity).
        change (a' ++ [40; 35]) with (a' ++ [40] ++ [35]) in E. rewrite (app_assoc a') in E. apply app_inj_tail in E as [_ E]. exact E. }
      subst d. rewrite Forall_forall in Hd. specialize (Hd 35 ltac:(apply in_app_iff; right; now left)). unfold ascii_digit in Hd. lia.
    + rewrite (find_ref_some ns a ds n) by (auto; rewrite app_length; cbn; lia). cbn [obind]. rewrite IH. cbn [obind].
      now rewrite <- app_assoc.
  - change (a ++ [41] ++ r) with (a ++ 41 :: r). rewrite fragments_at by exact Ha. cbn [fst snd fill_fragments]. unfold fragment.
    destruct ((2 <=? length a)%nat && (nth (length a - 2) a 0 =? 40) && (nth (length a - 1) a 0 =? 35)) eqn:E.
    + exfalso. apply Hm. now apply marks_test.
    + rewrite (find_ref_none ns a) by exact Hf. cbn [obind]. rewrite IH. cbn [obind]. now rewrite <- app_assoc.
Qed.
End Fill.

(** * Translations *)
Lemma text_spelled : forall P s, Forall (fun x => scalar (fst x)) s -> exists t, tm_text P s = Ok t /\ spelled s t.
Proof.
  intros P s. induction s as [|[c w] s IH]; intros H; cbn [tm_text]; [exists []; split; [reflexivity|constructor]|].
  destruct (IH (Forall_inv_tail H)) as (t & E & S). pose proof (Forall_inv H) as Hc. cbn [fst] in Hc.
  destruct (Z.eq_dec c 0) as [->|H0].
  - unfold getSymbol. cbn [Z.eqb obind]. rewrite E. cbn [obind]. exists t. split; [reflexivity|]. now constructor.
  - rewrite getSymbol_scalar by auto. cbn [obind]. rewrite E. cbn [obind]. destruct (is_escaped c) eqn:Ec.
    + apply meta_iff in Ec. exists ([92] ++ utf16 c ++ t). split; [reflexivity|].
      assert (U : utf16 c = [c]).
      { unfold utf16. unfold meta in Ec. cbn in Ec. replace (c <? 65536) with true by lia. reflexivity. }
      rewrite U. cbn [app]. now apply (sp_meta c w s t).
    + exists ([] ++ utf16 c ++ t). split; [reflexivity|]. cbn [app]. apply sp_char; auto.
      intros M. apply meta_iff in M. congruence.
Qed.
Lemma texts_slashed : forall P st, (forall x, In x st -> final_weight (v_where x) (all_finals P) <> None ->
    Forall (fun x => scalar (fst x)) (v_seq x)) ->
  exists t, tm_texts P st = Ok t /\ slashed (all_finals P) st t.
Proof.
  intros P st. induction st as [|[q s d] st IH]; intros H; cbn [tm_texts]; [exists []; split; [reflexivity|constructor]|].
  destruct IH as (t & E & S); [intros x Hx; apply H; now right|].
  cbn [v_where v_seq] in *. destruct (final_weight q (all_finals P)) as [w|] eqn:F.
  - destruct (text_spelled P s) as (x & Ex & Sx).
    { apply (H (mkV q s d)); [now left|]. cbn [v_where]. congruence. }
    rewrite Ex. cbn [obind]. rewrite E. cbn [obind]. eexists. split; [reflexivity|]. constructor; auto. congruence.
  - exists t. split; [exact E|]. now constructor.
Qed.

(** * Reading *)
Definition file_at (f : inf) (text : list Z) : Prop := at_text f text \/ (text = [] /\ ended f).
Lemma file_at_cons : forall f c l, file_at f (c :: l) -> at_text f (c :: l).
Proof. intros f c l [H|[H _]]; [exact H|discriminate H]. Qed.
Lemma get_file_end : forall f, file_at f [] -> get f = Ok (U_EOF, mkI [] true []).
Proof.
  intros f [H|[_ (He & Hb & Hc)]]; [now apply get_end|]. destruct f as [bs e buf]. cbn [i_eof i_bytes i_buf] in *. subst.
  destruct Hc as [-> | ->]; reflexivity.
Qed.
Lemma bits_text_cons : forall i l, bits_text (i :: l) = bit_text i ++ bits_text l.
Proof. reflexivity. Qed.

Section Reading.
Context (P : processor) (isdigit : Z -> bool) (HN : symbol_code [60; 110; 62] (p_alpha P) = -1)
  (HD1 : forall c, ascii_digit c -> isdigit c = true)
  (HD2 : forall c, isdigit c = true -> c < 128 -> ascii_digit c) (HE : isdigit U_EOF = false).
Notation read := (readTM P isdigit).

Lemma digits_read : forall ds d f rest ws fuel, Forall ascii_digit (d :: ds) -> at_text f (ds ++ rest) ->
  (forall c x, rest = c :: x -> isdigit c = false) -> (length ds < fuel)%nat ->
  exists v f' f'', digit_run isdigit fuel d f ws = Ok (ws ++ d :: ds, v, f') /\ unget v f' = Ok f'' /\ file_at f'' rest.
Proof.
  intros ds. induction ds as [|e ds IH]; intros d f rest ws fuel Hd Ha Hr Hf; (destruct fuel as [|fuel]; [cbn in Hf; lia|]);
    cbn [digit_run]; pose proof (Forall_inv Hd) as Hd0; unfold ascii_digit in Hd0;
    (replace (d mod 2 ^ 16) with d by (rewrite Z.mod_small; lia)).
  - cbn [app] in Ha. destruct rest as [|c x].
    + rewrite (get_end _ Ha). cbn [obind]. rewrite HE. exists U_EOF, (mkI [] true []), (mkI [] true [U_EOF]).
      split; [reflexivity|]. split; [reflexivity|]. right. split; [reflexivity|]. split; [reflexivity|]. split; [reflexivity|]. now right.
    + destruct (get_at _ _ _ Ha) as (f1 & -> & A1 & L1 & Sc). cbn [obind]. rewrite (Hr c x eq_refl).
      assert (Lf : (length (i_buf f) <= 3)%nat) by (destruct Ha as (_ & r0 & _ & _ & _ & Hl); exact Hl).
      destruct (unget_at f1 c x A1 Sc ltac:(lia)) as (f2 & E2 & A2 & _).
      exists c, f1, f2. split; [reflexivity|]. split; [exact E2|]. now left.
  - cbn [app] in Ha. destruct (get_at _ _ _ Ha) as (f1 & -> & A1 & _). cbn [obind].
    pose proof (Forall_inv_tail Hd) as Hd'. rewrite (HD1 _ (Forall_inv Hd')).
    destruct (IH e f1 rest (ws ++ [d]) fuel Hd' A1 Hr ltac:(cbn in Hf; lia)) as (v & f2 & f3 & E & U & A).
    exists v, f2, f3. rewrite E, <- app_assoc. auto.
Qed.

Definition is_blank_bit (i : bit) : bool := match i with Super _ | Wblank _ => true | _ => false end.
Lemma meta_no_digit : forall c, meta c -> isdigit c = false.
Proof.
  intros c Hm. destruct (isdigit c) eqn:E; auto. unfold meta in Hm. cbn in Hm.
  assert (L : c < 128) by lia. specialize (HD2 c E L). unfold ascii_digit in HD2. lia.
Qed.
Lemma head_no_digit : forall l c x, Forall (bit_ok isdigit) l -> (forall ds r, l <> Number ds :: r) ->
  bits_text l = c :: x -> isdigit c = false.
Proof.
  intros [|i l] c x Hok Hn E; [discriminate E|]. pose proof (Forall_inv Hok) as Hi. rewrite bits_text_cons in E.
  assert (K : forall y, meta y -> isdigit y = false) by exact meta_no_digit.
  destruct i as [c'|c'|ds|b|b]; cbn [bit_text bit_ok app] in *.
  - assert (c' = c) by congruence. subst. tauto.
  - assert (c = 92) by congruence. subst. apply K. unfold meta. cbn. lia.
  - exfalso. exact (Hn ds l eq_refl).
  - assert (c = 91) by congruence. subst. apply K. unfold meta. cbn. lia.
  - assert (c = 91) by congruence. subst. apply K. unfold meta. cbn. lia.
Qed.

Lemma read_bit : forall i l f b bl ns bk, Forall (bit_ok isdigit) (i :: l) -> apart (i :: l) -> isEmpty b = true ->
  file_at f (bits_text (i :: l)) ->
  exists f', file_at f' (bits_text l) /\ forall b', add (bit_symbol i) b = Ok b' ->
    read (mkTR (mkS f b bl) ns bk)
    = Ok (bit_symbol i, mkTR (mkS f' b' (bl ++ bit_blanks i)) (ns ++ bit_numbers i) (is_blank_bit i)).
Proof.
  intros i l f b bl ns bk Hok Hap Eb Hf. pose proof (Forall_inv Hok) as Hi. pose proof (Forall_inv_tail Hok) as Hl.
  rewrite bits_text_cons in Hf. unfold readTM. cbn [r_src s_buf s_file s_blanks r_numbers]. rewrite Eb. cbn [negb].
  assert (M91 : is_escaped 91 = true) by reflexivity. assert (M92 : is_escaped 92 = true) by reflexivity.
  destruct i as [c|c|ds|body|body]; cbn [bit_text app bit_symbol bit_blanks bit_numbers is_blank_bit bit_ok] in *.
  - destruct Hi as (Hc & H0 & Hm & Hdg). apply file_at_cons in Hf.
    destruct (get_at _ _ _ Hf) as (f1 & -> & A1 & _). exists f1. split; [now left|]. intros b' Hb. cbn [obind].
    rewrite (at_text_eof _ _ A1). assert (E : is_escaped c = false).
    { destruct (is_escaped c) eqn:E; auto. exfalso. apply Hm. now apply meta_iff. }
    rewrite E, Hdg. cbn [orb]. rewrite Hb. cbn [obind]. now rewrite !app_nil_r.
  - apply file_at_cons in Hf. destruct (get_at _ _ _ Hf) as (f1 & -> & A1 & _). cbn [obind]. rewrite (at_text_eof _ _ A1).
    destruct (get_at _ _ _ A1) as (f2 & E2 & A2 & _). exists f2. split; [now left|]. intros b' Hb.
    rewrite M92. cbn [orb]. replace (92 =? 60) with false by reflexivity. replace (92 =? 91) with false by reflexivity.
    replace (92 =? 92) with true by reflexivity. rewrite E2. cbn [obind]. rewrite Hb. cbn [obind]. now rewrite !app_nil_r.
  - destruct Hi as (Hne & Hds). destruct ds as [|d ds]; [congruence|]. cbn [app] in Hf. apply file_at_cons in Hf.
    destruct (get_at _ _ _ Hf) as (f1 & -> & A1 & _). cbn [obind]. rewrite (at_text_eof _ _ A1).
    pose proof (Forall_inv Hds) as Hd. rewrite (HD1 _ Hd), orb_true_r. unfold ascii_digit in Hd.
    replace (d =? 60) with false by lia. replace (d =? 91) with false by lia. replace (d =? 92) with false by lia.
    replace (48 <=? d) with true by lia. replace (d <=? 57) with true by lia. cbn [andb].
    pose proof (at_text_size _ _ A1) as Sz. rewrite app_length in Sz.
    destruct (digits_read ds d f1 (bits_text l) [] (2 + i_size f1) Hds A1) as (v & f2 & f3 & E2 & E3 & A3); [|lia|].
    + intros c x Ex. apply (head_no_digit l c x Hl); auto. intros ds' r ->. cbn in Hap. tauto.
    + exists f3. split; [exact A3|]. intros b' Hb. rewrite E2. cbn [obind app]. rewrite E3. cbn [obind].
      unfold number_name. rewrite HN, Hb. cbn [obind]. now rewrite app_nil_r.
  - destruct Hi as (Hs & Hb & Hh). apply file_at_cons in Hf.
    destruct (get_at _ _ _ Hf) as (f1 & -> & A1 & L1 & _). cbn [obind]. rewrite (at_text_eof _ _ A1).
    rewrite <- app_assoc in A1. cbn [app] in A1.
    assert (X : exists x tl, body ++ 93 :: bits_text l = x :: tl /\ x <> 91).
    { destruct body as [|x body]; cbn [app hd] in *; eauto. exists 93, (bits_text l). split; auto. discriminate. }
    destruct X as (x & tl & Ex & Hx). rewrite Ex in A1.
    destruct (get_at _ _ _ A1) as (f2 & E2 & A2 & L2 & Sx).
    assert (Lf : (length (i_buf f) <= 3)%nat) by (destruct Hf as (_ & r0 & _ & _ & _ & Hl0); exact Hl0).
    destruct (unget_at f2 x tl A2 Sx) as (f3 & E3 & A3 & _).
    { rewrite L2, L1. lia. }
    rewrite <- Ex in A3.
    destruct (C42_block f3 91 93 body (bits_text l) (ascii_scalar 91 ltac:(lia)) ltac:(lia) ltac:(lia) Hb A3) as (f4 & E4 & A4).
    exists f4. split; [now left|]. intros b' Hb'. rewrite M91. cbn [orb].
    replace (91 =? 60) with false by reflexivity. replace (91 =? 91) with true by reflexivity.
    rewrite E2. cbn [obind]. rewrite (proj2 (Z.eqb_neq x 91)) by auto. rewrite E3. cbn [obind]. rewrite E4. cbn [obind].
    rewrite Hb'. cbn [obind]. now rewrite app_nil_r.
  - destruct Hi as (Hs & Hb). apply file_at_cons in Hf.
    destruct (get_at _ _ _ Hf) as (f1 & -> & A1 & L1 & _). cbn [obind]. rewrite (at_text_eof _ _ A1).
    destruct (get_at _ _ _ A1) as (f2 & E2 & A2 & L2 & _).
    rewrite <- app_assoc in A2. cbn [app] in A2.
    destruct (C42_wblank f2 body (bits_text l) Hb A2) as (f3 & E3 & A3).
    exists f3. split; [now left|]. intros b' Hb'. rewrite M91. cbn [orb].
    replace (91 =? 60) with false by reflexivity. replace (91 =? 91) with true by reflexivity.
    rewrite E2. cbn [obind]. replace (91 =? 91) with true by reflexivity. rewrite E3. cbn [obind].
    rewrite Hb'. cbn [obind]. now rewrite app_nil_r.
Qed.

(** What is still to be read, from the file; or one bit again and then from the file *)
Definition fresh (l : list bit) (r : reader) : Prop :=
  (exists t, rel Size (s_buf (r_src r)) t /\ t_at t = t_len t) /\ file_at (s_file (r_src r)) (bits_text l).
Definition just (i : bit) (l : list bit) (r : reader) : Prop :=
  (exists all, rel Size (s_buf (r_src r)) (mkTape (all ++ [bit_symbol i]) (Z.of_nat (length all) + 1)))
  /\ file_at (s_file (r_src r)) (bits_text l).
Definition pending (i : bit) (l : list bit) (r : reader) : Prop :=
  (exists all, rel Size (s_buf (r_src r)) (mkTape (all ++ [bit_symbol i]) (Z.of_nat (length all))))
  /\ file_at (s_file (r_src r)) (bits_text l).
Lemma just_fresh : forall i l r, just i l r -> fresh l r.
Proof.
  intros i l r [(all & R) F]. split; [|exact F]. eexists. split; [exact R|]. unfold t_len. cbn [t_at t_all].
  rewrite app_length. cbn. lia.
Qed.
Lemma read_fresh : forall i l r, Forall (bit_ok isdigit) (i :: l) -> apart (i :: l) -> fresh (i :: l) r ->
  exists r', read r = Ok (bit_symbol i, r') /\ just i l r'
    /\ s_blanks (r_src r') = s_blanks (r_src r) ++ bit_blanks i /\ r_numbers r' = r_numbers r ++ bit_numbers i
    /\ r_blank r' = is_blank_bit i.
Proof.
  intros i l [[f b bl] ns bk] Hok Hap [(t & R & Ht) Hf]. cbn [r_src s_buf s_file s_blanks r_numbers] in *.
  assert (Eb : isEmpty b = true).
  { unfold isEmpty. rewrite (empty_iff Size ltac:(lia) _ _ R). apply Z.eqb_eq. lia. }
  destruct (read_bit i l f b bl ns bk Hok Hap Eb Hf) as (f' & Hf' & E).
  destruct (add_rel b t (bit_symbol i) R) as (b' & Ea & R'). exists (mkTR (mkS f' b' (bl ++ bit_blanks i)) (ns ++ bit_numbers i) (is_blank_bit i)).
  split; [auto|]. split; [|auto]. split; [|exact Hf']. exists (t_all t). exact R'.
Qed.
Lemma read_pending : forall i l r, pending i l r ->
  exists r', read r = Ok (bit_symbol i, r') /\ just i l r'
    /\ s_blanks (r_src r') = s_blanks (r_src r) /\ r_numbers r' = r_numbers r /\ r_blank r' = false.
Proof.
  intros i l [[f b bl] ns bk] [(all & R) Hf]. cbn [r_src s_buf s_file s_blanks r_numbers] in *.
  assert (Eb : isEmpty b = false).
  { unfold isEmpty. rewrite (empty_iff Size ltac:(lia) _ _ R). apply Z.eqb_neq. unfold t_len. cbn [t_at t_all].
    rewrite app_length. cbn. lia. }
  unfold readTM. cbn [r_src s_buf s_file s_blanks r_numbers]. rewrite Eb. cbn [negb].
  destruct (next_rel b _ (bit_symbol i) R) as (b' & -> & R').
  { cbn [t_all t_at]. rewrite Nat2Z.id, nth_error_app2, Nat.sub_diag by lia. reflexivity. }
  cbn [obind]. eexists. split; [reflexivity|]. split; [|auto]. split; [|exact Hf]. exists all. exact R'.
Qed.
Lemma read_end : forall r, fresh [] r -> exists r', read r = Ok (0, r') /\ fresh [] r' /\ eof (s_file (r_src r')) = true
  /\ s_blanks (r_src r') = s_blanks (r_src r).
Proof.
  intros [[f b bl] ns bk] [(t & R & Ht) Hf]. cbn [r_src s_buf s_file s_blanks r_numbers] in *.
  assert (Eb : isEmpty b = true).
  { unfold isEmpty. rewrite (empty_iff Size ltac:(lia) _ _ R). apply Z.eqb_eq. lia. }
  unfold readTM. cbn [r_src s_buf s_file s_blanks r_numbers]. rewrite Eb. cbn [negb].
  rewrite (get_file_end f Hf). cbn [obind eof i_eof]. eexists. split; [reflexivity|]. split; [|auto].
  split; [eauto|]. right. split; [reflexivity|]. cbn. split; [reflexivity|]. auto.
Qed.
Lemma back_self : forall (b : buffer Z) t, rel Size b t -> back 1 b = back 1 (setPos (getPos b) b).
Proof.
  intros b t R. destruct (r_cur _ _ _ R) as [_ B]. pose proof (r_size _ _ _ R) as S. unfold back, setPos, getPos.
  cbn [b_size b_buf b_cur b_last]. rewrite S. assert (U : u32 (b_cur b) = b_cur b) by (apply Z.mod_small; lia). rewrite U.
  f_equal. destruct (Z.eq_dec (b_cur b) Size) as [->|N]; [reflexivity|]. rewrite (Z.mod_small (b_cur b)) by lia. reflexivity.
Qed.
Lemma just_back : forall i l r, just i l r -> pending i l (on_source (go_back 1) r).
Proof.
  intros i l r [(all & R) F]. split; [|exact F]. exists all. cbn [r_src on_source go_back s_buf].
  rewrite (back_self _ _ R). change (mkTape (all ++ [bit_symbol i]) (Z.of_nat (length all)))
    with (mkTape (t_all (mkTape (all ++ [bit_symbol i]) (Z.of_nat (length all) + 1))) (Z.of_nat (length all))).
  destruct (r_cur _ _ _ R) as [C B]. cbn [t_at] in C. unfold getPos.
  apply back_one_rel; [exact R|exact C|exact B|lia|]. unfold t_len. cbn [t_all]. rewrite app_length. cbn. lia.
Qed.
Lemma just_set : forall i l r, just i l r -> pending i l (on_source (fun s => go_back 1 (set_pos (position r) s)) r).
Proof.
  intros i l r J. pose proof (just_back i l r J) as K. destruct J as [(all & R) F]. destruct K as [(all' & R') F'].
  split; [|exact F]. exists all'. cbn [r_src on_source go_back set_pos s_buf position] in *. unfold position.
  rewrite <- (back_self _ _ R). exact R'.
Qed.
End Reading.

(** * The states *)
Fixpoint tafter (P : processor) (st : analyses) (w : list Z) : outcome analyses :=
  match w with
  | [] => Ok st
  | c :: r => let! st := offer P (case_choice P c false) st in tafter P st r
  end.
Definition tstate (P : processor) (w : list Z) : outcome analyses := let! i := initial_state P in tafter P i w.
Lemma tafter_app : forall P a st b, tafter P st (a ++ b) = let! st := tafter P st a in tafter P st b.
Proof.
  intros P a. induction a as [|c a IH]; intros st b; cbn [app tafter obind]; auto.
  destruct (offer P (case_choice P c false) st); cbn [obind]; auto.
Qed.
Lemma tstate_snoc : forall P w c, tstate P (w ++ [c]) = let! st := tstate P w in offer P (case_choice P c false) st.
Proof.
  intros P w c. unfold tstate. destruct (initial_state P) as [i| | | |]; cbn [obind]; auto. rewrite tafter_app.
  destruct (tafter P i w) as [st| | | |]; cbn [obind tafter]; auto. destruct (offer P (case_choice P c false) st); reflexivity.
Qed.
Section States.
  Context (P : processor).
  Notation find := (p_find P).
  Notation root := (p_root P).
  Lemma tstate_holds : forall w st, tstate P w = Ok st ->
    StatePathProofs.holds find root (map (fun c => case_choice P c false) w) st.
  Proof.
    intros w. induction w as [|c w IH] using rev_ind; intros st H.
    - unfold tstate in H. destruct (initial_state P) as [i| | | |] eqn:E; try discriminate. cbn [obind tafter map] in *.
      assert (i = st) by congruence. subst. eapply init_holds. exact E.
    - rewrite tstate_snoc in H. destruct (tstate P w) as [st0| | | |] eqn:E0; try discriminate. cbn [obind] in H.
      rewrite map_app. eapply step_holds; [apply (IH st0 eq_refl)|exact H].
  Qed.
  Lemma tstate_reads : forall w st, tstate P w = Ok st -> forall q s d,
    In (mkV q s d) st <-> exists l, reading (p_isupper P) (p_tolower P) false w l d /\ rpath find root l s q.
  Proof. intros w st H q s d. rewrite (tstate_holds _ _ H q s d). apply cpath_reading. Qed.
  Lemma tstate_living : forall w st, tstate P w = Ok st -> (st <> [] <-> living P false w).
  Proof.
    intros w st H. pose proof (tstate_reads _ _ H) as R. split.
    - destruct st as [|[q s d] st]; [congruence|]. intros _. destruct (proj1 (R q s d) (or_introl eq_refl)) as (l & A & B).
      exists l, d, s, q. auto.
    - intros (l & d & s & q & A & B) ->. destruct (proj2 (R q s d)). eauto.
  Qed.
  Lemma tstate_accepting : forall fins w st, tstate P w = Ok st ->
    (isFinal fins st = true <-> accepting P false fins w).
  Proof.
    intros fins w st H. pose proof (tstate_reads _ _ H) as R. unfold isFinal. rewrite existsb_exists. split.
    - intros ([q s d] & Hin & Hf). apply R in Hin as (l & A & B). exists l, d, s, q. cbn [v_where] in Hf.
      split; auto. split; auto. destruct (final_weight q fins); congruence.
    - intros (l & d & s & q & A & B & Hf). exists (mkV q s d). split; [apply R; eauto|]. cbn [v_where].
      destruct (final_weight q fins); congruence.
  Qed.
  (** [answer] holds of what is written for a state. *)
  Definition gives (answer : list Z -> ustr -> Prop) : Prop :=
    forall w st t, tstate P w = Ok st -> tm_texts P st = Ok t -> slashed (all_finals P) st t -> answer w t.
  Lemma gives_answers : gives (answers P).
  Proof. intros w st t H _ S. exists st. split; [exact (tstate_reads _ _ H)|exact S]. Qed.
  Lemma tstate_answers : forall answer, gives answer -> forall w st, tstate P w = Ok st ->
    (forall l s q, rpath find root l s q -> final_weight q (all_finals P) <> None -> Forall (fun x => scalar (fst x)) s) ->
    exists t, tm_texts P st = Ok t /\ answer w t.
  Proof.
    intros answer G w st H Ht. pose proof (tstate_reads _ _ H) as R. destruct (texts_slashed P st) as (t & E & S).
    - intros [q s d] Hin Hf. apply R in Hin as (l & _ & Hp). eapply Ht; eauto.
    - exists t. split; [exact E|]. exact (G w st t H E S).
  Qed.
End States.
