(** AT&T files: columns, numbers and symbols of the text. *)
From Verif Require Import Base CompressionModel StringCodecProofs CodecProps AlphabetModel TransducerModel TransducerSpec RelabelSpec ComposeSpec AttModel AttSpec.

(** * Columns *)
Lemma read_plain : forall col s, Forall plain_unit col ->
  read_line (col ++ s) = match read_line s with
                         | (c :: cols, rest) => ((col ++ c) :: cols, rest)
                         | ([], rest) => (match col with [] => [] | _ => [col] end, rest)
                         end.
Proof.
  induction col as [|c col IH]; intros s H; cbn [app].
  - destruct (read_line s) as [[|]]; reflexivity.
  - inversion H as [|? ? (H1 & H2 & H3) Hc]; subst. cbn [read_line].
    replace (c =? 10) with false by lia. replace (c =? 65535) with false by lia. replace (c =? 9) with false by lia.
    cbn [orb]. rewrite IH by exact Hc. destruct (read_line s) as [[|c0 cols] rest]; [|reflexivity].
    destruct col; reflexivity.
Qed.
Lemma read_line_nonempty : forall s, fst (read_line s) <> [].
Proof.
  induction s as [|c s IH]; cbn [read_line]; [discriminate|]. destruct ((c =? 10) || (c =? 65535)); [discriminate|].
  destruct (read_line s) as [[|c0 cols] rest]; [now cbn in IH|]. destruct (c =? 9); discriminate.
Qed.
Lemma read_row : forall cols rest, cols <> [] -> Forall (Forall plain_unit) cols -> read_line (line_text cols ++ rest) = (cols, rest).
Proof.
  unfold line_text. intros cols rest. induction cols as [|c cols IH]; intros H F; [congruence|].
  inversion F as [|? ? Fc Fs]; subst. destruct cols as [|d cols].
  - cbn [tabbed]. rewrite <- app_assoc, read_plain by exact Fc. cbn [app read_line]. cbn. now rewrite app_nil_r.
  - change (tabbed (c :: d :: cols)) with (c ++ [9] ++ tabbed (d :: cols)). rewrite <- !app_assoc, read_plain by exact Fc.
    cbn [app read_line Z.eqb orb]. specialize (IH ltac:(discriminate) Fs). rewrite <- app_assoc in IH. cbn [app] in IH. rewrite IH.
    cbn. now rewrite app_nil_r.
Qed.
Lemma line_text_length : forall cols, (1 <= length (line_text cols))%nat.
Proof. intros cols. unfold line_text. rewrite app_length. cbn. lia. Qed.
Lemma read_rows : forall rows fuel, (length (flat_map line_text rows) <= fuel)%nat ->
  Forall (fun cols => cols <> [] /\ Forall (Forall plain_unit) cols) rows ->
  read_lines fuel (flat_map line_text rows) = rows.
Proof.
  induction rows as [|cols rows IH]; intros fuel L F; cbn [flat_map] in *.
  - destruct fuel; reflexivity.
  - inversion F as [|? ? [H1 H2] Fs]; subst. rewrite app_length in L. assert (K := line_text_length cols).
    destruct fuel as [|fuel]; [lia|].
    destruct (line_text cols ++ flat_map line_text rows) as [|c r] eqn:E.
    + apply (f_equal (@length Z)) in E. rewrite app_length in E. cbn in E. lia.
    + cbn [read_lines]. rewrite <- E, read_row by assumption. f_equal. apply IH; [lia|exact Fs].
Qed.

(** The rows of a file. *)
Inductive file_rows (hfst : bool) : list (list ustr) -> list (list line) -> Prop :=
| fr_one rows m : machine_says hfst rows m -> file_rows hfst rows [m]
| fr_more rows m rows' ms : machine_says hfst rows m -> file_rows hfst rows' ms -> file_rows hfst (rows ++ [[[45; 45]]] ++ rows') (m :: ms).
Lemma machine_rows_ok : forall hfst rows m, machine_says hfst rows m -> Forall (fun cols => cols <> [] /\ Forall (Forall plain_unit) cols) rows.
Proof.
  intros hfst rows m [F _]. induction F as [|cols l rows m [H1 H2] F IH]; constructor; auto. split; [|exact H2].
  inversion H1; discriminate.
Qed.
Lemma file_rows_ok : forall hfst rows ms, file_rows hfst rows ms -> Forall (fun cols => cols <> [] /\ Forall (Forall plain_unit) cols) rows.
Proof.
  intros hfst rows ms H. induction H as [rows m H|rows m rows' ms H _ IH].
  - eapply machine_rows_ok; eassumption.
  - apply Forall_app. split; [eapply machine_rows_ok; eassumption|]. constructor; [|exact IH]. split; [discriminate|].
    repeat constructor; discriminate.
Qed.
Lemma file_text : forall hfst text ms, file_says hfst text ms -> exists rows, text = flat_map line_text rows /\ file_rows hfst rows ms.
Proof.
  intros hfst text ms H. induction H as [rows m H|rows m text ms H _ (rows' & -> & IH)].
  - exists rows. split; [reflexivity|]. now constructor.
  - exists (rows ++ [[[45; 45]]] ++ rows'). split; [|now constructor]. rewrite !flat_map_app. reflexivity.
Qed.
Lemma file_read : forall hfst text ms, file_says hfst text ms -> exists rows, read_lines (length text) text = rows /\ file_rows hfst rows ms.
Proof.
  intros hfst text ms H. apply file_text in H as (rows & -> & H). exists rows. split; [|exact H].
  apply read_rows; [lia|eapply file_rows_ok; eassumption].
Qed.

(** * Numbers *)
Lemma value_app : forall s c n, fold_left (fun n c => n * 10 + (c - 48)) (s ++ [c]) n = fold_left (fun n c => n * 10 + (c - 48)) s n * 10 + (c - 48).
Proof. intros. now rewrite fold_left_app. Qed.
Lemma value_ge : forall s n, Forall is_digit s -> 0 <= n -> n <= fold_left (fun n c => n * 10 + (c - 48)) s n.
Proof.
  induction s as [|c s IH]; intros n F Hn; cbn [fold_left]; [lia|]. inversion F as [|? ? Hc Fs]; subst. unfold is_digit in Hc.
  specialize (IH (n * 10 + (c - 48)) Fs ltac:(lia)). lia.
Qed.
Lemma stoi_ok : forall s n, Forall is_digit s -> 0 <= n -> fold_left (fun n c => n * 10 + (c - 48)) s n < 2 ^ 31 ->
  fast_stoi s n = Ok (Some (fold_left (fun n c => n * 10 + (c - 48)) s n)).
Proof.
  induction s as [|c s IH]; intros n F Hn H; cbn [fast_stoi fold_left] in *; [reflexivity|].
  inversion F as [|? ? Hc Fs]; subst. unfold is_digit in Hc.
  replace ((c <? 48) || (57 <? c)) with false by lia.
  assert (K := value_ge s (n * 10 + (c - 48)) Fs ltac:(lia)).
  destruct (n * 10 + (c - 48) <? 2 ^ 31) eqn:E; [|lia]. apply IH; [exact Fs|lia|exact H].
Qed.
Lemma numeral_stoi : forall s n, numeral s n -> n < 2 ^ 31 -> fast_stoi s 0 = Ok (Some n).
Proof. intros s n (_ & F & <-) H. apply stoi_ok; [exact F|lia|exact H]. Qed.
Lemma numeral_pos : forall s n, numeral s n -> 0 <= n.
Proof. intros s n (_ & F & <-). apply (value_ge s 0 F). lia. Qed.

Lemma stod_int_ok : forall s n r, Forall is_digit s -> stod_int (s ++ 46 :: r) n = Some (fold_left (fun n c => n * 10 + (c - 48)) s n, r)
  /\ stod_int s n = Some (fold_left (fun n c => n * 10 + (c - 48)) s n, []).
Proof.
  induction s as [|c s IH]; intros n r F; cbn [app stod_int fold_left].
  - rewrite Z.eqb_refl. auto.
  - inversion F as [|? ? Hc Fs]; subst. unfold is_digit in Hc. replace (c =? 46) with false by lia.
    replace ((c <? 48) || (57 <? c)) with false by lia. now apply IH.
Qed.
Lemma frac_gen : forall d k n v, Forall is_digit d -> (length d <= k)%nat -> 
  stod_frac d (match k with O => 0 | S k => 10 ^ Z.of_nat k end) (n + v * 10 ^ Z.of_nat k)
  = Some (n + fold_left (fun n c => n * 10 + (c - 48)) d v * 10 ^ (Z.of_nat k - Z.of_nat (length d))).
Proof.
  induction d as [|c d IH]; intros k n v F L; cbn [stod_frac fold_left length] in *.
  - replace (Z.of_nat k - Z.of_nat 0) with (Z.of_nat k) by lia. reflexivity.
  - inversion F as [|? ? Hc Fs]; subst. unfold is_digit in Hc. destruct k as [|k]; [lia|].
    replace ((c <? 48) || (57 <? c)) with false by lia.
    specialize (IH k n (v * 10 + (c - 48)) Fs ltac:(lia)).
    replace (10 ^ Z.of_nat k / 10) with (match k with O => 0 | S k => 10 ^ Z.of_nat k end).
    2:{ destruct k as [|k]; [reflexivity|]. rewrite Nat2Z.inj_succ, Z.pow_succ_r by lia. rewrite (Z.mul_comm 10), Z.div_mul by lia. reflexivity. }
    replace (n + v * 10 ^ Z.of_nat (S k) + (c - 48) * 10 ^ Z.of_nat k) with (n + (v * 10 + (c - 48)) * 10 ^ Z.of_nat k).
    2:{ rewrite Nat2Z.inj_succ, Z.pow_succ_r by lia. ring. }
    rewrite IH. do 4 f_equal. lia.
Qed.
Lemma digit_first : forall s, Forall is_digit s -> s <> [] -> exists c r, s = c :: r /\ c <> 45 /\ c <> 105.
Proof. intros [|c r] F H; [congruence|]. inversion F as [|? ? Hc _]; subst. unfold is_digit in Hc. exists c, r. repeat split; lia. Qed.
Lemma stod_plain : forall s w, (forall r, s <> 45 :: r) -> amount s w ->
  s <> [] /\ s <> [105; 110; 102] /\ exists ret frac, stod_int s 0 = Some (ret, frac) /\ stod_frac frac 100000 (ret * 1000000) = Some w.
Proof.
  intros s w N A. inversion A as [s' n [Hn [F V]]|s' n d [Hn [F V]] Fd Ld|s' w']; subst.
  - destruct (digit_first s F Hn) as (c & r & E & D1 & D2). split; [exact Hn|]. split; [rewrite E; congruence|].
    exists (decimal_value s), []. split; [apply (proj2 (stod_int_ok s 0 [] F))|]. reflexivity.
  - destruct (digit_first s' F Hn) as (c & r & E & D1 & D2). split; [rewrite E; discriminate|]. split; [rewrite E; cbn; congruence|].
    exists (decimal_value s'), d. split; [apply (proj1 (stod_int_ok s' 0 d F))|].
    assert (K := frac_gen d 6 (decimal_value s' * 1000000) 0 Fd Ld). rewrite Z.mul_0_l, Z.add_0_r in K. exact K.
  - exfalso. now apply (N s').
Qed.
Lemma stod_ok : forall s w, amount s w -> fast_stod s = Ok (Some w).
Proof.
  assert (G : forall s w, (forall r, s <> 45 :: r) -> amount s w -> forall sign,
    match s with
    | [] => Ok None
    | _ => if ustr_eq_dec s [105; 110; 102] then NoFuel
           else match stod_int s 0 with
                | None => Ok None
                | Some (ret, frac) => match stod_frac frac 100000 (ret * 1000000) with None => Ok None | Some ret => Ok (Some (sign * ret)) end
                end
    end = Ok (Some (sign * w))).
  { intros s w N A sign. destruct (stod_plain s w N A) as (H1 & H2 & ret & frac & H3 & H4).
    destruct s as [|c r]; [congruence|]. destruct (ustr_eq_dec (c :: r) [105; 110; 102]); [contradiction|]. now rewrite H3, H4. }
  intros s w A. unfold fast_stod.
  assert (D : (forall r, s <> 45 :: r) \/ exists r, s = 45 :: r).
  { destruct s as [|c r]; [left; discriminate|]. destruct (Z.eq_dec c 45) as [->|D]; [right; now exists r|left; congruence]. }
  destruct D as [N|(r & ->)].
  - destruct (stod_plain s w N A) as (H1 & _). destruct s as [|c r]; [congruence|].
    destruct (c =? 45) eqn:E; [exfalso; apply (N r); f_equal; lia|]. rewrite (G (c :: r) w N A 1). do 2 f_equal. lia.
  - rewrite Z.eqb_refl.
    assert (C : exists w', w = - w' /\ amount r w' /\ forall q, r <> 45 :: q).
    { clear G. remember (45 :: r) as s0 eqn:E. destruct A as [s' n [Hn [F V]]|s' n d [Hn [F V]] Fd Ld|s' w' N A].
      - destruct (digit_first s' F Hn) as (c & q & Es & D1 & D2). congruence.
      - destruct (digit_first s' F Hn) as (c & q & Es & D1 & D2). rewrite Es in E. cbn in E. congruence.
      - injection E as <-. eauto. }
    destruct C as (w' & -> & A' & N'). rewrite (G r w' N' A' (-1)). do 2 f_equal.
Qed.

(** * Symbols *)
(** A column after convert_hfst. *)
Lemma convert_column : forall hfst s u, column hfst s u ->
  let s' := convert_hfst hfst s in
  (u = [] /\ s' = []) \/ (tag_text s' /\ u = [STag s']) \/ (exists cs, cs <> [] /\ Forall character cs /\ s' = flat_map utf16 cs /\ u = map SChar cs /\ ~ tag_text s').
Proof.
  intros hfst s u H. destruct H as [| | |E| | |s T|cs F N T]; cbn zeta.
  - left. destruct hfst; auto.
  - left. destruct hfst; auto.
  - left. destruct hfst; auto.
  - subst hfst. left. auto.
  - right. right. exists [32]. split; [discriminate|]. split; [repeat constructor; lia|]. split; [destruct hfst; reflexivity|]. split; [reflexivity|].
    replace (convert_hfst hfst sp_space) with [32] by (destruct hfst; reflexivity). intros (n & E). destruct n; discriminate.
  - right. right. exists [9]. split; [discriminate|]. split; [repeat constructor; lia|]. split; [destruct hfst; reflexivity|]. split; [reflexivity|].
    replace (convert_hfst hfst sp_tab) with [9] by (destruct hfst; reflexivity). intros (n & E). destruct n; discriminate.
  - right. left. assert (E : convert_hfst hfst s = s).
    { destruct T as (n & ->). unfold convert_hfst. repeat (destruct (ustr_eq_dec _ _) as [E|_]; [discriminate E|]). now rewrite andb_false_r. }
    now rewrite E.
  - right. right. set (s := flat_map utf16 cs) in *.
    assert (E : convert_hfst hfst s = s).
    { unfold convert_hfst. unfold specials in N. cbn [app] in N.
      destruct (ustr_eq_dec s hfst_eps_short) as [E|_]; [exfalso; apply N; rewrite E; cbn; auto|].
      destruct (ustr_eq_dec s hfst_eps_long) as [E|_]; [exfalso; apply N; rewrite E; cbn; auto|].
      destruct (ustr_eq_dec s hfst_space) as [E|_]; [exfalso; apply N; rewrite E; cbn; auto|].
      destruct (ustr_eq_dec s hfst_tab) as [E|_]; [exfalso; apply N; rewrite E; cbn; auto 6|].
      destruct hfst; cbn [negb andb]; [reflexivity|].
      destruct (ustr_eq_dec s lttb_eps) as [E|_]; [exfalso; apply N; rewrite E; cbn; auto 7|]. reflexivity. }
    rewrite E. exists cs. repeat split; auto. intros ->. apply N. cbn. now left.
Qed.
Lemma utf16_same : forall c, character c -> utf16 c = utf16_units c.
Proof. reflexivity. Qed.
Lemma utf16_split : forall cs, Forall character cs -> ustring_to_vec32 (flat_map utf16 cs) = cs.
Proof.
  intros cs F. replace (flat_map utf16 cs) with (flat_map utf16_units cs).
  - apply C44_split_after_append. eapply Forall_impl; [|exact F]. unfold character, is_scalar. intros c H. lia.
  - symmetry. apply flat_map_ext. reflexivity.
Qed.
(** The test for a tag. *)
Lemma tag_test : forall c r, ((2 <=? length (c :: r))%nat && (c =? 60) && (last (c :: r) 0 =? 62) = true) <-> tag_text (c :: r).
Proof.
  intros c r. split.
  - intros H. apply andb_prop in H as [H H3]. apply andb_prop in H as [H1 H2].
    destruct r as [|d r]; [cbn in H1; lia|]. exists (removelast (d :: r)).
    apply Z.eqb_eq in H2 as ->. cbn [app]. f_equal. rewrite (app_removelast_last 0 (l := d :: r)) at 1 by discriminate.
    f_equal. f_equal. change (last (60 :: d :: r) 0) with (last (d :: r) 0) in H3. lia.
  - intros (n & E). destruct n as [|x n].
    + cbn in E. injection E as -> ->. reflexivity.
    + cbn [app] in E. injection E as -> ->. change (60 :: x :: n ++ [62]) with ((60 :: x :: n) ++ [62]).
      rewrite last_last, app_length. cbn [length]. rewrite !andb_true_iff. split; [split; [apply Nat.leb_le; lia|reflexivity]|reflexivity].
Qed.
