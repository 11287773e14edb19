(** Proofs for C77: the loop. *)
From Verif Require Import Base CompressionModel AlphabetModel StateModel StateSpec StatePathProofs StateProps
  FinalsModel FinalsProps StringModel InputModel InputProps StreamModel StreamProps ProcessorModel
  ProcessorProofs CompoundProofs CompoundProps LookupProps AnalysisSpec BufferModel BufferProps AnalysisProofs
  TmModel TmSpec TmProofs.

Definition surf (i : bit) : ustr := match i with Esc c => utf16 c | _ => utf16_text (bit_text i) end.
Definition surfs (l : list bit) : ustr := concat (map surf l).
Lemma surfs_app : forall a b, surfs (a ++ b) = surfs a ++ surfs b.
Proof. intros a b. unfold surfs. now rewrite map_app, concat_app. Qed.
Lemma surfs_text : forall l, Forall (fun i => forall c, i <> Esc c) l -> surfs l = utf16_text (bits_text l).
Proof.
  intros l H. induction H as [|i l Hi Hl IH]; [reflexivity|]. rewrite bits_text_cons, utf16_text_app, <- IH.
  unfold surfs. cbn [map concat]. f_equal. destruct i; try reflexivity. exfalso. exact (Hi c eq_refl).
Qed.
Lemma blanks_in_app : forall a b, blanks_in (a ++ b) = blanks_in a ++ blanks_in b.
Proof. intros a b. apply flat_map_app. Qed.
Lemma numbers_in_app : forall a b, numbers_in (a ++ b) = numbers_in a ++ numbers_in b.
Proof. intros a b. apply flat_map_app. Qed.
Lemma blanks_one : forall i, blanks_in [i] = bit_blanks i.
Proof. intros i. unfold blanks_in. cbn [flat_map]. apply app_nil_r. Qed.
Lemma numbers_one : forall i, numbers_in [i] = bit_numbers i.
Proof. intros i. unfold numbers_in. cbn [flat_map]. apply app_nil_r. Qed.
Lemma digits_utf16 : forall ds, Forall ascii_digit ds -> utf16_text ds = ds.
Proof.
  intros ds H. induction H as [|d ds Hd _ IH]; [reflexivity|]. rewrite utf16_text_cons, IH. unfold utf16, ascii_digit in *.
  replace (d <? 65536) with true by lia. reflexivity.
Qed.
Lemma utf16_nonempty : forall c, utf16 c <> [].
Proof. intros c. unfold utf16. destruct (c <? 65536); discriminate. Qed.
Lemma apart_tail : forall a b, apart (a ++ b) -> apart b.
Proof. intros a b. induction a as [|i a IH]; [auto|]. cbn [app apart]. intros [_ H]. auto. Qed.
Lemma blank_bit_iff : forall i, is_blank_bit i = true <-> blank_bit i.
Proof. intros [c|c|ds|b|b]; unfold blank_bit; cbn; split; congruence. Qed.
Lemma meta_scalar : forall c, meta c -> scalar c /\ c <> 0 /\ utf16 c = [c].
Proof.
  intros c H. unfold meta in H. cbn in H. assert (L : 0 < c < 128) by lia.
  split; [apply ascii_scalar; lia|]. split; [lia|]. unfold utf16. replace (c <? 65536) with true by lia. reflexivity.
Qed.

Section Loop.
Context (P : processor) (ispunct isdigit : Z -> bool) (space_mode : bool) (HP : memory_ok P ispunct isdigit).
Notation read := (readTM P isdigit).
Notation ok := (bit_ok isdigit).
Notation gapped := (between_words P ispunct).

Lemma HN : symbol_code [60; 110; 62] (p_alpha P) = -1. Proof. exact (mo_number _ _ _ HP). Qed.
Lemma HD1 : forall c, ascii_digit c -> isdigit c = true. Proof. exact (proj1 (mo_digit _ _ _ HP)). Qed.
Lemma HD2 : forall c, isdigit c = true -> c < 128 -> ascii_digit c. Proof. exact (proj1 (proj2 (mo_digit _ _ _ HP))). Qed.
Lemma HE : isdigit U_EOF = false. Proof. exact (proj2 (proj2 (mo_digit _ _ _ HP))). Qed.

Lemma gap_iff : forall i, gap P ispunct (bit_symbol i) = true <-> gapped i.
Proof. intros i. unfold gap, between_words_by. apply orb_true_iff. Qed.
Lemma gap_false : forall i, ~ gapped i -> gap P ispunct (bit_symbol i) = false.
Proof. intros i H. destruct (gap P ispunct (bit_symbol i)) eqn:E; auto. exfalso. apply H. now apply gap_iff. Qed.
Lemma gap_number : forall i, gapped i -> bit_numbers i = [].
Proof.
  intros [c|c|ds|b|b] H; try reflexivity. exfalso. destruct (mo_symbol _ _ _ HP) as [A B].
  unfold between_words_by in H. cbn [bit_symbol] in H. destruct H; congruence.
Qed.
Lemma blank_gapped : forall i, blank_bit i -> gapped i.
Proof.
  intros i H. left. destruct (mo_space _ _ _ HP) as [S _]. destruct i; try (now destruct H); exact S.
Qed.
Lemma symbol_nonzero : forall i, ok i -> (bit_symbol i =? 0) = false.
Proof.
  intros [c|c|ds|b|b] H; cbn [bit_ok bit_symbol] in *; try reflexivity; apply Z.eqb_neq; [tauto|].
  apply meta_scalar in H. tauto.
Qed.
Lemma surf_nonempty : forall i, ok i -> surf i <> [].
Proof.
  intros [c|c|ds|b|b] H; cbn [bit_ok surf bit_text] in *.
  - rewrite utf16_text_cons. intros E. apply app_eq_nil in E as [E _]. exact (utf16_nonempty c E).
  - apply utf16_nonempty.
  - destruct H as [H1 H2]. now rewrite digits_utf16.
  - rewrite utf16_text_cons. intros E. apply app_eq_nil in E as [E _]. exact (utf16_nonempty 91 E).
  - rewrite utf16_text_cons. intros E. apply app_eq_nil in E as [E _]. exact (utf16_nonempty 91 E).
Qed.
Lemma surface_ok : forall i r x y, ok i -> r_blank r = is_blank_bit i -> s_blanks (r_src r) = x ++ bit_blanks i ->
  r_numbers r = y ++ bit_numbers i -> surface P (bit_symbol i) r = Ok (surf i).
Proof.
  intros i r x y H Hb Hx Hy. unfold surface. destruct i as [c|c|ds|b|b]; cbn [bit_ok bit_symbol is_blank_bit bit_blanks bit_numbers surf bit_text] in *.
  - destruct H as (Hc & H0 & _). rewrite (proj2 (Z.eqb_neq c (-1))) by (destruct Hc; lia). rewrite Hb. cbn [andb].
    rewrite getSymbol_scalar by auto. unfold utf16_text. cbn [map concat]. now rewrite app_nil_r.
  - apply meta_scalar in H as (Hc & H0 & _). rewrite (proj2 (Z.eqb_neq c (-1))) by (destruct Hc; lia). rewrite Hb. cbn [andb].
    now rewrite getSymbol_scalar by auto.
  - cbn [Z.eqb Pos.eqb]. rewrite Hy, rev_app_distr. cbn [rev app]. destruct H as [_ H]. now rewrite digits_utf16.
  - rewrite Hb. cbn [Z.eqb andb]. rewrite Hx, rev_app_distr. reflexivity.
  - rewrite Hb. cbn [Z.eqb andb]. rewrite Hx, rev_app_distr. reflexivity.
Qed.

(** ** Where the reader stands *)
(** before a segment *)
Definition ready (l : list bit) (r : reader) : Prop :=
  r_numbers r = []
  /\ ((fresh l r /\ s_blanks (r_src r) = [])
      \/ exists i x, l = i :: x /\ pending i x r /\ s_blanks (r_src r) = bit_blanks i /\ bit_numbers i = []).
(** behind the bits [v] of a segment *)
Definition going (v l : list bit) (r : reader) : Prop :=
  (v = [] /\ ready l r)
  \/ (v <> [] /\ fresh l r /\ s_blanks (r_src r) = blanks_in v /\ r_numbers r = numbers_in v).
Lemma read_ready : forall i l r, Forall ok (i :: l) -> apart (i :: l) -> ready (i :: l) r ->
  exists r', read r = Ok (bit_symbol i, r') /\ just i l r' /\ s_blanks (r_src r') = bit_blanks i
    /\ r_numbers r' = bit_numbers i /\ (~ blank_bit i -> r_blank r' = false).
Proof.
  intros i l r Hok Hap [Hn [[Hf Hb]|(i' & x & E & Hp & Hb & Hi)]].
  - destruct (read_fresh P isdigit HN HD1 HD2 HE i l r Hok Hap Hf) as (r' & E & J & B & N & K). exists r'.
    rewrite Hb in B. rewrite Hn in N. split; [exact E|]. split; [exact J|]. split; [exact B|]. split; [exact N|].
    intros Hnb. rewrite K. destruct (is_blank_bit i) eqn:X; auto. apply blank_bit_iff in X. contradiction.
  - injection E as <- <-. destruct (read_pending P isdigit i l r Hp) as (r' & E & J & B & N & K). exists r'.
    split; [exact E|]. split; [exact J|]. split; [congruence|]. split; [congruence|auto].
Qed.
Lemma read_going : forall v i l r, Forall ok (i :: l) -> apart (i :: l) -> going v (i :: l) r -> (v = [] -> ~ blank_bit i) ->
  exists r', read r = Ok (bit_symbol i, r') /\ just i l r' /\ s_blanks (r_src r') = blanks_in (v ++ [i])
    /\ r_numbers r' = numbers_in (v ++ [i]) /\ r_blank r' = is_blank_bit i.
Proof.
  intros v i l r Hok Hap [[-> Hr]|(Hv & Hf & Hb & Hn)] Hi.
  - destruct (read_ready i l r Hok Hap Hr) as (r' & E & J & B & N & K). exists r'.
    split; [exact E|]. split; [exact J|]. cbn [app]. rewrite blanks_one, numbers_one. split; [exact B|]. split; [exact N|].
    rewrite K by auto. destruct (is_blank_bit i) eqn:X; auto. apply blank_bit_iff in X. exfalso. now apply Hi.
  - destruct (read_fresh P isdigit HN HD1 HD2 HE i l r Hok Hap Hf) as (r' & E & J & B & N & K). exists r'.
    rewrite blanks_in_app, numbers_in_app, blanks_one, numbers_one, <- Hb, <- Hn. auto 6.
Qed.

Lemma note_none : forall i r st lf sf last, (isFinal (all_finals P) st = true -> ~ stop P ispunct space_mode i) ->
  exists last', tm_note P ispunct isdigit space_mode (bit_symbol i) (mkTM r st lf sf last) = Ok (mkTM r st lf sf last').
Proof.
  intros i r st lf sf last H. unfold tm_note. cbn [m_read m_state m_lf m_sf m_last].
  destruct (isFinal (all_finals P) st) eqn:F.
  - destruct (ispunct (bit_symbol i) || (space_mode && p_isspace P (bit_symbol i))) eqn:S; [|eauto].
    exfalso. apply (H eq_refl). unfold stop_by. apply orb_prop in S as [S|S]; [now left|]. apply andb_prop in S. now right.
  - destruct (match sf with [] => p_isspace P (bit_symbol i) | _ => false end); eauto.
Qed.

(** Every part of [s] has a state. *)
Definition defined (s : list Z) : Prop := forall a w b, s = a ++ w ++ b -> exists st, tstate P w = Ok st.
Lemma defined_tail : forall a s, defined (a ++ s) -> defined s.
Proof. intros a s H x w y E. apply (H (a ++ x) w y). rewrite E. now rewrite <- !app_assoc. Qed.

Notation loop rounds := (tm_loop P ispunct isdigit space_mode rounds).
Notation unit_here := (unit_at P ispunct space_mode).

Lemma final_unit : forall v i l st, tstate P (map bit_symbol v) = Ok st -> ~ unit_here (v ++ i :: l) (length v) ->
  isFinal (all_finals P) st = true -> ~ stop P ispunct space_mode i.
Proof.
  intros v i l st Hs Hu F S. apply Hu. exists i. split; [rewrite nth_error_app2, Nat.sub_diag by lia; reflexivity|].
  split; [exact S|]. rewrite firstn_app, firstn_all, Nat.sub_diag. cbn [firstn]. rewrite app_nil_r.
  now apply (tstate_accepting P _ _ _ Hs).
Qed.

(** The beginning of a unit *)
Lemma walk : forall rounds init rest u v r st last fuel, Forall ok (u ++ rest) -> apart (u ++ rest) ->
  defined (map bit_symbol (v ++ u ++ rest)) -> going v (u ++ rest) r -> (v = [] -> forall i x, u = i :: x -> ~ blank_bit i) ->
  tstate P (map bit_symbol v) = Ok st -> living P false (map bit_symbol (v ++ u)) ->
  (forall k, (length v <= k < length v + length u)%nat -> ~ unit_here (v ++ u ++ rest) k) ->
  exists r' st' last', loop rounds (length u + fuel)%nat init (mkTM r st [] (surfs v) last)
      = loop rounds fuel init (mkTM r' st' [] (surfs (v ++ u)) last')
    /\ going (v ++ u) rest r' /\ tstate P (map bit_symbol (v ++ u)) = Ok st'.
Proof.
  intros rounds init rest u. induction u as [|i u IH]; intros v r st last fuel Hok Hap Hd Hg Hb Hs Hl Hu.
  - rewrite app_nil_r in *. exists r, st, last. auto.
  - cbn [app] in Hok, Hap, Hg. destruct (read_going v i (u ++ rest) r Hok Hap Hg) as (r1 & E & J & B & N & K).
    { intros ->. eapply Hb; eauto. }
    cbn [length Nat.add tm_loop m_read]. rewrite E. cbn [obind]. rewrite (symbol_nonzero i (Forall_inv Hok)).
    cbn [m_state m_lf m_sf m_last].
    destruct (note_none i r1 st [] (surfs v) last) as (last1 & En).
    { apply (final_unit v i (u ++ rest) st Hs). apply Hu. cbn [length]. lia. }
    rewrite En. cbn [obind m_state m_read m_lf m_sf m_last].
    assert (Ed : map bit_symbol (v ++ (i :: u) ++ rest) = [] ++ (map bit_symbol (v ++ [i])) ++ map bit_symbol (u ++ rest)).
    { rewrite <- map_app. cbn [app]. rewrite <- app_assoc. reflexivity. }
    destruct (Hd _ _ _ Ed) as (st1 & Hs1). pose proof Hs1 as Hs1'.
    rewrite map_app in Hs1. cbn [map] in Hs1. rewrite tstate_snoc, Hs in Hs1. cbn [obind] in Hs1. rewrite Hs1. cbn [obind].
    assert (Ev : (v ++ [i]) ++ u = v ++ i :: u) by (rewrite <- app_assoc; reflexivity).
    assert (L1 : living P false (map bit_symbol (v ++ [i]))).
    { rewrite <- Ev, map_app in Hl. eapply living_prefix. exact Hl. }
    apply (tstate_living P _ _ Hs1') in L1. destruct st1 as [|x1 st1]; [congruence|]. clear L1.
    rewrite (surface_ok i r1 (blanks_in v) (numbers_in v)); [|exact (Forall_inv Hok)|exact K
      |now rewrite B, blanks_in_app, blanks_one|now rewrite N, numbers_in_app, numbers_one].
    cbn [obind]. replace (surfs v ++ surf i) with (surfs (v ++ [i])) by (rewrite surfs_app; unfold surfs; cbn; now rewrite app_nil_r).
    rewrite <- Ev in *. apply IH.
    + exact (Forall_inv_tail Hok).
    + apply (apart_tail [i]). exact Hap.
    + replace ((v ++ [i]) ++ u ++ rest) with (v ++ (i :: u) ++ rest) by (rewrite <- app_assoc; reflexivity). exact Hd.
    + right. split; [destruct v; discriminate|]. split; [exact (just_fresh isdigit _ _ _ J)|]. auto.
    + intros X. destruct v; discriminate X.
    + exact Hs1'.
    + exact Hl.
    + intros k Hk. replace ((v ++ [i]) ++ u ++ rest) with (v ++ (i :: u) ++ rest) by (rewrite <- app_assoc; reflexivity).
      apply Hu. rewrite app_length in Hk. cbn [length] in *. lia.
Qed.

(** The rest of a word *)
Lemma word_read : forall rest w i r sf fuel y, Forall ok (i :: w ++ rest) -> apart (i :: w ++ rest) -> just i (w ++ rest) r ->
  Forall (fun i => ~ gapped i) (i :: w) -> (forall g x, rest = g :: x -> gapped g) ->
  r_blank r = false -> r_numbers r = y ++ bit_numbers i -> (length w < fuel)%nat ->
  exists r', match rest with
    | [] => word_run P ispunct isdigit fuel (bit_symbol i) sf r = Ok (0, sf ++ surfs (i :: w), r')
            /\ fresh [] r' /\ eof (s_file (r_src r')) = true /\ s_blanks (r_src r') = s_blanks (r_src r)
    | g :: x => word_run P ispunct isdigit fuel (bit_symbol i) sf r = Ok (bit_symbol g, sf ++ surfs (i :: w), r')
            /\ just g x r' /\ s_blanks (r_src r') = s_blanks (r_src r) ++ bit_blanks g /\ r_blank r' = is_blank_bit g
    end.
Proof.
  intros rest w. induction w as [|j w IH]; intros i r sf fuel y Hok Hap J Hg Hr Hb Hn Hf;
    (destruct fuel as [|fuel]; [cbn in Hf; lia|]); cbn [word_run];
    assert (Nb : is_blank_bit i = false)
      by (destruct (is_blank_bit i) eqn:X; auto; apply blank_bit_iff in X; exfalso; exact (Forall_inv Hg (blank_gapped i X)));
    assert (Bl : bit_blanks i = []) by (destruct i; try reflexivity; discriminate Nb);
    (rewrite (surface_ok i r (s_blanks (r_src r)) y);
      [|exact (Forall_inv Hok)|congruence|now rewrite Bl, app_nil_r|exact Hn]); cbn [obind].
  - cbn [app] in *. assert (Es : surfs [i] = surf i) by (unfold surfs; cbn; now rewrite app_nil_r). rewrite Es.
    destruct rest as [|g x].
    + destruct (read_end P isdigit r (just_fresh isdigit _ _ _ J)) as (r' & E & F & X & B). exists r'. rewrite E. cbn [obind].
      replace (0 =? 0) with true by reflexivity. cbn [negb andb]. auto.
    + destruct (read_fresh P isdigit HN HD1 HD2 HE g x r (Forall_inv_tail Hok) (apart_tail [i] _ Hap) (just_fresh isdigit _ _ _ J))
        as (r' & E & J' & B & N & K). exists r'. rewrite E. cbn [obind].
      rewrite (proj2 (gap_iff g) (Hr g x eq_refl)). cbn [negb]. rewrite andb_false_r. auto.
  - cbn [app] in *. destruct (read_fresh P isdigit HN HD1 HD2 HE j (w ++ rest) r (Forall_inv_tail Hok) (apart_tail [i] _ Hap) (just_fresh isdigit _ _ _ J))
      as (r1 & E & J' & B & N & K). rewrite E. cbn [obind].
    rewrite (symbol_nonzero j (Forall_inv (Forall_inv_tail Hok))), (gap_false j (Forall_inv (Forall_inv_tail Hg))). cbn [negb andb].
    assert (Nj : is_blank_bit j = false).
    { destruct (is_blank_bit j) eqn:X; auto. apply blank_bit_iff in X. exfalso. exact (Forall_inv (Forall_inv_tail Hg) (blank_gapped j X)). }
    assert (Blj : bit_blanks j = []) by (destruct j; try reflexivity; discriminate Nj). rewrite Blj, app_nil_r in B.
    destruct (IH j r1 (sf ++ surf i) fuel (r_numbers r) (Forall_inv_tail Hok) (apart_tail [i] _ Hap) J' (Forall_inv_tail Hg) Hr ltac:(congruence) N
      ltac:(cbn in Hf; lia)) as (r' & H).
    exists r'. rewrite <- B. replace (sf ++ surfs (i :: j :: w)) with ((sf ++ surf i) ++ surfs (j :: w)) by (rewrite <- app_assoc; reflexivity).
    exact H.
Qed.

(** ** The segments *)
Lemma gap_emit : forall rounds g l r st last, ok g -> gapped g -> just g l r -> s_blanks (r_src r) = bit_blanks g ->
  exists r', tm_emit P ispunct isdigit rounds (bit_symbol g) (mkTM r st [] [] last) = Ok (utf16_text (bits_text [g]), true, r')
    /\ fresh l r' /\ s_blanks (r_src r') = [].
Proof.
  intros rounds g l r st last Hok Hg J B. unfold tm_emit. cbn [m_read m_sf m_lf m_last]. rewrite (proj2 (gap_iff g) Hg). cbn [andb].
  pose proof (just_fresh isdigit _ _ _ J) as F. destruct (mo_space _ _ _ HP) as [S32 SM]. destruct (mo_symbol _ _ _ HP) as [N1 N2].
  rewrite B. unfold bits_text. cbn [map concat]. rewrite app_nil_r.
  destruct g as [c|c|ds|b|b]; cbn [bit_ok bit_symbol bit_blanks bit_text] in *.
  - destruct Hok as (Hc & H0 & Hm & _). assert (E : is_escaped c = false).
    { destruct (is_escaped c) eqn:E; auto. exfalso. apply Hm. now apply meta_iff. }
    assert (A : append_cp [] c = utf16_text [c]) by (rewrite append_cp_utf16 by auto; unfold utf16_text; cbn; now rewrite app_nil_r).
    rewrite E, A. exists r. destruct (p_isspace P c); auto.
  - rewrite (SM c Hok), (proj2 (meta_iff c) Hok). apply meta_scalar in Hok as (Hc & H0 & U).
    rewrite append_cp_utf16 by auto. exists r. split; [|auto]. rewrite !utf16_text_cons. cbn. now rewrite app_nil_r.
  - exfalso. destruct Hg as [Hg|Hg]; cbn [bit_symbol] in Hg; congruence.
  - rewrite S32. cbn [concat]. rewrite app_nil_r. eexists. split; [reflexivity|]. split; [exact F|reflexivity].
  - rewrite S32. cbn [concat]. rewrite app_nil_r. eexists. split; [reflexivity|]. split; [exact F|reflexivity].
Qed.
Lemma drop_blanks : forall r x g, r_blank r = is_blank_bit g -> s_blanks (r_src r) = x ++ bit_blanks g ->
  s_blanks (r_src (drop_queue r)) = bit_blanks g.
Proof.
  intros r x g Hb Hx. unfold drop_queue. cbn [r_src s_blanks]. rewrite Hb, Hx.
  destruct g; cbn [is_blank_bit bit_blanks]; try reflexivity; now rewrite rev_app_distr.
Qed.
Lemma pending_ready : forall g x r, pending g x r -> s_blanks (r_src r) = bit_blanks g -> gapped g ->
  ready (g :: x) (without_numbers r).
Proof.
  intros g x r Hp Hb Hg. split; [reflexivity|]. right. exists g, x. split; [reflexivity|]. split; [exact Hp|].
  split; [exact Hb|now apply gap_number].
Qed.
Lemma dead : forall v i l st, tstate P (map bit_symbol v) = Ok st -> defined (map bit_symbol (v ++ i :: l)) ->
  ~ living P false (map bit_symbol (v ++ [i])) -> offer P (case_choice P (bit_symbol i) false) st = Ok [].
Proof.
  intros v i l st Hs Hd Hl.
  assert (Ed : map bit_symbol (v ++ i :: l) = [] ++ map bit_symbol (v ++ [i]) ++ map bit_symbol l).
  { rewrite <- map_app. cbn [app]. rewrite <- app_assoc. reflexivity. }
  destruct (Hd _ _ _ Ed) as (st1 & Hs1). pose proof Hs1 as Hs1'.
  rewrite map_app in Hs1. cbn [map] in Hs1. rewrite tstate_snoc, Hs in Hs1. cbn [obind] in Hs1. rewrite Hs1.
  destruct st1 as [|y st1]; [reflexivity|]. exfalso. apply Hl. apply (tstate_living P _ _ Hs1'). discriminate.
Qed.
Lemma note_unit : forall u p r st sf last t o q', tstate P (map bit_symbol u) = Ok st -> accepting P false (all_finals P) (map bit_symbol u) ->
  stop P ispunct space_mode p -> tm_texts P st = Ok t -> filled (r_numbers r) (s_blanks (r_src r)) t (47 :: o) q' ->
  tm_note P ispunct isdigit space_mode (bit_symbol p) (mkTM r st [] sf last)
  = Ok (mkTM (mkTR (mkS (s_file (r_src r)) (s_buf (r_src r)) q') [] (r_blank r)) st o sf (position r)).
Proof.
  intros u p r st sf last t o q' Hs Ha Hp Ht Hf. unfold tm_note. cbn [m_read m_state m_lf m_sf m_last].
  rewrite (proj2 (tstate_accepting P _ _ _ Hs) Ha).
  assert (E : ispunct (bit_symbol p) || (space_mode && p_isspace P (bit_symbol p)) = true).
  { destruct Hp as [-> |[-> ->]]; [reflexivity|]. apply orb_true_r. }
  rewrite E. unfold filterFinalsTM. rewrite Ht. cbn [obind]. destruct (fragments t) as [f fs] eqn:Ef.
  pose proof (fill_correct isdigit HD1 HD2 _ _ _ _ _ Hf) as K. rewrite Ef in K. cbn [fst snd] in K. rewrite K. reflexivity.
Qed.
Lemma stop_gap : forall p, stop P ispunct space_mode p -> gapped p.
Proof. intros p [H|[_ H]]; [now right|now left]. Qed.

Lemma cut_nil : forall segs, cut P ispunct space_mode [] segs -> segs = [].
Proof.
  assert (K : forall l segs, cut P ispunct space_mode l segs -> l = [] -> segs = []).
  { intros l segs H. destruct H as [| |u w l segs A1 A2 A3 A4 Hwr|u p l segs|u B1 B2]; intros E; [reflexivity|discriminate E| | |];
      exfalso; [apply app_eq_nil in E as [_ E]; exact (Hwr E)|apply app_eq_nil in E as [_ E]; discriminate E|exact (B2 E)]. }
  intros segs H. exact (K [] segs H eq_refl).
Qed.
Lemma main : forall answer, gives P answer -> forall l segs, cut P ispunct space_mode l segs -> Forall (fillable_by answer) segs -> Forall ok l -> apart l ->
  defined (map bit_symbol l) -> forall rounds init, initial_state P = Ok init -> (length l < rounds)%nat ->
  forall r last fuel, ready l r -> (2 * length l + 1 <= fuel)%nat ->
  exists o r', shown_by answer segs o /\ loop rounds fuel init (mkTM r init [] [] last) = Ok (o, r')
    /\ fresh [] r' /\ eof (s_file (r_src r')) = true /\ s_blanks (r_src r') = [].
Proof.
  intros answer Hans l segs H. induction H as [|g l segs Hg Hl Hu Hc IH|u w l segs Hfirst Hesc Hlive Hnl Hwr Hu Hw Hlg Hwu Hlast Hc IH
    |u p l segs Hfirst Hune Hp Hacc Hnl Hu Hc IH|u Hfirst Hune Hlive Hu]; intros Hfill Hok Hap Hd rounds init Hi Hr r last fuel Hready Hfuel.
  - destruct Hready as [Hn [[Hf Hb]|(i & x & E & _)]]; [|discriminate E].
    destruct (read_end P isdigit r Hf) as (r' & E & F & X & B). destruct fuel as [|fuel]; [lia|].
    cbn [tm_loop m_read]. rewrite E. cbn [obind]. replace (0 =? 0) with true by reflexivity.
    exists [], (on_source (fun s => mkS (s_file s) (s_buf s) []) r'). rewrite B, Hb. split; [constructor|]. split; [reflexivity|].
    split; [exact F|]. auto.
  - cbn [length] in *. destruct fuel as [|fuel]; [lia|]. cbn [tm_loop m_read].
    destruct (read_ready g l r Hok Hap Hready) as (r1 & E & J & B & N & _). rewrite E. cbn [obind].
    rewrite (symbol_nonzero g (Forall_inv Hok)). cbn [m_state m_lf m_sf m_last].
    assert (Hs : tstate P (map bit_symbol []) = Ok init) by (unfold tstate; rewrite Hi; reflexivity).
    destruct (note_none g r1 init [] [] last) as (last1 & En); [apply (final_unit [] g l init Hs); exact Hu|].
    rewrite En. cbn [obind m_state m_read m_lf m_sf m_last].
    rewrite (dead [] g l init Hs Hd Hl). cbn [obind].
    destruct (gap_emit rounds g l r1 init last1 (Forall_inv Hok) Hg J B) as (r2 & -> & F2 & B2). cbn [obind].
    destruct (IH (Forall_inv_tail Hfill) (Forall_inv_tail Hok) (apart_tail [g] _ Hap) (defined_tail [bit_symbol g] _ Hd) rounds init Hi ltac:(lia) (without_numbers r2) last1 fuel)
      as (o & r' & So & Eo & Fo & X).
    + split; [reflexivity|]. left. split; [exact F2|exact B2].
    + lia.
    + rewrite Eo. cbn [obind]. eexists. exists r'. split; [|split; [reflexivity|auto]]. now constructor.
  - assert (Hs : tstate P (map bit_symbol []) = Ok init) by (unfold tstate; rewrite Hi; reflexivity).
    assert (LL : (length u + length w + length l = length (u ++ w ++ l))%nat) by (rewrite !app_length; lia).
    assert (L1 : (0 < length w + length l)%nat).
    { destruct w; cbn; [|lia]. destruct l; cbn; [|lia]. now destruct Hwr. }
    assert (L2 : (0 < length u + length w)%nat).
    { destruct w; cbn; [|lia]. destruct u; cbn; [|lia]. now destruct (Hwu eq_refl). }
    replace fuel with (length u + S (fuel - length u - 1))%nat by lia.
    destruct (walk rounds init (w ++ l) u [] r init last (S (fuel - length u - 1)) Hok Hap Hd) as (r1 & st1 & last1 & E1 & G1 & S1).
    + left. split; [reflexivity|exact Hready].
    + intros _. exact Hfirst.
    + exact Hs.
    + exact Hlive.
    + intros k Hk. apply Hu. cbn [length] in Hk. lia.
    + cbn [app] in *. change (surfs []) with (@nil Z) in E1. rewrite E1. clear E1. set (fuel1 := (fuel - length u - 1)%nat) in *.
      assert (Hok' : Forall ok (w ++ l)) by (apply Forall_app in Hok; tauto).
      pose proof (apart_tail u _ Hap) as Hap'.
      assert (Hsf : surfs (u ++ w) = utf16_text (bits_text (u ++ w))) by (now apply surfs_text).
      destruct w as [|i w].
      * (* the next bit is between words *)
        cbn [app] in *. rewrite app_nil_r in *. specialize (Hwu eq_refl). destruct l as [|g l]; [now destruct Hwr|].
        destruct (read_going u g l r1 Hok' Hap' G1) as (r2 & E2 & J2 & B2 & N2 & K2); [congruence|].
        cbn [tm_loop m_read]. rewrite E2. cbn [obind]. rewrite (symbol_nonzero g (Forall_inv Hok')). cbn [m_state m_lf m_sf m_last].
        destruct (note_none g r2 st1 [] (surfs u) last1) as (last2 & En).
        { apply (final_unit u g l st1 S1). apply Hu. lia. }
        rewrite En. cbn [obind m_state m_read m_lf m_sf m_last]. rewrite (dead u g l st1 S1 Hd (Hnl g l eq_refl)). cbn [obind].
        assert (Gg : gapped g) by (eapply Hlg; reflexivity).
        unfold tm_emit. cbn [m_read m_sf m_lf m_last]. rewrite (proj2 (gap_iff g) Gg). cbn [negb andb].
        assert (Ne : match surfs u with [] => true | _ => false end = false).
        { destruct u as [|i u]; [congruence|]. unfold surfs. cbn [map concat]. destruct (surf i ++ concat (map surf u)) eqn:X; [|reflexivity].
          apply app_eq_nil in X as [X _]. destruct (surf_nonempty i (Forall_inv Hok) X). }
        rewrite Ne. cbn [obind].
        destruct (IH (Forall_inv_tail Hfill) Hok' Hap' ltac:(rewrite map_app in Hd; exact (defined_tail _ _ Hd)) rounds init Hi ltac:(lia)
          (without_numbers (drop_queue (on_source (go_back 1) r2))) last2 fuel1) as (o & r' & So & Eo & Fo & X).
        { apply pending_ready; [exact (just_back isdigit g l r2 J2)| |exact Gg].
          apply (drop_blanks _ (blanks_in u)); [exact K2|]. cbn [on_source go_back r_src s_blanks]. now rewrite B2, blanks_in_app, blanks_one. }
        { unfold fuel1. cbn [length] in *. lia. }
        rewrite Eo. cbn [obind]. rewrite Hsf. eexists. exists r'. split; [|split; [reflexivity|exact (conj Fo X)]]. now constructor.
      * (* a word *)
        cbn [app] in *. destruct (read_going u i (w ++ l) r1 Hok' Hap' G1) as (r2 & E2 & J2 & B2 & N2 & K2).
        { intros _ Hbl. exact (Forall_inv Hw (blank_gapped i Hbl)). }
        cbn [tm_loop m_read]. rewrite E2. cbn [obind]. rewrite (symbol_nonzero i (Forall_inv Hok')). cbn [m_state m_lf m_sf m_last].
        destruct (note_none i r2 st1 [] (surfs u) last1) as (last2 & En).
        { apply (final_unit u i (w ++ l) st1 S1). apply Hu. lia. }
        rewrite En. cbn [obind m_state m_read m_lf m_sf m_last].
        rewrite (dead u i (w ++ l) st1 S1 Hd (Hnl i (w ++ l) eq_refl)). cbn [obind].
        unfold tm_emit. cbn [m_read m_sf m_lf m_last]. rewrite (gap_false i (Forall_inv Hw)). cbn [negb andb]. rewrite orb_true_r.
        assert (Nb : is_blank_bit i = false).
        { destruct (is_blank_bit i) eqn:X; auto. apply blank_bit_iff in X. destruct (Forall_inv Hw (blank_gapped i X)). }
        assert (Bi : bit_blanks i = []) by (destruct i; try reflexivity; discriminate Nb).
        destruct (word_read l w i r2 (surfs u) rounds (numbers_in u) Hok' Hap' J2 Hw Hlg ltac:(congruence)
          ltac:(now rewrite N2, numbers_in_app, numbers_one) ltac:(cbn [length] in *; lia)) as (r3 & H3).
        rewrite <- surfs_app, Hsf in H3.
        destruct l as [|g l].
        -- destruct H3 as (E3 & F3 & X3 & B3). rewrite E3. cbn [obind]. replace (0 =? 0) with true by reflexivity.
           rewrite (cut_nil _ Hc). cbn [obind]. eexists. exists r3. split; [apply sh_kept; constructor|]. split; [now rewrite app_nil_r|].
           split; [exact F3|]. split; [exact X3|]. rewrite B3, B2, blanks_in_app, blanks_one, Bi, (Hlast eq_refl). reflexivity.
        -- destruct H3 as (E3 & J3 & B3 & K3). rewrite E3. cbn [obind].
           assert (Hokl : Forall ok (g :: l)) by (inversion Hok'; subst; now apply Forall_app in H2).
           rewrite (symbol_nonzero g (Forall_inv Hokl)). cbn [obind]. assert (Gg : gapped g) by (eapply Hlg; reflexivity).
           destruct (IH (Forall_inv_tail Hfill) Hokl (apart_tail (i :: w) _ Hap')
             ltac:(replace (u ++ i :: w ++ g :: l) with ((u ++ i :: w) ++ g :: l) in Hd by (rewrite <- app_assoc; reflexivity);
                   rewrite map_app in Hd; exact (defined_tail _ _ Hd)) rounds init Hi ltac:(cbn [length] in *; lia)
             (without_numbers (drop_queue (on_source (go_back 1) r3))) last2 fuel1) as (o & r' & So & Eo & Fo & X).
           { apply pending_ready; [exact (just_back isdigit g l r3 J3)| |exact Gg].
             apply (drop_blanks _ (s_blanks (r_src r2))); [exact K3|exact B3]. }
           { unfold fuel1. cbn [length] in *. lia. }
           rewrite Eo. cbn [obind]. eexists. exists r'. split; [|split; [reflexivity|exact (conj Fo X)]]. now constructor.
  - assert (Hs : tstate P (map bit_symbol []) = Ok init) by (unfold tstate; rewrite Hi; reflexivity).
    assert (LL : (length u + S (length l) = length (u ++ p :: l))%nat) by (rewrite app_length; reflexivity).
    assert (L1 : (0 < length u)%nat) by (destruct u; cbn; [congruence|lia]).
    replace fuel with (length u + S (fuel - length u - 1))%nat by lia.
    destruct (walk rounds init (p :: l) u [] r init last (S (fuel - length u - 1)) Hok Hap Hd) as (r1 & st1 & last1 & E1 & G1 & S1).
    + left. split; [reflexivity|exact Hready].
    + intros _. exact Hfirst.
    + exact Hs.
    + eapply accepting_living. exact Hacc.
    + intros k Hk (i & Ni & Si & Ai). cbn [length app Nat.add] in *. apply (Hu k ltac:(lia)). exists i.
      rewrite nth_error_app1 in Ni by lia. split; [rewrite nth_error_app1 by lia; exact Ni|]. split; [exact Si|].
      rewrite firstn_app in Ai |- *. replace (k - length u)%nat with 0%nat in * by lia. exact Ai.
    + cbn [app] in *. change (surfs []) with (@nil Z) in E1. rewrite E1. clear E1. set (fuel1 := (fuel - length u - 1)%nat) in *.
      assert (Hok' : Forall ok (p :: l)) by (apply Forall_app in Hok; tauto).
      pose proof (apart_tail u _ Hap) as Hap'.
      destruct (read_going u p l r1 Hok' Hap' G1) as (r2 & E2 & J2 & B2 & N2 & K2); [congruence|].
      cbn [tm_loop m_read]. rewrite E2. cbn [obind]. rewrite (symbol_nonzero p (Forall_inv Hok')). cbn [m_state m_lf m_sf m_last].
      destruct (tstate_answers P answer Hans _ _ S1 (mo_texts _ _ _ HP)) as (t & Et & At).
      destruct (Forall_inv Hfill t At) as (o & Ho & Hfo).
      pose proof (stop_gap p Hp) as Gp.
      rewrite (note_unit u p r2 st1 (surfs u) last1 t o (blanks_in [p]) S1 Hacc Hp Et).
      2: { rewrite N2, B2, numbers_in_app, numbers_one, (gap_number p Gp), app_nil_r. exact Hfo. }
      cbn [obind m_state m_read m_lf m_sf m_last]. rewrite (dead u p l st1 S1 Hd Hnl). cbn [obind].
      unfold tm_emit. cbn [m_read m_sf m_lf m_last]. rewrite (proj2 (gap_iff p) Gp). cbn [negb andb].
      assert (Ne : match surfs u with [] => true | _ => false end = false).
      { destruct u as [|i u]; [congruence|]. unfold surfs. cbn [map concat]. destruct (surf i ++ concat (map surf u)) eqn:X; [|reflexivity].
        apply app_eq_nil in X as [X _]. destruct (surf_nonempty i (Forall_inv Hok) X). }
      rewrite Ne. destruct o as [|o1 o]; [congruence|]. cbn [obind].
      match goal with |- context [without_numbers ?R] => set (r3 := R) end.
      destruct (IH (Forall_inv_tail Hfill) Hok' Hap' ltac:(rewrite map_app in Hd; exact (defined_tail _ _ Hd)) rounds init Hi ltac:(cbn [length] in *; lia)
        (without_numbers r3) (position r2) fuel1) as (o' & r' & So & Eo & Fo & X).
      { apply pending_ready; [exact (just_set isdigit p l r2 J2)|apply blanks_one|exact Gp]. }
      { unfold fuel1. cbn [length] in *. lia. }
      rewrite Eo. cbn [obind]. eexists. exists r'. split; [|split; [reflexivity|exact (conj Fo X)]].
      replace (([91] ++ (o1 :: o) ++ [93]) ++ o') with ([91] ++ (o1 :: o) ++ [93] ++ o') by (rewrite <- !app_assoc; reflexivity).
      apply sh_unit; [|exact So]. split; [exact Ho|]. exists t. auto.
  - assert (Hs : tstate P (map bit_symbol []) = Ok init) by (unfold tstate; rewrite Hi; reflexivity).
    replace fuel with (length u + S (fuel - length u - 1))%nat by lia.
    rewrite <- (app_nil_r u) in Hok, Hap, Hd, Hready.
    destruct (walk rounds init [] u [] r init last (S (fuel - length u - 1)) Hok Hap Hd) as (r1 & st1 & last1 & E1 & G1 & S1).
    + left. split; [reflexivity|exact Hready].
    + intros _. exact Hfirst.
    + exact Hs.
    + exact Hlive.
    + intros k Hk. cbn [app]. rewrite app_nil_r. apply Hu. cbn [length] in Hk. lia.
    + cbn [app] in *. change (surfs []) with (@nil Z) in E1. rewrite E1. clear E1.
      destruct G1 as [[X _]|(_ & Hf & Hb & _)]; [contradiction|].
      destruct (read_end P isdigit r1 Hf) as (r' & E & F & X & B). cbn [tm_loop m_read]. rewrite E. cbn [obind].
      replace (0 =? 0) with true by reflexivity. exists (concat (blanks_in u)), (on_source (fun s => mkS (s_file s) (s_buf s) []) r').
      split; [constructor|]. split; [now rewrite B, Hb|]. split; [exact F|]. auto.
Qed.
End Loop.
