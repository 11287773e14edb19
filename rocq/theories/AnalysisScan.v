(** Proofs for C56: one search for a token. *)
From Verif Require Import Base CompressionModel AlphabetModel StateModel StateSpec StatePathProofs StateProps
  FinalsModel FinalsProps StringModel InputModel InputProps StreamModel StreamProps ProcessorModel
  ProcessorProofs CompoundProofs CompoundProps LookupProps AnalysisSpec BufferModel BufferProps AnalysisProofs.
Notation source := StreamModel.source.

Lemma blanks_app : forall a b, blanks (a ++ b) = blanks a ++ blanks b.
Proof. intros a b. unfold blanks. apply flat_map_app. Qed.
Lemma firstn_one_more : forall {A} (l : list A) n, firstn (S n) l = firstn n l ++ firstn 1 (skipn n l).
Proof. intros A l. induction l as [|x l IH]; intros [|n]; cbn [firstn skipn app]; auto. now rewrite <- IH. Qed.
Lemma firstn_nth : forall (l : list Z) k, (k < length l)%nat -> firstn (S k) l = firstn k l ++ [nth k l 0].
Proof. intros l k H. apply firstn_S. now apply nth_error_nth'. Qed.
Lemma nth_firstn : forall (l : list Z) j k, (j < k)%nat -> nth j (firstn k l) 0 = nth j l 0.
Proof. intros l. induction l as [|x l IH]; intros [|j] [|k] H; cbn; auto; try lia. apply IH. lia. Qed.
Lemma firstn_prefix : forall {A} (l : list A) j k, (j <= k)%nat -> exists b, firstn k l = firstn j l ++ b.
Proof.
  intros A l j k H. exists (skipn j (firstn k l)). rewrite <- (firstn_skipn j (firstn k l)) at 1. f_equal.
  rewrite firstn_firstn. now rewrite Nat.min_l.
Qed.
Lemma utf16_text_app_one : forall w c, utf16_text (w ++ [c]) = utf16_text w ++ utf16 c.
Proof. intros w c. rewrite utf16_text_app, utf16_text_cons. cbn. now rewrite app_nil_r. Qed.
Lemma utf16_nonempty : forall c, utf16 c <> [].
Proof. intros c. unfold utf16. destruct (c <? 65536); discriminate. Qed.
Lemma utf16_text_empty : forall s, utf16_text s = [] -> s = [].
Proof.
  intros [|c s] H; auto. rewrite utf16_text_cons in H. apply app_eq_nil in H as [H _]. now apply utf16_nonempty in H.
Qed.
Lemma final_weight_app : forall q a b, final_weight q a <> None -> final_weight q (b ++ a) <> None.
Proof.
  intros q a b H. induction b as [|[x w] b IH]; cbn [app final_weight]; auto. destruct (x =? q)%nat; [discriminate|auto].
Qed.

Lemma Forall_firstn : forall {A} (Q : A -> Prop) l n, Forall Q l -> Forall Q (firstn n l).
Proof. intros A Q l n H. rewrite <- (firstn_skipn n l) in H. now apply Forall_app in H. Qed.
Lemma firstn_app_2_exact : forall {A} (a b : list A), firstn (length a) (a ++ b) = a.
Proof. intros A a b. rewrite firstn_app, Nat.sub_diag, firstn_all, app_nil_r. reflexivity. Qed.

Lemma nth_skipn : forall (l : list Z) k i, nth i (skipn k l) 0 = nth (k + i) l 0.
Proof. intros l. induction l as [|x l IH]; intros [|k] i; cbn; auto. now destruct i. Qed.

Section Scan.
  Context (P : processor) (cs : bool) (HP : plain_dix P cs) (tail : list Z) (Ht : tail_ok tail) (rounds : nat).
  Notation letter := (letter P).
  Notation matches := (matches P cs).
  Notation living := (living P cs).

  Definition white (c : Z) : Prop := p_isspace P c = true /\ c <> 32.
  Record ready (its : list item) (n k : nat) (start : Z) (src : source) : Prop := {
    rd_held : held tail its n k start src;
    rd_blanks : s_blanks src = blanks (firstn n its);
    rd_white : forall j, (j < n)%nat -> (j < length its)%nat -> white (nth j (symbols its) 0) -> S j = n
  }.
  Definition fine (its : list item) : Prop := Forall (item_ok (p_ignored P)) its.

  Lemma fine_scalar : forall its, fine its -> Forall scalar (symbols its).
  Proof.
    intros its H. apply Forall_forall. intros c Hc. apply in_map_iff in Hc as (i & <- & Hi).
    unfold fine in H. rewrite Forall_forall in H. eapply item_scalar; eauto.
  Qed.
  Lemma fine_nth : forall its k, fine its -> (k < length its)%nat -> scalar (nth k (symbols its) 0) /\ nth k (symbols its) 0 <> 0.
  Proof.
    intros its k H Hk. assert (Hi : exists i, nth_error its k = Some i).
    { destruct (nth_error its k) eqn:E; eauto. apply nth_error_None in E. lia. }
    destruct Hi as (i & Hi). assert (E : nth k (symbols its) 0 = item_symbol i).
    { apply (map_nth_error item_symbol) in Hi. exact (nth_error_nth _ _ 0 Hi). }
    rewrite E. unfold fine in H. rewrite Forall_forall in H. eapply item_scalar. apply H. eapply nth_error_In; eauto.
  Qed.

  Lemma ready_read : forall its n k start src, fine its -> ready its n k start src ->
    (k <= length its)%nat -> (k < 2047)%nat -> (forall j, (j < k)%nat -> ~ white (nth j (symbols its) 0)) ->
    exists src', readAnalysis (p_ignored P) (p_alpha P) src = Ok (nth k (symbols its) 0, src')
      /\ ready its (Nat.max n (S k)) (S k) start src'
      /\ cong Size (getPos (s_buf src')) (start + Z.of_nat (S k)) /\ 0 <= getPos (s_buf src') <= Size.
  Proof.
    intros its n k start src Hok [Hh Hb Hw] Hk Hk2 Hno.
    destruct (pd_ignored _ _ HP) as (I1 & I2 & I3).
    destruct (held_read (p_ignored P) (p_alpha P) I1 I2 I3 tail Ht its n k start src Hok Hh Hk Hk2)
      as (src' & E & Hh' & Hb' & Pos). exists src'. split; [exact E|]. split; [|exact Pos].
    destruct (h_n _ _ _ _ _ _ Hh) as (N1 & N2 & N3). constructor; [exact Hh'| |].
    - rewrite Hb', Hb. destruct (n <=? k)%nat eqn:L.
      + apply Nat.leb_le in L. assert (n = k) by lia. subst n. replace (Nat.max k (S k)) with (S k) by lia.
        rewrite (firstn_one_more its k), blanks_app. reflexivity.
      + apply Nat.leb_gt in L. replace (Nat.max n (S k)) with n by lia. apply app_nil_r.
    - intros j Hj Hj2 Hwj. destruct (le_lt_dec n k) as [L|L].
      + assert (n = k) by lia. subst n. destruct (Nat.eq_dec j k) as [->|]; [lia|]. exfalso. apply (Hno j); auto. lia.
      + replace (Nat.max n (S k)) with n in * by lia. apply Hw; auto.
  Qed.
  Lemma ready_set : forall its n k start src j, ready its n k start src -> (j < n)%nat ->
    ready its n j start (set_pos (start + Z.of_nat j) src).
  Proof. intros its n k start src j [Hh Hb Hw] Hj. constructor; [eapply held_set; eauto|exact Hb|exact Hw]. Qed.

  (** *** No white space but ' ' in what can be read *)
  Lemma living_no_white : forall s k j, living (firstn k s) -> (j < k)%nat -> (j < length s)%nat -> ~ white (nth j s 0).
  Proof.
    intros s k j Hl Hj Hj2 [W1 W2]. destruct (firstn_prefix s (S j) k Hj) as (b & E). rewrite E in Hl.
    apply living_prefix in Hl. rewrite firstn_nth in Hl by auto. eapply pd_white; eauto.
  Qed.
  Lemma letter_not_white : forall c, letter c -> ~ white c.
  Proof. intros c Hl [W _]. apply (pd_letters _ _ HP) in Hl as [_ Hl]. congruence. Qed.

  (** *** The letters up to [e] *)
  Lemma run_spec : forall its start, fine its -> forall d k n src fuel, ready its n (S k) start src ->
    let s := symbols its in let e := (k + S d)%nat in
    (e <= length its)%nat -> (forall j, (k <= j < e)%nat -> letter (nth j s 0)) ->
    ((e < length its)%nat -> ~ letter (nth e s 0)) -> (e < 2047)%nat ->
    (forall j, (j < k)%nat -> ~ white (nth j s 0)) -> (d < fuel)%nat ->
    exists n' src', alphabetic_run P fuel (nth k s 0) (utf16_text (firstn k s)) src
        = Ok (nth e s 0, utf16_text (firstn e s), src')
      /\ ready its n' (S e) start src'.
  Proof.
    intros its start Hok d. induction d as [|d IH]; intros k n src fuel Hr s e He Hl Hend Hbuf Hno Hf;
      (destruct fuel as [|fuel]; [lia|]); cbn [alphabetic_run]; unfold s, e in *;
      destruct (fine_nth its k Hok ltac:(lia)) as [Sc Nz]; rewrite getSymbol_scalar by auto; cbn [obind];
      assert (Ls : (k < length (symbols its))%nat) by (rewrite map_length; lia);
      rewrite <- (utf16_text_app_one (firstn k (symbols its)) (nth k (symbols its) 0));
      rewrite <- firstn_nth by auto;
      (destruct (ready_read its n (S k) start src Hok Hr) as (src' & E & Hr' & _);
       [lia|lia|intros j Hj; destruct (Nat.eq_dec j k) as [->|]; [apply letter_not_white, Hl; lia|apply Hno; lia]|]);
      rewrite E; cbn [obind].
    - replace (k + 1)%nat with (S k) in * by lia.
      assert (X : negb (nth (S k) (symbols its) 0 =? 0) && isAlphabetic P (nth (S k) (symbols its) 0) = false).
      { destruct (Nat.eq_dec (S k) (length its)) as [El|Hne].
        - rewrite nth_overflow by (rewrite map_length; lia). reflexivity.
        - rewrite (proj2 (isAlphabetic_not P _) (Hend ltac:(lia))). apply andb_false_r. }
      rewrite X. eexists _, src'. split; [reflexivity|exact Hr'].
    - assert (L1 : letter (nth (S k) (symbols its) 0)) by (apply Hl; lia).
      pose proof (pd_letters _ _ HP _ L1) as [L0 _]. apply isAlphabetic_iff in L1. rewrite L1.
      replace (nth (S k) (symbols its) 0 =? 0) with false by (symmetry; now apply Z.eqb_neq). cbn [negb andb].
      replace (k + S (S d))%nat with (S k + S d)%nat in * by lia.
      apply (IH (S k) _ src' fuel Hr'); auto; try lia.
      + intros j Hj. apply Hl. lia.
      + intros j Hj. destruct (Nat.eq_dec j k) as [->|]; [apply letter_not_white, Hl; lia|apply Hno; lia].
  Qed.

  (** *** What has been found before position [m] *)
  Definition found (s : list Z) (start : Z) (a : analyser) (m : nat) : Prop :=
    (a_lf a = [] /\ a_incond a = false /\ forall j, (j < m)%nat -> ~ matches s j)
    \/ exists j st, (j < m)%nat /\ matches s j /\ (forall i, (j < i < m)%nat -> ~ matches s i)
         /\ state_of P (firstn j s) = Ok st
         /\ filter_finals P st (utf16_text (firstn j s)) = Ok (a_lf a)
         /\ a_incond a = isFinal (p_incond P) st
         /\ cong Size (a_last a) (start + Z.of_nat (S j)) /\ 0 <= a_last a <= Size
         /\ a_last_size a = length (utf16_text (firstn j s)).
  Record scanning (its : list item) (n k k' : nat) (a : analyser) : Prop := {
    sc_ready : ready its n k' (a_start a) (a_src a);
    sc_state : state_of P (firstn k (symbols its)) = Ok (a_state a);
    sc_alive : a_state a <> [];
    sc_sf : a_sf a = utf16_text (firstn k (symbols its));
    sc_flags : a_cpL a = false /\ a_postblank a = false /\ a_preblank a = false
  }.

  Lemma accepting_incond : forall w, accepting P cs (p_incond P) w -> accepting P cs (all_finals P) w.
  Proof.
    intros w (l & d & s & q & R & Rp & F). exists l, d, s, q. split; [auto|]. split; [auto|].
    unfold all_finals. rewrite (pd_post _ _ HP), (pd_pre _ _ HP).
    repeat first [apply final_weight_app; exact F | rewrite app_nil_r | exact F].
  Qed.
  Lemma step_zero : forall st, step_case P 0 st = Ok [].
  Proof.
    intros st. unfold step_case, offer, case_choice. assert (E : v_choose (p_find P) None st = []).
    { unfold v_choose. induction st; cbn; auto. }
    assert (C : (if p_isupper P 0 && negb (beCaseSensitive P st) then two 0 (p_tolower P 0) else one 0) = None)
      by (destruct (p_isupper P 0 && negb (beCaseSensitive P st)); reflexivity).
    rewrite C, E. now destruct (p_fuel P).
  Qed.

  Lemma note_spec : forall its n k a, fine its -> good P cs (symbols its) -> (k <= length its)%nat ->
    scanning its n k (S k) a -> found (symbols its) (a_start a) a k ->
    cong Size (getPos (s_buf (a_src a))) (a_start a + Z.of_nat (S k)) -> 0 <= getPos (s_buf (a_src a)) <= Size ->
    (k = 0%nat -> p_isspace P (nth 0 (symbols its) 0) = false) ->
    exists a', note_final P (nth k (symbols its) 0) a = Ok a' /\ scanning its n k (S k) a'
      /\ found (symbols its) (a_start a') a' (S k) /\ a_state a' = a_state a.
  Proof.
    intros its n k a Hok G Hk [Hr Hs Ha Hsf (F1 & F2 & F3)] Hf P1 P2 Hk0.
    set (s := symbols its) in *. assert (Ls : length s = length its) by apply map_length.
    assert (Gk : good P cs (firstn k s)) by now apply good_firstn.
    pose proof (state_accepting P cs (all_finals P) _ _ Gk Hs) as Aall.
    pose proof (state_accepting P cs (p_incond P) _ _ Gk Hs) as Ain.
    assert (K0 : accepting P cs (all_finals P) (firstn k s) -> (0 < k)%nat).
    { intros A. destruct k; [|lia]. now apply (pd_empty _ _ HP) in A. }
    assert (Hsf0 : (0 < k)%nat -> a_sf a <> []).
    { intros K E. rewrite Hsf in E. apply utf16_text_empty in E. apply (f_equal (@length Z)) in E.
      rewrite firstn_length in E. cbn in E. lia. }
    assert (Take : forall b, (0 < k)%nat -> matches s k -> b = isFinal (p_incond P) (a_state a) ->
      exists a', (let st := prune_onlyL P (a_state a) in
                  let! lf := filter_finals P st (a_sf a) in
                  Ok (mkA (a_src a) st lf (a_sf a) (a_cpL a) (a_start a) (getPos (s_buf (a_src a)))
                          (length (a_sf a)) b false false)) = Ok a'
        /\ scanning its n k (S k) a' /\ found s (a_start a') a' (S k) /\ a_state a' = a_state a).
    { intros b K M B. unfold prune_onlyL. rewrite (pd_decomp _ _ HP). cbn [andb]. cbv zeta.
      destruct (finals_defined P (a_state a) (a_sf a) (pd_sort _ _ HP) (pd_toupper _ _ HP) (pd_weights _ _ HP)
        (or_introl (Hsf0 K)) (state_named P _ _ (pd_tags _ _ HP) Hs)) as (lf & E).
      rewrite E. cbn [obind]. eexists. split; [reflexivity|]. split.
      { constructor; cbn; auto. }
      split; [|reflexivity]. right. exists k, (a_state a). cbn. rewrite <- Hsf.
      split; [lia|]. split; [auto|]. split; [intros i Hi; lia|]. auto 9. }
    assert (Old : ~ matches s k -> found s (a_start a) a (S k)).
    { intros Nm. destruct Hf as [(A & B & C)|(j & st & A & B & C & D)].
      - left. split; [auto|]. split; [auto|]. intros j Hj. destruct (Nat.eq_dec j k) as [->|]; [auto|]. apply C. lia.
      - right. exists j, st. split; [lia|]. split; [auto|]. split; [|exact D].
        intros i Hi. destruct (Nat.eq_dec i k) as [->|]; [auto|]. apply C. lia. }
    unfold note_final. rewrite F2, F3.
    destruct (isFinal (all_finals P) (a_state a)) eqn:E1.
    - pose proof (proj1 Aall eq_refl) as A1. specialize (K0 A1). destruct (isFinal (p_incond P) (a_state a)) eqn:E2.
      + apply Take; auto. split; [lia|]. left. now apply Ain.
      + assert (NF : forall st : list (vns (W:=Z)), isFinal [] st = false) by (induction st; auto).
        rewrite (pd_post _ _ HP), (pd_pre _ _ HP), !NF.
        destruct (isAlphabetic P (nth k s 0)) eqn:E3; cbn [negb].
        * assert (Nm : ~ matches s k).
          { intros [_ [M|[_ M]]]; [apply Ain in M; congruence|]. apply M. now apply isAlphabetic_iff. }
          rewrite (pd_decomp _ _ HP). cbn [andb]. rewrite orb_false_r. eexists. split; [reflexivity|]. split.
          { constructor; cbn; auto. }
          split; [|reflexivity]. cbn [a_start]. destruct (Old Nm) as [D|D]; [left|right]; exact D.
        * apply Take; auto. split; [lia|]. right. split; [auto|]. now apply isAlphabetic_not.
    - assert (Nm : ~ matches s k).
      { intros [_ [M|[M _]]]; [apply accepting_incond in M|]; apply Aall in M; congruence. }
      assert (X : match a_sf a with [] => p_isspace P (nth k s 0) | _ => false end = false).
      { destruct (a_sf a) eqn:E; [|reflexivity]. destruct k; [now apply Hk0|]. exfalso. apply Hsf0; [lia|reflexivity]. }
      rewrite X. exists a. split; [reflexivity|]. split; [|split; [now apply Old|reflexivity]]. constructor; auto.
  Qed.

  (** *** When no symbol more can be read *)
  Definition lowers (w : ustr) : Prop :=
    exists lf, compoundAnalysisOrLowering P w = Ok lf
      /\ analysed_as P cs (p_strlower P w) (p_strlower P w) lf.
  Record prepared (s : list Z) : Prop := {
    pr_good : good P cs s;
    pr_lowers : forall k, (0 < k <= length s)%nat -> lowers (utf16_text (firstn k s));
    pr_fits : forall k v b, s = firstn k s ++ v ++ b -> living (firstn k s) -> Forall letter v ->
      (length (firstn k s ++ v) < 2047)%nat
  }.
  (** The dictionary reads [k] symbols, not more. *)
  Definition dead (s : list Z) (k : nat) : Prop :=
    (k <= length s)%nat /\ living (firstn k s) /\ ((k < length s)%nat -> ~ living (firstn (S k) s)).
  Lemma dead_matches : forall s k j, dead s k -> matches s j -> (j <= k)%nat.
  Proof.
    intros s k j (D1 & D2 & D3) [M1 M2]. destruct (le_lt_dec j k) as [|L]; [auto|]. exfalso. apply D3; [lia|].
    assert (Lj : living (firstn j s)) by (destruct M2 as [M|[M _]]; eapply accepting_living; eauto).
    destruct (firstn_prefix s (S k) j L) as (b & E). rewrite E in Lj. eapply living_prefix; eauto.
  Qed.
  Lemma dead_unique : forall s k k', dead s k -> (k' < length s)%nat -> living (firstn k' s) -> ~ living (firstn (S k') s) -> k' = k.
  Proof.
    intros s k k' (D1 & D2 & D3) H1 H2 H3. destruct (lt_eq_lt_dec k k') as [[L|L]|L]; auto; exfalso.
    - apply D3; [lia|]. destruct (firstn_prefix s (S k) k' L) as (b & E). rewrite E in H2. eapply living_prefix; eauto.
    - apply H3. destruct (firstn_prefix s (S k') k L) as (b & E). rewrite E in D2. eapply living_prefix; eauto.
  Qed.
  Lemma letter_blanks : forall l, fine l -> Forall letter (symbols l) -> blanks l = [].
  Proof.
    intros l Hok H. induction l as [|i l IH]; [reflexivity|]. inversion Hok; inversion H; subst. cbn [blanks flat_map].
    fold (blanks l). rewrite IH by auto. rewrite app_nil_r.
    assert (item_symbol i <> 32).
    { intros E. rewrite E in *. apply (pd_letters _ _ HP) in H6 as [_ H6]. destruct (pd_space _ _ HP) as [S _]. congruence. }
    destruct i; cbn in *; try congruence. destruct (Z.eqb_spec c 32); congruence.
  Qed.
  Lemma blanks_split : forall its n k, (k <= n)%nat -> blanks (firstn n its) = blanks (firstn k its) ++ blanks (skipn k (firstn n its)).
  Proof.
    intros its n k H. rewrite <- blanks_app. f_equal.
    rewrite <- (firstn_skipn k (firstn n its)) at 1. rewrite firstn_firstn, Nat.min_l by auto. reflexivity.
  Qed.
  Lemma firstn_symbols : forall k its, firstn k (symbols its) = symbols (firstn k its).
  Proof. intros. apply firstn_map. Qed.

  (** the result of a search *)
  Definition cut (its : list item) (out : ustr) (src : source) (start : Z) (kk n : nat) : Prop :=
    token P cs its out kk /\ (0 < kk)%nat /\ held tail its n kk start src
    /\ s_blanks src = blanks (skipn kk (firstn n its))
    /\ (forall j, (j < n)%nat -> (j < length its)%nat -> white (nth j (symbols its) 0) -> S j = n).

  (** [m] symbols were taken; no letter follows them, and no word was found *)
  Lemma unknown_spec : forall its n start src m, fine its -> prepared (symbols its) ->
    ready its n (S m) start src -> (0 < m <= length its)%nat ->
    ((m < length its)%nat -> ~ letter (nth m (symbols its) 0)) ->
    (forall j, ~ matches (symbols its) j) ->
    (letter (nth 0 (symbols its) 0) \/ living [nth 0 (symbols its) 0]) ->
    exists out src' kk, unknown_word P start (utf16_text (firstn m (symbols its))) src = Ok (out, src')
      /\ cut its out src' start kk n.
  Proof.
    intros its n start src m Hok Hp Hr Hm Hend Hno H0. set (s := symbols its) in *.
    assert (Ls : length s = length its) by apply map_length.
    assert (Sc : Forall scalar s) by now apply fine_scalar.
    assert (Scm : Forall scalar (firstn m s)) by now apply Forall_firstn.
    destruct (firstNotAlpha_run P (firstn m s) Scm) as (kk & [R1 [R2 R3]] & E). unfold unknown_word. rewrite E.
    destruct (h_n _ _ _ _ _ _ (rd_held _ _ _ _ _ Hr)) as (N1 & N2 & N3).
    rewrite firstn_length in R1, R3. rewrite Ls in R1, R3. replace (Nat.min m (length its)) with m in * by lia.
    destruct kk as [|kk].
    - assert (L0 : ~ letter (nth 0 s 0)).
      { specialize (R3 ltac:(lia)). rewrite nth_firstn in R3 by lia. exact R3. }
      destruct its as [|i r]; [cbn in *; lia|]. unfold s in *. cbn [map nth] in *. destruct H0 as [H0|H0]; [contradiction|].
      assert (B : item_symbol i < 65536) by (eapply pd_bmp; eauto).
      assert (Nsp : p_isspace P (item_symbol i) = false).
      { destruct (p_isspace P (item_symbol i)) eqn:X; [|reflexivity]. exfalso. eapply pd_first; eauto. }
      assert (Ib : item_blanks i = []).
      { destruct (pd_space _ _ HP) as [S _]. destruct i; cbn in *; try congruence. destruct (Z.eqb_spec c 32); congruence. }
      destruct m as [|m]; [lia|]. cbn [firstn]. rewrite utf16_text_cons. unfold utf16 at 1.
      replace (item_symbol i <? 65536) with true by lia. cbn [app firstn].
      exists (writeEscaped [item_symbol i]), (set_pos (1 + start) src), 1%nat. split; [reflexivity|].
      assert (Hr1 : ready (i :: r) n 1 start (set_pos (1 + start) src)).
      { rewrite Z.add_comm. apply (ready_set _ _ _ _ _ 1%nat Hr). lia. }
      unfold cut. split; [|split; [lia|split; [apply rd_held, Hr1|split; [|apply (rd_white _ _ _ _ _ Hr1)]]]].
      + replace (writeEscaped [item_symbol i]) with (alone i); [eapply tok_alone; eauto|].
        unfold alone. rewrite Ib. unfold utf16. now replace (item_symbol i <? 65536) with true by lia.
      + rewrite (rd_blanks _ _ _ _ _ Hr1), (blanks_split (i :: r) n 1) by lia.
        cbn [firstn blanks flat_map]. rewrite Ib. reflexivity.
    - assert (Run : run P s (S kk)).
      { rewrite firstn_firstn in R2. rewrite Nat.min_l in R2 by lia. split; [lia|]. split; [exact R2|]. intros L.
        destruct (Nat.eq_dec (S kk) m) as [Em|]; [rewrite Em; apply Hend; lia|].
        specialize (R3 ltac:(lia)). rewrite nth_firstn in R3 by lia. exact R3. }
      assert (Ew : firstn (length (utf16_text (firstn (S kk) (firstn m s)))) (utf16_text (firstn m s)) = utf16_text (firstn (S kk) s)).
      { rewrite firstn_firstn, Nat.min_l by lia. destruct (firstn_prefix s (S kk) m ltac:(lia)) as (b & Eb). rewrite Eb.
        rewrite utf16_text_app. apply firstn_app_2_exact. }
      cbv zeta. rewrite Ew. destruct (pr_lowers _ Hp (S kk) (conj (Nat.lt_0_succ kk) (proj1 Run))) as (lf & El & Al). rewrite El. cbn [obind].
      eexists _, _, (S kk). split; [reflexivity|].
      assert (Hr1 : ready its n (S kk) start (set_pos (start + Z.of_nat (S kk)) src)) by (eapply ready_set; eauto; lia).
      unfold cut. split; [|split; [lia|split; [apply rd_held, Hr1|split; [|apply (rd_white _ _ _ _ _ Hr1)]]]].
      + apply (tok_unknown P cs its (S kk) lf); auto. lia.
      + rewrite (rd_blanks _ _ _ _ _ Hr1), (blanks_split its n (S kk)) by lia.
        rewrite (letter_blanks (firstn (S kk) its)); [reflexivity|now apply Forall_firstn|].
        rewrite <- firstn_symbols. apply Run.
  Qed.

  (** a word was found *)
  Lemma known_spec : forall its n k start src a j st, fine its -> good P cs (symbols its) ->
    ready its n (S k) start src -> (k <= length its)%nat -> (j <= k)%nat ->
    longest P cs (symbols its) j -> state_of P (firstn j (symbols its)) = Ok st ->
    filter_finals P st (utf16_text (firstn j (symbols its))) = Ok (a_lf a) ->
    cong Size (a_last a) (start + Z.of_nat (S j)) -> 0 <= a_last a <= Size ->
    a_last_size a = length (utf16_text (firstn j (symbols its))) ->
    a_lf a <> []
    /\ exists out src', known_word (a_last a) (a_last_size a) (utf16_text (firstn k (symbols its))) (a_lf a) src = Ok (out, src')
      /\ cut its out src' start j n.
  Proof.
    intros its n k start src a j st Hok G Hr Hk Hj Hl Hst Hf C1 C2 Hsz. set (s := symbols its) in *.
    destruct (pd_limits _ _ HP) as [L1 L2].
    destruct (state_analysed P cs (firstn j s) st _ _ (pd_sort _ _ HP) L1 L2 (good_firstn P cs s j G) Hst Hf) as [An Ne].
    destruct (proj1 Hl) as [M1 M2].
    assert (Acc : accepting P cs (all_finals P) (firstn j s)) by (destruct M2 as [M|[M _]]; [now apply accepting_incond|auto]).
    split; [now apply Ne|]. unfold known_word. rewrite Hsz.
    destruct (firstn_prefix s j k Hj) as (b & Eb). rewrite Eb, utf16_text_app, firstn_app_2_exact.
    destruct (h_n _ _ _ _ _ _ (rd_held _ _ _ _ _ Hr)) as (N1 & N2 & N3).
    rewrite (rd_blanks _ _ _ _ _ Hr), (blanks_split its n j) by lia. unfold s. rewrite firstn_symbols.
    rewrite (word_blanks (p_ignored P)) by (now apply Forall_firstn). cbn [obind].
    eexists _, _. split; [reflexivity|]. split; [|split; [lia|split; [|split; [|apply (rd_white _ _ _ _ _ Hr)]]]].
    - rewrite <- firstn_symbols. apply tok_word; auto.
    - apply (held_back (p_ignored P) tail its n (S k) start _ j (a_last a)); auto; [|lia].
      destruct (rd_held _ _ _ _ _ Hr) as [X Y Z]. constructor; auto.
    - reflexivity.
  Qed.

  Lemma nth_zero : forall its k, fine its -> (k <= length its)%nat -> (nth k (symbols its) 0 = 0 <-> k = length its).
  Proof.
    intros its k Hok Hk. split; [|intros ->; apply nth_overflow; rewrite map_length; lia].
    intros E. destruct (Nat.eq_dec k (length its)); auto. destruct (fine_nth its k Hok); [lia|contradiction].
  Qed.
  Lemma exhausted_end : forall s, living s -> exhausted P cs s.
  Proof. intros s H. now left. Qed.
  Lemma not_exhausted : forall s k, dead s k -> (k < length s)%nat ->
    ((exists j, matches s j) \/ exists e, (k <= e < length s)%nat /\ ~ letter (nth e s 0)) -> ~ exhausted P cs s.
  Proof.
    intros s k D Hk H [E|(N & k' & A & B & C & F)].
    - destruct D as (_ & _ & D). apply (D Hk). rewrite <- (firstn_skipn (S k) s) in E. eapply living_prefix; eauto.
    - destruct H as [(j & M)|(e & He & Hl)]; [exact (N j M)|]. rewrite (dead_unique s k k' D A B C) in F. apply Hl.
      rewrite Forall_forall in F. apply F. replace e with (k + (e - k))%nat by lia. rewrite <- nth_skipn.
      apply nth_In. rewrite skipn_length. lia.
  Qed.

  (** the characters that start no word *)
  Lemma alone_spec : forall i r n start src, fine (i :: r) -> ready (i :: r) n 1 start src ->
    ~ letter (item_symbol i) -> (forall j, ~ matches (symbols (i :: r)) j) ->
    exists out bl, printChar P (item_symbol i) (s_blanks src) = (out, bl)
      /\ cut (i :: r) out (mkS (s_file src) (s_buf src) bl) start 1 n.
  Proof.
    intros i r n start src Hok Hr Hl Hno. destruct (pd_space _ _ HP) as (S1 & S2 & S3).
    destruct (h_n _ _ _ _ _ _ (rd_held _ _ _ _ _ Hr)) as (N1 & N2 & N3).
    assert (Hi : item_ok (p_ignored P) i) by now inversion Hok.
    destruct (item_scalar _ _ Hi) as [Sc Nz].
    assert (Key : printChar P (item_symbol i) (s_blanks src) = (alone i, blanks (skipn 1 (firstn n (i :: r))))).
    { pose proof (rd_blanks _ _ _ _ _ Hr) as B. rewrite (blanks_split _ n 1) in B by lia. unfold printChar.
      cbn [firstn blanks flat_map] in B. fold (blanks (skipn 1 (firstn n (i :: r)))) in B. rewrite app_nil_r in B.
      assert (We : item_blanks i = [] -> writeEscaped (utf16 (item_symbol i))
        = (if is_escaped (item_symbol i) then [92] else []) ++ utf16 (item_symbol i)).
      { intros _. pose proof (writeEscaped_utf16 [item_symbol i] ltac:(now constructor)) as W.
        unfold utf16_text in W. cbn [map concat writeEscaped] in W. rewrite app_nil_r in W. rewrite W.
        destruct (is_escaped (item_symbol i)); cbn [app map concat]; rewrite app_nil_r; reflexivity. }
      unfold alone. destruct (p_isspace P (item_symbol i)) eqn:E.
      - destruct (Z.eq_dec (item_symbol i) 32) as [E32|N32].
        + destruct i as [c|c|b|b]; cbn in E32, B |- *; try (rewrite B; reflexivity).
          * subst c. rewrite Z.eqb_refl in B. rewrite B. reflexivity.
          * exfalso. cbn in Hi. tauto.
        + assert (Ib : item_blanks i = []).
          { destruct i as [c|c|b|b]; cbn in *; try congruence. destruct (Z.eqb_spec c 32); congruence. }
          assert (n = 1%nat) by (symmetry; apply (rd_white _ _ _ _ _ Hr 0); [lia|cbn; lia|now split]). subst n.
          rewrite Ib in *. cbn [firstn skipn blanks flat_map app] in *. rewrite B.
          rewrite (append_cp_utf16 [] _ Sc). cbn [app]. rewrite We by auto.
          assert (Ne : is_escaped (item_symbol i) = false).
          { destruct (is_escaped (item_symbol i)) eqn:X; [|reflexivity]. apply meta_iff in X. now apply S3 in X. }
          rewrite Ne. reflexivity.
      - assert (Ib : item_blanks i = []).
        { destruct i as [c|c|b|b]; cbn in *; try congruence. destruct (Z.eqb_spec c 32); congruence. }
        rewrite Ib in *. cbn [app] in B. rewrite B, We by auto. replace (item_symbol i =? 0) with false by lia.
        rewrite (append_cp_utf16 [] _ Sc). reflexivity. }
    eexists _, _. split; [exact Key|]. unfold cut. split; [eapply tok_alone; eauto|]. split; [lia|].
    split; [|split; [reflexivity|apply (rd_white _ _ _ _ _ Hr)]].
    destruct (rd_held _ _ _ _ _ Hr) as [X Y Z]. constructor; auto.
  Qed.

  Lemma emit_spec : forall its n k a, fine its -> its <> [] -> prepared (symbols its) -> (length its < rounds)%nat ->
    scanning its n k (S k) a -> dead (symbols its) k ->
    found (symbols its) (a_start a) a (S k) \/ (k = 0%nat /\ p_isspace P (nth 0 (symbols its) 0) = true) ->
    exists out val' src' kk n', emit P rounds (nth k (symbols its) 0) a = Ok (out, val', src')
      /\ cut its out src' (a_start a) kk n' /\ (val' = 0 -> n' = S (length its)) /\ (val' = 0 <-> exhausted P cs (symbols its)).
  Proof.
    intros its n k a Hok Hne Hp Hrounds [Hr Hs Ha Hsf (F1 & F2 & F3)] Hd Hf. set (s := symbols its) in *.
    assert (Ls : length s = length its) by apply map_length.
    pose proof Hd as (D1 & D2 & D3). rewrite Ls in D1, D3.
    destruct (h_n _ _ _ _ _ _ (rd_held _ _ _ _ _ Hr)) as (N1 & N2 & N3).
    unfold emit, crossing. rewrite F1, F2, F3. cbn [andb obind].
    assert (Zk : nth k s 0 = 0 <-> k = length its) by now apply nth_zero.
    (* the end is reached only with k = length its unless letters follow *)
    assert (Ex : ((exists j, matches s j) \/ ~ letter (nth k s 0)) -> (nth k s 0 = 0 <-> exhausted P cs s)).
    { intros H. split.
      - intros E. apply Zk in E. left. rewrite <- (firstn_all s), Ls, <- E. exact D2.
      - intros E. apply Zk. destruct (Nat.eq_dec k (length its)); [auto|]. exfalso. revert E.
        apply (not_exhausted s k Hd); [lia|]. destruct H as [H|H]; [auto|]. right. exists k. split; [lia|auto]. }
    assert (Nn : nth k s 0 = 0 -> n = S (length its)) by (intros E; apply Zk in E; lia).
    (* before the first symbol and no letter *)
    destruct (negb (isAlphabetic P (nth k s 0)) && match a_sf a with [] => true | _ => false end) eqn:E1.
    { apply andb_true_iff in E1 as [E1 E2]. apply negb_true_iff, isAlphabetic_not in E1.
      destruct (a_sf a) eqn:Esf; [|discriminate]. symmetry in Hsf. apply utf16_text_empty in Hsf.
      assert (k = 0%nat). { apply (f_equal (@length Z)) in Hsf. rewrite firstn_length in Hsf. destruct its; [easy|]. cbn in *. lia. }
      subst k. destruct its as [|i r]; [easy|]. cbn [map nth s] in *.
      assert (Hno : forall j, ~ matches s j).
      { intros j M. pose proof (dead_matches _ _ _ Hd M). destruct M as [M _]. lia. }
      destruct (alone_spec i r n (a_start a) (a_src a) Hok Hr E1 Hno) as (out & bl & Ep & Hc).
      rewrite Ep. eexists out, _, _, 1%nat, n. split; [reflexivity|]. split; [exact Hc|]. split; [exact Nn|]. apply Ex. auto. }
    assert (NotSpace : k = 0%nat -> p_isspace P (nth 0 s 0) = false).
    { intros ->. apply andb_false_iff in E1 as [E1|E1].
      - apply negb_false_iff, isAlphabetic_iff in E1. now apply (pd_letters _ _ HP) in E1.
      - rewrite Hsf in E1. discriminate. }
    destruct Hf as [Hf|[Hk0 Hsp]]; [|rewrite NotSpace in Hsp by auto; discriminate].
    assert (H0 : letter (nth 0 s 0) \/ living [nth 0 s 0]).
    { destruct k as [|k].
      - left. apply andb_false_iff in E1 as [E1|E1]; [now apply negb_false_iff, isAlphabetic_iff in E1|]. now rewrite Hsf in E1.
      - right. destruct s as [|c r]; [cbn in *; lia|]. exact (living_prefix P cs [c] (firstn k r) D2). }
    destruct Hf as [(Flf & Fin & Fno)|(j & st & A & B & C & D & E & F & G & H & I)].
    - assert (Hno : forall j, ~ matches s j) by (intros j M; apply (Fno j); [pose proof (dead_matches _ _ _ Hd M); lia|auto]).
      rewrite Flf, Fin. rewrite orb_true_r, andb_true_r.
      destruct (isAlphabetic P (nth k s 0)) eqn:E2.
      + apply isAlphabetic_iff in E2. assert (Hk : (k < length its)%nat).
        { destruct (Nat.eq_dec k (length its)) as [El|]; [|lia]. apply Zk in El. apply (pd_letters _ _ HP) in E2. tauto. }
        destruct (run_exists P (skipn k s)) as (d & R1 & R2 & R3). rewrite skipn_length in R1, R3.
        assert (Hd0 : exists d', d = S d').
        { destruct d as [|d']; [|eauto]. exfalso. apply R3; [lia|]. now rewrite nth_skipn, Nat.add_0_r. }
        destruct Hd0 as (d' & ->). set (e := (k + S d')%nat).
        assert (He : (e <= length its)%nat) by (unfold e; lia).
        assert (Let : forall j, (k <= j < e)%nat -> letter (nth j s 0)).
        { intros j Hj. rewrite Forall_forall in R2. apply R2. replace j with (k + (j - k))%nat by lia.
          rewrite <- nth_skipn, <- (nth_firstn _ _ (S d')) by (unfold e in *; lia). apply nth_In.
          rewrite firstn_length, skipn_length. unfold e in *. lia. }
        assert (Ne : (e < length its)%nat -> ~ letter (nth e s 0)).
        { intros L. specialize (R3 ltac:(unfold e in *; lia)). now rewrite nth_skipn in R3. }
        assert (Fe : (e < 2047)%nat).
        { assert (K : (length (firstn k s ++ firstn (S d') (skipn k s)) < 2047)%nat).
          { apply (pr_fits _ Hp k _ (skipn (S d') (skipn k s))); auto. now rewrite !firstn_skipn. }
          rewrite app_length, !firstn_length, skipn_length in K. unfold e. lia. }
        destruct (run_spec its (a_start a) Hok d' k n (a_src a) rounds Hr) as (n' & src' & Er & Hr');
          [exact He|exact Let|exact Ne|exact Fe| |lia|].
        { intros j Hj. apply (living_no_white s k j); auto. lia. }
        fold s e in Er, Hr'. rewrite Hsf, Er. cbn [obind].
        destruct (unknown_spec its n' (a_start a) src' e Hok Hp Hr') as (out & src'' & kk & Eu & Hc); auto; [unfold e; lia|].
        fold s in Eu. rewrite Eu. cbn [obind].
        eexists out, _, src'', kk, n'. split; [reflexivity|]. split; [exact Hc|].
        assert (Ze : nth e s 0 = 0 <-> e = length its) by now apply nth_zero.
        destruct (h_n _ _ _ _ _ _ (rd_held _ _ _ _ _ Hr')) as (N1' & N2' & _).
        split; [intros X; apply Ze in X; lia|]. split.
        * intros X. apply Ze in X. right. split; [exact Hno|]. exists k. split; [lia|]. split; [exact D2|]. split; [apply D3, Hk|].
          rewrite <- (firstn_all (skipn k s)), skipn_length. replace (length s - k)%nat with (S d') by (unfold e in X; lia). exact R2.
        * intros X. apply Ze. destruct (Nat.eq_dec e (length its)); [auto|]. exfalso. revert X.
          apply (not_exhausted s k Hd); [lia|]. right. exists e. split; [unfold e in *; lia|]. apply Ne. lia.
      + apply isAlphabetic_not in E2.
        assert (Hk : (0 < k)%nat).
        { destruct k; [|lia]. rewrite Hsf in E1. discriminate E1. }
        destruct (unknown_spec its n (a_start a) (a_src a) k Hok Hp Hr) as (out & src'' & kk & Eu & Hc); auto.
        fold s in Eu. rewrite Hsf. rewrite Eu. cbn [obind].
        eexists out, _, src'', kk, n. split; [reflexivity|]. split; [exact Hc|]. split; [exact Nn|]. apply Ex. auto.
    - assert (Lj : longest P cs s j).
      { split; [exact B|]. intros i M. pose proof (dead_matches _ _ _ Hd M). destruct (le_lt_dec i j); [auto|].
        exfalso. apply (C i); [lia|auto]. }
      destruct (known_spec its n k (a_start a) (a_src a) a j st Hok (pr_good _ Hp) Hr D1 ltac:(lia) Lj D E G H I)
        as (Nlf & out & src' & Ek & Hc).
      assert (K : exists out val' src' kk n', (let! (out, x) := known_word (a_last a) (a_last_size a) (a_sf a) (a_lf a) (a_src a) in
           Ok (out, nth k s 0, x)) = Ok (out, val', src')
        /\ cut its out src' (a_start a) kk n' /\ (val' = 0 -> n' = S (length its)) /\ (val' = 0 <-> exhausted P cs s)).
      { rewrite Hsf. fold s in Ek. rewrite Ek. cbn [obind]. eexists out, _, src', j, n. split; [reflexivity|].
        split; [exact Hc|]. split; [exact Nn|]. apply Ex. left. eauto. }
      destruct (a_incond a) eqn:Ei; [exact K|].
      assert (X : isAlphabetic P (nth k s 0)
        && ((lastBlank P (a_sf a) <? a_last_size a)%nat || match a_lf a with [] => true | _ => false end) = false).
      { destruct (isAlphabetic P (nth k s 0)) eqn:E2; [|reflexivity]. cbn [andb].
        assert (Nin : ~ accepting P cs (p_incond P) (firstn j s)).
        { intros M. apply (state_accepting P cs (p_incond P) _ _ (good_firstn P cs s j (pr_good _ Hp)) D) in M. congruence. }
        destruct B as [B1 [B2|[_ B2]]]; [contradiction|].
        assert (Hjk : (j < k)%nat).
        { destruct (Nat.eq_dec j k) as [->|]; [|lia]. apply isAlphabetic_iff in E2. contradiction. }
        destruct (fine_nth its j Hok ltac:(lia)) as [Scj _]. fold s in Scj.
        destruct (firstn_prefix s (S j) k Hjk) as (b & Eb). rewrite firstn_nth in Eb by lia. rewrite <- app_assoc in Eb. cbn [app] in Eb.
        pose proof (lastBlank_after P (firstn j s) (nth j s 0) b (pd_scalars _ _ HP) Scj B2) as L.
        rewrite <- Eb, <- Hsf, <- I in L. apply Nat.ltb_ge in L. rewrite L. cbn [orb]. destruct (a_lf a); [congruence|reflexivity]. }
      rewrite X. destruct (a_lf a) as [|x lf] eqn:Elf; [congruence|]. exact K.
  Qed.

  (** *** One round *)
  Lemma room : forall s k, prepared s -> (k <= length s)%nat -> living (firstn k s) -> (k < 2047)%nat.
  Proof.
    intros s k Hp Hk Hl. pose proof (pr_fits _ Hp k [] (skipn k s)) as F. cbn [app] in F.
    rewrite firstn_skipn, app_nil_r, firstn_length in F. specialize (F eq_refl Hl (Forall_nil _)). lia.
  Qed.
  Lemma round_noted : forall its n k a init, fine its -> prepared (symbols its) -> (k <= length its)%nat ->
    scanning its n k k a -> found (symbols its) (a_start a) a k -> living (firstn k (symbols its)) ->
    exists a', round P rounds init a
        = (let val := nth k (symbols its) 0 in
           let! st := step_case P val (a_state a) in
           match st with
           | _ :: _ =>
               let! x := if val =? 0 then Ok [] else getSymbol val (p_alpha P) in
               Ok ([], val, mkA (a_src a') st (a_lf a') (a_sf a' ++ x) (a_cpL a') (a_start a') (a_last a')
                                (a_last_size a') (a_incond a') (a_postblank a') (a_preblank a'))
           | [] =>
               let! (out, val, s) := emit P rounds val a' in
               let s := if (val =? 0) && negb (isEmpty (s_buf s)) then set_pos (a_last a' + 1) s else s in
               Ok (out, val, mkA s init [] [] false (getPos (s_buf s)) (a_last a') (a_last_size a') false false false)
           end)
      /\ scanning its (Nat.max n (S k)) k (S k) a'
      /\ (found (symbols its) (a_start a') a' (S k) \/ (k = 0%nat /\ p_isspace P (nth 0 (symbols its) 0) = true)).
  Proof.
    intros its n k a init Hok Hp Hk [Hr Hs Ha Hsf (F1 & F2 & F3)] Hf Hl. set (s := symbols its) in *.
    assert (Ls : length s = length its) by apply map_length.
    destruct (ready_read its n k (a_start a) (a_src a) Hok Hr Hk) as (src' & E & Hr' & P1 & P2).
    { apply (room s k Hp); [lia|auto]. }
    { intros j Hj. apply (living_no_white s k j); auto. lia. }
    unfold round. rewrite E. cbn [obind].
    set (a1 := mkA src' (a_state a) (a_lf a) (a_sf a) (a_cpL a) (a_start a) (a_last a) (a_last_size a)
                   (a_incond a) (a_postblank a) (a_preblank a)).
    assert (S1 : scanning its (Nat.max n (S k)) k (S k) a1) by (constructor; cbn; auto).
    assert (Tk : forall val st, take_step P val st = step_case P val st) by (intros; unfold take_step; now rewrite (pd_rcx _ _ HP)).
    assert (Sp : (k = 0%nat /\ p_isspace P (nth 0 s 0) = true) \/ (k = 0%nat -> p_isspace P (nth 0 s 0) = false)).
    { destruct k; [|right; lia]. destruct (p_isspace P (nth 0 s 0)); auto. }
    destruct Sp as [[K0 Sp]|Sp].
    - subst k. assert (Nf : isFinal (all_finals P) (a_state a) = false).
      { destruct (isFinal (all_finals P) (a_state a)) eqn:X; [|reflexivity]. exfalso.
        apply (state_accepting P cs (all_finals P) _ _ (good_firstn P cs s 0 (pr_good _ Hp)) Hs) in X.
        now apply (pd_empty _ _ HP) in X. }
      cbn [firstn] in Hsf. change (utf16_text []) with (@nil Z) in Hsf.
      assert (En : note_final P (nth 0 s 0) a1
        = Ok (mkA src' (a_state a) [47; 42] (a_sf a) (a_cpL a) (a_start a) (getPos (s_buf src')) (length (a_sf a)) false false false)).
      { unfold note_final, a1. cbn [a_state a_sf a_src a_cpL a_start]. rewrite Nf, Hsf, Sp. reflexivity. }
      fold s. rewrite En. cbn [obind]. rewrite Tk.
      eexists (mkA src' (a_state a) [47; 42] (a_sf a) (a_cpL a) (a_start a) (getPos (s_buf src')) (length (a_sf a)) false false false).
      split; [reflexivity|]. split; [|right; auto]. constructor; cbn; auto.
    - destruct (note_spec its (Nat.max n (S k)) k a1 Hok (pr_good _ Hp) Hk S1 Hf P1 P2 Sp) as (a' & En & S2 & F' & Est).
      fold s in En |- *. rewrite En. cbn [obind]. rewrite Tk, Est. exists a'. split; [reflexivity|]. split; auto.
  Qed.

  Lemma round_alive : forall its n k a init, fine its -> prepared (symbols its) -> (k < length its)%nat ->
    scanning its n k k a -> found (symbols its) (a_start a) a k -> living (firstn (S k) (symbols its)) ->
    exists val a', round P rounds init a = Ok ([], val, a') /\ val <> 0
      /\ scanning its (Nat.max n (S k)) (S k) (S k) a' /\ found (symbols its) (a_start a') a' (S k).
  Proof.
    intros its n k a init Hok Hp Hk Hs Hf Hl. set (s := symbols its) in *.
    assert (Ls : length s = length its) by apply map_length.
    assert (Lk : living (firstn k s)).
    { rewrite firstn_nth in Hl by lia. eapply living_prefix; eauto. }
    destruct (round_noted its n k a init Hok Hp ltac:(lia) Hs Hf Lk) as (a' & E & [Hr' Hs' Ha' Hsf' Hfl'] & F').
    destruct F' as [F'|[K0 Sp]].
    2:{ exfalso. subst k. rewrite firstn_nth in Hl by lia. exact (pd_first _ _ HP _ Sp Hl). }
    rewrite E. cbv zeta. fold s. destruct (pr_good _ Hp (S k)) as (st & Est & _).
    assert (Est' := Est). pose proof (sc_state _ _ _ _ _ Hs) as Ss. fold s in Ss. rewrite firstn_nth, state_of_snoc, Ss in Est' by lia. cbn [obind] in Est'.
    rewrite Est'. cbn [obind].
    assert (Ne : st <> []). { apply (state_living P cs (firstn (S k) s) st); auto. apply good_firstn, Hp. }
    destruct st as [|x st]; [easy|]. destruct (fine_nth its k Hok Hk) as [Sc Nz]. fold s in Sc, Nz.
    replace (nth k s 0 =? 0) with false by (symmetry; now apply Z.eqb_neq). rewrite getSymbol_scalar by auto. cbn [obind].
    eexists _, _. split; [reflexivity|]. split; [exact Nz|]. split.
    - constructor; cbn; auto. rewrite Hsf', <- utf16_text_app_one, <- firstn_nth by lia. reflexivity.
    - destruct F' as [D|D]; [left|right]; exact D.
  Qed.

  Lemma round_dead : forall its n k a init, fine its -> prepared (symbols its) -> (length its < rounds)%nat ->
    its <> [] -> scanning its n k k a -> found (symbols its) (a_start a) a k -> dead (symbols its) k ->
    exists out val a' kk n' src start, round P rounds init a = Ok (out, val, a')
      /\ (a_src a' = src \/ val = 0 /\ exists p, a_src a' = set_pos p src)
      /\ cut its out src start kk n'
      /\ (val = 0 -> n' = S (length its)) /\ (val = 0 <-> exhausted P cs (symbols its))
      /\ a_state a' = init /\ a_lf a' = [] /\ a_sf a' = [] /\ a_start a' = getPos (s_buf (a_src a'))
      /\ a_incond a' = false /\ a_cpL a' = false /\ a_postblank a' = false /\ a_preblank a' = false.
  Proof.
    intros its n k a init Hok Hp Hrounds Hne Hs Hf Hd. set (s := symbols its) in *.
    assert (Ls : length s = length its) by apply map_length. pose proof Hd as (D1 & D2 & D3). rewrite Ls in D1, D3.
    destruct (round_noted its n k a init Hok Hp D1 Hs Hf D2) as (a' & E & S' & F').
    rewrite E. cbv zeta. fold s. assert (Est : step_case P (nth k s 0) (a_state a) = Ok []).
    { destruct (Nat.eq_dec k (length its)) as [El|Nl].
      - rewrite nth_overflow by lia. apply step_zero.
      - destruct (pr_good _ Hp (S k)) as (st & Est & _). assert (Est' := Est).
        pose proof (sc_state _ _ _ _ _ Hs) as Ss. fold s in Ss. rewrite firstn_nth, state_of_snoc, Ss in Est' by lia. cbn [obind] in Est'.
        destruct st as [|x st]; [exact Est'|]. exfalso. apply D3; [lia|].
        apply (state_living P cs (firstn (S k) s) (x :: st)); auto; [|easy]. apply good_firstn, Hp. }
    rewrite Est. cbn [obind].
    destruct (emit_spec its _ k a' Hok Hne Hp Hrounds S' Hd F') as (out & val & src & kk & n' & Ee & Hc & Hn & Hx).
    fold s in Ee, Hx. rewrite Ee. cbn [obind].
    eexists out, val, _, kk, n', src, _. split; [reflexivity|]. cbn [a_src a_state a_lf a_sf a_start a_incond a_cpL a_postblank a_preblank].
    split; [|split; [exact Hc|auto 12]].
    destruct (Z.eqb_spec val 0) as [->|]; cbn [andb]; [|auto]. destruct (negb (isEmpty (s_buf src))); eauto.
  Qed.
End Scan.
