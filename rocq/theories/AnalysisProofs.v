(** Proofs for C56: the analyser cuts the text into tokens. *)
From Coq Require Import Sorted.
From Verif Require Import Base CompressionModel AlphabetModel StateModel StateSpec StatePathProofs StateProps
  FinalsModel FinalsProps StringModel InputModel InputProps StreamModel StreamProps ProcessorModel
  ProcessorProofs CompoundProofs CompoundProps LookupProps AnalysisSpec BufferModel BufferProps.

Notation source := StreamModel.source.
(** * The input *)
Notation Size := 2048.
Lemma add_rel : forall (b : buffer Z) t v, rel Size b t ->
  exists b', add v b = Ok b' /\ rel Size b' (mkTape (t_all t ++ [v]) (t_len t + 1)).
Proof.
  intros b t v R.
  destruct (step_ok Size ltac:(lia) b t [] [] (BAdd v) _ _ _ R (Forall2_nil _) (Forall_nil _) I (t_add t [] v))
    as (b1 & s1 & E & R1 & _).
  cbn [bexec] in E. destruct (add v b) as [b'| | | |]; cbn [obind] in E; try discriminate.
  assert (b' = b1) by congruence. subst. eauto.
Qed.
Lemma next_rel : forall (b : buffer Z) t v, rel Size b t -> nth_error (t_all t) (Z.to_nat (t_at t)) = Some v ->
  exists b', next b = Ok (v, b') /\ rel Size b' (mkTape (t_all t) (t_at t + 1)).
Proof.
  intros b t v R H.
  destruct (step_ok Size ltac:(lia) b t [] [] BNext _ _ _ R (Forall2_nil _) (Forall_nil _) I (t_next t [] v H))
    as (b1 & s1 & E & R1 & _).
  cbn [bexec] in E. destruct (next b) as [[v' b']| | | |]; cbn [obind] in E; try discriminate.
  assert (b' = b1 /\ v' = v) as [-> ->] by (split; congruence). eauto.
Qed.

(** Going to the place [j] of the tape, given a raw position of it or of its successor. *)
Lemma set_pos_rel : forall (b : buffer Z) t p j, rel Size b t -> cong Size p j -> 0 <= p < 2 ^ 31 ->
  0 <= j -> t_len t - Size < j < t_len t -> rel Size (setPos p b) (mkTape (t_all t) j).
Proof.
  intros b t p j R C Hp Hj Hb. unfold setPos. pose proof (r_size _ _ _ R) as Rs.
  assert (U : u32 p = p) by (apply Z.mod_small; lia). rewrite U. replace (p mod b_size b) with (p mod Size) by now rewrite Rs.
  pose proof (Z.mod_pos_bound p Size ltac:(lia)).
  apply move; auto; try lia.
  destruct C as (q & ->). destruct (mod_cong Size (j + q * Size) ltac:(lia)) as (q' & ->). exists (q + q'). lia.
Qed.
Lemma back_one_rel : forall (b : buffer Z) t p j, rel Size b t -> cong Size p (j + 1) -> 0 <= p <= Size ->
  0 <= j -> t_len t - Size < j < t_len t -> rel Size (back 1 (setPos p b)) (mkTape (t_all t) j).
Proof.
  intros b t p j R C Hp Hj Hb. unfold setPos, back. cbn [b_size b_buf b_cur b_last]. pose proof (r_size _ _ _ R) as Rs.
  assert (U : u32 p = p) by (apply Z.mod_small; lia). rewrite U. replace (p mod b_size b) with (p mod Size) by now rewrite Rs.
  assert (Cm : cong Size (p mod Size) (j + 1)).
  { destruct C as (q & Hq). destruct (mod_cong Size p ltac:(lia)) as (q' & Hq'). exists (q + q'). lia. }
  pose proof (Z.mod_pos_bound p Size ltac:(lia)) as Hm. set (m := p mod Size) in *. clearbody m.
  assert (E : (if 1 <? m then m - 1 else u32 (b_size b - (1 - m))) = if 1 <? m then m - 1 else Size - (1 - m)).
  { rewrite Rs. destruct (1 <? m) eqn:L; auto. unfold u32. rewrite Z.mod_small; lia. }
  rewrite E. clear E. destruct Cm as (q & Cm).
  destruct (1 <? m) eqn:L; apply move; auto; try lia.
  - exists q. lia.
  - exists (q + 1). lia.
Qed.

(** ** The file *)
Definition tail_ok (tail : list Z) : Prop := match tail with [] => True | c :: _ => c = 0 end.
Definition behind (tail : list Z) (f : inf) : Prop :=
  match tail with [] => f = mkI [] true [] | _ :: r => at_text f r end.

Lemma read_item : forall ignored a i f b bl rest, item_ok ignored i ->
  ignored 91 = false -> ignored 92 = false -> isEmpty b = true -> at_text f (item_text i ++ rest) ->
  exists f', at_text f' rest /\ forall b', add (item_symbol i) b = Ok b' ->
    readAnalysis ignored a (mkS f b bl) = Ok (item_symbol i, mkS f' b' (bl ++ item_blanks i)).
Proof.
  intros ignored a i f b bl rest Hi H91 H92 Eb Ha. unfold readAnalysis. cbn [s_buf s_file s_blanks]. rewrite Eb. cbn [negb].
  destruct i as [c|c|body|body]; cbn [item_text app item_symbol item_blanks item_ok] in *.
  - destruct Hi as (Hc & H0 & HE & Hm & Hi).
    destruct (get_at _ _ _ Ha) as (f1 & -> & A1 & _). exists f1. split; [exact A1|]. intros b' Hb. cbn [obind].
    rewrite (at_text_eof _ _ A1). rewrite (proj2 (Z.eqb_neq c U_EOF)) by auto. cbn [Nat.add skip_ignored].
    rewrite Hi. cbn [obind]. assert (E : is_escaped c = false).
    { destruct (is_escaped c) eqn:E; auto. exfalso. apply Hm. now apply meta_iff. }
    assert (Hne : forall x, is_escaped x = true -> c =? x = false) by (intros x Hx; apply Z.eqb_neq; intros ->; congruence).
    rewrite (Hne 60), (Hne 91), (Hne 92), E by reflexivity. rewrite Hb. reflexivity.
  - destruct Hi as (Hc & H0 & HE & H32).
    destruct (get_at _ _ _ Ha) as (f1 & -> & A1 & _). cbn [obind]. rewrite (at_text_eof _ _ A1).
    destruct (get_at _ _ _ A1) as (f2 & E2 & A2 & _). exists f2. split; [exact A2|]. intros b' Hb.
    replace (92 =? U_EOF) with false by reflexivity. cbn [Nat.add skip_ignored]. rewrite H92. cbn [obind].
    replace (92 =? 60) with false by reflexivity. replace (92 =? 91) with false by reflexivity.
    replace (92 =? 92) with true by reflexivity. rewrite E2. cbn [obind]. rewrite Hb. cbn [obind]. now rewrite app_nil_r.
  - destruct Hi as (Hs & Hb & Hh).
    destruct (get_at _ _ _ Ha) as (f1 & -> & A1 & L1 & _). cbn [obind]. rewrite (at_text_eof _ _ A1).
    rewrite <- app_assoc in A1. cbn [app] in A1.
    assert (X : exists x tl, body ++ 93 :: rest = x :: tl /\ x <> 91).
    { destruct body as [|x body]; cbn [app hd] in *; eauto. exists 93, rest. split; auto. discriminate. }
    destruct X as (x & tl & Ex & Hx). rewrite Ex in A1.
    destruct (get_at _ _ _ A1) as (f2 & E2 & A2 & L2 & Sx).
    assert (Lf : (length (i_buf f) <= 3)%nat) by (destruct Ha as (_ & r0 & _ & _ & _ & Hl); exact Hl).
    destruct (unget_at f2 x tl A2 Sx) as (f3 & E3 & A3 & _).
    { rewrite L2, L1. lia. }
    rewrite <- Ex in A3.
    destruct (C42_block f3 91 93 body rest (ascii_scalar 91 ltac:(lia)) ltac:(lia) ltac:(lia) Hb A3) as (f4 & E4 & A4).
    exists f4. split; [exact A4|]. intros b' Hb'.
    replace (91 =? U_EOF) with false by reflexivity. cbn [Nat.add skip_ignored]. rewrite H91. cbn [obind].
    replace (91 =? 60) with false by reflexivity. replace (91 =? 91) with true by reflexivity.
    rewrite E2. cbn [obind]. rewrite (proj2 (Z.eqb_neq x 91)) by auto. rewrite E3. cbn [obind]. rewrite E4. cbn [obind].
    rewrite Hb'. reflexivity.
  - destruct Hi as (Hs & Hb).
    destruct (get_at _ _ _ Ha) as (f1 & -> & A1 & L1 & _). cbn [obind]. rewrite (at_text_eof _ _ A1).
    destruct (get_at _ _ _ A1) as (f2 & E2 & A2 & L2 & _).
    rewrite <- app_assoc in A2. cbn [app] in A2.
    destruct (C42_wblank f2 body rest Hb A2) as (f3 & E3 & A3).
    exists f3. split; [exact A3|]. intros b' Hb'.
    replace (91 =? U_EOF) with false by reflexivity. cbn [Nat.add skip_ignored]. rewrite H91. cbn [obind].
    replace (91 =? 60) with false by reflexivity. replace (91 =? 91) with true by reflexivity.
    rewrite E2. cbn [obind]. replace (91 =? 91) with true by reflexivity. rewrite E3. cbn [obind].
    rewrite Hb'. reflexivity.
Qed.
Lemma read_tail : forall ignored a f b bl tail, tail_ok tail -> ignored 0 = false -> isEmpty b = true -> at_text f tail ->
  exists f', behind tail f' /\ forall b', add 0 b = Ok b' ->
    readAnalysis ignored a (mkS f b bl) = Ok (0, mkS f' b' bl).
Proof.
  intros ignored a f b bl tail Ht Hi Eb Ha. unfold readAnalysis. cbn [s_buf s_file s_blanks]. rewrite Eb. cbn [negb].
  destruct tail as [|c r]; cbn [tail_ok behind] in *.
  - rewrite (get_end _ Ha). cbn [obind eof i_eof]. eexists. split; [reflexivity|]. intros b' ->. reflexivity.
  - subst c. destruct (get_at _ _ _ Ha) as (f1 & -> & A1 & _). cbn [obind]. rewrite (at_text_eof _ _ A1).
    exists f1. split; [exact A1|]. intros b' Hb.
    replace (0 =? U_EOF) with false by reflexivity. cbn [Nat.add skip_ignored]. rewrite Hi. cbn [obind].
    replace (0 =? 60) with false by reflexivity. replace (0 =? 91) with false by reflexivity.
    replace (0 =? 92) with false by reflexivity. replace (is_escaped 0) with false by reflexivity.
    rewrite Hb. cbn [obind]. replace (0 =? 32) with false by reflexivity. now rewrite app_nil_r.
Qed.

(** ** What has been read ahead *)
Definition syms0 (its : list item) : list Z := symbols its ++ [0].
(** [its] are the items from the token's start on, [n] have been read from the file, [k]
    from the buffer (or the file) for this token, which starts at raw position [start]. *)
Record held (tail : list Z) (its : list item) (n k : nat) (start : Z) (src : source) : Prop := {
  h_buf : exists t base, rel Size (s_buf src) t /\ 0 <= base /\ t_at t = base + Z.of_nat k
    /\ t_len t = base + Z.of_nat n /\ skipn (Z.to_nat base) (t_all t) = firstn n (syms0 its)
    /\ cong Size start base /\ 0 <= start <= Size;
  h_n : (k <= n)%nat /\ (n <= S (length its))%nat /\ (n <= 2047)%nat;
  h_file : if (n <=? length its)%nat then at_text (s_file src) (items_text (skipn n its) ++ tail)
           else behind tail (s_file src)
}.

Lemma nth_error_syms0 : forall its k, (k <= length its)%nat ->
  nth_error (syms0 its) k = Some (nth k (symbols its) 0).
Proof.
  intros its k Hk. unfold syms0. destruct (Nat.eq_dec k (length its)) as [->|Hne].
  - rewrite nth_error_app2, map_length, Nat.sub_diag by (rewrite map_length; lia). cbn [nth_error].
    rewrite nth_overflow; [reflexivity|]. rewrite map_length. lia.
  - rewrite nth_error_app1 by (rewrite map_length; lia). apply nth_error_nth'. rewrite map_length. lia.
Qed.
Lemma skipn_cons : forall {A} (l : list A) n x, nth_error l n = Some x -> skipn n l = x :: skipn (S n) l.
Proof. intros A l. induction l as [|y l IH]; intros [|n] x H; cbn in *; try congruence. now apply IH. Qed.
Lemma firstn_S : forall {A} (l : list A) n x, nth_error l n = Some x -> firstn (S n) l = firstn n l ++ [x].
Proof. intros A l. induction l as [|y l IH]; intros [|n] x H; cbn in *; try congruence. f_equal. now apply IH. Qed.
Lemma skipn_plus : forall {A} (l : list A) n m, skipn n (skipn m l) = skipn (n + m) l.
Proof. intros A l. induction l as [|y l IH]; intros n [|m]; cbn; rewrite ?skipn_nil, ?Nat.add_0_r; auto. rewrite Nat.add_succ_r. cbn. apply IH. Qed.

Section Reading.
  Context (ignored : Z -> bool) (a : alphabet) (H91 : ignored 91 = false) (H92 : ignored 92 = false)
    (H0 : ignored 0 = false) (tail : list Z) (Ht : tail_ok tail).

  Lemma held_read : forall its n k start src, Forall (item_ok ignored) its -> held tail its n k start src ->
    (k <= length its)%nat -> (k < 2047)%nat ->
    exists src', readAnalysis ignored a src = Ok (nth k (symbols its) 0, src')
      /\ held tail its (Nat.max n (S k)) (S k) start src'
      /\ s_blanks src' = s_blanks src ++ (if (n <=? k)%nat then blanks (firstn 1 (skipn n its)) else [])
      /\ cong Size (getPos (s_buf src')) (start + Z.of_nat (S k)) /\ 0 <= getPos (s_buf src') <= Size.
  Proof.
    intros its n k start src Hok [(t & base & R & Hb & Hat & Hlen & Hsk & Hc & Hs) (Hn1 & Hn2 & Hn3) Hf] Hk Hk2.
    assert (Pos : forall (b' : buffer Z) all, rel Size b' (mkTape all (base + Z.of_nat k + 1)) ->
      cong Size (getPos b') (start + Z.of_nat (S k)) /\ 0 <= getPos b' <= Size).
    { intros b' all R'. destruct (r_cur _ _ _ R') as [C B]. cbn [t_at] in C. split; [|exact B]. unfold getPos.
      destruct C as (q & ->). destruct Hc as (q' & ->). exists (q - q'). lia. }
    destruct (n <=? k)%nat eqn:L.
    - apply Nat.leb_le in L. assert (n = k) by lia. subst n. clear L Hn1 Hn2.
      replace (Nat.max k (S k)) with (S k) by lia.
      assert (Eb : isEmpty (s_buf src) = true).
      { unfold isEmpty. rewrite (empty_iff Size ltac:(lia) _ _ R). apply Z.eqb_eq. lia. }
      replace (k <=? length its)%nat with true in Hf by (symmetry; now apply Nat.leb_le).
      destruct src as [f b bl]. cbn [s_buf s_file s_blanks] in *.
      pose proof (nth_error_syms0 its k Hk) as Hv. set (v := nth k (symbols its) 0) in *.
      destruct (add_rel b t v R) as (b' & Eadd & R').
      assert (Hnew : forall f', (if (S k <=? length its)%nat then at_text f' (items_text (skipn (S k) its) ++ tail) else behind tail f') ->
        forall bl', held tail its (S k) (S k) start (mkS f' b' bl')).
      { intros f' Hf' bl'. constructor; cbn [s_buf s_file]; [|lia|exact Hf'].
        exists (mkTape (t_all t ++ [v]) (t_len t + 1)), base. cbn [t_all t_at]. split; [exact R'|]. split; [exact Hb|].
        split; [lia|]. split; [unfold t_len; cbn [t_all]; rewrite app_length; cbn; unfold t_len in Hlen; lia|]. split; [|auto].
        rewrite (firstn_S _ _ v) by exact Hv. rewrite skipn_app, Hsk.
        replace (Z.to_nat base - length (t_all t))%nat with 0%nat by (unfold t_len in Hlen; lia). reflexivity. }
      assert (R'' : rel Size b' (mkTape (t_all t ++ [v]) (base + Z.of_nat k + 1))).
      { rewrite <- Hlen. exact R'. }
      destruct (Nat.eq_dec k (length its)) as [E|Hne].
      + assert (Ev : v = 0) by (unfold v; rewrite nth_overflow; auto; rewrite map_length; lia).
        rewrite E in Hf at 1. rewrite skipn_all in Hf. cbn [items_text map concat app] in Hf.
        destruct (read_tail ignored a f b bl tail Ht H0 Eb Hf) as (f' & Hf' & Hr). rewrite Ev in *.
        exists (mkS f' b' bl). split; [auto|]. split; [|split; [|eapply Pos; exact R'']].
        * apply Hnew. replace (S k <=? length its)%nat with false by (symmetry; apply Nat.leb_gt; lia). exact Hf'.
        * cbn [s_blanks]. rewrite E, skipn_all. cbn. now rewrite app_nil_r.
      + assert (Hi : exists i, nth_error its k = Some i).
        { destruct (nth_error its k) eqn:E; eauto. apply nth_error_None in E. lia. }
        destruct Hi as (i & Hi). rewrite (skipn_cons _ _ _ Hi) in Hf. cbn [items_text map concat] in Hf.
        rewrite <- app_assoc in Hf.
        assert (Ev : v = item_symbol i).
        { unfold v. apply (map_nth_error item_symbol) in Hi. rewrite (nth_error_nth _ _ 0 Hi). reflexivity. }
        assert (Hio : item_ok ignored i) by (rewrite Forall_forall in Hok; apply Hok; eapply nth_error_In; eauto).
        destruct (read_item ignored a i f b bl _ Hio H91 H92 Eb Hf) as (f' & Hf' & Hr). rewrite <- Ev in Hr.
        exists (mkS f' b' (bl ++ item_blanks i)). split; [auto|]. split; [|split; [|eapply Pos; exact R'']].
        * apply Hnew. replace (S k <=? length its)%nat with true by (symmetry; apply Nat.leb_le; lia). exact Hf'.
        * cbn [s_blanks]. rewrite (skipn_cons _ _ _ Hi). cbn. now rewrite app_nil_r.
    - apply Nat.leb_gt in L. replace (Nat.max n (S k)) with n by lia.
      assert (Eb : isEmpty (s_buf src) = false).
      { unfold isEmpty. rewrite (empty_iff Size ltac:(lia) _ _ R). apply Z.eqb_neq. lia. }
      unfold readAnalysis. rewrite Eb. cbn [negb].
      assert (Hv : nth_error (t_all t) (Z.to_nat (t_at t)) = Some (nth k (symbols its) 0)).
      { rewrite <- (nth_error_syms0 its k Hk). rewrite Hat.
        replace (Z.to_nat (base + Z.of_nat k)) with (Z.to_nat base + k)%nat by lia.
        rewrite <- (firstn_skipn (Z.to_nat base) (t_all t)) at 1. rewrite Hsk.
        assert (Lf : length (firstn (Z.to_nat base) (t_all t)) = Z.to_nat base).
        { rewrite firstn_length. unfold t_len in Hlen. lia. }
        rewrite nth_error_app2 by lia. rewrite Lf. replace (Z.to_nat base + k - Z.to_nat base)%nat with k by lia.
        rewrite <- (firstn_skipn n (syms0 its)) at 2. rewrite nth_error_app1; [reflexivity|].
        rewrite firstn_length. unfold syms0. rewrite app_length, map_length. cbn. lia. }
      destruct (next_rel _ _ _ R Hv) as (b' & -> & R'). cbn [obind]. eexists. split; [reflexivity|].
      split; [|split; [cbn [s_blanks]; now rewrite app_nil_r|cbn [s_buf]; eapply Pos; rewrite <- Hat; exact R']].
      constructor; cbn [s_buf s_file]; [|lia|exact Hf].
      exists (mkTape (t_all t) (t_at t + 1)), base. cbn [t_all t_at]. split; [exact R'|]. split; [exact Hb|].
      split; [lia|]. auto.
  Qed.

  (** Going back to symbol [j] of the token. *)
  Lemma held_set : forall its n k start src j, held tail its n k start src -> (j < n)%nat ->
    held tail its n j start (set_pos (start + Z.of_nat j) src).
  Proof.
    intros its n k start src j [(t & base & R & Hb & Hat & Hlen & Hsk & Hc & Hs) (Hn1 & Hn2 & Hn3) Hf] Hj.
    constructor; cbn [s_buf s_file set_pos]; [|lia|exact Hf].
    exists (mkTape (t_all t) (base + Z.of_nat j)), base. cbn [t_all t_at].
    assert (E : t_len (mkTape (t_all t) (base + Z.of_nat j)) = t_len t) by reflexivity.
    split; [|split; [exact Hb|split; [reflexivity|split; [rewrite E; exact Hlen|auto]]]].
    apply set_pos_rel; auto; try lia. destruct Hc as (q & ->). exists q. lia.
  Qed.
  Lemma held_back : forall its n k start src j last, held tail its n k start src -> (j < n)%nat ->
    cong Size last (start + Z.of_nat (S j)) -> 0 <= last <= Size ->
    held tail its n j start (go_back 1 (set_pos last src)).
  Proof.
    intros its n k start src j last [(t & base & R & Hb & Hat & Hlen & Hsk & Hc & Hs) (Hn1 & Hn2 & Hn3) Hf] Hj Hl Hr.
    constructor; cbn [s_buf s_file set_pos go_back]; [|lia|exact Hf].
    exists (mkTape (t_all t) (base + Z.of_nat j)), base. cbn [t_all t_at].
    assert (E : t_len (mkTape (t_all t) (base + Z.of_nat j)) = t_len t) by reflexivity.
    split; [|split; [exact Hb|split; [reflexivity|split; [rewrite E; exact Hlen|auto]]]].
    apply back_one_rel; auto; try lia. destruct Hc as (q & ->). destruct Hl as (q' & ->). exists (q + q'). lia.
  Qed.
  (** The next token starts here. *)
  Lemma held_next : forall its n k start src, held tail its n k start src -> (k <= length its)%nat ->
    held tail (skipn k its) (n - k) 0 (getPos (s_buf src)) src.
  Proof.
    intros its n k start src [(t & base & R & Hb & Hat & Hlen & Hsk & Hc & Hs) (Hn1 & Hn2 & Hn3) Hf] Hk.
    constructor.
    - exists t, (base + Z.of_nat k). destruct (r_cur _ _ _ R) as [C B]. split; [exact R|]. split; [lia|].
      split; [lia|]. split; [lia|]. split.
      + replace (Z.to_nat (base + Z.of_nat k)) with (k + Z.to_nat base)%nat by lia. rewrite <- skipn_plus, Hsk.
        rewrite skipn_firstn_comm. f_equal. unfold syms0. rewrite skipn_app, map_length.
        replace (k - length its)%nat with 0%nat by lia. cbn [skipn]. now rewrite skipn_map.
      + split; [|exact B]. unfold getPos. rewrite <- Hat. exact C.
    - rewrite skipn_length. lia.
    - rewrite skipn_length, skipn_plus.
      destruct (n <=? length its)%nat eqn:E.
      + apply Nat.leb_le in E. replace (n - k <=? length its - k)%nat with true by (symmetry; apply Nat.leb_le; lia).
        replace (n - k + k)%nat with n by lia. exact Hf.
      + apply Nat.leb_gt in E. replace (n - k <=? length its - k)%nat with false by (symmetry; apply Nat.leb_gt; lia).
        exact Hf.
  Qed.
End Reading.

(** * The states *)
Fixpoint after (P : processor) (st : analyses) (w : list Z) : outcome analyses :=
  match w with
  | [] => Ok st
  | c :: r => let! st := step_case P c st in after P st r
  end.
Definition state_of (P : processor) (w : list Z) : outcome analyses :=
  let! i := initial_state P in after P i w.
Lemma after_app : forall P a st b, after P st (a ++ b) = let! st := after P st a in after P st b.
Proof.
  intros P a. induction a as [|c a IH]; intros st b; cbn [app after obind]; auto.
  destruct (step_case P c st); cbn [obind]; auto.
Qed.
Lemma state_of_snoc : forall P w c, state_of P (w ++ [c]) = let! st := state_of P w in step_case P c st.
Proof.
  intros P w c. unfold state_of. destruct (initial_state P) as [i| | | |]; cbn [obind]; auto. rewrite after_app.
  destruct (after P i w) as [st| | | |]; cbn [obind after]; auto. destruct (step_case P c st); reflexivity.
Qed.

Section States.
  Context (P : processor) (cs : bool).
  Notation find := (p_find P).
  Notation root := (p_root P).
  Notation choices := (map (fun c => case_choice P c cs)).
  (** The states of [w] and its beginnings are defined and use the case folding [cs]. *)
  Definition good (w : list Z) : Prop :=
    forall k, exists st, state_of P (firstn k w) = Ok st /\ beCaseSensitive P st = cs.
  Lemma good_firstn : forall w k, good w -> good (firstn k w).
  Proof. intros w k H j. rewrite firstn_firstn. apply H. Qed.
  Lemma good_here : forall w, good w -> exists st, state_of P w = Ok st /\ beCaseSensitive P st = cs.
  Proof. intros w H. destruct (H (length w)) as (st & E & B). rewrite firstn_all in E. eauto. Qed.
  Lemma state_holds : forall w st, good w -> state_of P w = Ok st -> holds find root (choices w) st.
  Proof.
    intros w. induction w as [|c w IH] using rev_ind; intros st G H.
    - unfold state_of in H. destruct (initial_state P) as [i| | | |] eqn:E; try discriminate. cbn [obind after map] in *.
      assert (i = st) by congruence. subst. eapply init_holds. exact E.
    - rewrite state_of_snoc in H. assert (G' : good w).
      { intros k. destruct (G (Nat.min k (length w))) as (st0 & E & B). exists st0. split; auto. rewrite <- E. f_equal.
        rewrite firstn_app. replace (Nat.min k (length w) - length w)%nat with 0%nat by lia. cbn [firstn]. rewrite app_nil_r.
        destruct (le_lt_dec k (length w)) as [L|L].
        - now rewrite Nat.min_l by lia.
        - rewrite Nat.min_r, firstn_all, firstn_all2 by lia. reflexivity. }
      destruct (good_here w G') as (st0 & E0 & B0). rewrite E0 in H. cbn [obind] in H. unfold step_case in H. rewrite B0 in H.
      rewrite map_app. eapply step_holds; [apply (IH st0 G' E0)|exact H].
  Qed.
  Lemma state_reads : forall w st, good w -> state_of P w = Ok st -> forall q s d,
    In (mkV q s d) st <-> exists l, reading (p_isupper P) (p_tolower P) cs w l d /\ rpath find root l s q.
  Proof. intros w st G H q s d. rewrite (state_holds _ _ G H q s d). apply cpath_reading. Qed.
  Lemma state_living : forall w st, good w -> state_of P w = Ok st -> (st <> [] <-> living P cs w).
  Proof.
    intros w st G H. pose proof (state_reads _ _ G H) as R. split.
    - destruct st as [|[q s d] st]; [congruence|]. intros _. destruct (proj1 (R q s d) (or_introl eq_refl)) as (l & A & B).
      exists l, d, s, q. auto.
    - intros (l & d & s & q & A & B) ->. destruct (proj2 (R q s d)). eauto.
  Qed.
  Lemma state_accepting : forall fins w st, good w -> state_of P w = Ok st ->
    (isFinal fins st = true <-> accepting P cs fins w).
  Proof.
    intros fins w st G H. pose proof (state_reads _ _ G H) as R. unfold isFinal. rewrite existsb_exists. split.
    - intros ([q s d] & Hin & Hf). apply R in Hin as (l & A & B). exists l, d, s, q. cbn [v_where] in Hf.
      split; auto. split; auto. destruct (final_weight q fins); congruence.
    - intros (l & d & s & q & A & B & Hf). exists (mkV q s d). split; [apply R; eauto|]. cbn [v_where].
      destruct (final_weight q fins); congruence.
  Qed.
  Lemma living_prefix : forall a b, living P cs (a ++ b) -> living P cs a.
  Proof.
    intros a b (l & d & s & q & A & B).
    assert (C : cpath find root (choices (a ++ b)) s d q) by (apply cpath_reading; eauto).
    rewrite map_app in C. destruct (cpath_split find _ _ _ _ _ C _ _ eq_refl) as (s1 & d1 & p & s2 & d2 & Pa & _).
    apply cpath_reading in Pa as (l1 & A1 & B1). exists l1, d1, s1, p. auto.
  Qed.
  Lemma accepting_living : forall fins w, accepting P cs fins w -> living P cs w.
  Proof. intros fins w (l & d & s & q & A & B & _). exists l, d, s, q. auto. Qed.
  Lemma after_named : forall w st r, tags_known P -> (forall s, In s st -> named P s) -> after P st w = Ok r ->
    forall s, In s r -> named P s.
  Proof.
    intros w st r Ht. revert st. induction w as [|c w IH]; intros st H0 H; cbn [after] in H.
    - assert (st = r) by congruence. now subst.
    - destruct (step_case P c st) as [st1| | | |] eqn:E; try discriminate. cbn [obind] in H.
      eapply IH; [|exact H]. eapply step_case_named; eauto.
  Qed.
  Lemma state_named : forall w st, tags_known P -> state_of P w = Ok st -> forall s, In s st -> named P s.
  Proof.
    intros w st Ht H. unfold state_of in H. destruct (initial_state P) as [i| | | |] eqn:E; try discriminate. cbn [obind] in H.
    eapply after_named; eauto. eapply initial_named; eauto.
  Qed.

  Lemma finals_casing : forall st sf lf, filter_finals P st sf = Ok lf -> exists up fu, casing P sf up fu
    /\ filterFinals (p_toupper P) (p_sort P) (all_finals P) (p_alpha P) is_escaped (p_weights P)
         (p_maxAnalyses P) (p_maxClasses P) up fu 0 st = Ok lf.
  Proof.
    intros st w lf H. unfold casing, filter_finals in *. destruct (p_dictionaryCase P); [exists false, false; auto|].
    destruct w as [|c r]; [discriminate|]. cbn [obind] in H.
    exists ((1 <? length (c :: r))%nat && p_isupper P c && p_isupper P (last (c :: r) 0)), (p_isupper P c).
    split; [|exact H]. exists c, r. split; [auto|]. split; [auto|].
    rewrite !andb_true_iff, Nat.ltb_lt. destruct r as [|d r]; [cbn; split; [lia|intros [? _]; congruence]|].
    change (last (c :: d :: r) 0) with (last (d :: r) 0). cbn [length].
    split; [intros [[_ ?] ?]|intros (_ & ? & ?)]; repeat split; auto; try discriminate; lia.
  Qed.
  Lemma state_analysed : forall w st sf lf, is_sort (p_sort P) -> 0 < p_maxAnalyses P -> 0 < p_maxClasses P ->
    good w -> state_of P w = Ok st -> filter_finals P st sf = Ok lf ->
    analysed_as P cs w sf lf /\ (accepting P cs (all_finals P) w -> lf <> []).
  Proof.
    intros w st sf lf Hs HA HC G H F. pose proof (state_reads _ _ G H) as R.
    destruct (finals_casing _ _ _ F) as (up & fu & Hcase & F'). unfold filterFinals in F'.
    destruct (filterFinalsArray (p_toupper P) (p_sort P) (all_finals P) (p_alpha P) is_escaped (p_weights P)
      (p_maxAnalyses P) (p_maxClasses P) up fu 0 st) as [arr| | | |] eqn:Ea; try discriminate. cbn [obind] in F'.
    assert (El : lf = concat (map (fun t => 47 :: t) arr)) by congruence. clear F'.
    assert (Ne : accepting P cs (all_finals P) w -> arr <> []).
    { intros K. apply (array_nonempty (p_toupper P) (p_sort P) Hs _ _ _ _ _ _ _ _ _ _ _ HA HC Ea).
      now apply (state_accepting _ _ _ G H). }
    split; [|intros K ->; destruct arr; [now apply Ne|discriminate]].
    assert (Core : exists rep : list (ustr * Z),
      arr = map (fun x => fst x ++ if p_weights P then weight_text (snd x) else []) rep /\ NoDup (map fst rep)
      /\ StronglySorted by_weight rep
      /\ (forall t c, In (t, c) rep -> exists s, In s st /\ reports (p_toupper P) (all_finals P) (p_alpha P) is_escaped up fu 0 s t c)
      /\ (Z.of_nat (length st) <= p_maxAnalyses P -> Z.of_nat (length st) <= p_maxClasses P ->
          forall s, In s st -> final_weight (v_where s) (all_finals P) <> None ->
           exists t c least, reports (p_toupper P) (all_finals P) (p_alpha P) is_escaped up fu 0 s t c
             /\ In (t, least) rep /\ least <= c)).
    { destruct (Z_le_gt_dec (Z.of_nat (length st)) (p_maxAnalyses P)) as [LA|LA];
      [destruct (Z_le_gt_dec (Z.of_nat (length st)) (p_maxClasses P)) as [LC|LC]|].
      1: { destruct (C37_complete (p_toupper P) (p_sort P) Hs _ _ _ _ _ _ _ _ _ _ _ Ea LA LC) as (rep & E & N & So & Snd & Cpl).
           exists rep. auto. }
      all: destruct (C37_reported (p_toupper P) (p_sort P) Hs _ _ _ _ _ _ _ _ _ _ _ Ea) as (rep & E & N & So & _ & _ & Snd);
        exists rep; split; [exact E|]; split; [exact N|]; split; [exact So|]; split; [exact Snd|lia]. }
    destruct Core as (rep & E & N & So & Snd & Cpl). exists up, fu, rep. split; [exact Hcase|]. split.
    { rewrite El, E, map_map. reflexivity. }
    split; [exact N|]. split; [exact So|]. split.
    { intros t c Hin. destruct (Snd t c Hin) as ([q s d] & Hin' & Hr). apply R in Hin' as (l & A & B). exists l, d, s, q. auto. }
    split; [intros K ->; now apply (Ne K)|]. exists st. split; [exact R|]. exact Cpl.
  Qed.
End States.

(** * Texts *)
Lemma isAlphabetic_iff : forall P c, isAlphabetic P c = true <-> letter P c.
Proof.
  intros P c. unfold isAlphabetic, letter. rewrite orb_true_iff, existsb_exists. split.
  - intros [H|(x & Hx & E)]; [now left|]. apply Z.eqb_eq in E. subst. now right.
  - intros [H|H]; [now left|]. right. exists c. split; auto. apply Z.eqb_refl.
Qed.
Lemma isAlphabetic_not : forall P c, isAlphabetic P c = false <-> ~ letter P c.
Proof. intros P c. rewrite <- isAlphabetic_iff. destruct (isAlphabetic P c); split; congruence. Qed.
Lemma letter_dec : forall P c, {letter P c} + {~ letter P c}.
Proof.
  intros P c. destruct (isAlphabetic P c) eqn:E; [left; now apply isAlphabetic_iff|right; now apply isAlphabetic_not].
Qed.
Lemma getSymbol_scalar : forall c a, scalar c -> c <> 0 -> getSymbol c a = Ok (utf16 c).
Proof.
  intros c a Hc H0. unfold getSymbol. destruct Hc as [Hc Hs]. replace (c =? 0) with false by lia.
  replace (c <? 0) with false by lia. now rewrite append_cp_utf16.
Qed.

(** ** The letters at the beginning *)
Lemma run_nil : forall P, run P [] 0.
Proof. intros P. split; [cbn; lia|]. split; [constructor|cbn; lia]. Qed.
Lemma run_exists : forall P s, exists k, run P s k.
Proof.
  intros P s. induction s as [|c s (k & Hk & Hf & Hn)]; [exists 0%nat; apply run_nil|].
  destruct (letter_dec P c) as [L|L].
  - exists (S k). split; [cbn; lia|]. split; [cbn [firstn]; now constructor|]. cbn [nth length]. intros H. apply Hn. lia.
  - exists 0%nat. split; [cbn; lia|]. split; [constructor|]. now cbn.
Qed.
Lemma run_unique : forall P s k k', run P s k -> run P s k' -> k = k'.
Proof.
  assert (K : forall P s k k', run P s k -> run P s k' -> (k <= k')%nat).
  { intros P s k k' (H1 & H2 & H3) (H1' & H2' & H3'). destruct (le_lt_dec k k') as [L|L]; auto. exfalso.
    apply H3'; [lia|]. rewrite Forall_forall in H2. apply H2. apply (nth_error_In _ k').
    rewrite <- (firstn_skipn k s) at 2. assert (length (firstn k s) = k) by (rewrite firstn_length; lia).
    rewrite app_nth1 by lia. apply nth_error_nth'. lia. }
  intros. apply Nat.le_antisymm; eauto.
Qed.
Lemma utf16_units : forall c, scalar c -> (c < 65536 /\ utf16 c = [c] /\ ~ (55296 <= c <= 57343))
  \/ (exists h l, utf16 c = [h; l] /\ 55296 <= h < 56320 /\ 56320 <= l < 57344 /\ 65536 <= c
        /\ (h - 55296) * 1024 + (l - 56320) + 65536 = c).
Proof.
  intros c [H1 H2]. unfold utf16. destruct (c <? 65536) eqn:E; [left; repeat split; auto; lia|]. apply Z.ltb_ge in E. right.
  eexists _, _. split; [reflexivity|]. set (d := c - 65536). assert (0 <= d < 1048576) by (unfold d; lia).
  pose proof (Z.div_mod d 1024 ltac:(lia)). pose proof (Z.mod_pos_bound d 1024 ltac:(lia)).
  assert (0 <= d / 1024 < 1024) by (split; [apply Z.div_pos; lia|apply Z.div_lt_upper_bound; lia]).
  repeat split; lia.
Qed.
Lemma firstNotAlpha_run : forall P s, Forall scalar s -> exists k, run P s k
  /\ firstNotAlpha P (utf16_text s) = (k, length (utf16_text (firstn k s))).
Proof.
  intros P s Hs. induction Hs as [|c s Hc Hs (k & (Hk & Hf & Hn) & IH)].
  - exists 0%nat. split; [apply run_nil|reflexivity].
  - rewrite utf16_text_cons.
    assert (E : firstNotAlpha P (utf16 c ++ utf16_text s) = if isAlphabetic P c then
       (let '(i, j) := firstNotAlpha P (utf16_text s) in (S i, (length (utf16 c) + j)%nat)) else (0, 0)%nat).
    { destruct (utf16_units c Hc) as [(H1 & -> & H2)|(h & l & -> & H1 & H2 & H3 & H4)]; cbn [app firstNotAlpha length Nat.add].
      - destruct (utf16_text s) as [|d r] eqn:Et.
        + cbn. destruct (isAlphabetic P c); reflexivity.
        + replace ((55296 <=? c) && (c <? 56320) && (56320 <=? d) && (d <? 57344)) with false
            by (destruct (Z.leb_spec 55296 c), (Z.ltb_spec c 56320); cbn; auto; lia). reflexivity.
      - replace ((55296 <=? h) && (h <? 56320) && (56320 <=? l) && (l <? 57344)) with true.
        + rewrite H4. destruct (isAlphabetic P c); reflexivity.
        + symmetry. rewrite !andb_true_iff. repeat split; try apply Z.leb_le; try apply Z.ltb_lt; lia. }
    rewrite E, IH. destruct (isAlphabetic P c) eqn:L.
    + apply isAlphabetic_iff in L. exists (S k). split.
      * split; [cbn; lia|]. split; [cbn [firstn]; now constructor|]. cbn [nth length]. intros H. apply Hn. lia.
      * cbn [firstn]. rewrite utf16_text_cons, app_length. reflexivity.
    + apply isAlphabetic_not in L. exists 0%nat. split; [|reflexivity].
      split; [cbn; lia|]. split; [constructor|]. now cbn.
Qed.

(** ** The last blank *)
Lemma last_blank_mono : forall P str i found, (found <= i)%nat -> (found <= last_blank P i found str)%nat.
Proof.
  intros P str. induction str as [|c str IH]; intros i found H; cbn [last_blank]; auto.
  destruct (existsb (Z.eqb c) (p_letters P)); [apply IH; lia|]. etransitivity; [exact H|]. apply IH. lia.
Qed.
Lemma last_blank_app : forall P a b i found, exists f, last_blank P i found (a ++ b) = last_blank P (i + length a) f b
  /\ (found <= i -> f <= i + length a)%nat.
Proof.
  intros P a b. induction a as [|c a IH]; intros i found; cbn [app last_blank length].
  - exists found. rewrite Nat.add_0_r. auto.
  - destruct (existsb (Z.eqb c) (p_letters P)).
    + destruct (IH (S i) found) as (f & -> & Hf). exists f. rewrite Nat.add_succ_r. split; [reflexivity|intros; lia].
    + destruct (IH (S i) i) as (f & -> & Hf). exists f. rewrite Nat.add_succ_r. split; [reflexivity|intros; lia].
Qed.
Lemma lastBlank_after : forall P a c b, (forall x, In x (p_letters P) -> scalar x) -> scalar c -> ~ letter P c ->
  (length (utf16_text a) <= lastBlank P (utf16_text (a ++ c :: b)))%nat.
Proof.
  intros P a c b Hl Hc Hn. unfold lastBlank. rewrite utf16_text_app, utf16_text_cons.
  destruct (last_blank_app P (utf16_text a) (utf16 c ++ utf16_text b) 0 0) as (f & -> & Hf). cbn [Nat.add].
  assert (X : exists u r, utf16 c = u :: r /\ existsb (Z.eqb u) (p_letters P) = false).
  { destruct (utf16_units c Hc) as [(H1 & E & H2)|(h & l & E & H1 & H2 & _)]; rewrite E; eexists _, _; (split; [reflexivity|]).
    - destruct (existsb (Z.eqb c) (p_letters P)) eqn:X; auto. apply existsb_exists in X as (y & Hy & Ey).
      apply Z.eqb_eq in Ey. subst y. exfalso. apply Hn. now right.
    - destruct (existsb (Z.eqb h) (p_letters P)) eqn:X; auto. apply existsb_exists in X as (y & Hy & Ey).
      apply Z.eqb_eq in Ey. subst y. apply Hl in Hy as [_ Hy]. lia. }
  destruct X as (u & r & -> & X). cbn [app last_blank]. rewrite X. apply last_blank_mono. lia.
Qed.

(** ** The blanks of a word *)
Lemma utf16_spaces : forall c, scalar c -> filter (Z.eqb 32) (utf16 c) = if c =? 32 then [32] else [].
Proof.
  intros c Hc. destruct (utf16_units c Hc) as [(H1 & -> & H2)|(h & l & -> & H1 & H2 & H3 & _)]; cbn [filter].
  - rewrite Z.eqb_sym. destruct (Z.eqb_spec c 32); subst; reflexivity.
  - replace (32 =? h) with false by lia. replace (32 =? l) with false by lia. replace (c =? 32) with false by lia. reflexivity.
Qed.
Lemma item_scalar : forall ignored i, item_ok ignored i -> scalar (item_symbol i) /\ item_symbol i <> 0.
Proof.
  intros ignored [c|c|b|b]; cbn [item_ok item_symbol]; try tauto; intros _; (split; [apply ascii_scalar; lia|lia]).
Qed.
Lemma spaces_blanks : forall ignored l, Forall (item_ok ignored) l ->
  length (filter (Z.eqb 32) (utf16_text (symbols l))) = length (blanks l).
Proof.
  intros ignored l H. induction H as [|i l Hi H IH]; [reflexivity|]. cbn [map blanks flat_map].
  rewrite utf16_text_cons, filter_app, !app_length, IH. f_equal.
  rewrite utf16_spaces by (eapply item_scalar; eauto).
  destruct i as [c|c|b|b]; cbn [item_symbol item_blanks item_ok] in *; try reflexivity.
  - destruct (c =? 32); reflexivity.
  - destruct Hi as (_ & _ & _ & Hi). replace (c =? 32) with false by lia. reflexivity.
Qed.
Lemma pop_stuck : forall s b bl, b <> [32] ->
  writeEscapedPopBlanks s (b :: bl) = Ok (writeEscaped s, length (filter (Z.eqb 32) s), b :: bl).
Proof.
  induction s as [|c s IH]; intros b bl Hb; [reflexivity|]. cbn [writeEscapedPopBlanks filter writeEscaped].
  rewrite (Z.eqb_sym 32 c). destruct (c =? 32).
  - destruct (ustr_eq_dec b [32]) as [E|_]; [congruence|]. cbn [obind]. rewrite IH by auto. cbn [obind length].
    destruct (is_escaped c); reflexivity.
  - cbn [obind]. rewrite IH by auto. cbn [obind]. destruct (is_escaped c); reflexivity.
Qed.
Lemma pop_kept : forall s bl rest, length (filter (Z.eqb 32) s) = length bl ->
  writeEscapedPopBlanks s (bl ++ rest) = Ok (writeEscaped s, length (kept bl), kept bl ++ rest).
Proof.
  induction s as [|c s IH]; intros bl rest H; cbn [filter] in H.
  - destruct bl; [reflexivity|discriminate].
  - cbn [writeEscapedPopBlanks writeEscaped]. rewrite (Z.eqb_sym 32 c) in H. destruct (c =? 32) eqn:Ec.
    + destruct bl as [|b bl]; [discriminate|]. cbn [length] in H. cbn [app kept].
      destruct (ustr_eq_dec b [32]) as [->|Hb].
      * cbn [obind]. rewrite IH by lia. cbn [obind]. destruct (is_escaped c); reflexivity.
      * cbn [obind]. rewrite pop_stuck by auto. cbn [obind length app].
        assert (L : length (filter (Z.eqb 32) s) = length bl) by lia. rewrite L. destruct (is_escaped c); reflexivity.
    + cbn [obind]. rewrite IH by lia. cbn [obind]. destruct (is_escaped c); reflexivity.
Qed.
Lemma word_blanks : forall ignored l lf rest, Forall (item_ok ignored) l ->
  printWordPopBlank (utf16_text (symbols l)) lf (blanks l ++ rest)
  = Ok (printWord (utf16_text (symbols l)) lf ++ concat (kept (blanks l)), rest).
Proof.
  intros ignored l lf rest H. unfold printWordPopBlank.
  rewrite (pop_kept _ (blanks l) rest) by (eapply spaces_blanks; eauto). cbn [obind].
  rewrite firstn_app, skipn_app, firstn_all, skipn_all, Nat.sub_diag. cbn [firstn skipn app]. rewrite app_nil_r.
  unfold printWord. now rewrite <- !app_assoc.
Qed.
