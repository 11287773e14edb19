(** lt-print: the lines of a transducer, and what they say. *)
From Verif Require Import Base CompressionModel AlphabetModel AlphabetProofs TransducerModel TransducerSpec TransducerProofs NatSets
  DeterminizeProofs ReverseProofs RelabelSpec RelabelProofs ComposeSpec ComposeProofs AttModel AttSpec StringCodecProofs AnalysisProofs.

(** ** Numbers *)
Lemma digits_ok : forall fuel n, 0 <= n < 2 ^ Z.of_nat fuel -> (1 <= fuel)%nat ->
  digits fuel n <> [] /\ Forall is_digit (digits fuel n) /\ decimal_value (digits fuel n) = n.
Proof.
  induction fuel as [|fuel IH]; intros n H F; [lia|]. cbn [digits]. destruct (n <? 10) eqn:E.
  - apply Z.ltb_lt in E. split; [discriminate|]. split; [repeat constructor; unfold is_digit; lia|]. unfold decimal_value. cbn [fold_left]. lia.
  - apply Z.ltb_ge in E. rewrite Nat2Z.inj_succ, Z.pow_succ_r in H by lia.
    assert (n / 10 <= n / 2) by (apply Z.div_le_compat_l; lia).
    assert (n / 2 < 2 ^ Z.of_nat fuel) by (apply Z.div_lt_upper_bound; lia).
    assert (0 <= n / 10) by (apply Z.div_pos; lia). assert (M := Z.mod_pos_bound n 10 ltac:(lia)). assert (D := Z.div_mod n 10 ltac:(lia)).
    assert (F' : (1 <= fuel)%nat). { destruct fuel; [|lia]. cbn in H. lia. }
    destruct (IH (n / 10) ltac:(lia) F') as (A & B & C). split; [destruct (digits fuel (n / 10)); discriminate|]. split.
    + apply Forall_app. split; [exact B|]. repeat constructor; unfold is_digit; lia.
    + unfold decimal_value in *. rewrite fold_left_app, C. cbn [fold_left]. lia.
Qed.
Lemma fmt_int_ok : forall n, 0 <= n -> numeral (fmt_int n) n.
Proof.
  intros n H. unfold fmt_int. apply digits_ok; [|lia]. split; [exact H|]. rewrite Nat2Z.inj_succ, Z2Nat.id by apply Z.log2_nonneg.
  destruct (Z.eq_dec n 0) as [->|D]; [reflexivity|]. apply Z.log2_spec. lia.
Qed.
Lemma fmt_frac_ok : forall n, 0 <= n < 1000000 -> Forall is_digit (fmt_frac n) /\ length (fmt_frac n) = 6%nat /\ decimal_value (fmt_frac n) = n.
Proof.
  intros n H. split; [|split; [reflexivity|]].
  - unfold fmt_frac. repeat (constructor; [unfold is_digit; match goal with |- context [?x mod 10] => assert (M := Z.mod_pos_bound x 10 ltac:(lia)); lia end|]). constructor.
  - unfold decimal_value, fmt_frac. cbn [fold_left].
    assert (D : forall k, 0 < k -> n / (k * 10) = n / k / 10) by (intros k Hk; now rewrite Z.div_div by lia).
    assert (D1 := D 1 ltac:(lia)). assert (D2 := D 10 ltac:(lia)). assert (D3 := D 100 ltac:(lia)). assert (D4 := D 1000 ltac:(lia)). assert (D5 := D 10000 ltac:(lia)).
    cbn [Z.mul Pos.mul] in D1, D2, D3, D4, D5. rewrite Z.div_1_r in D1.
    assert (Q0 := Z.div_mod n 10 ltac:(lia)). assert (Q1 := Z.div_mod (n / 10) 10 ltac:(lia)). assert (Q2 := Z.div_mod (n / 100) 10 ltac:(lia)).
    assert (Q3 := Z.div_mod (n / 1000) 10 ltac:(lia)). assert (Q4 := Z.div_mod (n / 10000) 10 ltac:(lia)).
    assert (B : 0 <= n / 100000 < 10) by (split; [apply Z.div_pos; lia|apply Z.div_lt_upper_bound; lia]).
    rewrite (Z.mod_small (n / 100000) 10) by exact B. rewrite <- D2 in Q1. rewrite <- D3 in Q2. rewrite <- D4 in Q3. rewrite <- D5 in Q4. lia.
Qed.
Lemma fmt_weight_ok : forall w, amount (fmt_weight w) w.
Proof.
  intros w. unfold fmt_weight.
  assert (P : forall n, 0 <= n -> amount (fmt_int (n / 1000000) ++ [46] ++ fmt_frac (n mod 1000000)) n).
  { intros n Hn. destruct (fmt_frac_ok (n mod 1000000) (Z.mod_pos_bound n 1000000 ltac:(lia))) as (A & B & C).
    assert (K := am_point (fmt_int (n / 1000000)) (n / 1000000) (fmt_frac (n mod 1000000)) (fmt_int_ok (n / 1000000) (Z.div_pos n 1000000 Hn eq_refl)) A (Nat.eq_le_incl _ _ B)).
    rewrite B, C in K. change (10 ^ (6 - Z.of_nat 6)) with 1 in K. rewrite Z.mul_1_r, Z.mul_comm, <- Z.div_mod in K by lia. exact K. }
  destruct (w <? 0) eqn:E.
  - apply Z.ltb_lt in E. replace w with (- Z.abs w) at 3 by lia. cbn [app]. apply am_minus; [|apply P; lia].
    intros r Er. destruct (fmt_int_ok (Z.abs w / 1000000) ltac:(apply Z.div_pos; lia)) as (A & B & _). destruct (fmt_int (Z.abs w / 1000000)) as [|c s]; [congruence|].
    injection Er as -> _. inversion B as [|? ? D _]. unfold is_digit in D. lia.
  - apply Z.ltb_ge in E. cbn [app]. replace (Z.abs w) with w by lia. apply P. exact E.
Qed.

Lemma numeral_units : forall s n, numeral s n -> Forall plain_unit s.
Proof. intros s n (_ & H & _). eapply Forall_impl; [|exact H]. intros c D. unfold is_digit, plain_unit in *. lia. Qed.
Lemma amount_units : forall s w, amount s w -> Forall plain_unit s.
Proof.
  intros s w H. induction H as [s n H|s n d H D _|s w _ H IH].
  - eapply numeral_units, H.
  - apply Forall_app. split; [eapply numeral_units, H|]. constructor; [unfold plain_unit; lia|]. eapply Forall_impl; [|exact D]. intros c K. unfold is_digit, plain_unit in *. lia.
  - constructor; [unfold plain_unit; lia|exact IH].
Qed.

(** ** Symbols *)
Definition shown (s : symbol) : list symbol := if is_eps s then [] else [s].
Lemma c_string_id : forall s, Forall (fun c => c <> 0) s -> c_string s = s.
Proof. intros s H. induction H as [|c s D H IH]; [reflexivity|]. cbn [c_string]. apply Z.eqb_neq in D. now rewrite D, IH. Qed.
Lemma append_cp_char : forall c, character c -> append_cp [] c = utf16 c.
Proof.
  intros c H. unfold utf16. destruct (c <? 65536) eqn:E.
  - apply Z.ltb_lt in E. rewrite append_bmp; [reflexivity|]. unfold is_unit, character in *. lia.
  - apply Z.ltb_ge in E. unfold character in H. rewrite append_supp by lia. cbn [app].
    replace (c mod 1024) with ((c - 65536) mod 1024) by (rewrite <- (Z.mod_add (c - 65536) 64 1024) by lia; f_equal; lia). reflexivity.
Qed.
Lemma utf16_units_ok : forall c, character c -> c <> 10 -> c <> 9 -> c <> 65535 -> Forall (fun u => plain_unit u /\ u <> 0) (utf16 c).
Proof.
  intros c H N1 N2 N3. unfold utf16, character in *. destruct (c <? 65536) eqn:E.
  - repeat constructor; lia.
  - apply Z.ltb_ge in E. assert (0 <= (c - 65536) / 1024 < 1024) by (split; [apply Z.div_pos; lia|apply Z.div_lt_upper_bound; lia]).
    assert (0 <= (c - 65536) mod 1024 < 1024) by (apply Z.mod_pos_bound; lia). repeat constructor; lia.
Qed.
Lemma utf16_not_tag : forall c, character c -> ~ tag_text (utf16 c).
Proof.
  intros c C (n & K). unfold utf16, character in *. destruct (c <? 65536) eqn:L.
  - apply (f_equal (@length Z)) in K. cbn [app length] in K. rewrite app_length in K. cbn [length] in K. lia.
  - apply Z.ltb_ge in L. apply (f_equal (hd 0)) in K. cbn [app hd] in K. assert (0 <= (c - 65536) / 1024) by (apply Z.div_pos; lia). lia.
Qed.
Lemma symbol_column : forall hfst a s x, as_symbol a s x -> printable hfst x -> exists str, getSymbol s a = Ok str
  /\ column hfst (c_string (escapeSymbol str hfst)) (shown x) /\ Forall plain_unit (c_string (escapeSymbol str hfst)).
Proof.
  intros hfst a s x H P. destruct x as [n|c]; cbn [as_symbol printable] in H, P.
  - destruct H as [_ H], P as [T P]. exists n. split; [exact H|]. destruct T as (n' & ->). unfold escapeSymbol. cbn [app].
    assert (E : (if hfst && (if ustr_eq_dec (60 :: n' ++ [62]) [32] then true else false) then hfst_space
       else if hfst && (if ustr_eq_dec (60 :: n' ++ [62]) [9] then true else false) then hfst_tab else 60 :: n' ++ [62]) = 60 :: n' ++ [62]).
    { destruct (ustr_eq_dec _ [32]) as [E|_]; [discriminate E|]. destruct (ustr_eq_dec _ [9]) as [E|_]; [discriminate E|]. now rewrite !andb_false_r. }
    rewrite E. rewrite c_string_id by (eapply Forall_impl; [|exact P]; intros ? [_ K]; exact K). split; [apply col_tag; now exists n'|].
    eapply Forall_impl; [|exact P]. now intros ? [K _].
  - destruct H as [H ->]. destruct P as [->|(C & N1 & N2 & N3)].
    + exists []. split; [reflexivity|]. unfold escapeSymbol. destruct hfst; cbn [hfst_eps_short lttb_eps c_string]; (split; [apply col_zero || now apply col_greek|]);
        vm_compute; repeat (constructor; [repeat split; intros K; discriminate K|]); constructor.
    + exists (utf16 c). split.
      { unfold getSymbol. unfold character in C. replace (c =? 0) with false by lia. replace (c <? 0) with false by lia. now rewrite append_cp_char. }
      assert (Sh : shown (SChar c) = [SChar c]) by (unfold shown, is_eps; unfold character in C; destruct c; try reflexivity; lia).
      assert (NE : utf16 c <> []) by (unfold utf16; destruct (c <? 65536); discriminate). rewrite Sh.
      assert (ES : escapeSymbol (utf16 c) hfst = if hfst && (c =? 32) then hfst_space else if hfst && (c =? 9) then hfst_tab else utf16 c).
      { unfold escapeSymbol. destruct (utf16 c) as [|u0 us] eqn:Eu; [congruence|]. rewrite <- Eu.
        assert (Q : forall k, k < 65536 -> (if ustr_eq_dec (utf16 c) [k] then true else false) = (c =? k)).
        { intros k Hk. unfold utf16. unfold character in C. destruct (ustr_eq_dec _ [k]) as [E|E]; destruct (c <? 65536) eqn:L.
          - injection E as ->. now rewrite Z.eqb_refl.
          - discriminate E.
          - symmetry. apply Z.eqb_neq. intros ->. now apply E.
          - symmetry. apply Z.eqb_neq. lia. }
        now rewrite !Q by lia. }
      rewrite ES. destruct hfst; cbn [andb].
      * destruct (c =? 32) eqn:E1; [apply Z.eqb_eq in E1; subst c; split; [apply col_space|vm_compute; repeat (constructor; [repeat split; intros K; discriminate K|]); constructor]|].
        destruct (c =? 9) eqn:E2; [apply Z.eqb_eq in E2; subst c; split; [apply col_tab|vm_compute; repeat (constructor; [repeat split; intros K; discriminate K|]); constructor]|].
        assert (U := utf16_units_ok c C N1 ltac:(lia) N2). rewrite c_string_id by (eapply Forall_impl; [|exact U]; now intros ? [_ K]).
        split; [|eapply Forall_impl; [|exact U]; now intros ? [K _]].
        replace (utf16 c) with (flat_map utf16 [c]) by (cbn; apply app_nil_r). apply (col_chars true [c]); [constructor; [exact C|constructor]| |].
        -- cbn [flat_map]. rewrite app_nil_r. unfold utf16. destruct (c <? 65536); intros K; unfold specials in K; cbn [In app] in K; repeat (destruct K as [K|K]; [apply (f_equal (@length Z)) in K; discriminate K|]); exact K.
        -- cbn [flat_map]. rewrite app_nil_r. now apply utf16_not_tag.
      * destruct (N3 eq_refl) as [N4 N5].
        assert (U := utf16_units_ok c C N1 N4 N2). rewrite c_string_id by (eapply Forall_impl; [|exact U]; now intros ? [_ K]).
        split; [|eapply Forall_impl; [|exact U]; now intros ? [K _]].
        replace (utf16 c) with (flat_map utf16 [c]) by (cbn; apply app_nil_r). apply (col_chars false [c]); [constructor; [exact C|constructor]| |].
        -- cbn [flat_map]. rewrite app_nil_r. unfold utf16. destruct (c <? 65536); intros K; unfold specials in K; cbn [In app] in K; repeat (destruct K as [K|K]; [try (apply (f_equal (@length Z)) in K; discriminate K)|]); try exact K; apply (f_equal (hd 0)) in K; cbn [sp_greek hd] in K; congruence.
        -- cbn [flat_map]. rewrite app_nil_r. now apply utf16_not_tag.
Qed.

(** ** Lines *)
Definition arc_line (a : alphabet) (s : nat) (x : arc) (l : line) : Prop :=
  exists p, as_symbols a (a_tag x) p /\ l = LArc (Z.of_nat s) (Z.of_nat (a_dst x)) (shown (fst p)) (shown (snd p)) (a_wt x).
Definition arc_prints (hfst : bool) (a : alphabet) (x : arc) : Prop :=
  exists p, as_symbols a (a_tag x) p /\ printable hfst (fst p) /\ printable hfst (snd p).
Definition two_columns (cols : list ustr) : Prop := exists c0 c1 r, cols = c0 :: c1 :: r.
Lemma show_arc_ok : forall hfst a s x, arc_prints hfst a x ->
  exists cols l, show_arc a hfst s x = Ok (line_text cols) /\ line_says hfst cols l /\ arc_line a s x l /\ two_columns cols.
Proof.
  intros hfst a s x (p & (cl & cr & D & S1 & S2) & P1 & P2).
  destruct (symbol_column _ _ _ _ S1 P1) as (u & E1 & C1 & U1). destruct (symbol_column _ _ _ _ S2 P2) as (v & E2 & C2 & U2).
  assert (N1 := fmt_int_ok (Z.of_nat s) ltac:(lia)). assert (N2 := fmt_int_ok (Z.of_nat (a_dst x)) ltac:(lia)). assert (N3 := fmt_weight_ok (a_wt x)).
  exists [fmt_int (Z.of_nat s); fmt_int (Z.of_nat (a_dst x)); c_string (escapeSymbol u hfst); c_string (escapeSymbol v hfst); fmt_weight (a_wt x)].
  exists (LArc (Z.of_nat s) (Z.of_nat (a_dst x)) (shown (fst p)) (shown (snd p)) (a_wt x)). split; [|split; [|split]].
  - unfold show_arc. rewrite D. cbn [obind fst snd]. rewrite E1. cbn [obind]. rewrite E2. cbn [obind]. unfold line_text. cbn [tabbed]. rewrite <- !app_assoc. reflexivity.
  - split; [now apply cl_weighted|]. repeat (constructor; [eauto using numeral_units, amount_units|]). constructor.
  - exists p. split; [|reflexivity]. now exists cl, cr.
  - now do 3 eexists.
Qed.
Lemma show_arcs_ok : forall hfst a s l, Forall (arc_prints hfst a) l ->
  exists rows ls, show_arcs a hfst s l = Ok (flat_map line_text rows) /\ Forall2 (line_says hfst) rows ls /\ Forall2 (arc_line a s) l ls /\ Forall two_columns rows.
Proof.
  intros hfst a s l H. induction H as [|x l Hx H IH].
  - exists [], []. repeat split; constructor.
  - destruct (show_arc_ok _ _ s _ Hx) as (cols & l0 & E & S & A & T). destruct IH as (rows & ls & E' & S' & A' & T').
    exists (cols :: rows), (l0 :: ls). cbn [show_arcs]. rewrite E. cbn [obind]. rewrite E'. cbn [obind flat_map]. split; [reflexivity|]. split; [now constructor|]. split; now constructor.
Qed.
Lemma show_states_ok : forall hfst a l s, Forall (Forall (arc_prints hfst a)) l ->
  exists rows ls, show_states a hfst s l = Ok (flat_map line_text rows) /\ Forall2 (line_says hfst) rows ls /\ Forall two_columns rows
    /\ (forall k, In k ls <-> exists i x, In x (nth i l []) /\ arc_line a (s + i) x k)
    /\ (nth 0 l [] <> [] -> exists k r, ls = k :: r /\ AttSpec.source k = Z.of_nat s).
Proof.
  intros hfst a l. induction l as [|x l IH]; intros s H.
  - exists [], []. repeat split; try constructor.
    + intros [].
    + intros (i & x & Hx & _). destruct i; destruct Hx.
    + intros K. now destruct K.
  - inversion H as [|? ? Hx Hl]; subst. destruct (show_arcs_ok _ _ s _ Hx) as (rows & ls & E & Sy & A & T).
    destruct (IH (S s) Hl) as (rows' & ls' & E' & S' & T' & A' & _). clear IH.
    exists (rows ++ rows'), (ls ++ ls'). cbn [show_states]. rewrite E. cbn [obind]. rewrite E'. cbn [obind]. rewrite flat_map_app. split; [reflexivity|].
    split; [now apply Forall2_app|]. split; [now apply Forall_app|]. split.
    + intros k. rewrite in_app_iff, A'. split.
      * intros [K|(i & y & Hy & L)]; [|exists (S i), y; split; [exact Hy|now rewrite <- Nat.add_succ_comm]].
        exists 0%nat. rewrite Nat.add_0_r. clear -A K. induction A as [|x0 l0 x ls Hx A IH]; [destruct K|]. destruct K as [<-|K]; [exists x0; split; [now left|exact Hx]|].
        destruct (IH K) as (y & Hy & L). exists y. split; [now right|exact L].
      * intros ([|i] & y & Hy & L).
        -- left. rewrite Nat.add_0_r in L. cbn [nth] in Hy. clear -A Hy L. induction A as [|x0 l0 x ls Hx A IH]; [destruct Hy|]. destruct Hy as [->|Hy]; [|right; now apply IH].
           left. destruct Hx as (p & P & ->). destruct L as (q & Q & ->). now rewrite (as_symbols_fun _ _ _ _ P Q).
        -- right. exists i, y. split; [exact Hy|]. now rewrite Nat.add_succ_comm.
    + cbn [nth]. intros K. destruct A as [|x0 l0 x ls Hx' A]; [congruence|]. destruct Hx' as (p & _ & ->). now do 2 eexists.
Qed.

(** ** One transducer *)
Definition final_lines (t : transducer) : list line := map (fun f => LFinal (Z.of_nat (fst f)) (snd f)) (finals t).
Lemma arc_states : forall a s x s0 s' u l w, arc_line a s x (LArc s0 s' u l w) -> s0 = Z.of_nat s /\ s' = Z.of_nat (a_dst x) /\ w = a_wt x
  /\ exists p, as_symbols a (a_tag x) p /\ u = shown (fst p) /\ l = shown (snd p).
Proof. intros a s x s0 s' u l w (p & P & [= -> -> -> -> ->]). eauto 10. Qed.
Lemma shown_in : forall x tr, sym_in (x :: tr) = shown (fst (fst x)) ++ sym_in tr.
Proof. intros x tr. unfold sym_in, shown. cbn [map filter]. destruct (is_eps (fst (fst x))); reflexivity. Qed.
Lemma shown_out : forall x tr, sym_out (x :: tr) = shown (snd (fst x)) ++ sym_out tr.
Proof. intros x tr. unfold sym_out, shown. cbn [map filter]. destruct (is_eps (snd (fst x))); reflexivity. Qed.

Section One.
  Context (a : alphabet) (t : transducer) (ls : list line).
  Context (LS : forall k, In k ls <-> exists i x, In x (arcs_of t i) /\ arc_line a i x k).
  Notation m := (ls ++ final_lines t).
  Lemma line_arc : forall s s' u l w, In (LArc s s' u l w) m <->
    exists i tag j p, s = Z.of_nat i /\ s' = Z.of_nat j /\ has_arc t i tag j w /\ as_symbols a tag p /\ u = shown (fst p) /\ l = shown (snd p).
  Proof.
    intros s s' u l w. rewrite in_app_iff, LS. split.
    - intros [(i & [tag [j w']] & Hx & L)|H].
      + apply arc_states in L as (-> & -> & -> & p & P & -> & ->). exists i, tag, j, p. auto 10.
      + unfold final_lines in H. apply in_map_iff in H as (f & H & _). discriminate.
    - intros (i & tag & j & p & -> & -> & H & P & -> & ->). left. exists i, (tag, (j, w)). split; [exact H|]. now exists p.
  Qed.
  Lemma walk_trace : forall s x y c s', walk m s x y c s' -> forall i, s = Z.of_nat i ->
    exists j tr, s' = Z.of_nat j /\ trace (as_symbols a) t i tr j /\ sym_in tr = x /\ sym_out tr = y /\ weight_of tr = c.
  Proof.
    intros s x y c s' W. induction W as [s|s s' u l w x y c s'' H W IH]; intros i ->.
    - exists i, []. repeat split. constructor.
    - apply line_arc in H as (i' & tag & j & p & E & -> & H & P & -> & ->). apply Nat2Z.inj in E as <-. destruct (IH j eq_refl) as (k & tr & -> & T & <- & <- & <-).
      exists k, ((p, w) :: tr). split; [reflexivity|]. split; [econstructor; eassumption|]. split; [apply shown_in|]. split; [apply shown_out|]. reflexivity.
  Qed.
  Lemma trace_walk : forall i tr j, trace (as_symbols a) t i tr j -> walk m (Z.of_nat i) (sym_in tr) (sym_out tr) (weight_of tr) (Z.of_nat j).
  Proof.
    intros i tr j T. induction T as [i|i tag p w j tr k H P T IH]; [constructor|]. rewrite shown_in, shown_out. cbn [fst snd].
    change (weight_of ((p, w) :: tr)) with (w + weight_of tr). econstructor; [|exact IH]. apply line_arc. exists i, tag, j, p. auto 10.
  Qed.
  Lemma no_finals : forall s f, ~ In (LFinal s f) ls.
  Proof. intros s f H. apply LS in H as (i & x & _ & p & _ & E). discriminate. Qed.
  Lemma final_skip : forall r s f, (forall s f, ~ In (LFinal s f) r) -> forall l, final_line (r ++ l) s f <-> final_line l s f.
  Proof.
    intros r s f H l. induction r as [|k r IH]; [reflexivity|]. cbn [app]. assert (H' : forall s f, ~ In (LFinal s f) r) by (intros s0 f0 K; apply (H s0 f0); now right).
    specialize (IH H'). split.
    - intros F. apply IH. remember (k :: r ++ l) as z. destruct F as [m0 s f|m0 s f k0 N F]; [injection Heqz as <- _; exfalso; eapply H; now left|]. now injection Heqz as _ ->.
    - intros F. apply fl_later; [|now apply IH]. intros f' ->. eapply H. now left.
  Qed.
  Lemma final_lines_ok : forall (fs : list (nat * Z)) i f, finals_sorted fs -> (final_line (map (fun f => LFinal (Z.of_nat (fst f)) (snd f)) fs) (Z.of_nat i) f <-> In (i, f) fs).
  Proof.
    intros fs i f Hs. induction Hs as [|[j g] fs Hs IH HF]; cbn [map In fst snd].
    - split; [|intros []]. intros F. inversion F.
    - split.
      + intros F. remember (LFinal (Z.of_nat j) g :: _) as z. remember (Z.of_nat i) as s. destruct F as [m0 s f|m0 s f k N F].
        * injection Heqz as -> -> _. apply Nat2Z.inj in Heqs. subst j. now left.
        * injection Heqz as -> ->. subst s. right. now apply IH.
      + intros [[= -> ->]|H]; [apply fl_here|]. apply fl_later; [|now apply IH]. intros f' [= E _]. apply Nat2Z.inj in E. subst j.
        rewrite Forall_forall in HF. apply HF in H. cbn in H. lia.
  Qed.
  Lemma one_means : wf t -> initial t = 0%nat -> start_of m = 0 -> forall x y c, means m x y c <-> srel t a x y c.
  Proof.
    intros W I0 S0 x y c. unfold means, means_from. rewrite S0. split.
    - intros (s' & d & f & Wk & F & ->). destruct (walk_trace _ _ _ _ _ Wk 0%nat eq_refl) as (j & tr & -> & T & <- & <- & <-). exists tr, f. split; [|auto].
      exists j. rewrite I0. split; [exact T|]. apply (proj1 (final_skip ls _ _ no_finals _)) in F. exact (proj1 (final_lines_ok (finals t) j f (wf_finals_sorted t W)) F).
    - intros (tr & f & (q & T & F) & <- & <- & <-). rewrite I0 in T. exists (Z.of_nat q), (weight_of tr), f. split; [now apply (trace_walk 0)|]. split; [|reflexivity].
      apply (proj2 (final_skip ls _ _ no_finals _)). exact (proj2 (final_lines_ok (finals t) q f (wf_finals_sorted t W)) F).
  Qed.
  Lemma shown_inj : forall x y, shown x = shown y -> is_eps x = is_eps y /\ (is_eps x = false -> x = y).
  Proof. intros x y H. unfold shown in H. destruct (is_eps x), (is_eps y); try discriminate; [split; [reflexivity|discriminate]|]. injection H as ->. auto. Qed.
  Lemma eps_char : forall x, is_eps x = true -> x = SChar 0.
  Proof. intros [n|c] H; [discriminate|]. cbn in H. destruct c; try discriminate. reflexivity. Qed.
  Lemma shown_eq : forall x y, shown x = shown y -> x = y.
  Proof. intros x y H. apply shown_inj in H as [E H]. destruct (is_eps x) eqn:Ex; [|now apply H]. rewrite (eps_char x), (eps_char y); auto. Qed.
  Lemma symbol_inj : forall s s' x, alph_inv a -> as_symbol a s x -> as_symbol a s' x -> s = s'.
  Proof.
    intros s s' [n|c] I H H'; cbn in H, H'; [|lia]. destruct H as [P H], H' as [P' H']. unfold getSymbol in H, H'.
    replace (s =? 0) with false in H by lia. replace (s' =? 0) with false in H' by lia. replace (s <? 0) with true in H by lia. replace (s' <? 0) with true in H' by lia.
    destruct (nth_error (slexicinv a) (Z.to_nat (- s - 1))) eqn:E; [|discriminate]. destruct (nth_error (slexicinv a) (Z.to_nat (- s' - 1))) eqn:E'; [|discriminate].
    injection H as ->. injection H' as ->. destruct I as (_ & ND & _). 
    assert (Z.to_nat (- s - 1) = Z.to_nat (- s' - 1)); [|lia]. apply (proj1 (NoDup_nth_error (slexicinv a)) ND); [apply nth_error_Some; congruence|congruence].
  Qed.
  Lemma one_agree : alph_inv a -> one_weight t -> weights_agree m.
  Proof.
    intros I OW s s' u l w w' H H'. apply line_arc in H as (i & tag & j & p & -> & -> & H & (c1 & c2 & D & P1 & P2) & -> & ->).
    apply line_arc in H' as (i' & tag' & j' & p' & E1 & E2 & H' & (c1' & c2' & D' & P1' & P2') & Q1 & Q2). apply Nat2Z.inj in E1, E2. subst i' j'.
    apply shown_eq in Q1. apply shown_eq in Q2. rewrite Q1 in P1. rewrite Q2 in P2.
    assert (c1 = c1') by (eapply symbol_inj; eassumption). assert (c2 = c2') by (eapply symbol_inj; eassumption). subst c1' c2'.
    assert (tag = tag') by (eapply decode_inj; eassumption). subst tag'. eapply OW; eassumption.
  Qed.
End One.

Lemma top_bound : forall m N, 0 <= N -> (forall l s, In l m -> In s (line_states l) -> s <= N) -> top_state m <= N.
Proof.
  intros m N HN H. unfold top_state. assert (K : forall s, In s (flat_map line_states m) -> s <= N). { intros s Hs. apply in_flat_map in Hs as (l & Hl & Hs). eauto. }
  clear H. induction (flat_map line_states m) as [|s r IH]; cbn [fold_right]; [exact HN|]. apply Z.max_lub; [apply K; now left|]. apply IH. intros q Hq. apply K. now right.
Qed.
Lemma show_ok : forall hfst a t, section_prints hfst a t -> alph_inv a ->
  exists rows m, show a hfst t = Ok (flat_map line_text rows) /\ machine_says hfst rows m /\ start_of m = 0
    /\ (forall x y c, means m x y c <-> srel t a x y c) /\ (one_weight t -> weights_agree m) /\ top_state m <= Z.of_nat (nstates t) - 1.
Proof.
  intros hfst a t (W & I0 & _ & A0 & SI & PR) I.
  assert (AP : Forall (Forall (arc_prints hfst a)) (trans t)).
  { apply Forall_forall. intros l Hl. destruct (In_nth _ _ [] Hl) as (i & Hi & <-). apply Forall_forall. intros [tag [q w]] Hx.
    destruct (SI i tag q w Hx) as (p & P). exists p. split; [exact P|]. exact (PR i tag q w p Hx P). }
  destruct (show_states_ok hfst a (trans t) 0 AP) as (rows & ls & E & SY & TC & LS & FST). cbn [Nat.add] in LS.
  destruct (FST A0) as (k & r & -> & Sk). change (Z.of_nat 0) with 0 in Sk.
  set (frows := map (fun f : nat * Z => [fmt_int (Z.of_nat (fst f)); fmt_weight (snd f)]) (finals t)).
  exists (rows ++ frows), ((k :: r) ++ final_lines t). split; [|split; [|split; [|split; [|split]]]].
  - unfold show. rewrite E. cbn [obind]. rewrite flat_map_app. f_equal. f_equal. unfold frows. clear. induction (finals t) as [|f fs IH]; [reflexivity|].
    cbn [flat_map map]. rewrite IH. f_equal. unfold line_text. cbn [tabbed]. rewrite <- !app_assoc. reflexivity.
  - split.
    + apply Forall2_app; [exact SY|]. unfold frows, final_lines. clear. induction (finals t) as [|f fs IH]; [constructor|]. cbn [map]. constructor; [|exact IH].
      assert (N1 := fmt_int_ok (Z.of_nat (fst f)) ltac:(lia)). assert (N2 := fmt_weight_ok (snd f)). split; [now apply cl_final_weighted|].
      repeat (constructor; [eauto using numeral_units, amount_units|]). constructor.
    + inversion SY as [|cols l0 rows' r' HS HR E1 E2]; subst. inversion TC as [|? ? (c0 & c1 & cs & ->) _]; subst. cbn [app]. now do 4 eexists.
  - exact Sk.
  - intros x y c. apply (one_means a t (k :: r) LS W I0 Sk).
  - exact (one_agree a t (k :: r) LS I).
  - apply top_bound; [assert (K := wf_initial t W); lia|]. intros l s Hl Hs. destruct l as [s0 s' u v w|s0 w].
    + apply (line_arc a t _ LS) in Hl as (i & tag & j & p & -> & -> & H & _). assert (K := wf_arcs t W _ _ _ _ H).
      assert (i < nstates t)%nat. { destruct (Nat.lt_ge_cases i (nstates t)) as [Q|Q]; [exact Q|]. unfold has_arc, arcs_of in H. rewrite nth_overflow in H by exact Q. destruct H. }
      destruct Hs as [<-|[<-|[]]]; lia.
    + apply in_app_iff in Hl as [Hl|Hl]; [exfalso; eapply (no_finals a t _ LS), Hl|]. unfold final_lines in Hl. apply in_map_iff in Hl as ([i f] & [= <- <-] & Hf).
      assert (K := wf_finals t W _ _ Hf). destruct Hs as [<-|[]]. cbn. lia.
Qed.
Lemma sorted_fun : forall (fs : list (nat * Z)) p w w', finals_sorted fs -> In (p, w) fs -> In (p, w') fs -> w = w'.
Proof.
  intros fs p w w' H. induction H as [|[q f] fs Hs IH HF]; intros H1 H2; [destruct H1|]. rewrite Forall_forall in HF.
  destruct H1 as [E1|H1], H2 as [E2|H2]; auto.
  - congruence.
  - apply HF in H2. injection E1 as -> ->. cbn in H2. lia.
  - apply HF in H1. injection E2 as -> ->. cbn in H1. lia.
Qed.
Lemma joined_prints : forall hfst a t j, alph_inv0 a -> section_prints hfst a t -> joined 0 t j -> wf j ->
  section_prints hfst a j /\ (one_weight t -> one_weight j) /\ (nstates j <= S (nstates t))%nat.
Proof.
  intros hfst a t j I0 (W & I & F & A0 & SI & PR) J Wj.
  assert (SJ := joined_symbols 0 t j a J (eps_symbols a I0) SI). destruct J as [p f Ef|j L _ NS IJ FJ HJ].
  - split; [exact (conj W (conj I (conj F (conj A0 (conj SI PR)))))|]. split; [auto|lia].
  - split; [|split; [|lia]].
    + split; [exact Wj|]. split; [congruence|]. split; [congruence|]. split; [|split; [exact SJ|]].
      * destruct (arcs_of t 0) as [|[tag [q w]] r] eqn:E; [congruence|]. assert (K : has_arc j 0 tag q w) by (apply HJ; left; unfold has_arc; rewrite E; now left).
        unfold has_arc in K. destruct (arcs_of j 0); [destruct K|discriminate].
      * intros p tag q w s H S. apply HJ in H as [H|(-> & _)]; [eapply PR; eassumption|]. rewrite (as_symbols_fun _ _ _ _ S (eps_symbols a I0)). split; now left.
    + intros OW p tag q w w' H H'. apply HJ in H, H'. destruct H as [H|(-> & -> & H)], H' as [H'|(E1 & E2 & H')].
      * eapply OW; eassumption.
      * subst q. apply (wf_arcs t W) in H. lia.
      * apply (wf_arcs t W) in H'. lia.
      * apply (sorted_fun (finals t) p w w' (wf_finals_sorted t W)); assumption.
Qed.
Definition states_sum (secs : list (ustr * transducer)) : Z := fold_right (fun p n => Z.of_nat (nstates (snd p)) + 1 + n) 1 secs.
Lemma lt_print_ok : forall hfst a secs first, alph_inv0 a -> secs <> [] -> Forall (fun p => section_prints hfst a (snd p)) secs ->
  exists text ms, lt_print a hfst first secs = Ok ((if first : bool then [] else [45; 45; 10]) ++ text) /\ file_says hfst text ms
    /\ (forall x y c, file_means ms x y c <-> exists n t, In (n, t) secs /\ srel t a x y c)
    /\ (Forall (fun p => one_weight (snd p)) secs -> Forall weights_agree ms)
    /\ fold_right (fun m n => top_state m + 1 + n) 1 ms <= states_sum secs /\ Forall (fun m => start_of m = 0) ms.
Proof.
  intros hfst a secs first I0 NE F. revert first NE. induction F as [|[n t] secs Ht F IH]; intros first NE; [congruence|]. cbn [snd] in Ht.
  assert (Ht' := Ht). destruct Ht' as (W & _ & FN & _). destruct (joinFinals_spec 0 t W FN) as (j & Ej & Wj & J).
  destruct (joined_prints hfst a t j I0 Ht J Wj) as (Pj & OJ & NJ).
  destruct (show_ok hfst a j Pj (proj1 I0)) as (rows & m & Es & MS & St & Me & Ag & Top).
  assert (JS : forall x y c, means m x y c <-> srel t a x y c).
  { intros x y c. rewrite Me. exact (joined_srel 0 t j a false x y c W J (eps_symbols a I0)). }
  cbn [lt_print]. rewrite Ej. cbn [obind]. rewrite Es. cbn [obind]. destruct secs as [|s0 secs0].
  - exists (flat_map line_text rows), [m]. cbn [lt_print obind]. rewrite app_nil_r. split; [reflexivity|]. split; [now apply fs_one|]. split; [|split; [|split]].
    + intros x y c. unfold file_means. split.
      * intros (m' & [<-|[]] & K). exists n, t. split; [now left|]. now apply JS.
      * intros (n' & t' & [[= <- <-]|[]] & K). exists m. split; [now left|]. now apply JS.
    + intros H. constructor; [|constructor]. apply Ag, OJ. now inversion H.
    + unfold states_sum. cbn [fold_right snd]. lia.
    + now repeat constructor.
  - destruct (IH false ltac:(discriminate)) as (text & ms & El & FS & FM & WA & TS & SS). rewrite El. cbn [obind].
    exists (flat_map line_text rows ++ [45; 45; 10] ++ text), (m :: ms). split; [reflexivity|]. split; [now apply fs_more|]. split; [|split; [|split]].
    + intros x y c. unfold file_means in *. split.
      * intros (m' & [<-|Hm] & K); [exists n, t; split; [now left|now apply JS]|]. destruct (proj1 (FM x y c)) as (n' & t' & Hn & K'); [eauto|]. exists n', t'. split; [now right|exact K'].
      * intros (n' & t' & [[= <- <-]|Hn] & K); [exists m; split; [now left|now apply JS]|]. destruct (proj2 (FM x y c)) as (m' & Hm & K'); [eauto|]. exists m'. split; [now right|exact K'].
    + intros H. inversion H as [|? ? H1 H2]; subst. constructor; [now apply Ag, OJ|now apply WA].
    + unfold states_sum in *. cbn [fold_right snd] in *. lia.
    + now constructor.
Qed.
