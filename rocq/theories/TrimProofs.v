(** Proofs about trimming. *)
From Verif Require Import Base CompressionModel SerialiserModel SortedVectorModel AlphabetModel AlphabetProofs TransducerModel
  TransducerSpec TransducerProofs ReverseProofs RelabelSpec RelabelProofs ComposeModel ComposeSpec ComposeProofs
  TrimModel SearchProofs TrimSpec.

(** ** Names and codes *)
Lemma symbol_code_tag : forall a s n, alph_inv a -> as_symbol a s (STag n) -> isSymbolDefined n a = true /\ symbol_code n a = s.
Proof.
  intros a s n I [Hs H]. unfold getSymbol in H. replace (s =? 0) with false in H by lia. replace (s <? 0) with true in H by lia.
  assert (E : nth_error (slexicinv a) (Z.to_nat (- s - 1)) = Some n).
  { unfold getSymbol, tag_name in H. destruct (nth_error (slexicinv a) (Z.to_nat (- s - 1))); congruence. }
  destruct (symbol_code_nth a n _ I E) as (E1 & E2 & _). split; [exact E2|]. rewrite E1. unfold tag_of. lia.
Qed.
Lemma tag_code_inj : forall a s n m, alph_inv a -> as_symbol a s m -> isSymbolDefined n a = true -> (symbol_code n a = s <-> m = STag n).
Proof.
  intros a s n m I H D. apply defined_iff in D; [|exact I]. apply In_nth_error in D as (i & Hi).
  destruct (symbol_code_nth a n i I Hi) as (E & _ & G). assert (A : as_symbol a (symbol_code n a) (STag n)).
  { rewrite E. split; [unfold tag_of; lia|exact G]. }
  split.
  - intros <-. eapply as_symbol_fun; eauto.
  - intros ->. now apply symbol_code_tag.
Qed.
Lemma count_codes : forall names a s m, alph_inv a -> as_symbol a s m ->
  (count (codes names a) s = true <-> exists n, In n names /\ m = STag n).
Proof.
  intros names a s m I H. unfold count, codes. rewrite existsb_exists. split.
  - intros (x & Hx & E). apply Z.eqb_eq in E. subst x. apply in_map_iff in Hx as (n & E & Hn). apply filter_In in Hn as [Hn D].
    exists n. split; [exact Hn|]. now apply (tag_code_inj a s n m I H D).
  - intros (n & Hn & ->). destruct (symbol_code_tag a s n I H) as [D E]. exists s. split; [|apply Z.eqb_refl].
    apply in_map_iff. exists n. split; [exact E|]. now apply filter_In.
Qed.
Lemma count_cons : forall x l s, count (x :: l) s = (s =? x) || count l s.
Proof. reflexivity. Qed.
Lemma char_code : forall a s m c, as_symbol a s m -> 0 <= c -> (s = c <-> m = SChar c).
Proof.
  intros a s [n|d] c H Hc; destruct H as [H1 H2]; split; intros E; try lia; try discriminate.
  - subst s. now rewrite E.
  - now injection E as ->.
Qed.
Lemma count_cmp : forall a s m, alph_inv a -> as_symbol a s m ->
  (count (sym_cmp_or_eps a) s = true <-> m = eps_sym \/ is_mark m = true).
Proof.
  intros a s m I H. unfold sym_cmp_or_eps. rewrite count_cons, orb_true_iff, Z.eqb_eq, (count_codes _ a s m I H).
  rewrite (symbol_zero a s m H). apply or_iff_compat_l. split.
  - intros (n & [<-|[<-|[]]] & ->); cbn [is_mark].
    + destruct (ustr_eq_dec COMPOUND_ONLY_L mark_L); [reflexivity|]. exfalso. now apply n.
    + destruct (ustr_eq_dec COMPOUND_R mark_L); [reflexivity|]. destruct (ustr_eq_dec COMPOUND_R mark_R); [reflexivity|]. exfalso. now apply n0.
  - destruct m as [n|c]; cbn [is_mark]; [|discriminate]. destruct (ustr_eq_dec n mark_L) as [->|]; [exists mark_L; split; [now left|reflexivity]|].
    destruct (ustr_eq_dec n mark_R) as [->|]; [exists mark_R; split; [right; now left|reflexivity]|discriminate].
Qed.
Lemma count_lsx : forall a s m, alph_inv a -> as_symbol a s m -> (count (sym_lsx a) s = true <-> In m separators).
Proof.
  intros a s m I H. unfold sym_lsx. rewrite (count_codes _ a s m I H). split.
  - intros (n & [<-|[<-|[<-|[]]]] & ->); cbn; auto.
  - intros [<-|[<-|[<-|[]]]]; eexists; (split; [|reflexivity]); cbn; auto.
Qed.

(** ** The moves *)
Section Trim.
  Context (this trimmer : transducer) (a ta : alphabet).
  Context (Wt : wf this) (Wm : wf trimmer) (Ia : alph_inv a) (Tt : symbols_in this a) (Tm : symbols_in trimmer ta).
  Context (no_lsx : forall s, In s separators -> ~ writes this a s).

  Definition nx (q r q' : nat) : nat := if (r =? q)%nat then q' else r.
  Inductive tmv : tkey -> Z -> Z -> tkey -> Prop :=
  | tm_eps p q r b o w q' : has_arc trimmer q b q' w -> as_symbols ta b (eps_sym, o) -> tmv (p, (q, r)) 0 w (p, (q', nx q r q'))
  | tm_join p q r b i w p' : has_arc this p b p' w -> as_symbols a b (i, plus_sym) -> tmv (p, (q, r)) b w (p', (initial trimmer, r))
  | tm_skip p q r b i m w p' : has_arc this p b p' w -> as_symbols a b (i, m) -> m = eps_sym \/ is_mark m = true ->
      tmv (p, (q, r)) b w (p', (q, r))
  | tm_both p q r b i m w p' b' m' o w' q' : has_arc this p b p' w -> as_symbols a b (i, m) -> is_mark m = false ->
      has_arc trimmer q b' q' w' -> as_symbols ta b' (m', o) -> m' <> eps_sym -> agree m m' ->
      tmv (p, (q, r)) b w (p', (q', nx q r q')).

  Let start : tkey := (initial this, (initial trimmer, initial trimmer)).
  Context (all : list tkey) (all_start : In start all) (all_mv : forall k b w k', tmv k b w k' -> In k all -> In k' all).
  Context (calm : forall p q r b i w p', In (p, (q, r)) all -> has_arc this p b p' w -> as_symbols a b (i, hash_sym) -> r = q).

  Notation INV := (INV tkey_dec tmv start all).
  Notation GROW := (GROW tkey_dec tmv).
  Notation done := (done tkey_dec).

  (** *** Arcs of the trimmer that read nothing *)
  Lemma tr_eps_spec : forall p q r s base arcs pnext st n, (forall e, In e arcs -> In e (arcs_of trimmer q)) ->
    INV st -> kfind tkey_dec (p, (q, r)) (w_map st) = Some s -> w_todo st = n ++ base -> (r <> q -> pnext = r) ->
    exists pnext' st', tr_eps ta p s q r pnext arcs st = Ok (pnext', st') /\ (r <> q -> pnext' = r)
      /\ INV st' /\ GROW (p, (q, r)) st st' /\ (length (w_todo st') <= length arcs + length (w_todo st))%nat
      /\ forall e o, In e arcs -> as_symbols ta (a_tag e) (eps_sym, o) -> done base st' (p, (q, r)) 0 (p, (a_dst e, nx q r (a_dst e))).
  Proof.
    intros p q r s base. induction arcs as [|e arcs IH]; intros pnext st n Sub I Hk Hb Hp; cbn [tr_eps].
    - exists pnext, st. split; [reflexivity|]. split; [exact Hp|]. split; [exact I|]. split; [apply GROW_refl|]. split; [cbn; lia|]. intros e o [].
    - destruct e as [tag [q' w]]. cbn [a_tag a_dst a_wt fst snd].
      assert (Ha : has_arc trimmer q tag q' w) by (apply Sub; now left).
      destruct (Tm _ _ _ _ Ha) as ([m o] & l & rr & Hd & Hl & Hr). cbn [fst snd] in Hl, Hr. rewrite Hd. cbn [obind].
      assert (Hdec : as_symbols ta tag (m, o)) by (exists l, rr; auto).
      set (pn := if (r =? q)%nat then q' else pnext).
      assert (Epn : pn = nx q r q').
      { unfold pn, nx. destruct (Nat.eqb_spec r q) as [|Hn]; [reflexivity|]. now apply Hp. }
      assert (STEP : exists st', (if l =? 0
          then let next := (p, (q', pn)) in
            let st := if kmem tkey_dec next (w_seen st) then st
                      else let '(s0, out) := newState (w_out st) in
                           mkSearch out (kinsert tkey_dec next s0 (w_map st)) (next :: w_todo st) (w_seen st) in
            let '(trg, m0) := kget tkey_dec next (w_map st) in
            let! out := linkStates s trg 0 w (w_out st) in Ok (mkSearch out m0 (w_todo st) (w_seen st))
          else Ok st) = Ok st' /\ INV st' /\ GROW (p, (q, r)) st st' /\ (length (w_todo st') <= 1 + length (w_todo st))%nat
          /\ (m = eps_sym -> done base st' (p, (q, r)) 0 (p, (q', pn)))).
      { destruct (Z.eqb_spec l 0) as [E0|E0].
        2:{ exists st. split; [reflexivity|]. split; [exact I|]. split; [apply GROW_refl|]. split; [lia|]. intros Em. exfalso. apply E0. now apply (symbol_zero ta l m Hl). }
        apply (symbol_zero ta l m Hl) in E0. subst m. set (next := (p, (q', pn))). cbv zeta.
        assert (Hm : tmv (p, (q, r)) 0 w next) by (unfold next; rewrite Epn; eapply tm_eps; eauto).
        destruct (kmem tkey_dec next (w_seen st)) eqn:Es.
        - destruct (i_seen _ _ _ _ _ I next) as (s' & Hs'); [now apply (kmem_spec tkey_dec)|]. unfold kget. rewrite Hs'.
          destruct (link_step tkey_dec tmv start all st (p, (q, r)) s 0 w next s' base n I Hk Hm Hs' Hb) as (out & E & _ & I2 & G2 & D2); [left; now apply (kmem_spec tkey_dec)|].
          rewrite E. cbn [obind]. eexists. split; [reflexivity|]. split; [exact I2|]. split; [exact G2|]. split; [cbn; lia|]. intros _. exact D2.
        - destruct (kfind tkey_dec next (w_map st)) as [s'|] eqn:Ef.
          + destruct (forget_step tkey_dec tmv start all st (p, (q, r)) I) as [I1 G1]. cbv zeta in I1, G1.
            destruct (newState (w_out st)) as [s0 out1]. cbn [snd] in I1, G1. unfold kinsert. rewrite Ef.
            set (st1 := mkSearch out1 (w_map st) (w_todo st) (w_seen st)) in *.
            destruct (push_step tkey_dec tmv start all st1 (p, (q, r)) 0 w next s' I1 Hm Ef) as [I2 G2]. cbv zeta in I2, G2. cbn [st1 w_seen w_todo w_map w_out] in I2, G2. rewrite Es in I2, G2.
            set (st2 := mkSearch out1 (w_map st) (next :: w_todo st) (w_seen st)) in *. cbn [st2 w_map w_out w_todo w_seen]. unfold kget. rewrite Ef.
            destruct (link_step tkey_dec tmv start all st2 (p, (q, r)) s 0 w next s' base (next :: n) I2 Hk Hm Ef) as (out & E & _ & I3 & G3 & D3);
              [cbn [st2 w_todo]; now rewrite Hb|right; now left|]. cbn [st2 w_out] in E. rewrite E. cbn [obind]. eexists. split; [reflexivity|].
            split; [exact I3|]. split; [exact (GROW_trans _ _ _ _ _ _ (GROW_trans _ _ _ _ _ _ G1 G2) G3)|]. split; [cbn; lia|]. intros _. exact D3.
          + pose proof (number_step tkey_dec tmv start all all_mv st (p, (q, r)) 0 w next I (i_keys _ _ _ _ _ I _ _ Hk) Hm Ef) as N.
            destruct (newState (w_out st)) as [s0 out1]. cbv zeta in N. rewrite Es in N. destruct N as (I2 & G2 & F2). unfold kinsert. rewrite Ef.
            set (st2 := mkSearch out1 ((next, s0) :: w_map st) (next :: w_todo st) (w_seen st)) in *. cbn [st2 w_map w_out w_todo w_seen].
            cbn [st2 w_map] in F2. unfold kget. rewrite F2.
            destruct (link_step tkey_dec tmv start all st2 (p, (q, r)) s 0 w next s0 base (next :: n) I2 (g_map _ _ _ _ _ G2 _ _ Hk) Hm F2) as (out & E & _ & I3 & G3 & D3);
              [cbn [st2 w_todo]; now rewrite Hb|right; now left|]. cbn [st2 w_out] in E. rewrite E. cbn [obind]. eexists. split; [reflexivity|].
            split; [exact I3|]. split; [exact (GROW_trans _ _ _ _ _ _ G2 G3)|]. split; [cbn; lia|]. intros _. exact D3. }
      destruct STEP as (st1 & E1 & I1 & G1 & L1 & D1). cbv zeta in E1. cbv zeta. fold pn. rewrite E1. cbn [obind].
      destruct (grow_base _ _ _ _ _ _ _ G1 Hb) as (n1 & Hb1).
      destruct (IH pn st1 n1) as (pn' & st' & E2 & Hp' & I2 & G2 & L2 & D2); auto.
      { intros e He. apply Sub. now right. }
      { exact (g_map _ _ _ _ _ G1 _ _ Hk). }
      { intros Hn. unfold pn. replace (r =? q)%nat with false by (symmetry; now apply Nat.eqb_neq). auto. }
      exists pn', st'. split; [exact E2|]. split; [exact Hp'|]. split; [exact I2|]. split; [exact (GROW_trans _ _ _ _ _ _ G1 G2)|]. split; [cbn [length]; lia|].
      intros e o' [<-|He] Hs; [|eauto]. cbn [a_tag a_dst fst snd] in *. rewrite <- Epn. eapply (done_grow _ _ _ _ _ _ _ _ _ G2). apply D1.
      pose proof (as_symbols_fun _ _ _ _ Hs Hdec). congruence.
  Qed.

  (** *** Arcs of the trimmer against an arc of this *)
  Lemma tr_match_spec : forall p q r s base b i m w p' rsym, has_arc this p b p' w -> as_symbols a b (i, m) -> is_mark m = false ->
    as_symbol a rsym m -> forall arcs pnext st n, (forall e, In e arcs -> In e (arcs_of trimmer q)) ->
    INV st -> kfind tkey_dec (p, (q, r)) (w_map st) = Some s -> w_todo st = n ++ base -> (r <> q -> pnext = r) ->
    exists pnext' st', tr_match a ta s p' b w rsym q r pnext arcs st = Ok (pnext', st') /\ (r <> q -> pnext' = r)
      /\ INV st' /\ GROW (p, (q, r)) st st' /\ (length (w_todo st') <= length arcs + length (w_todo st))%nat
      /\ forall e m' o, In e arcs -> as_symbols ta (a_tag e) (m', o) -> m' <> eps_sym -> agree m m' ->
           done base st' (p, (q, r)) b (p', (a_dst e, nx q r (a_dst e))).
  Proof.
    intros p q r s base b i m w p' rsym Ht Hs Hmk Hr. induction arcs as [|e arcs IH]; intros pnext st n Sub I Hk Hb Hp; cbn [tr_match].
    - exists pnext, st. split; [reflexivity|]. split; [exact Hp|]. split; [exact I|]. split; [apply GROW_refl|]. split; [cbn; lia|]. intros e m' o [].
    - destruct e as [tag [q' w']]. cbn [a_tag a_dst a_wt fst snd].
      assert (Ha : has_arc trimmer q tag q' w') by (apply Sub; now left).
      destruct (Tm _ _ _ _ Ha) as ([m' o] & l & rr & Hd & Hl & Hrr). cbn [fst snd] in Hl, Hrr. rewrite Hd. cbn [obind].
      assert (Hdec : as_symbols ta tag (m', o)) by (exists l, rr; auto).
      set (pn := if (r =? q)%nat then q' else pnext).
      assert (Epn : pn = nx q r q').
      { unfold pn, nx. destruct (Nat.eqb_spec r q) as [|Hn]; [reflexivity|]. now apply Hp. }
      assert (Same : exists sm, (if l =? 0 then Ok false else sameSymbol a rsym ta l) = Ok sm /\ (sm = true <-> m' <> eps_sym /\ agree m m')).
      { destruct (Z.eqb_spec l 0) as [E0|E0].
        - exists false. split; [reflexivity|]. split; [discriminate|]. intros [H _]. exfalso. apply H. now apply (symbol_zero ta l m' Hl).
        - assert (Hn : m' <> eps_sym) by (intros E; apply E0; now apply (symbol_zero ta l m' Hl)).
          destruct (sameSymbol_spec a ta rsym l m m' Hr Hl Hn) as (sm & E & Hsm). exists sm. split; [exact E|]. tauto. }
      destruct Same as (sm & Es & Hsm). rewrite Es. cbn [obind].
      assert (STEP : exists st', (if sm then (let! (_, st0) := visit tkey_dec s (p', (q', pn)) b w st in Ok st0) else Ok st) = Ok st'
          /\ INV st' /\ GROW (p, (q, r)) st st' /\ (length (w_todo st') <= 1 + length (w_todo st))%nat
          /\ (sm = true -> done base st' (p, (q, r)) b (p', (q', pn)))).
      { destruct sm.
        - destruct (proj1 Hsm eq_refl) as [Hn Hag].
          destruct (visit_spec tkey_dec tmv start all all_mv st (p, (q, r)) s b w (p', (q', pn)) base n I Hk) as (s' & st' & E & I2 & G2 & D2 & L2); auto.
          { rewrite Epn. eapply tm_both; eauto. }
          rewrite E. cbn [obind]. exists st'. auto.
        - exists st. split; [reflexivity|]. split; [exact I|]. split; [apply GROW_refl|]. split; [lia|]. discriminate. }
      destruct STEP as (st1 & E1 & I1 & G1 & L1 & D1). fold pn. rewrite E1. cbn [obind].
      destruct (grow_base _ _ _ _ _ _ _ G1 Hb) as (n1 & Hb1).
      destruct (IH pn st1 n1) as (pn' & st' & E2 & Hp' & I2 & G2 & L2 & D2); auto.
      { intros e He. apply Sub. now right. }
      { exact (g_map _ _ _ _ _ G1 _ _ Hk). }
      { intros Hn. unfold pn. replace (r =? q)%nat with false by (symmetry; now apply Nat.eqb_neq). auto. }
      exists pn', st'. split; [exact E2|]. split; [exact Hp'|]. split; [exact I2|]. split; [exact (GROW_trans _ _ _ _ _ _ G1 G2)|]. split; [cbn [length]; lia|].
      intros e m1 o' [<-|He] H1 H2 H3; [|eauto]. cbn [a_tag a_dst fst snd] in *. rewrite <- Epn. eapply (done_grow _ _ _ _ _ _ _ _ _ G2). apply D1. apply Hsm.
      pose proof (as_symbols_fun _ _ _ _ H1 Hdec) as X. injection X as -> ->. auto.
  Qed.

  (** *** Arcs of this *)
  Lemma search_eta : forall st : search tkey, mkSearch (w_out st) (w_map st) (w_todo st) (w_seen st) = st.
  Proof. now intros []. Qed.
  Lemma tr_arcs_spec : forall p q r s base arcs pnext st n, (forall e, In e arcs -> In e (arcs_of this p)) ->
    INV st -> kfind tkey_dec (p, (q, r)) (w_map st) = Some s -> w_todo st = n ++ base -> (r <> q -> pnext = r) ->
    exists st', tr_arcs this trimmer a ta p s q r pnext arcs st = Ok st'
      /\ INV st' /\ GROW (p, (q, r)) st st' /\ (length (w_todo st') <= length arcs * (1 + maxlen trimmer) + length (w_todo st))%nat
      /\ forall e i m, In e arcs -> as_symbols a (a_tag e) (i, m) ->
           (m = plus_sym -> done base st' (p, (q, r)) (a_tag e) (a_dst e, (initial trimmer, r)))
           /\ (m = eps_sym \/ is_mark m = true -> done base st' (p, (q, r)) (a_tag e) (a_dst e, (q, r)))
           /\ (is_mark m = false -> forall b' m' o w' q', has_arc trimmer q b' q' w' -> as_symbols ta b' (m', o) -> m' <> eps_sym -> agree m m' ->
                 done base st' (p, (q, r)) (a_tag e) (a_dst e, (q', nx q r q'))).
  Proof.
    intros p q r s base. induction arcs as [|e arcs IH]; intros pnext st n Sub I Hk Hb Hp; cbn [tr_arcs].
    - exists st. split; [reflexivity|]. split; [exact I|]. split; [apply GROW_refl|]. split; [cbn; lia|]. intros e i m [].
    - destruct e as [tag [p' w]]. cbn [a_tag a_dst a_wt fst snd].
      assert (Ha : has_arc this p tag p' w) by (apply Sub; now left).
      destruct (Tt _ _ _ _ Ha) as ([i m] & l & rr & Hd & Hl & Hr). cbn [fst snd] in Hl, Hr. rewrite Hd. cbn [obind].
      assert (Hdec : as_symbols a tag (i, m)) by (exists l, rr; auto).
      assert (Hlsx : count (sym_lsx a) rr = false).
      { destruct (count (sym_lsx a) rr) eqn:E; [|reflexivity]. exfalso. apply (count_lsx a rr m Ia Hr) in E. apply (no_lsx m E). exists p, tag, p', w, i. auto. }
      assert (Hwb : count (sym_wb a) rr = true <-> m = plus_sym).
      { unfold sym_wb. rewrite count_cons, Hlsx, orb_false_r, Z.eqb_eq. apply char_code with (1 := Hr). unfold JOIN. lia. }
      assert (Hcm := count_cmp a rr m Ia Hr).
      (* the rest of the arcs, once this one is done *)
      assert (REST : forall pn st1, INV st1 -> GROW (p, (q, r)) st st1 -> (length (w_todo st1) <= 1 + maxlen trimmer + length (w_todo st))%nat -> (r <> q -> pn = r) ->
        (m = plus_sym -> done base st1 (p, (q, r)) tag (p', (initial trimmer, r))) ->
        (m = eps_sym \/ is_mark m = true -> done base st1 (p, (q, r)) tag (p', (q, r))) ->
        (is_mark m = false -> forall b' m' o w' q', has_arc trimmer q b' q' w' -> as_symbols ta b' (m', o) -> m' <> eps_sym -> agree m m' ->
             done base st1 (p, (q, r)) tag (p', (q', nx q r q'))) ->
        exists st', tr_arcs this trimmer a ta p s q r pn arcs st1 = Ok st'
          /\ INV st' /\ GROW (p, (q, r)) st st' /\ (length (w_todo st') <= length ((tag, (p', w)) :: arcs) * (1 + maxlen trimmer) + length (w_todo st))%nat
          /\ forall e i m, In e ((tag, (p', w)) :: arcs) -> as_symbols a (a_tag e) (i, m) ->
           (m = plus_sym -> done base st' (p, (q, r)) (a_tag e) (a_dst e, (initial trimmer, r)))
           /\ (m = eps_sym \/ is_mark m = true -> done base st' (p, (q, r)) (a_tag e) (a_dst e, (q, r)))
           /\ (is_mark m = false -> forall b' m' o w' q', has_arc trimmer q b' q' w' -> as_symbols ta b' (m', o) -> m' <> eps_sym -> agree m m' ->
                 done base st' (p, (q, r)) (a_tag e) (a_dst e, (q', nx q r q')))).
      { intros pn st1 I1 G1 L1 Hpn D1 D2 D3. destruct (grow_base _ _ _ _ _ _ _ G1 Hb) as (n1 & Hb1).
        destruct (IH pn st1 n1) as (st' & E2 & I2 & G2 & L2 & D4); auto.
        { intros e He. apply Sub. now right. }
        { exact (g_map _ _ _ _ _ G1 _ _ Hk). }
        exists st'. split; [exact E2|]. split; [exact I2|]. split; [exact (GROW_trans _ _ _ _ _ _ G1 G2)|]. split; [cbn [length]; rewrite Nat.mul_succ_l, <- Nat.add_assoc; refine (Nat.le_trans _ _ _ L2 _); apply Nat.add_le_mono_l; exact L1|].
        intros e i' m1 [<-|He] Hs; [|now apply (D4 e i' m1)]. cbn [a_tag a_dst fst snd] in *.
        pose proof (as_symbols_fun _ _ _ _ Hs Hdec) as X. injection X as -> ->.
        split; [intros E; eapply (done_grow _ _ _ _ _ _ _ _ _ G2); auto|].
        split; [intros E; eapply (done_grow _ _ _ _ _ _ _ _ _ G2); auto|].
        intros E b' m' o w' q' X1 X2 X3 X4. eapply (done_grow _ _ _ _ _ _ _ _ _ G2). eauto. }
      assert (Hback : (rr =? GROUP) && negb (r =? q)%nat = false).
      { destruct (Z.eqb_spec rr GROUP) as [E|E]; [|reflexivity]. cbn [andb]. apply negb_false_iff, Nat.eqb_eq.
        apply (char_code a rr m GROUP Hr) in E; [|unfold GROUP; lia]. subst m. eapply calm; eauto. exact (proj1 (i_keys _ _ _ _ _ I _ _ Hk)). }
      assert (MATCH : forall pn st1, is_mark m = false -> m <> eps_sym -> INV st1 -> GROW (p, (q, r)) st st1 -> (length (w_todo st1) <= 1 + length (w_todo st))%nat -> (r <> q -> pn = r) ->
        (m = plus_sym -> done base st1 (p, (q, r)) tag (p', (initial trimmer, r))) ->
        exists st', (let back := (rr =? GROUP) && negb (r =? q)%nat in
          let st := if back then mkSearch (w_out st1) (kinsert tkey_dec (p, (r, r)) s (w_map st1)) (w_todo st1) (w_seen st1) else st1 in
          let src := if back then r else q in
          let! (pnext, st) := tr_match a ta s p' tag w rr src r pn (arcs_of trimmer src) st in
          tr_arcs this trimmer a ta p s src r pnext arcs st) = Ok st'
          /\ INV st' /\ GROW (p, (q, r)) st st' /\ (length (w_todo st') <= length ((tag, (p', w)) :: arcs) * (1 + maxlen trimmer) + length (w_todo st))%nat
          /\ forall e i m, In e ((tag, (p', w)) :: arcs) -> as_symbols a (a_tag e) (i, m) ->
           (m = plus_sym -> done base st' (p, (q, r)) (a_tag e) (a_dst e, (initial trimmer, r)))
           /\ (m = eps_sym \/ is_mark m = true -> done base st' (p, (q, r)) (a_tag e) (a_dst e, (q, r)))
           /\ (is_mark m = false -> forall b' m' o w' q', has_arc trimmer q b' q' w' -> as_symbols ta b' (m', o) -> m' <> eps_sym -> agree m m' ->
                 done base st' (p, (q, r)) (a_tag e) (a_dst e, (q', nx q r q')))).
      { intros pn st1 Hmk Hne I1 G1 L1 Hpn D1. cbv zeta. rewrite Hback.
        destruct (grow_base _ _ _ _ _ _ _ G1 Hb) as (n1 & Hb1).
        destruct (tr_match_spec p q r s base tag i m w p' rr Ha Hdec Hmk Hr (arcs_of trimmer q) pn st1 n1) as (pn' & st2 & E2 & Hpn' & I2 & G2 & L2 & D2); auto.
        { exact (g_map _ _ _ _ _ G1 _ _ Hk). }
        rewrite E2. cbn [obind]. pose proof (maxlen_arcs trimmer q) as ML. apply REST; auto.
        - exact (GROW_trans _ _ _ _ _ _ G1 G2).
        - lia.
        - intros E. eapply (done_grow _ _ _ _ _ _ _ _ _ G2); auto.
        - intros [E|E]; [contradiction|congruence].
        - intros _ b' m' o w' q' X1 X2 X3 X4. exact (D2 (b', (q', w')) m' o X1 X2 X3 X4). }
      destruct (count (sym_wb a) rr) eqn:Ew.
      + assert (Em := proj1 Hwb eq_refl).
        set (pn := if (r =? q)%nat then q else pnext).
        assert (Epn : pn = r). { unfold pn. destruct (Nat.eqb_spec r q) as [->|Hn]; [reflexivity|auto]. }
        destruct (visit_spec tkey_dec tmv start all all_mv st (p, (q, r)) s tag w (p', (initial trimmer, pn)) base n I Hk) as (s' & st1 & E & I1 & G1 & D1 & L1); auto.
        { rewrite Epn. eapply tm_join; [exact Ha|]. rewrite <- Em. exact Hdec. }
        rewrite E. cbn [obind]. rewrite Hlsx. cbn [andb]. rewrite search_eta.
        assert (Erj : rr = JOIN) by (apply (char_code a rr m JOIN Hr); [unfold JOIN; lia|exact Em]).
        rewrite Erj, Z.eqb_refl. cbn [negb]. rewrite Erj in MATCH.
        apply MATCH; auto; try (rewrite Em; (reflexivity || discriminate)). intros _. rewrite Epn in D1. exact D1.
      + assert (Em : m <> plus_sym) by (intros E; apply Hwb in E; discriminate).
        destruct (count (sym_cmp_or_eps a) rr) eqn:Ec.
        * assert (Em' := proj1 Hcm eq_refl).
          set (pn := if (r =? q)%nat then q else pnext).
          assert (Epn : pn = r). { unfold pn. destruct (Nat.eqb_spec r q) as [->|Hn]; [reflexivity|auto]. }
          destruct (visit_spec tkey_dec tmv start all all_mv st (p, (q, r)) s tag w (p', (q, pn)) base n I Hk) as (s' & st1 & E & I1 & G1 & D1 & L1); auto.
          { rewrite Epn. eapply tm_skip; eauto. }
          rewrite E. cbn [obind]. apply REST; auto.
          -- lia.
          -- intros E'. contradiction.
          -- intros _. rewrite Epn in D1. exact D1.
          -- intros Hmk b' m' o w' q' _ _ Hn Hag. destruct Em' as [->|Em']; [|congruence].
             exfalso. exact (agree_eps _ _ Hag Hn eq_refl).
        * assert (Hne : m <> eps_sym) by (intros E; assert (X := proj2 Hcm (or_introl E)); discriminate).
          assert (Hmk : is_mark m = false) by (destruct (is_mark m) eqn:E; [assert (X := proj2 Hcm (or_intror eq_refl)); discriminate|reflexivity]).
          cbn [obind]. apply MATCH; auto; [apply GROW_refl|]. intros E. contradiction.
  Qed.

  (** *** The loop *)
  Definition tr_step (st st2 : search tkey) : Prop :=
    exists p q r rest s pn st1, w_todo st = (p, (q, r)) :: rest /\ kfind tkey_dec (p, (q, r)) (w_map st) = Some s
      /\ tr_eps ta p s q r r (arcs_of trimmer q) (popped st (p, (q, r)) rest) = Ok (pn, st1)
      /\ tr_arcs this trimmer a ta p s q r pn (arcs_of this p) st1 = Ok st2.
  Definition tr_bound : nat := maxlen trimmer + maxlen this * (1 + maxlen trimmer).
  Lemma tr_step_ok : forall st current rest, INV st -> w_todo st = current :: rest ->
    exists st2, tr_step st st2 /\ INV st2 /\ GROW current (popped st current rest) st2 /\ (length (w_todo st2) <= tr_bound + length rest)%nat
      /\ forall b w k', tmv current b w k' -> done rest st2 current b k'.
  Proof.
    intros st [p [q r]] rest I E. destruct (i_todo _ _ _ _ _ I (p, (q, r))) as (s & Hs); [rewrite E; now left|].
    assert (I0 := popped_INV _ _ _ _ _ _ _ I E). set (st0 := popped st (p, (q, r)) rest) in *.
    destruct (tr_eps_spec p q r s rest (arcs_of trimmer q) r st0 [] (fun e H => H) I0 Hs eq_refl (fun _ => eq_refl)) as (pn & st1 & E1 & Hpn & I1 & G1 & L1 & D1).
    destruct (grow_base _ _ _ _ _ [] rest G1 eq_refl) as (n1 & Hb1).
    destruct (tr_arcs_spec p q r s rest (arcs_of this p) pn st1 n1 (fun e H => H) I1 (g_map _ _ _ _ _ G1 _ _ Hs) Hb1 Hpn) as (st2 & E2 & I2 & G2 & L2 & D2).
    exists st2. split; [|split; [exact I2|split; [exact (GROW_trans _ _ _ _ _ _ G1 G2)|split]]].
    - exists p, q, r, rest, s, pn, st1. auto.
    - pose proof (maxlen_arcs trimmer q) as M1. pose proof (maxlen_arcs this p) as M2. cbn [st0 popped w_todo] in L1. unfold tr_bound.
      refine (Nat.le_trans _ _ _ L2 _). refine (Nat.le_trans _ _ _ (Nat.add_le_mono _ _ _ _ (Nat.mul_le_mono_r _ _ _ M2) L1) _).
      rewrite Nat.add_assoc. apply Nat.add_le_mono_r. rewrite Nat.add_comm. now apply Nat.add_le_mono_r.
    - intros b w k' Hm. inversion Hm as [p1 q1 r1 b1 o w1 q' Ha Hd|p1 q1 r1 b1 i w1 p' Ha Hd|p1 q1 r1 b1 i m w1 p' Ha Hd Hc|p1 q1 r1 b1 i m w1 p' b' m' o w' q' Ha Hd Hc Ha' Hd' Hn Hag]; subst.
      + eapply (done_grow _ _ _ _ _ _ _ _ _ G2). exact (D1 (b1, (q', w)) o Ha Hd).
      + exact (proj1 (D2 (b, (p', w)) _ _ Ha Hd) eq_refl).
      + exact (proj1 (proj2 (D2 (b, (p', w)) _ _ Ha Hd)) Hc).
      + exact (proj2 (proj2 (D2 (b, (p', w)) _ _ Ha Hd)) Hc _ _ _ _ _ Ha' Hd' Hn Hag).
  Qed.

  Definition tfinal (k : tkey) (c : Z) : Prop := final_wt this (fst k) c /\ is_final trimmer (fst (snd k)).
  Definition taccepts (l : list label) (c : Z) : Prop := exists k, moves tmv start l k /\ tfinal k c.

  Lemma trim_product : exists N t', (forall fuel, (N <= fuel)%nat ->
      (let! st := tr_loop this trimmer a ta fuel (mkSearch new_transducer [(start, 0%nat)] [start] []) in
       Ok (mkT (initial (w_out st)) (fold_left (fun fin e => tr_final this trimmer e fin) (w_map st) (finals (w_out st))) (trans (w_out st)))) = Ok t')
    /\ wf t'
    /\ (forall p b q w, has_arc t' p b q w -> b = 0 \/ exists p0 q0, has_arc this p0 b q0 w)
    /\ (forall p f, final_wt t' p f -> (exists l, path t' (initial t') l p) /\ exists p0, final_wt this p0 f)
    /\ (forall l c, accepts_from t' (initial t') l c -> taccepts l c)
    /\ (forall l c, taccepts l c -> exists l', accepts_from t' (initial t') l' c /\ map fst l' = map fst l
          /\ ((forall k b w w' k', tmv k b w k' -> tmv k b w' k' -> w = w') -> l' = l))
    /\ exists key : nat -> tkey -> Prop, (forall p b q w, has_arc t' p b q w -> exists k k', key p k /\ key q k' /\ tmv k b w k')
         /\ forall p k k', key p k -> key p k' -> k = k'.
  Proof.
    destruct (search_result tkey_dec tmv start all all_start all_mv tr_step tr_bound tr_step_ok) as (N & st' & Hl & I & F & Hs & Hm).
    set (sel := fun k : tkey => match fin_find (fst k) (finals this) with Some w => if isFinal trimmer (fst (snd k)) then Some w else None | None => None end).
    assert (Esel : forall m fin, fold_left (fun fin e => tr_final this trimmer e fin) m fin = fold_left (choose sel) m fin).
    { induction m as [|[[p [q r]] s] m IH]; intros fin; cbn [fold_left]; [reflexivity|]. rewrite IH. f_equal. unfold tr_final, choose, sel. cbn [fst snd].
      destruct (fin_find p (finals this)); [|reflexivity]. now destruct (isFinal trimmer q). }
    assert (Hsel : forall k c, sel k = Some c <-> tfinal k c).
    { intros k c. unfold sel, tfinal. split.
      - destruct (fin_find _ _) as [w|] eqn:E1; [|discriminate]. destruct (isFinal _ _) eqn:E2; [|discriminate]. intros [= ->].
        split; [now apply (fin_find_some _ _ _ (wf_finals_sorted _ Wt))|]. unfold isFinal in E2. destruct (fin_find _ (finals trimmer)) as [f|] eqn:E3; [|discriminate].
        exists f. now apply (fin_find_some _ _ _ (wf_finals_sorted _ Wm)).
      - intros [H1 (f & H2)]. apply (fin_find_some _ _ _ (wf_finals_sorted _ Wt)) in H1. rewrite H1. apply (fin_find_some _ _ _ (wf_finals_sorted _ Wm)) in H2.
        unfold isFinal. now rewrite H2. }
    destruct (choose_fold sel (w_map st') [] ltac:(constructor) (map_injective _ _ _ _ _ I) ltac:(intros; intros [])) as [F1 F2].
    eexists N, _. split.
    { intros fuel Hf. specialize (Hl (tr_loop this trimmer a ta)). unfold st0 in Hl. rewrite Hl.
      - cbn [obind]. reflexivity.
      - clear. intros [|fuel] st E; cbn [tr_loop]; now rewrite E.
      - clear. intros fuel st st2 _ _ (p & q & r & rest & s & pn & st1 & E1 & E2 & E3 & E4). cbn [tr_loop]. rewrite E1, E2. 
        match goal with |- context [tr_eps ?x1 ?x2 ?x3 ?x4 ?x5 ?x6 ?x7 ?x8] => replace (tr_eps x1 x2 x3 x4 x5 x6 x7 x8) with (Ok (pn, st1)) by (symmetry; exact E3) end.
        cbn [obind]. now rewrite E4.
      - exact Hf. }
    rewrite Esel, F. set (t' := mkT _ _ _).
    assert (Hfin : forall p c, final_wt t' p c <-> exists k, kfind tkey_dec k (w_map st') = Some p /\ tfinal k c).
    { intros p c. unfold final_wt, t'. cbn [finals]. rewrite F2. cbn [In]. split.
      - intros [[]|(k & H1 & H2)]. exists k. split; [apply kfind_some; [apply (i_nodup _ _ _ _ _ I)|exact H1]|now apply Hsel].
      - intros (k & H1 & H2). right. exists k. split; [apply (kfind_some tkey_dec); [apply (i_nodup _ _ _ _ _ I)|exact H1]|now apply Hsel]. }
    assert (Hp : forall p l q, path t' p l q <-> path (w_out st') p l q).
    { intros p l q. split; intros H; (induction H; [constructor|econstructor; eauto]). }
    pose proof (i_wf _ _ _ _ _ I) as W'. pose proof (i_init _ _ _ _ _ I) as Hi.
    split; [|split; [|split; [|split; [|split]]]].
    - constructor.
      + apply (wf_initial _ W').
      + intros p c H. apply Hfin in H as (k & H & _). exact (i_rng _ _ _ _ _ I _ _ H).
      + exact F1.
      + apply (wf_arcs _ W').
      + apply (wf_sorted _ W').
    - intros p b q w H. destruct (i_arcs _ _ _ _ _ I p b q w H) as (k & k' & _ & _ & Hmv). inversion Hmv; subst; eauto 6.
    - intros p f H. apply Hfin in H as (k & H & Hk & _). split; [|eauto]. destruct (reach_moves tmv start k (proj2 (i_keys _ _ _ _ _ I _ _ H))) as (l & Hl').
      destruct (Hm _ _ _ Hl' _ Hi) as (q & l' & A1 & A2 & _). exists l'. apply Hp. replace p with q by congruence. exact A2.
    - intros l c (q & H1 & H2). apply Hfin in H2 as (k & H2 & H3). apply Hp in H1. destruct (Hs _ _ _ H1 start Hi) as (k' & A1 & A2).
      rewrite (i_inj _ _ _ _ _ I _ _ _ A1 H2) in A2. exists k. auto.
    - intros l c (k & H1 & H2). destruct (Hm _ _ _ H1 _ Hi) as (q & l' & A1 & A2 & A3 & A4). exists l'. split; [|auto].
      exists q. split; [now apply Hp|]. apply Hfin. eauto.
    - exists (fun p k => kfind tkey_dec k (w_map st') = Some p). split.
      + exact (i_arcs _ _ _ _ _ I).
      + intros p k k'. exact (i_inj _ _ _ _ _ I k k' p).
  Qed.
  (** What the moves are in the two transducers *)
  Lemma moves_apart : forall k l k', moves tmv k l k' -> exists l', path this (fst k) l' (fst k')
    /\ (l' = [] -> exists tr, trace (as_symbols ta) trimmer (fst (snd k)) tr (fst (snd k')) /\ sym_in tr = [] /\ length tr = length l).
  Proof.
    intros k l k' H. induction H as [k|k b w k' l k'' Hm _ (l' & Hp & Ht)].
    - exists []. split; [constructor|]. intros _. exists []. split; [constructor|]. split; reflexivity.
    - inversion Hm as [p1 q1 r1 b1 o w1 q2 Ha Hd|p1 q1 r1 b1 i w1 p2 Ha Hd|p1 q1 r1 b1 i m w1 p2 Ha Hd Hcc|p1 q1 r1 b1 i m w1 p2 b2 m2 o w2 q2 Ha Hd Hcc Ha' Hd' Hn Hag]; subst; cbn [fst snd] in *.
      + exists l'. split; [exact Hp|]. intros E. destruct (Ht E) as (tr & T1 & T2 & T3). exists (((eps_sym, o), w) :: tr).
        split; [econstructor; eauto|]. split; [cbn; exact T2|cbn; now rewrite T3].
      + exists ((b, w) :: l'). split; [econstructor; eauto|discriminate].
      + exists ((b, w) :: l'). split; [econstructor; eauto|discriminate].
      + exists ((b, w) :: l'). split; [econstructor; eauto|discriminate].
  Qed.
  Lemma keyed_acyclic : forall (t' : transducer) (key : nat -> tkey -> Prop), (forall p b q w, has_arc t' p b q w -> exists k k', key p k /\ key q k' /\ tmv k b w k') ->
    (forall p k k', key p k -> key p k' -> k = k') -> acyclic this -> no_empty_loops trimmer ta -> acyclic t'.
  Proof.
    intros t' key K1 K2 A E p l H.
    assert (X : forall p l q, path t' p l q -> l <> [] -> exists k k', key p k /\ key q k' /\ moves tmv k l k').
    { clear - K1 K2. intros p l q H. induction H as [p|p b w q l r Ha Hp IH]; intros Hn; [congruence|]. destruct (K1 _ _ _ _ Ha) as (k & k' & H1 & H2 & H3).
      destruct l as [|e l].
      - inversion Hp; subst. exists k, k'. split; [exact H1|]. split; [exact H2|]. econstructor; [exact H3|constructor].
      - destruct IH as (k1 & k2 & H4 & H5 & H6); [discriminate|]. rewrite (K2 _ _ _ H4 H2) in H6. exists k, k2. split; [exact H1|]. split; [exact H5|]. econstructor; eauto. }
    destruct l as [|e l]; [reflexivity|]. destruct (X _ _ _ H) as (k & k' & H1 & H2 & M); [discriminate|]. rewrite (K2 _ _ _ H2 H1) in M.
    destruct (moves_apart _ _ _ M) as (l' & Hp & Ht). destruct (Ht (A _ _ Hp)) as (tr & T1 & T2 & T3). rewrite (E _ _ T1 T2) in T3. discriminate T3.
  Qed.
End Trim.

(** ** Words *)
Section Words.
  Context (this trimmer : transducer) (a ta : alphabet) (I0 : alph_inv0 a) (Tm : symbols_in trimmer ta).
  (** The states of the trimmer along the right side of a word *)
  Inductive scov : nat -> list symbol -> nat -> Prop :=
  | sc_nil q : scov q [] q
  | sc_eps q b o w q1 y q' : has_arc trimmer q b q1 w -> as_symbols ta b (eps_sym, o) -> scov q1 y q' -> scov q y q'
  | sc_sym q m b m' o w q1 y q' : has_arc trimmer q b q1 w -> as_symbols ta b (m', o) -> m' <> eps_sym -> agree m m' -> scov q1 y q' -> scov q (m :: y) q'
  | sc_join q y q' : scov (initial trimmer) y q' -> scov q (plus_sym :: y) q'.

  Definition decoded (l : list label) (tr : list ((symbol * symbol) * Z)) : Prop :=
    Forall2 (fun e x => as_symbols a (fst e) (fst x) /\ snd e = snd x) l tr.

  Lemma marks_cons : forall m y, without_marks (m :: y) = (if is_mark m then [] else [m]) ++ without_marks y.
  Proof. intros m y. unfold without_marks. cbn [filter]. now destruct (is_mark m). Qed.
  Lemma without_vis : forall m y, without_marks (vis m ++ y) = (if is_eps m then [] else if is_mark m then [] else [m]) ++ without_marks y.
  Proof. intros m y. unfold vis. destruct (is_eps m); [reflexivity|]. cbn [app]. apply marks_cons. Qed.

  Lemma moves_split : forall k l k', moves (tmv this trimmer a ta) k l k' -> forall tr, decoded l tr ->
    exists tf, trace (as_symbols a) this (fst k) tf (fst k') /\ sym_in tr = sym_in tf /\ sym_out tr = sym_out tf
      /\ scov (fst (snd k)) (without_marks (sym_out tf)) (fst (snd k'))
      /\ (free_epsilons trimmer ta -> weight_of tr = weight_of tf).
  Proof.
    intros k l k' H. induction H as [k|k b w k' l k'' Hm Ht IH]; intros tr D; inversion D as [|? [x w'] ? tr' [Dx Dw] D']; subst.
    - exists []. split; [constructor|]. do 2 (split; [reflexivity|]). split; [constructor|]. reflexivity.
    - cbn [fst snd] in Dx, Dw. subst w'. destruct (IH tr' D') as (tf & T1 & T2 & T3 & T4 & T5).
      inversion Hm as [p1 q1 r1 b1 o w1 q' Ha Hd|p1 q1 r1 b1 i w1 p' Ha Hd|p1 q1 r1 b1 i m w1 p' Ha Hd Hc|p1 q1 r1 b1 i m w1 p' b' m' o w' q' Ha Hd Hc Ha' Hd' Hn Hag]; subst; cbn [fst snd] in *.
      + rewrite (as_symbols_fun _ _ _ _ Dx (eps_symbols a I0)). exists tf. split; [exact T1|]. rewrite sym_in_cons, sym_out_cons. cbn [fst snd]. rewrite vis_eps. cbn [app].
        split; [exact T2|]. split; [exact T3|]. split; [eapply sc_eps; eauto|]. intros Fe. rewrite weight_cons, (T5 Fe), (Fe _ _ _ _ _ Ha Hd). lia.
      + pose proof (as_symbols_fun _ _ _ _ Dx Hd) as X. subst x. exists (((i, plus_sym), w) :: tf). split; [econstructor; eauto|].
        rewrite !sym_in_cons, !sym_out_cons. cbn [fst snd]. rewrite T2, T3. do 2 (split; [reflexivity|]). split; [|intros Fe; rewrite !weight_cons, (T5 Fe); reflexivity].
        rewrite without_vis. cbn. now apply sc_join.
      + pose proof (as_symbols_fun _ _ _ _ Dx Hd) as X. subst x. exists (((i, m), w) :: tf). split; [econstructor; eauto|].
        rewrite !sym_in_cons, !sym_out_cons. cbn [fst snd]. rewrite T2, T3. do 2 (split; [reflexivity|]). split; [|intros Fe; rewrite !weight_cons, (T5 Fe); reflexivity].
        rewrite without_vis. destruct Hc as [->| ->]; [exact T4|]. destruct (is_eps m); exact T4.
      + pose proof (as_symbols_fun _ _ _ _ Dx Hd) as X. subst x. exists (((i, m), w) :: tf). split; [econstructor; eauto|].
        rewrite !sym_in_cons, !sym_out_cons. cbn [fst snd]. rewrite T2, T3. do 2 (split; [reflexivity|]). split; [|intros Fe; rewrite !weight_cons, (T5 Fe); reflexivity].
        rewrite without_vis, Hc. destruct (is_eps m) eqn:E; [apply is_eps_spec in E; exfalso; exact (agree_eps _ _ Hag Hn E)|]. cbn [app]. eapply sc_sym; eauto.
  Qed.

  Lemma scov_eps : forall q y q', scov q y q' -> y = [] -> forall p r, exists l r', moves (tmv this trimmer a ta) (p, (q, r)) l (p, (q', r'))
      /\ exists tr, decoded l tr /\ sym_in tr = [] /\ sym_out tr = [] /\ (free_epsilons trimmer ta -> weight_of tr = 0).
  Proof.
    induction 1 as [q|q b o w q1 y q' Ha Hd Hs IH| |]; intros E p r; try discriminate.
    - exists [], r. split; [constructor|]. exists []. split; [constructor|]. auto.
    - destruct (IH E p (nx q r q1)) as (l & r' & M & tr & D & E1 & E2 & E3). exists ((0, w) :: l), r'. split; [econstructor; [eapply tm_eps; eauto|exact M]|].
      exists (((eps_sym, eps_sym), w) :: tr). split; [constructor; [split; [exact (eps_symbols a I0)|reflexivity]|exact D]|].
      rewrite sym_in_cons, sym_out_cons. cbn [fst snd]. rewrite vis_eps. split; [exact E1|]. split; [exact E2|]. intros Fe. rewrite weight_cons, (E3 Fe), (Fe _ _ _ _ _ Ha Hd). lia.
  Qed.
  Lemma moves_merge : forall p tf p', trace (as_symbols a) this p tf p' -> forall q q' r, scov q (without_marks (sym_out tf)) q' ->
    exists l r', moves (tmv this trimmer a ta) (p, (q, r)) l (p', (q', r'))
      /\ exists tr, decoded l tr /\ sym_in tr = sym_in tf /\ sym_out tr = sym_out tf /\ (free_epsilons trimmer ta -> weight_of tr = weight_of tf).
  Proof.
    induction 1 as [p|p b [i m] w p1 tf p' Ha Hd Ht IH]; intros q q' r Hc.
    - exact (scov_eps q [] q' Hc eq_refl p r).
    - rewrite sym_out_cons in Hc. cbn [snd] in Hc. rewrite without_vis in Hc.
      destruct (is_eps m || is_mark m) eqn:Em.
      + assert (Hc' : scov q (without_marks (sym_out tf)) q').
        { destruct (is_eps m); [exact Hc|]. destruct (is_mark m); [exact Hc|discriminate]. }
        destruct (IH q q' r Hc') as (l & r' & M & tr & D & E1 & E2 & E3). exists ((b, w) :: l), r'. split.
        * econstructor; [|exact M]. eapply tm_skip; eauto. apply orb_true_iff in Em as [Em|Em]; [left; now apply is_eps_spec|now right].
        * exists (((i, m), w) :: tr). split; [constructor; [split; [exact Hd|reflexivity]|exact D]|]. rewrite !sym_in_cons, !sym_out_cons, E1, E2.
          do 2 (split; [reflexivity|]). intros Fe. rewrite !weight_cons, (E3 Fe). reflexivity.
      + apply orb_false_iff in Em as [Em1 Em2]. rewrite Em1, Em2 in Hc. cbn [app] in Hc.
        remember (m :: without_marks (sym_out tf)) as yy eqn:Ey. revert r Ey.
        induction Hc as [q|q b' o w' q1 y q' Ha' Hd' Hs IHs|q m1 b' m' o w' q1 y q' Ha' Hd' Hn Hag Hs IHs|q y q' Hs IHs]; intros r Ey; [discriminate| | |].
        * destruct (IHs (nx q r q1) Ey) as (l & r' & M & tr & D & E1 & E2 & E3). exists ((0, w') :: l), r'. split; [econstructor; [eapply tm_eps; eauto|exact M]|].
          exists (((eps_sym, eps_sym), w') :: tr). split; [constructor; [split; [exact (eps_symbols a I0)|reflexivity]|exact D]|].
          rewrite (sym_in_cons _ w' tr), (sym_out_cons _ w' tr). cbn [fst snd]. rewrite vis_eps. split; [exact E1|]. split; [exact E2|]. intros Fe. rewrite (weight_cons _ w' tr), (E3 Fe), (Fe _ _ _ _ _ Ha' Hd'). lia.
        * injection Ey as -> ->. destruct (IH q1 q' (nx q r q1) Hs) as (l & r' & M & tr & D & E1 & E2 & E3). exists ((b, w) :: l), r'. split.
          -- econstructor; [|exact M]. eapply tm_both; eauto.
          -- exists (((i, m), w) :: tr). split; [constructor; [split; [exact Hd|reflexivity]|exact D]|]. rewrite !sym_in_cons, !sym_out_cons, E1, E2.
             do 2 (split; [reflexivity|]). intros Fe. rewrite !weight_cons, (E3 Fe). reflexivity.
        * injection Ey as Em Ey. subst m y. destruct (IH (initial trimmer) q' r Hs) as (l & r' & M & tr & D & E1 & E2 & E3). exists ((b, w) :: l), r'. split.
          -- econstructor; [|exact M]. eapply tm_join; eauto.
          -- exists (((i, plus_sym), w) :: tr). split; [constructor; [split; [exact Hd|reflexivity]|exact D]|]. rewrite !sym_in_cons, !sym_out_cons, E1, E2.
             do 2 (split; [reflexivity|]). intros Fe. rewrite !weight_cons, (E3 Fe). reflexivity.
  Qed.

  (** The states forgotten *)
  Lemma scov_trace : forall q tr q', trace (as_symbols ta) trimmer q tr q' -> forall y rest q'', Forall2 agree y (sym_in tr) -> scov q' rest q'' -> scov q (y ++ rest) q''.
  Proof.
    induction 1 as [q|q b [m o] w q1 tr q' Ha Hd Ht IH]; intros y rest q'' Hag Hs; [inversion Hag; exact Hs|].
    rewrite sym_in_cons in Hag. cbn [fst] in Hag. unfold vis in Hag. destruct (is_eps m) eqn:E.
    - apply is_eps_spec in E. subst m. eapply sc_eps; eauto.
    - cbn [app] in Hag. inversion Hag as [|m1 ? y' ? H1 H2]; subst. cbn [app]. eapply sc_sym; eauto. intros Ee. apply is_eps_spec in Ee. congruence.
  Qed.
  Lemma covered_scov : forall y, covered trimmer ta y -> exists q', scov (initial trimmer) y q' /\ is_final trimmer q'.
  Proof.
    induction 1 as [y z Hag (y' & c & tr & f & (q & Ht & Hf) & E1 & _)|y z rest Hag (tr & q & Ht & E1) _ (q' & Hs & Hf)].
    - subst z. exists q. split; [|now exists f]. rewrite <- (app_nil_r y). eapply scov_trace; eauto. constructor.
    - subst z. exists q'. split; [|exact Hf]. eapply scov_trace; eauto. now apply sc_join.
  Qed.
  (** From any state: what is read up to the first '+' and the rest *)
  Lemma scov_covered : forall q y q', scov q y q' -> is_final trimmer q' ->
    exists z tr q1, trace (as_symbols ta) trimmer q tr q1 /\ sym_in tr = z
      /\ ((Forall2 agree y z /\ q1 = q') \/ exists y1 rest, y = y1 ++ plus_sym :: rest /\ Forall2 agree y1 z /\ covered trimmer ta rest).
  Proof.
    induction 1 as [q|q b o w q1 y q' Ha Hd Hs IH|q m b m' o w q1 y q' Ha Hd Hn Hag Hs IH|q y q' Hs IH]; intros Hf.
    - exists [], [], q. split; [constructor|]. split; [reflexivity|]. left. split; [constructor|reflexivity].
    - destruct (IH Hf) as (z & tr & q2 & H1 & H2 & H3). exists z, (((eps_sym, o), w) :: tr), q2. split; [econstructor; eauto|]. split; [|exact H3].
      rewrite sym_in_cons. exact H2.
    - destruct (IH Hf) as (z & tr & q2 & H1 & H2 & H3). exists (m' :: z), (((m', o), w) :: tr), q2. split; [econstructor; eauto|].
      split; [rewrite sym_in_cons; cbn [fst]; rewrite vis_some by exact Hn; cbn [app]; now rewrite H2|].
      destruct H3 as [[H3 ->]|(y1 & rest & -> & H3 & H4)]; [left; split; [now constructor|reflexivity]|]. right. exists (m :: y1), rest. split; [reflexivity|]. split; [now constructor|exact H4].
    - exists [], [], q. split; [constructor|]. split; [reflexivity|]. right. exists [], y. split; [reflexivity|]. split; [constructor|].
      destruct (IH Hf) as (z & tr & q1 & H1 & H2 & [[H3 ->]|(y1 & rest & -> & H3 & H4)]).
      + destruct Hf as (f & Hf). apply (covered_word _ _ y z H3). exists (sym_out tr), (weight_of tr + f). exists tr, f. split; [exists q'; auto|auto].
      + apply (covered_plus _ _ y1 z rest H3); [exists tr, q1; auto|exact H4].
  Qed.
  Lemma covered_iff : forall y, covered trimmer ta y <-> exists q', scov (initial trimmer) y q' /\ is_final trimmer q'.
  Proof.
    intros y. split; [apply covered_scov|]. intros (q' & Hs & Hf). destruct (scov_covered _ _ _ Hs Hf) as (z & tr & q1 & H1 & H2 & [[H3 ->]|(y1 & rest & -> & H3 & H4)]).
    - destruct Hf as (f & Hf). apply (covered_word _ _ y z H3). exists (sym_out tr), (weight_of tr + f). exists tr, f. split; [exists q'; auto|auto].
    - apply (covered_plus _ _ y1 z rest H3); [exists tr, q1; auto|exact H4].
  Qed.
End Words.

(** ** Whatever the symbols: nothing new *)
Section Sound.
  Context (this trimmer : transducer) (a ta : alphabet) (Wt : wf this).
  (** [pr]: the state of this behind each state *)
  Record SND (pr : nat -> nat) (st : search tkey) : Prop := {
    s_wf : wf (w_out st);
    s_init : pr (initial (w_out st)) = initial this;
    s_map : forall k s, In (k, s) (w_map st) -> (s < nstates (w_out st))%nat /\ pr s = fst k;
    s_arc : forall s b s' w, has_arc (w_out st) s b s' w -> (b = 0 /\ pr s' = pr s) \/ has_arc this (pr s) b (pr s') w;
    s_fin : forall s f, final_wt (w_out st) s f -> is_final this (pr s);
    s_seen : forall k, In k (w_seen st) -> exists s, kfind tkey_dec k (w_map st) = Some s
  }.
  Lemma kfind_in : forall k (m : list (tkey * nat)) s, kfind tkey_dec k m = Some s -> In (k, s) m.
  Proof.
    induction m as [|[k' v] m IH]; intros s H; cbn [kfind] in H; [discriminate|]. destruct (tkey_dec k k') as [->|]; [injection H as ->; now left|right; auto].
  Qed.
  (** What every step keeps: a state known for its place keeps it. *)
  Definition keeps (pr pr' : nat -> nat) (st st' : search tkey) : Prop :=
    (forall s, (s < nstates (w_out st))%nat -> pr' s = pr s) /\ (nstates (w_out st) <= nstates (w_out st'))%nat.
  Lemma keeps_refl : forall pr st, keeps pr pr st st.
  Proof. intros pr st. split; auto. Qed.
  Lemma keeps_trans : forall p1 p2 p3 s1 s2 s3, keeps p1 p2 s1 s2 -> keeps p2 p3 s2 s3 -> keeps p1 p3 s1 s3.
  Proof. intros p1 p2 p3 s1 s2 s3 [H1 H2] [H3 H4]. split; [|lia]. intros s Hs. rewrite H3 by lia. auto. Qed.
  Definition upd (pr : nat -> nat) (s v : nat) : nat -> nat := fun x => if (x =? s)%nat then v else pr x.
  Lemma new_snd : forall pr st v, SND pr st ->
    let s0 := fst (newState (w_out st)) in let st' := mkSearch (snd (newState (w_out st))) (w_map st) (w_todo st) (w_seen st) in
    SND (upd pr s0 v) st' /\ keeps pr (upd pr s0 v) st st' /\ upd pr s0 v s0 = v /\ (s0 < nstates (w_out st'))%nat.
  Proof.
    intros pr st v [S1 S2 S3 S4 S5 S6]. destruct (newState_spec (w_out st)) as (E1 & E2 & E3 & E4 & E5'). assert (W1 := newState_wf _ S1). cbv zeta. rewrite E1.
    set (out := snd (newState (w_out st))) in *.
    assert (E5 : forall p b r w, has_arc out p b r w <-> has_arc (w_out st) p b r w) by (intros; unfold has_arc; now rewrite E5').
    assert (U : forall s, (s < nstates (w_out st))%nat -> upd pr (nstates (w_out st)) v s = pr s).
    { intros s Hs. unfold upd. now replace (s =? nstates (w_out st))%nat with false by (symmetry; apply Nat.eqb_neq; lia). }
    split; [|split; [split; cbn [w_out]; [exact U|lia]|split; [unfold upd; now rewrite Nat.eqb_refl|cbn [w_out]; lia]]].
    split; cbn [w_out w_map w_todo w_seen]; auto.
    - rewrite E3, U; [exact S2|apply S1].
    - intros k s Hk. destruct (S3 _ _ Hk) as [H1 H2]. split; [lia|]. now rewrite U.
    - intros s b s' w H. apply E5 in H. assert (Hs : (s < nstates (w_out st))%nat).
      { destruct (Nat.lt_ge_cases s (nstates (w_out st))); [assumption|]. unfold has_arc, arcs_of in H. rewrite nth_overflow in H; [destruct H|]. exact H0. }
      assert (Hs' : (s' < nstates (w_out st))%nat) by (eapply (wf_arcs _ S1); eauto). rewrite !U by assumption. auto.
    - intros s f H. assert (H' : final_wt (w_out st) s f) by (unfold final_wt in *; rewrite <- E4; exact H). rewrite U by (eapply (wf_finals _ S1); eauto). eauto.
  Qed.
  Lemma link_snd : forall pr st s b s' w out, SND pr st -> (s < nstates (w_out st))%nat -> (s' < nstates (w_out st))%nat ->
    (b = 0 /\ pr s' = pr s) \/ has_arc this (pr s) b (pr s') w -> linkStates s s' b w (w_out st) = Ok out ->
    SND pr (mkSearch out (w_map st) (w_todo st) (w_seen st)) /\ keeps pr pr st (mkSearch out (w_map st) (w_todo st) (w_seen st)).
  Proof.
    intros pr st s b s' w out [S1 S2 S3 S4 S5 S6] Hs Hs' Hb E.
    destruct (linkStates_spec s s' b w (w_out st) S1 Hs Hs') as (t' & El & Wt' & Nt & Init & Fin & Hlink). rewrite E in El. injection El as <-.
    split; [|split; cbn [w_out]; [auto|lia]]. split; cbn [w_out w_map w_todo w_seen]; auto.
    - now rewrite Init.
    - intros k v Hk. rewrite Nt. auto.
    - intros p c r v H. destruct Hlink as [[-> _]|[_ Hlink]]; [auto|]. apply Hlink in H as [H|(-> & -> & -> & ->)]; auto.
    - intros v f H. unfold final_wt in *. rewrite Fin in H. eauto.
  Qed.
  Lemma reframe_snd : forall pr st m todo, SND pr st -> (forall k s, In (k, s) m -> In (k, s) (w_map st) \/ (s < nstates (w_out st))%nat /\ pr s = fst k) ->
    (forall k s, kfind tkey_dec k (w_map st) = Some s -> exists s', kfind tkey_dec k m = Some s') ->
    SND pr (mkSearch (w_out st) m todo (w_seen st)).
  Proof.
    intros pr st m todo [S1 S2 S3 S4 S5 S6] H H'. split; cbn [w_out w_map w_todo w_seen]; auto.
    - intros k s Hk. destruct (H _ _ Hk) as [X|X]; auto.
    - intros k Hk. destruct (S6 k Hk) as (s & Hs). eauto.
  Qed.
  Lemma visit_snd : forall pr st src p' qr b w trg st', SND pr st -> (src < nstates (w_out st))%nat -> has_arc this (pr src) b p' w ->
    visit tkey_dec src (p', qr) b w st = Ok (trg, st') ->
    exists pr', SND pr' st' /\ keeps pr pr' st st' /\ pr' trg = p' /\ (trg < nstates (w_out st'))%nat.
  Proof.
    intros pr st src p' qr b w trg st' S Hsrc Ha E. unfold visit in E. destruct (kfind tkey_dec (p', qr) (w_map st)) as [s|] eqn:Ek.
    - destruct (linkStates src s b w (w_out st)) as [out| | | |] eqn:El; try discriminate. cbn [obind] in E. injection E as <- <-.
      destruct (s_map _ _ S _ _ (kfind_in _ _ _ Ek)) as [H1 H2]. cbn [fst] in H2.
      destruct (link_snd pr st src b s w out S Hsrc H1) as [X1 X2]; [right; now rewrite H2|exact El|].
      exists pr. split; [|split; [exact X2|split; [exact H2|]]].
      + eapply (reframe_snd _ _ (w_map st)) in X1; eauto.
      + destruct X2 as [_ X2]. cbn [w_out] in *. lia.
    - destruct (new_snd pr st p' S) as (N1 & N2 & N3 & N4). destruct (newState (w_out st)) as [s out1]. cbn [fst snd] in *.
      destruct (linkStates src s b w out1) as [out| | | |] eqn:El; try discriminate. cbn [obind] in E. injection E as <- <-.
      set (st1 := mkSearch out1 (w_map st) (w_todo st) (w_seen st)) in *. cbn [w_out st1] in N4.
      destruct (link_snd (upd pr s p') st1 src b s w out N1) as [X1 X2].
      + destruct N2 as [_ N2]. cbn [st1 w_out] in *. lia.
      + exact N4.
      + right. rewrite N3. rewrite (proj1 N2) by exact Hsrc. exact Ha.
      + exact El.
      + exists (upd pr s p'). assert (Ln : (s < nstates out)%nat) by (destruct X2 as [_ X2]; cbn [st1 w_out] in *; lia).
        split; [|split; [|split; [exact N3|exact Ln]]].
        * refine (reframe_snd _ _ ((p', qr, s) :: w_map st) _ X1 _ _).
          -- intros k v [[= <- <-]|Hk]; [right; cbn [fst w_out]; auto|left; exact Hk].
          -- intros k v Hk. cbn [st1 w_map] in Hk. cbn [kfind]. destruct (tkey_dec k (p', qr)); eauto.
        * destruct N2 as [N2 N2'], X2 as [_ X2]. split; cbn [w_out st1] in *; [exact N2|lia].
  Qed.
  Lemma alias_snd : forall pr st k s, SND pr st -> (s < nstates (w_out st))%nat -> pr s = fst k ->
    SND pr (mkSearch (w_out st) (kinsert tkey_dec k s (w_map st)) (w_todo st) (w_seen st)).
  Proof.
    intros pr st k s S Hs Hp. apply reframe_snd; [exact S| |].
    - intros k' v H. unfold kinsert in H. destruct (kfind _ _ _); [now left|]. destruct H as [[= <- <-]|H]; [right; auto|now left].
    - intros k' v H. unfold kinsert. destruct (kfind tkey_dec k (w_map st)) eqn:E; [eauto|]. cbn [kfind]. destruct (tkey_dec k' k); eauto.
  Qed.

  Lemma tr_eps_snd : forall p s q r arcs pn st pr pn' st', SND pr st -> (s < nstates (w_out st))%nat -> pr s = p ->
    tr_eps ta p s q r pn arcs st = Ok (pn', st') -> exists pr', SND pr' st' /\ keeps pr pr' st st'.
  Proof.
    intros p s q r. induction arcs as [|[tag [q' w]] arcs IH]; intros pn st pr pn' st' S Hs Hp E; cbn [tr_eps] in E.
    - injection E as <- <-. exists pr. split; [exact S|apply keeps_refl].
    - cbn [a_tag a_dst a_wt fst snd] in E. destruct (decode tag ta) as [[l rr]| | | |]; try discriminate. cbn [obind] in E.
      set (pn1 := if (r =? q)%nat then q' else pn) in *.
      match type of E with (let! x := ?m in _) = _ => destruct m as [st1| | | |] eqn:E1; try discriminate end. cbn [obind] in E.
      assert (X : exists pr1, SND pr1 st1 /\ keeps pr pr1 st st1).
      { destruct (l =? 0); [|injection E1 as <-; exists pr; split; [exact S|apply keeps_refl]].
        set (next := (p, (q', pn1))) in *. destruct (kmem tkey_dec next (w_seen st)) eqn:Es.
        - destruct (s_seen _ _ S next) as (v & Hv); [now apply (kmem_spec tkey_dec)|]. unfold kget in E1. rewrite Hv in E1.
          destruct (linkStates s v 0 w (w_out st)) as [out| | | |] eqn:El; try discriminate. cbn [obind] in E1. injection E1 as <-.
          destruct (s_map _ _ S _ _ (kfind_in _ _ _ Hv)) as [H1 H2]. exists pr. apply (link_snd pr st s 0 v w out S Hs H1); [left; split; [reflexivity|rewrite H2, Hp; reflexivity]|exact El].
        - destruct (new_snd pr st p S) as (N1 & N2 & N3 & N4). destruct (newState (w_out st)) as [s0 out1]. cbn [fst snd] in *.
          set (st2 := mkSearch out1 (w_map st) (w_todo st) (w_seen st)) in *. set (pr1 := upd pr s0 p) in *.
          assert (A := alias_snd pr1 st2 next s0 N1 N4 N3). cbn [st2 w_out w_map w_todo w_seen] in A.
          assert (A' : SND pr1 (mkSearch out1 (kinsert tkey_dec next s0 (w_map st)) (next :: w_todo st) (w_seen st))).
          { refine (reframe_snd _ _ (kinsert tkey_dec next s0 (w_map st)) (next :: w_todo st) A _ _); eauto. }
          clear A. set (st3 := mkSearch out1 _ _ _) in *. cbn [w_map st3] in E1.
          assert (Hv : exists v, kfind tkey_dec next (kinsert tkey_dec next s0 (w_map st)) = Some v).
          { unfold kinsert. destruct (kfind tkey_dec next (w_map st)) eqn:Ek; [eauto|]. cbn [kfind]. destruct (tkey_dec next next); [eauto|congruence]. }
          destruct Hv as (v & Hv). unfold kget in E1. rewrite Hv in E1. cbn [st3 w_out w_todo w_seen] in E1.
          destruct (linkStates s v 0 w out1) as [out| | | |] eqn:El; try discriminate. cbn [obind] in E1. injection E1 as <-.
          destruct (s_map _ _ A' _ _ (kfind_in _ _ _ Hv)) as [H1 H2]. cbn [fst next] in H2.
          exists pr1. destruct (link_snd pr1 st3 s 0 v w out A') as [B1 B2].
          + destruct N2 as [_ N2]. cbn [st3 st2 w_out] in *. lia.
          + exact H1.
          + left. split; [reflexivity|]. rewrite H2. rewrite (proj1 N2) by exact Hs. auto.
          + exact El.
          + split; [exact B1|]. destruct N2 as [N2 N2'], B2 as [_ B2]. split; cbn [w_out st2 st3] in *; [exact N2|lia]. }
      destruct X as (pr1 & S1 & K1). destruct (IH pn1 st1 pr1 pn' st' S1) as (pr' & S' & K'); auto.
      + destruct K1 as [_ K1]. lia.
      + rewrite (proj1 K1) by exact Hs. exact Hp.
      + exists pr'. split; [exact S'|exact (keeps_trans _ _ _ _ _ _ K1 K')].
  Qed.
  Lemma tr_match_snd : forall s p' b w rsym q r arcs pn st pr pn' st', SND pr st -> (s < nstates (w_out st))%nat -> has_arc this (pr s) b p' w ->
    tr_match a ta s p' b w rsym q r pn arcs st = Ok (pn', st') -> exists pr', SND pr' st' /\ keeps pr pr' st st'.
  Proof.
    intros s p' b w rsym q r. induction arcs as [|[tag [q' w']] arcs IH]; intros pn st pr pn' st' S Hs Ha E; cbn [tr_match] in E.
    - injection E as <- <-. exists pr. split; [exact S|apply keeps_refl].
    - cbn [a_tag a_dst a_wt fst snd] in E. destruct (decode tag ta) as [[l rr]| | | |]; try discriminate. cbn [obind] in E.
      match type of E with (let! x := ?m in _) = _ => destruct m as [sm| | | |] eqn:E0; try discriminate end. cbn [obind] in E.
      match type of E with (let! x := ?m in _) = _ => destruct m as [st1| | | |] eqn:E1; try discriminate end. cbn [obind] in E.
      assert (X : exists pr1, SND pr1 st1 /\ keeps pr pr1 st st1).
      { destruct sm; [|injection E1 as <-; exists pr; split; [exact S|apply keeps_refl]].
        match type of E1 with (let! x := ?m in _) = _ => destruct m as [[v st2]| | | |] eqn:E2; try discriminate end. cbn [obind] in E1. injection E1 as <-.
        destruct (visit_snd _ _ _ _ _ _ _ _ _ S Hs Ha E2) as (pr1 & S1 & K1 & _). eauto. }
      destruct X as (pr1 & S1 & K1). 
      assert (Hs1 : (s < nstates (w_out st1))%nat) by (destruct K1 as [_ K1]; lia).
      assert (Ha1 : has_arc this (pr1 s) b p' w) by (rewrite (proj1 K1) by exact Hs; exact Ha).
      destruct (IH _ _ _ _ _ S1 Hs1 Ha1 E) as (pr' & S' & K'). exists pr'. split; [exact S'|exact (keeps_trans _ _ _ _ _ _ K1 K')].
  Qed.
  Lemma tr_arcs_snd : forall p s r arcs q pn st pr st', (forall e, In e arcs -> In e (arcs_of this p)) -> SND pr st -> (s < nstates (w_out st))%nat -> pr s = p ->
    tr_arcs this trimmer a ta p s q r pn arcs st = Ok st' -> exists pr', SND pr' st' /\ keeps pr pr' st st'.
  Proof.
    intros p s r. induction arcs as [|[tag [p' w]] arcs IH]; intros q pn st pr st' Sub S Hs Hp E; cbn [tr_arcs] in E.
    - injection E as <-. exists pr. split; [exact S|apply keeps_refl].
    - cbn [a_tag a_dst a_wt fst snd] in E. destruct (decode tag a) as [[l rr]| | | |]; try discriminate. cbn [obind] in E.
      assert (Ha : has_arc this p tag p' w) by (apply Sub; now left).
      match type of E with (let! x := ?m in _) = _ => destruct m as [[[special pn1] st1]| | | |] eqn:E1; try discriminate end. cbn [obind] in E.
      assert (X : exists pr1, SND pr1 st1 /\ keeps pr pr1 st st1).
      { destruct (count (sym_wb a) rr).
        - match type of E1 with (let! x := ?m in _) = _ => destruct m as [[v st2]| | | |] eqn:E2; try discriminate end. cbn [obind] in E1. injection E1 as _ _ <-.
          assert (Ha' : has_arc this (pr s) tag p' w) by now rewrite Hp.
          destruct (visit_snd _ _ _ _ _ _ _ _ _ S Hs Ha' E2) as (pr1 & S1 & K1 & H1 & H2). exists pr1.
          destruct (count (sym_lsx a) rr && isFinal this p') eqn:Ef; [|rewrite search_eta; auto]. apply andb_true_iff in Ef as [_ Ef].
          assert (Hf : is_final this p').
          { unfold isFinal in Ef. destruct (fin_find p' (finals this)) as [f|] eqn:E3; [|discriminate]. exists f. now apply (fin_find_some _ _ _ (wf_finals_sorted _ Wt)). }
          split; [|destruct K1; split; cbn [w_out]; auto]. destruct S1 as [T1 T2 T3 T4 T5 T6]. split; cbn [w_out w_map w_seen]; auto.
          + destruct T1 as [U1 U2 U3 U4 U5]. constructor; cbn [setFinal initial finals trans]; auto.
            * intros x f Hx. unfold final_wt in Hx. cbn [finals setFinal] in Hx. apply fin_insert_in in Hx as [Hx|(-> & _)]; [exact (U2 _ _ Hx)|exact H2|exact U3].
            * now apply fin_insert_sorted.
          + intros x f Hx. unfold final_wt in Hx. cbn [finals setFinal] in Hx. apply fin_insert_in in Hx as [Hx|(-> & _)]; [exact (T5 _ _ Hx)|now rewrite H1|apply T1].
        - destruct (count (sym_cmp_or_eps a) rr).
          + match type of E1 with (let! x := ?m in _) = _ => destruct m as [[v st2]| | | |] eqn:E2; try discriminate end. cbn [obind] in E1. injection E1 as _ _ <-.
            assert (Ha' : has_arc this (pr s) tag p' w) by now rewrite Hp.
            destruct (visit_snd _ _ _ _ _ _ _ _ _ S Hs Ha' E2) as (pr1 & S1 & K1 & _). eauto.
          + injection E1 as _ _ <-. exists pr. split; [exact S|apply keeps_refl]. }
      destruct X as (pr1 & S1 & K1).
      assert (Hs1 : (s < nstates (w_out st1))%nat) by (destruct K1 as [_ K1]; lia).
      assert (Hp1 : pr1 s = p) by (rewrite (proj1 K1) by exact Hs; exact Hp).
      assert (Sub' : forall e, In e arcs -> In e (arcs_of this p)) by (intros e He; apply Sub; now right).
      destruct special.
      + destruct (IH _ _ _ _ _ Sub' S1 Hs1 Hp1 E) as (pr' & S' & K'). exists pr'. split; [exact S'|exact (keeps_trans _ _ _ _ _ _ K1 K')].
      + set (back := (rr =? GROUP) && negb (r =? q)%nat) in *. cbv zeta in E.
        set (st2 := if back then mkSearch (w_out st1) (kinsert tkey_dec (p, (r, r)) s (w_map st1)) (w_todo st1) (w_seen st1) else st1) in *.
        assert (S2 : SND pr1 st2) by (unfold st2; destruct back; [now apply alias_snd|exact S1]).
        assert (O2 : w_out st2 = w_out st1) by (unfold st2; now destruct back).
        match type of E with (let! x := ?m in _) = _ => destruct m as [[pn2 st3]| | | |] eqn:E2; try discriminate end. cbn [obind] in E.
        assert (Hs2 : (s < nstates (w_out st2))%nat) by now rewrite O2.
        assert (Ha2 : has_arc this (pr1 s) tag p' w) by now rewrite Hp1.
        destruct (tr_match_snd _ _ _ _ _ _ _ _ _ _ _ _ _ S2 Hs2 Ha2 E2) as (pr2 & S3 & K3).
        assert (Hs3 : (s < nstates (w_out st3))%nat) by (destruct K3 as [_ K3]; lia).
        assert (Hp3 : pr2 s = p) by (rewrite (proj1 K3) by exact Hs2; exact Hp1).
        destruct (IH _ _ _ _ _ Sub' S3 Hs3 Hp3 E) as (pr' & S' & K'). exists pr'. split; [exact S'|]. refine (keeps_trans _ _ _ _ _ _ K1 _). refine (keeps_trans _ _ _ _ _ _ _ K'). destruct K3 as [K3 K3']. rewrite O2 in *. split; assumption.
  Qed.
  Lemma tr_loop_snd : forall fuel st pr st', SND pr st -> tr_loop this trimmer a ta fuel st = Ok st' -> exists pr', SND pr' st'.
  Proof.
    induction fuel as [|fuel IH]; intros st pr st' S E; cbn [tr_loop] in E; destruct (w_todo st) as [|[p [q r]] todo]; try discriminate; try (injection E as <-; eauto).
    destruct (kfind tkey_dec (p, (q, r)) (w_map st)) as [s|] eqn:Ek; [|discriminate].
    destruct (s_map _ _ S _ _ (kfind_in _ _ _ Ek)) as [H1 H2]. cbn [fst] in H2.
    assert (S0 : SND pr (mkSearch (w_out st) (w_map st) todo ((p, (q, r)) :: w_seen st))).
    { destruct S as [T1 T2 T3 T4 T5 T6]. split; cbn [w_out w_map w_seen]; auto. intros k [<-|Hk]; eauto. }
    match type of E with (let! x := ?m in _) = _ => destruct m as [[pn st1]| | | |] eqn:E1; try discriminate end. cbn [obind] in E.
    destruct (tr_eps_snd _ _ _ _ _ _ _ _ _ _ S0 H1 H2 E1) as (pr1 & S1 & K1).
    match type of E with (let! x := ?m in _) = _ => destruct m as [st2| | | |] eqn:E2; try discriminate end. cbn [obind] in E.
    assert (Hs1 : (s < nstates (w_out st1))%nat) by (destruct K1 as [_ K1]; cbn [w_out] in K1; lia).
    assert (Hp1 : pr1 s = p) by (rewrite (proj1 K1) by exact H1; exact H2).
    destruct (tr_arcs_snd p s r _ _ _ _ _ _ (fun e H => H) S1 Hs1 Hp1 E2) as (pr2 & S2 & K2). exact (IH st2 pr2 st' S2 E).
  Qed.
  Lemma tr_finals_snd : forall m fin (pr : nat -> nat), finals_sorted fin -> (forall k s, In (k, s) m -> pr s = fst k) -> (forall s f, In (s, f) fin -> is_final this (pr s)) ->
    forall s f, In (s, f) (fold_left (fun fin e => tr_final this trimmer e fin) m fin) -> is_final this (pr s).
  Proof.
    induction m as [|[[p [q r]] v] m IH]; intros fin pr Hs Hm Hf s f H; cbn [fold_left] in H; [eauto|].
    assert (X : finals_sorted (tr_final this trimmer (p, (q, r), v) fin) /\ forall s f, In (s, f) (tr_final this trimmer (p, (q, r), v) fin) -> is_final this (pr s)).
    { unfold tr_final. destruct (fin_find p (finals this)) as [w|] eqn:E; [|auto]. destruct (isFinal trimmer q); [|auto]. split; [now apply fin_insert_sorted|].
      intros s1 f1 Hx. apply fin_insert_in in Hx as [Hx|(-> & _)]; [eauto| |exact Hs]. rewrite (Hm _ _ (or_introl eq_refl)). cbn [fst].
      exists w. now apply (fin_find_some _ _ _ (wf_finals_sorted _ Wt)). }
    destruct X as [X1 X2]. eapply IH; [exact X1|intros k0 s0 Hk; apply (Hm k0 s0); now right|exact X2|exact H].
  Qed.
  Lemma trim_snd : alph_inv0 a -> forall fuel t', (let! st := tr_loop this trimmer a ta fuel (mkSearch new_transducer [((initial this, (initial trimmer, initial trimmer)), 0%nat)] [(initial this, (initial trimmer, initial trimmer))] []) in
       Ok (mkT (initial (w_out st)) (fold_left (fun fin e => tr_final this trimmer e fin) (w_map st) (finals (w_out st))) (trans (w_out st)))) = Ok t' ->
    forall x y c, srel t' a x y c -> exists c', srel this a x y c'.
  Proof.
    intros I0 fuel t' E. match type of E with (let! x := ?m in _) = _ => destruct m as [st| | | |] eqn:E1; try discriminate end. cbn [obind] in E. injection E as <-.
    match type of E1 with tr_loop _ _ _ _ _ ?s0 = _ => assert (S0 : SND (fun _ => initial this) s0) end.
    { split; cbn [w_out w_map w_seen]; auto using new_transducer_wf.
      - intros k s [[= <- <-]|[]]. split; [cbn; lia|reflexivity].
      - intros s b s' w H. unfold has_arc, arcs_of in H. cbn in H. destruct s as [|[|s]]; destruct H.
      - intros s f [].
      - intros k []. }
    destruct (tr_loop_snd fuel _ _ st S0 E1) as (pr & S). clear S0 E1.
    set (t' := mkT _ _ _). intros x y c (tr & f & (q & Ht & Hq) & E2 & E3 & _).
    assert (Hf : is_final this (pr q)).
    { apply (tr_finals_snd (w_map st) (finals (w_out st)) pr) with (s := q) (f := f).
      - apply (wf_finals_sorted _ (s_wf _ _ S)).
      - intros k s Hk. apply (s_map _ _ S _ _ Hk).
      - intros s g Hg. exact (s_fin _ _ S s g Hg).
      - exact Hq. }
    destruct Hf as (f' & Hf).
    assert (G : forall p tr q, trace (as_symbols a) t' p tr q -> exists tr', trace (as_symbols a) this (pr p) tr' (pr q) /\ sym_in tr' = sym_in tr /\ sym_out tr' = sym_out tr).
    { intros p0 tr0 q0 H. induction H as [p0|p0 b z w q1 tr1 r1 Ha Hz Ht1 (tr' & T1 & T2 & T3)]; [exists []; split; [constructor|auto]|].
      destruct (s_arc _ _ S p0 b q1 w Ha) as [[-> Hpr]|Hb].
      - exists tr'. rewrite <- Hpr. split; [exact T1|]. rewrite (as_symbols_fun _ _ _ _ Hz (eps_symbols a I0)), sym_in_cons, sym_out_cons. auto.
      - exists ((z, w) :: tr'). split; [econstructor; eauto|]. rewrite !sym_in_cons, !sym_out_cons, T2, T3. auto. }
    destruct (G _ _ _ Ht) as (tr' & T1 & T2 & T3). change (initial t') with (initial (w_out st)) in T1. rewrite (s_init _ _ S) in T1.
    exists (weight_of tr' + f'), tr', f'. split; [exists (pr q); auto|]. split; [congruence|]. split; [congruence|reflexivity].
  Qed.
End Sound.
