(** Proofs about lt-trim as a whole: loops for tags, lemma queues where there are none, union
    and minimisation of the sections. *)
From Verif Require Import Base CompressionModel SerialiserModel SortedVectorModel AlphabetModel AlphabetProofs TransducerModel
  TransducerSpec TransducerProofs ReverseProofs DeterminizeProofs MinimizeProofs RationalProofs TrieProofs RelabelSpec RelabelProofs ComposeModel ComposeSpec ComposeProofs
  TrimModel SearchProofs TrimSpec TrimProofs.

(** * The loops *)
Lemma loopback_spec : forall tags l a ps a', alph_inv0 a -> loopback tags l a = (ps, a') ->
  alph_inv0 a' /\ extends a a'
  /\ (forall x, In x ps -> exists n c, In (n, c) l /\ In c tags /\ as_symbols a' x (STag n, STag n))
  /\ (forall n c, In (n, c) l -> In c tags -> exists x, In x ps /\ as_symbols a' x (STag n, STag n)).
Proof.
  intros tags. induction l as [|[n c] l IH]; intros a ps a' I0 E; cbn [loopback] in E.
  { injection E as <- <-. split; [exact I0|]. split; [apply extends_refl|]. split; [intros x []|intros n c []]. }
  destruct (existsb (Z.eqb c) tags) eqn:Ec.
  - apply existsb_exists in Ec as (c' & Hc & Ecc). apply Z.eqb_eq in Ecc. subst c'.
    assert (I1 := include_inv n a (proj1 I0)). assert (X1 := include_extends n a (proj1 I0)). set (a1 := includeSymbol n a) in *.
    assert (S1 : as_symbol a1 (symbol_code n a1) (STag n)).
    { assert (S := symbol_code_written a1 n I1). unfold as_written, writable in S. rewrite (proj2 (defined_iff a1 n I1)) in S by (apply include_in; apply I0). exact S. }
    set (pr := (symbol_code n a1, symbol_code n a1)) in *. assert (D := pair_code_decode pr a1 I1). assert (I2 := pair_inv pr a1 I1). assert (X2 := pair_extends pr a1 I1).
    destruct (pair_code pr a1) as [x a2]. cbn [fst snd] in *. destruct (loopback tags l a2) as [ps2 a3] eqn:E3. injection E as <- <-.
    assert (I02 : alph_inv0 a2) by (eapply inv0_extends; [exact I0|exact I2|eapply extends_trans; eauto]).
    destruct (IH a2 ps2 a3 I02 E3) as (J1 & J2 & J3 & J4).
    assert (Hx : as_symbols a3 x (STag n, STag n)).
    { apply (as_symbols_extends a2 a3); [exact J2|]. exists (symbol_code n a1), (symbol_code n a1). split; [exact D|]. cbn [fst snd].
      apply (as_symbol_extends a1 a2) in S1; [|exact X2]. auto. }
    split; [exact J1|]. split; [eapply extends_trans; [exact X1|]; eapply extends_trans; eauto|]. split.
    + intros y [<-|Hy]; [exists n, c; split; [now left|auto]|]. destruct (J3 y Hy) as (m & d & H1 & H2). exists m, d. split; [now right|exact H2].
    + intros m d [[= <- <-]|Hm] Hd; [exists x; split; [now left|exact Hx]|]. destruct (J4 m d Hm Hd) as (y & H1 & H2). exists y. split; [now right|exact H2].
  - destruct (IH a ps a' I0 E) as (J1 & J2 & J3 & J4). split; [exact J1|]. split; [exact J2|]. split.
    + intros y Hy. destruct (J3 y Hy) as (m & d & H1 & H2). exists m, d. split; [now right|exact H2].
    + intros m d [[= <- <-]|Hm] Hd; [|now apply (J4 m d)]. exfalso. assert (X : existsb (Z.eqb c) tags = true); [|congruence].
      apply existsb_exists. exists c. split; [exact Hd|apply Z.eqb_refl].
Qed.
Lemma loops_spec : forall am ab loops ap, alph_inv am -> alph_inv0 ab -> createLoopbackSymbols am ab = (loops, ap) ->
  alph_inv0 ap /\ extends ab ap
  /\ (forall x, In x loops -> exists n, right_tag am n /\ as_symbols ap x (STag n, STag n))
  /\ (forall n, right_tag am n -> exists x, In x loops /\ as_symbols ap x (STag n, STag n)).
Proof.
  intros am ab loops ap Im I0 E. destruct (loopback_spec _ _ _ _ _ I0 E) as (J1 & J2 & J3 & J4). split; [exact J1|]. split; [exact J2|].
  assert (L : forall n c, In (n, c) (slexic am) <-> c < 0 /\ getSymbol c am = Ok n).
  { intros n c. destruct Im as (H1 & H2 & H3 & H4). split.
    - intros H. rewrite H1 in H.
      assert (G : forall l k, In (n, c) (zidx tag_of k l) -> exists i, nth_error l i = Some n /\ c = tag_of (k + i)).
      { clear. induction l as [|x l IH]; intros k H; [destruct H|]. destruct H as [[= <- <-]|H]; [exists 0%nat; rewrite Nat.add_0_r; auto|].
        destruct (IH (S k) H) as (i & A & B). exists (S i). split; [exact A|]. rewrite B. f_equal. lia. }
      destruct (G _ _ H) as (i & Hi & ->). cbn [Nat.add]. split; [unfold tag_of; lia|]. apply (symbol_code_nth am n i); [repeat split; assumption|exact Hi].
    - intros [Hc H]. unfold getSymbol in H. replace (c =? 0) with false in H by lia. replace (c <? 0) with true in H by lia.
      destruct (nth_error (slexicinv am) (Z.to_nat (- c - 1))) as [m|] eqn:En; [|discriminate]. injection H as ->. rewrite H1.
      assert (G : forall l k i, nth_error l i = Some n -> In (n, tag_of (k + i)) (zidx tag_of k l)).
      { clear. induction l as [|x l IH]; intros k [|i] H; try discriminate; cbn [zidx]; [injection H as ->; left; f_equal; f_equal; lia|]. right.
        replace (k + S i)%nat with (S k + i)%nat by lia. now apply IH. }
      specialize (G _ 0%nat _ En). cbn [Nat.add] in G. replace (tag_of (Z.to_nat (- c - 1))) with c in G by (unfold tag_of; lia). exact G. }
  assert (T : forall c, In c (loop_tags am) <-> c < 0 /\ exists b l, decode b am = Ok (l, c)).
  { intros c. unfold loop_tags. rewrite filter_In, in_map_iff. unfold isTag. split.
    - intros [([l c'] & [= ->] & H) Hc]. split; [lia|]. apply In_nth_error in H as (i & H). exists (Z.of_nat i), l. apply (pair_code_nth am (l, c) i Im H).
    - intros [Hc (b & l & H)]. split; [|lia]. exists (l, c). split; [reflexivity|]. unfold decode in H. destruct (b <? 0); [discriminate|].
      destruct (nth_error (spairinv am) (Z.to_nat b)) eqn:En; [|discriminate]. injection H as ->. eapply nth_error_In; eauto. }
  split.
  - intros x Hx. destruct (J3 x Hx) as (n & c & H1 & H2 & H3). exists n. split; [|exact H3]. apply L in H1 as [H0 H1]. apply T in H2 as [_ (b & l & Hd)]. exists b, l, c. split; [exact Hd|]. split; assumption.
  - intros n (b & l & c & Hd & Hc & Hn). apply (J4 n c); [apply L; auto|apply T; eauto].
Qed.

(** * Words as sequences of labels *)
Definition tagpath (t : transducer) (p : nat) (bs : list Z) (q : nat) : Prop := exists l, path t p l q /\ map fst l = bs.
Definition twords (t : transducer) (bs : list Z) : Prop := exists q, tagpath t (initial t) bs q /\ is_final t q.
Definition tprefix (t : transducer) (bs : list Z) : Prop := exists q, tagpath t (initial t) bs q.
Definition reads_as (a : alphabet) (bs : list Z) (z : list symbol) : Prop :=
  exists xs, Forall2 (as_symbols a) bs xs /\ filter (fun s => negb (is_eps s)) (map fst xs) = z.
Definition not0 (bs : list Z) : list Z := filter (fun b => negb (b =? 0)) bs.

Lemma tagpath_nil : forall t p, tagpath t p [] p.
Proof. intros t p. exists []. split; [constructor|reflexivity]. Qed.
Lemma tagpath_cons : forall t p b q bs r, (exists w, has_arc t p b q w) -> tagpath t q bs r -> tagpath t p (b :: bs) r.
Proof. intros t p b q bs r (w & H) (l & Hp & <-). exists ((b, w) :: l). split; [econstructor; eauto|reflexivity]. Qed.
Lemma tagpath_inv : forall t p b bs r, tagpath t p (b :: bs) r -> exists q, (exists w, has_arc t p b q w) /\ tagpath t q bs r.
Proof. intros t p b bs r (l & Hp & E). inversion Hp; subst; [discriminate|]. cbn in E. injection E as <- <-. eexists. split; [eauto|]. eexists. split; [eauto|reflexivity]. Qed.
Lemma tagpath_app : forall t p bs q bs' r, tagpath t p bs q -> tagpath t q bs' r -> tagpath t p (bs ++ bs') r.
Proof.
  intros t p bs q bs' r (l & Hp & <-) (l' & Hp' & <-). exists (l ++ l'). split; [|apply map_app]. induction Hp; [exact Hp'|cbn; econstructor; eauto].
Qed.
Lemma tagpath_cut : forall t b1 p b2 q, tagpath t p (b1 ++ b2) q -> exists r, tagpath t p b1 r.
Proof.
  intros t. induction b1 as [|b b1 IH]; intros p b2 q H; [exists p; apply tagpath_nil|]. cbn [app] in H. apply tagpath_inv in H as (r & H1 & H2).
  destruct (IH _ _ _ H2) as (q' & H3). exists q'. eapply tagpath_cons; eauto.
Qed.
Lemma reads_app : forall a bs bs' z z', reads_as a bs z -> reads_as a bs' z' -> reads_as a (bs ++ bs') (z ++ z').
Proof. intros a bs bs' z z' (xs & H1 & <-) (xs' & H1' & <-). exists (xs ++ xs'). split; [now apply Forall2_app|]. now rewrite map_app, filter_app. Qed.
Lemma reads_not0 : forall a bs z, alph_inv0 a -> (reads_as a bs z <-> reads_as a (not0 bs) z).
Proof.
  intros a bs z I0. split.
  - intros (xs & H & <-). induction H as [|b x bs xs Hb H IH]; [exists []; split; [constructor|reflexivity]|]. unfold not0. cbn [filter]. destruct (Z.eqb_spec b 0) as [->|Hn]; cbn [negb].
    + pose proof (as_symbols_fun _ _ _ _ Hb (eps_symbols a I0)) as ->. exact IH.
    + destruct IH as (ys & H1 & H2). exists (x :: ys). split; [now constructor|]. cbn [map filter]. now rewrite H2.
  - revert z. induction bs as [|b bs IH]; intros z H; [exact H|]. unfold not0 in H. cbn [filter] in H. destruct (Z.eqb_spec b 0) as [->|Hn]; cbn [negb] in H.
    + destruct (IH z H) as (xs & H1 & H2). exists ((eps_sym, eps_sym) :: xs). split; [constructor; [now apply eps_symbols|exact H1]|exact H2].
    + destruct H as (xs & H1 & <-). inversion H1 as [|? x ? ys Hx Hy]; subst. destruct (IH _ (ex_intro _ ys (conj Hy eq_refl))) as (zs & H3 & H4).
      exists (x :: zs). split; [now constructor|]. cbn [map filter]. now rewrite H4.
Qed.
Lemma reads_cut : forall a bs z1 z2, reads_as a bs (z1 ++ z2) -> exists b1 b2, bs = b1 ++ b2 /\ reads_as a b1 z1 /\ reads_as a b2 z2.
Proof.
  intros a bs z1 z2 (xs & H & E). revert z1 E. induction H as [|b x bs xs Hb H IH]; intros z1 E.
  - cbn in E. destruct z1; [|discriminate]. destruct z2; [|discriminate]. exists [], []. split; [reflexivity|]. split; exists []; split; constructor.
  - cbn [map filter] in E. destruct z1 as [|s z1].
    + exists [], (b :: bs). split; [reflexivity|]. split; [exists []; split; constructor|]. exists (x :: xs). split; [now constructor|exact E].
    + destruct (negb (is_eps (fst x))) eqn:Ex.
      * cbn [app] in E. injection E as Es E. destruct (IH _ E) as (b1 & b2 & -> & (x1 & A1 & A2) & H2). exists (b :: b1), b2. split; [reflexivity|]. split; [|exact H2].
        exists (x :: x1). split; [now constructor|]. cbn [map filter]. rewrite Ex, A2. congruence.
      * destruct (IH (s :: z1) E) as (b1 & b2 & -> & (x1 & A1 & A2) & H2). exists (b :: b1), b2. split; [reflexivity|]. split; [|exact H2].
        exists (x :: x1). split; [now constructor|]. cbn [map filter]. now rewrite Ex, A2.
Qed.
Lemma trace_tags : forall t a p q z, (exists tr, trace (as_symbols a) t p tr q /\ sym_in tr = z) <-> exists bs, tagpath t p bs q /\ reads_as a bs z.
Proof.
  intros t a p q z. split.
  - intros (tr & H & <-). apply trace_path in H as (l & Hp & D). exists (map fst l). split; [exists l; auto|]. exists (map fst tr). split.
    + clear Hp. induction D as [|e x l tr [D1 D2] D IH]; constructor; assumption.
    + unfold sym_in. now rewrite map_map.
  - intros (bs & (l & Hp & <-) & (xs & H & <-)). exists (combine xs (map snd l)).
    assert (L : length xs = length l) by (clear - H; remember (map fst l) as m eqn:Em; revert l Em; induction H as [|b0 x0 bs0 xs0 H0 H IH]; intros [|e l] Em; try discriminate; [reflexivity|]; cbn; f_equal; injection Em as _ Em; eauto).
    split; [apply trace_path; exists l; split; [exact Hp|]|].
    + clear Hp. revert xs H L. induction l as [|[b w] l IH]; intros xs H L; inversion H; subst; cbn [map combine snd] in *; constructor; [auto|]. apply IH; [assumption|]. cbn in L. congruence.
    + unfold sym_in. f_equal. rewrite <- (map_map fst fst). f_equal. clear - L. revert l L. induction xs as [|x xs IH]; intros [|e l] L; try discriminate; [reflexivity|]. cbn. f_equal. apply IH. cbn in L. congruence.
Qed.
Lemma known_tags : forall t a z, known t a z <-> exists bs, twords t bs /\ reads_as a bs z.
Proof.
  intros t a z. split.
  - intros (y & c & tr & f & (q & H & Hf) & E & _). destruct (proj1 (trace_tags t a (initial t) q z)) as (bs & H1 & H2); [eauto|]. exists bs. split; [|exact H2]. exists q. split; [exact H1|exists f; exact Hf].
  - intros (bs & (q & H1 & (f & Hf)) & H2). destruct (proj2 (trace_tags t a (initial t) q z)) as (tr & H & E); [eauto|]. exists (sym_out tr), (weight_of tr + f), tr, f. split; [exists q; auto|auto].
Qed.
Lemma begins_tags : forall t a z, begins t a z <-> exists bs, tprefix t bs /\ reads_as a bs z.
Proof.
  intros t a z. split.
  - intros (tr & q & H & E). destruct (proj1 (trace_tags t a (initial t) q z)) as (bs & H1 & H2); [eauto|]. exists bs. split; [exists q; exact H1|exact H2].
  - intros (bs & (q & H1) & H2). destruct (proj2 (trace_tags t a (initial t) q z)) as (tr & H & E); [eauto|]. exists tr, q. auto.
Qed.
Lemma lang_tags : forall t w, lang t 0 w <-> exists bs, twords t bs /\ not0 bs = w.
Proof.
  assert (G : forall l, word_of 0 l = not0 (map fst l)).
  { induction l as [|[b w] l IH]; [reflexivity|]. unfold word_of, not0 in *. cbn [filter map fst]. destruct (b =? 0); cbn [negb map fst]; now rewrite IH. }
  intros t w. split.
  - intros (c & l & f & (q & Hp & Hf) & <- & _). exists (map fst l). split; [exists q; split; [exists l; auto|exists f; exact Hf]|now rewrite G].
  - intros (bs & (q & (l & Hp & <-) & (f & Hf)) & <-). exists (cost_of l + f), l, f. split; [exists q; auto|]. split; [apply G|reflexivity].
Qed.
Lemma known_lang : forall t a z, alph_inv0 a -> (known t a z <-> exists w, lang t 0 w /\ reads_as a w z).
Proof.
  intros t a z I0. rewrite known_tags. split.
  - intros (bs & H1 & H2). exists (not0 bs). split; [apply lang_tags; eauto|exact (proj1 (reads_not0 _ _ _ I0) H2)].
  - intros (w & H1 & H2). apply lang_tags in H1 as (bs & H1 & <-). exists bs. split; [exact H1|exact (proj2 (reads_not0 _ _ _ I0) H2)].
Qed.
Lemma known_extends : forall t a a' z, extends a a' -> symbols_in t a -> (known t a z <-> known t a' z).
Proof.
  intros t a a' z X S. rewrite !known_tags. split; intros (bs & H1 & (xs & H2 & H3)); exists bs; (split; [exact H1|]); exists xs; (split; [|exact H3]).
  - clear - X H2. induction H2; constructor; [eapply as_symbols_extends; eauto|assumption].
  - destruct H1 as (q & (l & Hp & <-) & _). clear - X S Hp H2. revert xs H2. induction Hp as [p|p b w q l r Ha Hp IH]; intros xs H2; inversion H2; subst; constructor; [|auto].
    destruct (S _ _ _ _ Ha) as (x & Hx). cbn [fst] in *. match goal with H : as_symbols a' b ?y |- _ => rewrite (as_symbols_fun _ _ _ _ H (as_symbols_extends _ _ _ _ X Hx)) end. exact Hx.
Qed.

(** * Loops at the final states *)
Lemma dot_loops_spec : forall f w loops t, wf t -> is_final t f ->
  exists d, dot_loops f w loops t = Ok d /\ wf d /\ nstates d = nstates t /\ initial d = initial t /\ finals d = finals t
    /\ (forall p b q v, has_arc t p b q v -> has_arc d p b q v)
    /\ (forall p b q v, has_arc d p b q v -> has_arc t p b q v \/ (p = f /\ q = f /\ In b loops))
    /\ (forall b, In b loops -> b <> 0 -> exists v, has_arc d f b f v).
Proof.
  intros f w. induction loops as [|x loops IH]; intros t W Hf; cbn [dot_loops].
  { exists t. split; [reflexivity|]. split; [exact W|]. repeat (split; [reflexivity|]). split; [auto|]. split; [auto|intros b []]. }
  destruct (Z.eqb_spec x 0) as [->|Hx]; cbn [obind].
  - destruct (IH t W Hf) as (d & E & Wd & N & I & F & A1 & A2 & A3). exists d. repeat (split; [assumption|]). split; [|].
    + intros p b q v H. destruct (A2 _ _ _ _ H) as [H'|(H1 & H2 & H3)]; [now left|right; cbn; auto].
    + intros b [<-|Hb] Hn; [contradiction|auto].
  - assert (Lf : (f < nstates t)%nat) by (destruct Hf as (g & Hg); exact (wf_finals _ W _ _ Hg)).
    destruct (linkStates_spec f f x w t W Lf Lf) as (t1 & E1 & W1 & N1 & I1 & F1 & L1). rewrite E1. cbn [obind].
    destruct (IH t1 W1) as (d & E & Wd & N & I & F & A1 & A2 & A3); [destruct Hf as (g & Hg); exists g; unfold final_wt; rewrite F1; exact Hg|].
    assert (B1 : forall p b q v, has_arc t p b q v -> has_arc t1 p b q v) by (intros p b q v H; destruct L1 as [[-> _]|[_ L1]]; [exact H|apply L1; now left]).
    assert (B2 : forall p b q v, has_arc t1 p b q v -> has_arc t p b q v \/ (p = f /\ q = f /\ b = x)) by (intros p b q v H; destruct L1 as [[-> _]|[_ L1]]; [now left|apply L1 in H; tauto]).
    assert (B3 : exists v, has_arc t1 f x f v) by (destruct L1 as [[-> H]|[_ L1]]; [exact H|exists w; apply L1; right; auto]).
    exists d. split; [exact E|]. split; [exact Wd|]. split; [congruence|]. split; [congruence|]. split; [congruence|]. split; [auto|]. split.
    + intros p b q v H. destruct (A2 _ _ _ _ H) as [H'|(H1 & H2 & H3)]; [|right; cbn; auto]. destruct (B2 _ _ _ _ H') as [H''|(H1 & H2 & ->)]; [now left|right; cbn; auto].
    + intros b [<-|Hb] Hn; [|auto]. destruct B3 as (v & B3). exists v. auto.
Qed.
Lemma dot_spec : forall loops t, wf t ->
  exists d, appendDotStar loops t = Ok d /\ wf d /\ nstates d = nstates t /\ initial d = initial t /\ finals d = finals t
    /\ (forall p b q v, has_arc t p b q v -> has_arc d p b q v)
    /\ (forall p b q v, has_arc d p b q v -> has_arc t p b q v \/ (p = q /\ is_final t q /\ In b loops))
    /\ (forall f b, is_final t f -> In b loops -> b <> 0 -> exists v, has_arc d f b f v).
Proof.
  intros loops t W. unfold appendDotStar.
  assert (G : forall fs t1, wf t1 -> finals t1 = finals t -> incl fs (finals t) ->
    exists d, dot_finals fs loops t1 = Ok d /\ wf d /\ nstates d = nstates t1 /\ initial d = initial t1 /\ finals d = finals t1
    /\ (forall p b q v, has_arc t1 p b q v -> has_arc d p b q v)
    /\ (forall p b q v, has_arc d p b q v -> has_arc t1 p b q v \/ (p = q /\ is_final t q /\ In b loops))
    /\ (forall f w b, In (f, w) fs -> In b loops -> b <> 0 -> exists v, has_arc d f b f v)).
  { induction fs as [|[f w] fs IH]; intros t1 W1 F1 Hi; cbn [dot_finals].
    { exists t1. split; [reflexivity|]. split; [exact W1|]. repeat (split; [reflexivity|]). split; [auto|]. split; [auto|intros f w b []]. }
    assert (Hf : is_final t f) by (exists w; apply Hi; now left).
    destruct (dot_loops_spec f w loops t1 W1) as (t2 & E2 & W2 & N2 & I2 & F2 & A1 & A2 & A3); [destruct Hf as (g & Hg); exists g; unfold final_wt; now rewrite F1|].
    rewrite E2. cbn [obind]. destruct (IH t2 W2) as (d & E & Wd & N & I & F & B1 & B2 & B3); [congruence|intros e He; apply Hi; now right|].
    exists d. split; [exact E|]. split; [exact Wd|]. split; [congruence|]. split; [congruence|]. split; [congruence|]. split; [auto|]. split.
    - intros p b q v H. destruct (B2 _ _ _ _ H) as [H'|H']; [|now right]. destruct (A2 _ _ _ _ H') as [H''|(-> & -> & H3)]; [now left|right; auto].
    - intros g u b [[= <- <-]|Hg] Hb Hn; [|eauto]. destruct (A3 b Hb Hn) as (v & Hv). exists v. auto. }
  destruct (G (finals t) t W eq_refl (incl_refl _)) as (d & E & Wd & N & I & F & A1 & A2 & A3). exists d. repeat (split; [assumption|]). intros f b (w & Hf) Hb Hn. exact (A3 f w b Hf Hb Hn).
Qed.

(** * Lemma queues where there are none *)

Lemma append_hash : forall c, append_cp [] c = [GROUP] -> 0 <= c -> c = 35.
Proof.
  intros c H Hc. unfold append_cp in H. destruct (Z.leb_spec c 65535) as [L|L]; cbn [app] in H; [|discriminate].
  injection H as H. unfold GROUP in H. rewrite Z.mod_small in H by (cbn; lia). exact H.
Qed.
Lemma symbol_name : forall a l s, as_symbol a l s -> exists n, getSymbol l a = Ok n /\ (n = [GROUP] -> s = hash_sym \/ s = STag [35]).
Proof.
  intros a l [n|c] H.
  - destruct H as [_ H]. exists n. split; [exact H|]. intros ->. now right.
  - destruct H as [H ->]. unfold getSymbol. destruct (Z.eqb_spec c 0) as [->|Hn]; [exists []; split; [reflexivity|discriminate]|].
    replace (c <? 0) with false by lia. eexists. split; [reflexivity|]. intros E. left. unfold hash_sym. f_equal. now apply append_hash.
Qed.

Section Moved.
  Context (al : alphabet) (d : transducer) (W : wf d) (S : symbols_in d al) (U : unhashed d al) (R : finals_reached d).
  Definition mmv (k : nat) (b w : Z) (k' : nat) : Prop := w = 0 /\ exists w0, has_arc d k b k' w0.
  Notation INV := (INV Nat.eq_dec mmv (initial d) (seq 0 (nstates d))).
  Notation GROW := (GROW Nat.eq_dec mmv).
  Notation done := (done Nat.eq_dec).
  Lemma mv_start : In (initial d) (seq 0 (nstates d)).
  Proof. apply in_seq. pose proof (wf_initial _ W). lia. Qed.
  Lemma mv_all : forall k b w k', mmv k b w k' -> In k (seq 0 (nstates d)) -> In k' (seq 0 (nstates d)).
  Proof. intros k b w k' [_ (w0 & H)] _. apply in_seq. pose proof (wf_arcs _ W _ _ _ _ H). lia. Qed.

  Lemma mv_arcs_spec : forall k s base arcs st n, (forall e, In e arcs -> In e (arcs_of d k)) ->
    INV st -> kfind Nat.eq_dec k (w_map st) = Some s -> w_todo st = n ++ base ->
    exists st', (forall fuel, mv_arcs fuel d al k arcs st = Ok st') /\ INV st' /\ GROW k st st'
      /\ (length (w_todo st') <= length arcs + length (w_todo st))%nat
      /\ forall e, In e arcs -> done base st' k (a_tag e) (a_dst e).
  Proof.
    intros k s base. induction arcs as [|[tag [k' w]] arcs IH]; intros st n Sub I Hk Hb; cbn [mv_arcs].
    { exists st. split; [reflexivity|]. split; [exact I|]. split; [apply GROW_refl|]. split; [cbn; lia|intros e []]. }
    cbn [a_tag a_dst a_wt fst snd]. assert (Ha : has_arc d k tag k' w) by (apply Sub; now left).
    destruct (S _ _ _ _ Ha) as ([i o] & l & r & Hd & Hl & Hr). cbn [fst snd] in Hl, Hr.
    destruct (symbol_name _ _ _ Hl) as (nm & En & Hnm).
    assert (Eg : str_eqb nm [GROUP] = false).
    { destruct (str_eqb nm [GROUP]) eqn:E; [|reflexivity]. exfalso. apply str_eqb_spec in E. destruct (Hnm E) as [->| ->]; [apply (proj1 U)|apply (proj2 U)]; exists k, tag, k', w, o; (split; [exact Ha|exists l, r; auto]). }
    destruct (visit_spec Nat.eq_dec mmv (initial d) (seq 0 (nstates d)) mv_all st k s tag 0 k' base n I Hk) as (s' & st1 & E & I1 & G1 & D1 & L1); [split; eauto|exact Hb|].
    destruct (grow_base _ _ _ _ _ _ _ G1 Hb) as (n1 & Hb1).
    destruct (IH st1 n1) as (st' & E' & I' & G' & L' & D'); auto.
    { intros e He. apply Sub. now right. }
    { exact (g_map _ _ _ _ _ G1 _ _ Hk). }
    exists st'. split.
    { intros fuel. rewrite Hd. cbn [obind]. rewrite En. cbn [obind]. unfold kget. rewrite Hk, Eg.
      replace (mkSearch (w_out st) (w_map st) (w_todo st) (w_seen st)) with st by (now destruct st). rewrite E. cbn [obind]. apply E'. }
    split; [exact I'|]. split; [exact (GROW_trans _ _ _ _ _ _ G1 G')|]. split; [cbn [length]; lia|].
    intros e [<-|He]; [|now apply D']. exact (done_grow _ _ _ _ _ _ _ _ _ G' D1).
  Qed.
  Definition mv_step (st st2 : search nat) : Prop := exists k rest, w_todo st = k :: rest
    /\ forall fuel, mv_arcs fuel d al k (arcs_of d k) (popped st k rest) = Ok st2.
  Lemma mv_step_ok : forall st current rest, INV st -> w_todo st = current :: rest ->
    exists st2, mv_step st st2 /\ INV st2 /\ GROW current (popped st current rest) st2 /\ (length (w_todo st2) <= maxlen d + length rest)%nat
      /\ forall b w k', mmv current b w k' -> done rest st2 current b k'.
  Proof.
    intros st k rest I E. destruct (i_todo _ _ _ _ _ I k) as (s & Hs); [rewrite E; now left|].
    assert (I0 := popped_INV _ _ _ _ _ _ _ I E).
    destruct (mv_arcs_spec k s rest (arcs_of d k) (popped st k rest) [] (fun e H => H) I0 Hs eq_refl) as (st2 & E2 & I2 & G2 & L2 & D2).
    exists st2. split; [exists k, rest; auto|]. split; [exact I2|]. split; [exact G2|]. split.
    - pose proof (maxlen_arcs d k). cbn [popped w_todo] in L2. lia.
    - intros b w k' [_ (w0 & H)]. exact (D2 (b, (k', w0)) H).
  Qed.
  Lemma moves_path : forall k l k', moves mmv k l k' -> tagpath d k (map fst l) k'.
  Proof. intros k l k' H. induction H as [k|k b w k' l k'' [_ Hm] _ IH]; [apply tagpath_nil|]. cbn [map fst]. eapply tagpath_cons; eauto. Qed.
  Lemma path_moves : forall k bs k', tagpath d k bs k' -> exists l, moves mmv k l k' /\ map fst l = bs.
  Proof.
    intros k bs. revert k. induction bs as [|b bs IH]; intros k k' H.
    - destruct H as (l & Hp & E). destruct l; [|discriminate]. inversion Hp; subst. exists []. split; [constructor|reflexivity].
    - apply tagpath_inv in H as (q & H1 & H2). destruct (IH _ _ H2) as (l & A & B). exists ((b, 0) :: l). split; [econstructor; [split; [reflexivity|exact H1]|exact A]|]. cbn. now rewrite B.
  Qed.
  Lemma mv_finals_spec : forall m l fin, finals_sorted fin -> (forall f w, In (f, w) l -> exists s, kfind Nat.eq_dec f m = Some s) ->
    finals_sorted (mv_finals l m fin)
    /\ forall p, (exists c, In (p, c) (mv_finals l m fin)) <-> (exists c, In (p, c) fin) \/ exists f w, In (f, w) l /\ kfind Nat.eq_dec f m = Some p.
  Proof.
    intros m. induction l as [|[f w] l IH]; intros fin Hs Hr; cbn [mv_finals].
    - split; [exact Hs|]. intros p. split; [now left|]. intros [H|(f & w & [] & _)]. exact H.
    - destruct (Hr f w (or_introl eq_refl)) as (s & Es). unfold kget. rewrite Es.
      destruct (IH (fin_insert s w fin) (fin_insert_sorted _ _ _ Hs) (fun f w H => Hr f w (or_intror H))) as [I1 I2].
      split; [exact I1|]. intros p. rewrite I2. split.
      + intros [(c & H)|(f' & w' & H1 & H2)]; [|right; exists f', w'; split; [now right|exact H2]].
        apply (fin_insert_in s w fin p c Hs) in H as [H|(-> & _)]; [left; eauto|]. right. exists f, w. split; [now left|exact Es].
      + intros [(c & H)|(f' & w' & [[= <- <-]|H1] & H2)].
        * left. exists c. apply (fin_insert_in s w fin p c Hs). now left.
        * left. assert (p = s) as -> by congruence. destruct (fin_find s fin) as [c|] eqn:Ef.
          -- exists c. apply (fin_insert_in s w fin s c Hs). left. now apply fin_find_some.
          -- exists w. apply (fin_insert_in s w fin s w Hs). right. split; [reflexivity|]. split; [reflexivity|]. now apply fin_find_none.
        * right. exists f', w'. auto.
  Qed.

  Lemma moved_spec : exists N m, (forall fuel, (N <= fuel)%nat -> moveLemqsLast fuel al d = Ok m) /\ wf m
    /\ (forall p b q w, has_arc m p b q w -> w = 0 /\ exists p0 q0 w0, has_arc d p0 b q0 w0)
    /\ (forall bs, twords m bs <-> twords d bs) /\ (forall bs, tprefix m bs <-> tprefix d bs).
  Proof.
    destruct (search_result Nat.eq_dec mmv (initial d) (seq 0 (nstates d)) mv_start mv_all mv_step (maxlen d) mv_step_ok) as (N & st' & Hl & I & F & Hs & Hm).
    pose proof (i_wf _ _ _ _ _ I) as W'. pose proof (i_init _ _ _ _ _ I) as Hi.
    assert (Hr : forall f w, In (f, w) (finals d) -> exists s, kfind Nat.eq_dec f (w_map st') = Some s).
    { intros f w H. destruct (R f (ex_intro _ w H)) as (l & Hp). destruct (path_moves (initial d) (map fst l) f (ex_intro _ l (conj Hp eq_refl))) as (l' & A & _).
      destruct (Hm _ _ _ A _ Hi) as (q & _ & B & _). eauto. }
    destruct (mv_finals_spec (w_map st') (finals d) [] ltac:(constructor) Hr) as [F1 F2].
    exists N. eexists. split.
    { intros fuel Hf. unfold moveLemqsLast. specialize (Hl (fun fuel => mv_loop fuel d al)). unfold st0 in Hl. rewrite Hl.
      - cbn [obind]. rewrite F. reflexivity.
      - clear. intros [|fuel] st E; cbn [mv_loop]; now rewrite E.
      - clear. intros fuel st st2 _ _ (k & rest & E1 & E2). cbn [mv_loop]. rewrite E1. unfold popped in E2. rewrite E2. reflexivity.
      - exact Hf. }
    set (m := mkT _ _ _).
    assert (Hfin : forall p, is_final m p <-> exists f, is_final d f /\ kfind Nat.eq_dec f (w_map st') = Some p).
    { intros p. unfold is_final, final_wt, m. cbn [finals]. rewrite F2. split.
      - intros [(c & [])|(f & w & H1 & H2)]. exists f. eauto.
      - intros (f & (w & H1) & H2). right. eauto. }
    assert (Hp : forall p l q, path m p l q <-> path (w_out st') p l q).
    { intros p l q. split; intros H; (induction H; [constructor|econstructor; eauto]). }
    assert (P1 : forall bs q, tagpath m (initial m) bs q -> exists k, kfind Nat.eq_dec k (w_map st') = Some q /\ tagpath d (initial d) bs k).
    { intros bs q (l & H & <-). apply Hp in H. destruct (Hs _ _ _ H (initial d) Hi) as (k & A & B). exists k. split; [exact A|]. now apply moves_path. }
    assert (P2 : forall bs k, tagpath d (initial d) bs k -> exists q, kfind Nat.eq_dec k (w_map st') = Some q /\ tagpath m (initial m) bs q).
    { intros bs k H. apply path_moves in H as (l & A & <-). destruct (Hm _ _ _ A _ Hi) as (q & l' & B1 & B2 & B3 & _). exists q. split; [exact B1|]. exists l'. split; [now apply Hp|exact B3]. }
    split; [|split; [|split]].
    - constructor.
      + apply (wf_initial _ W').
      + intros p c H. destruct (proj1 (Hfin p) (ex_intro _ c H)) as (f & _ & Hf). exact (i_rng _ _ _ _ _ I _ _ Hf).
      + exact F1.
      + apply (wf_arcs _ W').
      + apply (wf_sorted _ W').
    - intros p b q w H. destruct (i_arcs _ _ _ _ _ I p b q w H) as (k & k' & _ & _ & -> & (w0 & H0)). split; [reflexivity|eauto].
    - intros bs. split.
      + intros (q & H1 & H2). destruct (P1 _ _ H1) as (k & A & B). apply Hfin in H2 as (f & H2 & H3). rewrite (i_inj _ _ _ _ _ I _ _ _ H3 A) in H2. exists k. auto.
      + intros (k & H1 & H2). destruct (P2 _ _ H1) as (q & A & B). exists q. split; [exact B|]. apply Hfin. eauto.
    - intros bs. split; intros (q & H); [destruct (P1 _ _ H) as (k & _ & B)|destruct (P2 _ _ H) as (k & _ & B)]; eexists; exact B.
  Qed.
End Moved.

(** * A dictionary with its loops *)
Record moved_of (am ab ap : alphabet) (t m : transducer) : Prop := {
  mo_wf : wf m;
  mo_syms : symbols_in m ap;
  mo_free : free_epsilons m ap;
  mo_reads : forall s, s <> eps_sym -> reads_sym m ap s -> reads_sym t ab s \/ exists n, s = STag n /\ right_tag am n;
  mo_known : forall z ts, known t ab z -> Forall (fun s => exists n, s = STag n /\ right_tag am n) ts -> known m ap (z ++ ts);
  mo_begins : forall z, begins t ab z -> begins m ap z;
  mo_known' : forall z, known m ap z -> known t ab z \/ exists z1 n z2, z = z1 ++ STag n :: z2 /\ right_tag am n /\ known t ab z1;
  mo_begins' : forall z, begins m ap z -> begins t ab z \/ exists z1 n z2, z = z1 ++ STag n :: z2 /\ right_tag am n /\ known t ab z1
}.
Lemma reads_extends : forall a a' bs z, extends a a' -> reads_as a bs z -> reads_as a' bs z.
Proof. intros a a' bs z X (xs & H & E). exists xs. split; [|exact E]. clear E. induction H; constructor; [eapply as_symbols_extends; eauto|assumption]. Qed.
Lemma reads_back : forall t a a' p bs q z, extends a a' -> symbols_in t a -> tagpath t p bs q -> reads_as a' bs z -> reads_as a bs z.
Proof.
  intros t a a' p bs q z X S (l & Hp & <-) (xs & H2 & E). exists xs. split; [|exact E]. clear E. revert xs H2.
  induction Hp as [p|p b w q l r Ha Hp IH]; intros xs H2; inversion H2; subst; constructor; [|auto].
  destruct (S _ _ _ _ Ha) as (x & Hx). cbn [fst] in *. match goal with H : as_symbols a' b ?y |- _ => rewrite (as_symbols_fun _ _ _ _ H (as_symbols_extends _ _ _ _ X Hx)) end. exact Hx.
Qed.
Lemma reads_at : forall a b1 x b2 z n, reads_as a (b1 ++ x :: b2) z -> as_symbols a x (STag n, STag n) ->
  exists z1 z2, z = z1 ++ STag n :: z2 /\ reads_as a b1 z1.
Proof.
  intros a b1 x b2 z n (xs & H & <-) Hx. apply Forall2_app_inv_l in H as (x1 & x2 & H1 & H2 & ->). inversion H2 as [|? y ? ys Hy H3]; subst.
  rewrite (as_symbols_fun _ _ _ _ Hy Hx). rewrite map_app, filter_app. cbn [map fst filter is_eps negb]. eexists. eexists. split; [reflexivity|]. exists x1. auto.
Qed.
Lemma dot_path : forall loops t d, (forall p b q v, has_arc d p b q v -> has_arc t p b q v \/ (p = q /\ is_final t q /\ In b loops)) ->
  forall bs p q, tagpath d p bs q -> tagpath t p bs q \/ exists b1 x b2 f, bs = b1 ++ x :: b2 /\ tagpath t p b1 f /\ is_final t f /\ In x loops.
Proof.
  intros loops t d A. induction bs as [|b bs IH]; intros p q H.
  - left. destruct H as (l & Hp & E). destruct l; [|discriminate]. inversion Hp; subst. apply tagpath_nil.
  - apply tagpath_inv in H as (r & (w & H1) & H2). destruct (A _ _ _ _ H1) as [H3|(-> & H3 & H4)].
    + destruct (IH _ _ H2) as [H4|(b1 & x & b2 & f & -> & H4 & H5)].
      * left. eapply tagpath_cons; eauto.
      * right. exists (b :: b1), x, b2, f. split; [reflexivity|]. split; [|exact H5]. eapply tagpath_cons; eauto.
    + right. exists [], b, bs, r. split; [reflexivity|]. split; [apply tagpath_nil|auto].
Qed.
Lemma loop_reads : forall am ap loops, (forall n, right_tag am n -> exists x, In x loops /\ as_symbols ap x (STag n, STag n)) ->
  forall d f, (forall b, In b loops -> b <> 0 -> exists v, has_arc d f b f v) -> alph_inv0 ap ->
  forall ts, Forall (fun s => exists n, s = STag n /\ right_tag am n) ts -> exists bs, tagpath d f bs f /\ reads_as ap bs ts.
Proof.
  intros am ap loops L d f A I0 ts H. induction H as [|s ts (n & -> & Hn) H (bs & IH1 & IH2)].
  - exists []. split; [apply tagpath_nil|]. exists []. split; [constructor|reflexivity].
  - destruct (L n Hn) as (x & Hx & Hs). exists (x :: bs). split.
    + eapply tagpath_cons; [|exact IH1]. apply A; [exact Hx|]. intros ->. pose proof (as_symbols_fun _ _ _ _ Hs (eps_symbols ap I0)). discriminate.
    + change (x :: bs) with ([x] ++ bs). change (STag n :: ts) with ([STag n] ++ ts). apply reads_app; [|exact IH2]. exists [(STag n, STag n)]. split; [repeat constructor; exact Hs|reflexivity].
Qed.

Lemma dictionary_moved : forall am ab loops ap t, alph_inv am -> alph_inv0 ab -> createLoopbackSymbols am ab = (loops, ap) -> plain_right am ->
  wf t -> symbols_in t ab -> unhashed t ab -> finals_reached t ->
  exists N m, (forall fuel, (N <= fuel)%nat -> (let! d := appendDotStar loops t in moveLemqsLast fuel ap d) = Ok m) /\ moved_of am ab ap t m.
Proof.
  intros am ab loops ap t Im Ib El Pl W S U R. destruct (loops_spec _ _ _ _ Im Ib El) as (I0 & X & L1 & L2).
  destruct (dot_spec loops t W) as (d & Ed & Wd & Nd & Id & Fd & A1 & A2 & A3).
  assert (Sd : symbols_in d ap).
  { intros p b q w H. destruct (A2 _ _ _ _ H) as [H'|(_ & _ & H')].
    - destruct (S _ _ _ _ H') as (x & Hx). exists x. eapply as_symbols_extends; eauto.
    - destruct (L1 _ H') as (n & _ & Hn). eauto. }
  assert (Ud : unhashed d ap).
  { assert (G : forall s, s = hash_sym \/ s = STag [35] -> ~ reads_sym t ab s -> ~ reads_sym d ap s).
    { intros s Hs Hn (p & b & q & w & o & H & Hb). destruct (A2 _ _ _ _ H) as [H'|(_ & _ & H')].
      - apply Hn. destruct (S _ _ _ _ H') as (x & Hx). rewrite (as_symbols_fun _ _ _ _ (as_symbols_extends _ _ _ _ X Hx) Hb) in Hx. exists p, b, q, w, o. auto.
      - destruct (L1 _ H') as (n & Hn1 & Hn2). pose proof (as_symbols_fun _ _ _ _ Hb Hn2) as E. injection E as -> _. destruct Hs as [Hs|Hs]; [discriminate|]. injection Hs as ->. apply (Pl _ Hn1). reflexivity. }
    split; apply G; auto; apply U. }
  assert (Up : forall bs p q, tagpath t p bs q -> tagpath d p bs q).
  { induction bs as [|b bs IH]; intros p q H.
    - destruct H as (l & Hp & E). destruct l; [|discriminate]. inversion Hp; subst. apply tagpath_nil.
    - apply tagpath_inv in H as (r & (w & H1) & H2). eapply tagpath_cons; eauto. }
  assert (Ff : forall p, is_final d p <-> is_final t p) by (intros p; unfold is_final, final_wt; now rewrite Fd).
  assert (Rd : finals_reached d).
  { intros p Hp. apply Ff in Hp. destruct (R _ Hp) as (l & Hl). destruct (Up (map fst l) (initial t) p (ex_intro _ l (conj Hl eq_refl))) as (l' & Hl' & _). exists l'. now rewrite Id. }
  destruct (moved_spec ap d Wd Sd Ud Rd) as (N & m & Em & Wm & Am & Km & Bm).
  exists N, m. split; [intros fuel Hf; rewrite Ed; cbn [obind]; now apply Em|].
  assert (DW : forall bs q z, tagpath d (initial d) bs q -> reads_as ap bs z ->
     (tagpath t (initial t) bs q /\ reads_as ab bs z) \/ exists z1 n z2, z = z1 ++ STag n :: z2 /\ right_tag am n /\ known t ab z1).
  { intros bs q z H1 H2. rewrite Id in H1. destruct (dot_path _ _ _ A2 _ _ _ H1) as [H3|(b1 & x & b2 & f & -> & H3 & H4 & H5)].
    - left. split; [exact H3|]. eapply reads_back; eauto.
    - right. destruct (L1 _ H5) as (n & Hn1 & Hn2). destruct (reads_at _ _ _ _ _ _ H2 Hn2) as (z1 & z2 & -> & H6). exists z1, n, z2. split; [reflexivity|]. split; [exact Hn1|].
      apply known_tags. exists b1. split; [exists f; auto|]. eapply reads_back; eauto. }
  constructor.
  - exact Wm.
  - intros p b q w H. destruct (Am _ _ _ _ H) as (_ & p0 & q0 & w0 & H0). exact (Sd _ _ _ _ H0).
  - intros p b q w o H _. exact (proj1 (Am _ _ _ _ H)).
  - intros s Hs (p & b & q & w & o & H & Hb). destruct (Am _ _ _ _ H) as (_ & p0 & q0 & w0 & H0). destruct (A2 _ _ _ _ H0) as [H'|(_ & _ & H')].
    + left. destruct (S _ _ _ _ H') as (x & Hx). rewrite (as_symbols_fun _ _ _ _ (as_symbols_extends _ _ _ _ X Hx) Hb) in Hx. exists p0, b, q0, w0, o. auto.
    + right. destruct (L1 _ H') as (n & Hn1 & Hn2). pose proof (as_symbols_fun _ _ _ _ Hb Hn2) as E. injection E as -> _. eauto.
  - intros z ts H Hts. apply known_tags in H as (bs & (q & H1 & H2) & H3). apply known_tags.
    destruct (loop_reads am ap loops L2 d q (fun b => A3 q b H2) I0 ts Hts) as (bs' & H4 & H5).
    exists (bs ++ bs'). split; [|apply reads_app; [eapply reads_extends; eauto|exact H5]]. apply Km. exists q. split; [|now apply Ff]. eapply tagpath_app; [|exact H4]. rewrite Id. now apply Up.
  - intros z H. apply begins_tags in H as (bs & (q & H1) & H3). apply begins_tags. exists bs. split; [|eapply reads_extends; eauto]. apply Bm. exists q. rewrite Id. now apply Up.
  - intros z H. apply known_tags in H as (bs & H1 & H3). apply Km in H1 as (q & H1 & H2). destruct (DW _ _ _ H1 H3) as [[H4 H5]|H4]; [left|now right].
    apply known_tags. exists bs. split; [|exact H5]. exists q. split; [exact H4|now apply Ff].
  - intros z H. apply begins_tags in H as (bs & H1 & H3). apply Bm in H1 as (q & H1). destruct (DW _ _ _ H1 H3) as [[H4 H5]|H4]; [left|now right].
    apply begins_tags. exists bs. split; [|exact H5]. exists q. exact H4.
Qed.

(** * Minimisation and union *)
Lemma lang_nonempty : forall t, (exists w, lang t 0 w) -> nonempty_label t 0.
Proof. intros t (w & c & l & f & H & _). exists (visible 0 l), l, f. auto. Qed.
Lemma reached_lang : forall t, finals t <> [] -> finals_reached t -> exists w, lang t 0 w.
Proof.
  intros t Hf R. destruct (finals t) as [|[p f] r] eqn:E; [contradiction|]. assert (F : final_wt t p f) by (unfold final_wt; rewrite E; now left).
  destruct (R p (ex_intro _ f F)) as (l & Hl). exists (word_of 0 l), (cost_of l + f), l, f. split; [exists p; auto|auto].
Qed.
Lemma not0_in : forall b bs, b <> 0 -> (In b (not0 bs) <-> In b bs).
Proof. intros b bs Hb. unfold not0. rewrite filter_In, negb_true_iff, Z.eqb_neq. tauto. Qed.
Lemma tagpath_in : forall t bs p q b, tagpath t p bs q -> In b bs -> exists p0 q0 w0, has_arc t p0 b q0 w0.
Proof.
  intros t. induction bs as [|x bs IH]; intros p q b H Hb; [destruct Hb|]. apply tagpath_inv in H as (r & (w & H1) & H2). destruct Hb as [<-|Hb]; [eauto|eapply IH; eauto].
Qed.
Lemma minimize_facts : forall t, wf t -> (exists w, lang t 0 w) -> exists m, minimize 0 t = Ok m /\ wf m /\ finals m <> []
  /\ (forall w, lang m 0 w <-> lang t 0 w)
  /\ (forall p b q w, has_arc m p b q w -> b = 0 \/ exists p0 q0 w0, has_arc t p0 b q0 w0)
  /\ finals_reached m /\ (forall q l, path m (initial m) l q -> exists l' r, path m q l' r /\ is_final m r)
  /\ (length (finals t) <> 1%nat \/ finals_default t -> forall w c, wlang m 0 w c <-> wlang t 0 w c).
Proof.
  intros t W Ne. destruct (minimize_spec t 0 W (lang_nonempty t Ne)) as (m & E & M). destruct (minimized_minimal 0 t m M) as (Wm & _ & Acc & _).
  exists m. split; [exact E|]. split; [exact Wm|].
  assert (L : forall w, lang m 0 w <-> lang t 0 w) by (intros w; apply (minimized_lang 0 t m w W M)).
  assert (CoA : forall q, (q < nstates m)%nat -> exists l' r, path m q l' r /\ is_final m r).
  { intros q Hq. destruct (minimized_coaccessible 0 t m q M Hq) as (l & f & r & H1 & H2). exists l, r. split; [exact H1|exists f; exact H2]. }
  split; [|split; [exact L|split; [|split; [|split]]]].
  - intros F. destruct (CoA _ (wf_initial _ Wm)) as (l & r & _ & (f & H)). unfold final_wt in H. rewrite F in H. destruct H.
  - intros p b q w H. destruct (Z.eq_dec b 0) as [->|Hb]; [now left|right].
    destruct (Acc p) as (l & Hl). { destruct (Nat.lt_ge_cases p (nstates m)) as [G|G]; [exact G|]. exfalso. unfold has_arc, arcs_of in H. rewrite nth_overflow in H by exact G. destruct H. }
    destruct (CoA q (wf_arcs _ Wm _ _ _ _ H)) as (l' & r & H1 & H2).
    assert (T : twords m (map fst l ++ b :: map fst l')).
    { exists r. split; [|exact H2]. eapply tagpath_app; [exists l; split; [exact Hl|reflexivity]|]. eapply tagpath_cons; [eauto|]. exists l'. auto. }
    assert (T' : lang t 0 (not0 (map fst l ++ b :: map fst l'))) by (apply L, lang_tags; eauto). apply lang_tags in T' as (bs & (r' & H3 & _) & E').
    eapply tagpath_in; [exact H3|]. apply (not0_in b bs Hb). rewrite E'. apply (not0_in b _ Hb). apply in_or_app. right. now left.
  - intros p (f & Hp). apply Acc. exact (wf_finals _ Wm _ _ Hp).
  - intros q l Hl. apply CoA. pose proof (wf_initial _ Wm) as Hi. clear - Hl Hi Wm. induction Hl as [p|p a w q l r Ha Hp IH]; [exact Hi|]. apply IH. exact (wf_arcs _ Wm _ _ _ _ Ha).
  - intros Hw w c. exact (minimized_wlang 0 t m w c W M Hw).
Qed.

Lemma union_facts : forall t self, wf t -> finals t <> [] -> wf self -> ~ entered self ->
  exists u self', unionWith t 0 self = Ok (self', u) /\ wf self' /\ ~ entered self'
    /\ (forall w, lang self' 0 w <-> lang self 0 w \/ lang t 0 w)
    /\ (forall p b q w, has_arc self' p b q w -> b = 0 \/ exists p0 q0 w0, has_arc self p0 b q0 w0 \/ has_arc t p0 b q0 w0).
Proof.
  intros t self W Hf Ws Ne. assert (Hi := wf_initial self Ws).
  destruct (unionWith_spec 0 t self W Hf Ws) as (u & self' & f & fw & E & Wu & J & Fu & W' & L).
  destruct (insertTransducer_spec 0 (initial self) t self W Hf Ws Hi) as (u2 & s1 & f2 & fw2 & E2 & Wu2 & J2 & Fu2 & I).
  assert (Es : self' = mkT (initial s1) (fin_insert (nstates self + f2) 0 (finals s1)) (trans s1)).
  { unfold unionWith in E. rewrite E2 in E. cbn [obind] in E. congruence. }
  assert (A : forall p b q w, has_arc self' p b q w -> has_arc s1 p b q w) by (rewrite Es; auto).
  exists u, self'. split; [exact E|]. split; [exact W'|]. split; [|split].
  - intros (p & b & w & H). apply A in H. rewrite Es in H. cbn [initial] in H. rewrite (in_initial _ _ _ _ _ I) in H.
    apply (in_arcs _ _ _ _ _ I) in H as [H|[(p' & q' & _ & H & _)|(_ & _ & H & _)]]; [apply Ne; exists p, b, w; exact H|lia|lia].
  - intros w. split.
    + intros (c & H). apply L in H as [H|H]; [left; exists c; exact H|right].
      destruct H as [w c w' c' (l1 & H1 & <- & <-) H2]. assert (l1 = []) as ->.
      { destruct (rev l1) as [|[b v] rl] eqn:Er; [now rewrite <- (rev_involutive l1), Er|]. exfalso. assert (El : l1 = rev rl ++ [(b, v)]) by (rewrite <- (rev_involutive l1), Er; reflexivity).
        rewrite El in H1. clear - H1 Ne. apply Ne. remember (initial self) as i eqn:Ei in H1 at 2. assert (Hx : i = initial self) by exact Ei. clear Ei. revert H1. generalize (initial self) at 1 as p. induction (rev rl) as [|[b' v'] l IH]; intros p H; inversion H as [|? ? ? ? ? ? Ha Hp]; subst.
        - inversion Hp; subst. exists p, b, v. assumption.
        - eapply IH; eauto. }
      cbn [app word_of filter map]. apply (joined_wlang 0 t u w' _ W J) in H2. exists (c' + fw). exact H2.
    + intros [(c & H)|(c & H)]; [exists c; apply L; now left|]. exists (c - fw). apply L. right. change w with ([] ++ w). replace (c - fw) with (0 + (c - fw)) by lia. constructor.
      * exists []. split; [constructor|split; reflexivity].
      * apply (joined_wlang 0 t u w _ W J). now replace (c - fw + fw) with c by lia.
  - intros p b q w H. apply A in H. apply (in_arcs _ _ _ _ _ I) in H as [H|[(p' & q' & _ & _ & H)|(_ & -> & _)]]; [right; eauto| |now left].
    destruct J2 as [p0 g H0|j K1 K2 K3 K4 K5 K6]; [right; eauto|]. apply K6 in H as [H|(-> & _)]; [right; eauto|now left].
Qed.

(** * What the dictionary with its loops covers *)
Section Cover.
  Context (am ab ap : alphabet) (t m : transducer) (M : moved_of am ab ap t m) (Pl : plain_right am).
  Notation D := (known t ab).
  Definition right_symbols (y : list symbol) : Prop := forall n, In (STag n) y -> right_tag am n.
  Lemma right_symbols_app : forall y1 y2, right_symbols (y1 ++ y2) <-> right_symbols y1 /\ right_symbols y2.
  Proof.
    intros y1 y2. unfold right_symbols. split.
    - intros H. split; intros n Hn; apply H, in_or_app; auto.
    - intros [H1 H2] n Hn. apply in_app_or in Hn as [Hn|Hn]; auto.
  Qed.
  Lemma agree_refl : forall s, agree s s.
  Proof. intros s. now left. Qed.
  Lemma agree_tag : forall s n, agree s (STag n) -> right_tag am n -> (forall k, s = STag k -> right_tag am k) -> s = STag n.
  Proof.
    intros s n [H|H] Hn Hs; [exact H|]. destruct (Pl n Hn) as (N1 & N2 & _). destruct s as [k|c].
    - destruct (Pl k (Hs k eq_refl)) as (K1 & K2 & _). destruct H; contradiction.
    - destruct H; contradiction.
  Qed.

  Lemma translated_covered : forall y, translated D y -> right_symbols y -> covered m ap y.
  Proof.
    assert (E : forall y, ends D y -> right_symbols y -> exists z, Forall2 agree y z /\ known m ap z).
    { intros y (z & z' & ts & -> & H1 & H2 & H3) R. apply right_symbols_app in R as [_ R]. exists (z' ++ ts). split.
      - apply Forall2_app; [exact H1|]. clear. induction ts; constructor; [apply agree_refl|assumption].
      - apply (mo_known _ _ _ _ _ M); [exact H2|]. rewrite Forall_forall in *. intros s Hs. destruct (H3 s Hs) as (n & ->). exists n. auto. }
    assert (B : forall z, known m ap z -> begins m ap z).
    { intros z H. apply known_tags in H as (bs & (q & H1 & _) & H2). apply begins_tags. exists bs. split; [exists q; exact H1|exact H2]. }
    intros y H. induction H as [y H|y rest H _ IH]; intros R.
    - destruct (E y H R) as (z & H1 & H2). eapply covered_word; eauto.
    - apply right_symbols_app in R as [R1 R2]. change (plus_sym :: rest) with ([plus_sym] ++ rest) in R2. apply right_symbols_app in R2 as [_ R2]. destruct H as [H|(z' & more & H1 & H2)].
      + destruct (E y H R1) as (z & H1 & H2). eapply covered_plus; eauto.
      + eapply covered_plus; [exact H1| |auto]. apply (mo_begins _ _ _ _ _ M). apply known_tags in H2 as (bs & (q & A1 & _) & A2).
        destruct (reads_cut _ _ _ _ A2) as (b1 & b2 & -> & A3 & _). apply begins_tags. exists b1. split; [|exact A3].
        destruct (tagpath_cut _ _ _ _ _ A1) as (r & A4). exists r. exact A4.
  Qed.

  Lemma tags_after : forall y2 y1 n, shaped (y1 ++ STag n :: y2) -> ~ In plus_sym y2 -> Forall tag_symbol y2.
  Proof.
    induction y2 as [|s y2 IH]; intros y1 n Sh Np; constructor.
    - destruct s as [k|c]; [exists k; reflexivity|]. exfalso. apply Np. left. exact (Sh y1 n c y2 eq_refl).
    - assert (T : exists k, s = STag k). { destruct s as [k|c]; [eauto|]. exfalso. apply Np. left. exact (Sh y1 n c y2 eq_refl). }
      destruct T as (k & ->). apply (IH (y1 ++ [STag n]) k).
      + now rewrite <- app_assoc.
      + intros H. apply Np. now right.
  Qed.
  Lemma looped_ends : forall y z, Forall2 agree y z -> right_symbols y -> shaped y -> ~ In plus_sym y ->
    (exists z1 n z2, z = z1 ++ STag n :: z2 /\ right_tag am n /\ D z1) -> ends D y.
  Proof.
    intros y z H R Sh Np (z1 & n & z2 & -> & Hn & Hz). apply Forall2_app_inv_r in H as (y1 & y2 & H1 & H2 & ->). inversion H2 as [|s ? y3 ? Hs H3]; subst.
    assert (s = STag n) as ->. { apply agree_tag; [exact Hs|exact Hn|]. intros k ->. apply R. apply in_or_app. right. now left. }
    exists y1, z1, (STag n :: y3). split; [reflexivity|]. split; [exact H1|]. split; [exact Hz|]. constructor; [exists n; reflexivity|].
    eapply tags_after; [exact Sh|]. intros X. apply Np. apply in_or_app. right. now right.
  Qed.
  Lemma shaped_app : forall y1 y2, shaped (y1 ++ y2) -> shaped y1 /\ shaped y2.
  Proof.
    intros y1 y2 H. split; intros u n c v ->.
    - apply (H u n c (v ++ y2)). now rewrite <- app_assoc.
    - apply (H (y1 ++ u) n c v). now rewrite <- app_assoc.
  Qed.

  Context (L : live t).
  Lemma live_begins : forall z, begins t ab z -> symbols_in t ab -> exists more, known t ab (z ++ more).
  Proof.
    intros z H S. apply begins_tags in H as (bs & (q & l & Hl & <-) & H). destruct (L _ _ Hl) as (l' & r & H1 & H2).
    assert (G : exists more, reads_as ab (map fst l') more).
    { clear - S H1. induction H1 as [p|p b w q l r Ha Hp (more & IH)]; [exists [], []; split; constructor|]. destruct (S _ _ _ _ Ha) as (x & Hx).
      destruct IH as (xs & A & B). exists (filter (fun s => negb (is_eps s)) (map fst (x :: xs))), (x :: xs). split; [constructor; assumption|reflexivity]. }
    destruct G as (more & G). exists more. apply known_tags. exists (map fst l ++ map fst l'). split; [|now apply reads_app].
    exists r. split; [|exact H2]. apply (tagpath_app _ _ _ q); [exists l; auto|exists l'; auto].
  Qed.
  Lemma reads_reads : forall bs p q z s, tagpath m p bs q -> reads_as ap bs z -> In s z -> reads_sym m ap s.
  Proof.
    intros bs p q z s (l & Hp & <-) (xs & H & <-) Hs. apply filter_In in Hs as [Hs _]. revert xs H Hs.
    induction Hp as [p|p b w q l r Ha Hp IH]; intros xs H Hs; inversion H as [|? [i o] ? ys Hx Hy]; subst; [destruct Hs|]. cbn [map fst] in *. destruct Hs as [<-|Hs]; [|eauto].
    exists p, b, q, w, o. auto.
  Qed.
  Definition no_joins : Prop := ~ reads_sym t ab plus_sym /\ ~ reads_sym t ab (STag w_any_char).
  Lemma part_no_plus : forall y z, no_joins -> Forall2 agree y z -> begins m ap z -> ~ In plus_sym y.
  Proof.
    intros y z [N1 N2] H B Hp. apply begins_tags in B as (bs & (q & H1) & H2).
    assert (G : exists s, In s z /\ agree plus_sym s). { clear - H Hp. induction H as [|a b y z Ha H IH]; [destruct Hp|]. destruct Hp as [->|Hp]; [exists b; split; [now left|exact Ha]|]. destruct (IH Hp) as (s & A & B). exists s. split; [now right|exact B]. }
    destruct G as (s & Hs & Ha). pose proof (reads_reads _ _ _ _ _ H1 H2 Hs) as Hr.
    assert (Hc : s = plus_sym \/ s = STag w_any_char). { destruct Ha as [<-|Ha]; [now left|]. destruct s as [n|c]; [|destruct Ha]. right. destruct Ha as [-> _]. reflexivity. }
    destruct (mo_reads _ _ _ _ _ M s) as [R|(n & -> & Hn)]; auto.
    - destruct Hc as [->| ->]; discriminate.
    - destruct Hc as [->| ->]; contradiction.
    - destruct Hc as [Hc|Hc]; [discriminate|]. injection Hc as ->. destruct (Pl _ Hn) as (_ & X & _). now apply X.
  Qed.
  Lemma covered_translated : forall y, symbols_in t ab -> covered m ap y -> right_symbols y -> shaped y -> no_joins \/ ~ In plus_sym y -> translated D y.
  Proof.
    intros y S H. assert (B : forall z, known m ap z -> begins m ap z).
    { intros z Hk. apply known_tags in Hk as (bs & (q & H1 & _) & H2). apply begins_tags. exists bs. split; [exists q; exact H1|exact H2]. }
    induction H as [y z H Hk|y z rest H Hb _ IH]; intros R Sh Hj.
    - apply translated_last. assert (Np : ~ In plus_sym y) by (destruct Hj as [Hj|Hj]; [eapply part_no_plus; eauto|exact Hj]).
      destruct (mo_known' _ _ _ _ _ M z Hk) as [Hz|Hz]; [|eapply looped_ends; eauto]. exists y, z, []. rewrite app_nil_r. auto.
    - apply right_symbols_app in R as [R1 R2]. apply shaped_app in Sh as [S1 S2]. change (plus_sym :: rest) with ([plus_sym] ++ rest) in R2, S2.
      apply right_symbols_app in R2 as [_ R2]. apply shaped_app in S2 as [_ S2].
      assert (Nj : no_joins). { destruct Hj as [Hj|Hj]; [exact Hj|]. exfalso. apply Hj. apply in_or_app. right. now left. }
      apply translated_part; [|auto]. assert (Np := part_no_plus _ _ Nj H Hb).
      destruct (mo_begins' _ _ _ _ _ M z Hb) as [Hz|Hz]; [|left; eapply looped_ends; eauto]. right. destruct (live_begins z Hz S) as (more & Hm). exists z, more. auto.
  Qed.
End Cover.
Lemma translated_ext : forall D D' : list symbol -> Prop, (forall z, D z -> D' z) -> forall y, translated D y -> translated D' y.
Proof.
  intros D D' E. assert (F : forall y, ends D y -> ends D' y) by (intros y (z & z' & ts & H1 & H2 & H3 & H4); exists z, z', ts; auto).
  intros y H. induction H as [y H|y rest H _ IH]; [apply translated_last; auto|apply translated_part; [|exact IH]].
  destruct H as [H|(z' & more & H1 & H2)]; [left; auto|right; exists z', more; auto].
Qed.

(** * The bilingual sections *)
Definition unioned (l : list tsection) (ms : list ustr) (w : list Z) : Prop := exists n t, In (n, t) l /\ ~ In n ms /\ lang t 0 w.
Record union_ok (l : list tsection) (ms : list ustr) (u : transducer) : Prop := {
  uo_wf : wf u;
  uo_entered : ~ entered u;
  uo_lang : forall w, lang u 0 w <-> unioned l ms w;
  uo_arcs : forall p b q w, has_arc u p b q w -> b = 0 \/ exists n t p0 q0 w0, In (n, t) l /\ ~ In n ms /\ has_arc t p0 b q0 w0;
  uo_finals : (finals u = [] /\ u = new_transducer) \/ exists w, lang u 0 w
}.
Lemma name_mem : forall name ms, existsb (str_eqb name) ms = true <-> In name ms.
Proof.
  intros name ms. rewrite existsb_exists. split.
  - intros (x & H & E). apply str_eqb_spec in E. now subst.
  - intros H. exists name. split; [exact H|]. now apply str_eqb_spec.
Qed.
Lemma moved_bi_spec : forall am ab loops ap ms, alph_inv am -> alph_inv0 ab -> createLoopbackSymbols am ab = (loops, ap) -> plain_right am ->
  forall l done_ u, Forall (fun s => dictionary_section ab (snd s)) l -> Forall (fun s => unhashed (snd s) ab) l -> union_ok done_ ms u ->
  exists N moved u', (forall fuel, (N <= fuel)%nat -> moved_bi fuel ms loops ap l u = Ok (moved, u')) /\ union_ok (done_ ++ l) ms u'
    /\ (forall n m, In (n, m) moved -> exists t, In (n, t) l /\ In n ms /\ moved_of am ab ap t m)
    /\ (forall n t, In (n, t) l -> In n ms -> exists m, In (n, m) moved).
Proof.
  intros am ab loops ap ms Im Ib El Pl. induction l as [|[name t] l IH]; intros dn u G GU U; cbn [moved_bi].
  { exists 0%nat, [], u. split; [reflexivity|]. rewrite app_nil_r. split; [exact U|]. split; [intros n m []|intros n t []]. }
  inversion G as [|? ? G1 G2]; subst. inversion GU as [|? ? GU1 GU2]; subst. cbn [snd] in G1, GU1. destruct (existsb (str_eqb name) ms) eqn:En.
  - apply name_mem in En. destruct (dictionary_moved am ab loops ap t Im Ib El Pl (ds_wf _ _ G1) (ds_symbols _ _ G1) GU1 (ds_reached _ _ G1)) as (N1 & m & Em & Mm).
    assert (U1 : union_ok (dn ++ [(name, t)]) ms u).
    { destruct U as [U1 U2 U3 U4 U5]. constructor; auto.
      - intros w. rewrite U3. split; intros (n & t' & H1 & H2 & H3); exists n, t'; (split; [|auto]); [apply in_or_app; now left|]. apply in_app_or in H1 as [H1|[[= <- <-]|[]]]; [exact H1|contradiction].
      - intros p b q w H. destruct (U4 _ _ _ _ H) as [H'|(n & t' & p0 & q0 & w0 & H1 & H2)]; [now left|right]. exists n, t', p0, q0, w0. split; [apply in_or_app; now left|exact H2]. }
    destruct (IH _ u G2 GU2 U1) as (N2 & moved & u' & E & Uo & Mo & Mc). exists (N1 + N2)%nat, ((name, m) :: moved), u'. split; [|split; [|split]].
    + intros fuel Hf. specialize (Em fuel ltac:(lia)). destruct (appendDotStar loops t) as [d| | | |] eqn:Ed; try discriminate. cbn [obind] in *. rewrite Em. cbn [obind]. rewrite (E fuel) by lia. reflexivity.
    + now rewrite <- app_assoc in Uo.
    + intros n m' [[= <- <-]|H]; [exists t; split; [now left|auto]|]. destruct (Mo n m' H) as (t' & H1 & H2). exists t'. split; [now right|exact H2].
    + intros n t' [[= <- <-]|H] Hn; [exists m; now left|]. destruct (Mc n t' H Hn) as (m' & Hm). exists m'. now right.
  - assert (Nn : ~ In name ms) by (intros X; apply name_mem in X; congruence).
    assert (STEP : exists u1, (if isEmpty u then Ok t else (let! (u0, _) := unionWith t 0 u in Ok u0)) = Ok u1 /\ union_ok (dn ++ [(name, t)]) ms u1).
    { destruct (reached_lang t (ds_finals _ _ G1) (ds_reached _ _ G1)) as (w0 & Hw0).
      assert (Ax : forall w, unioned (dn ++ [(name, t)]) ms w <-> unioned dn ms w \/ lang t 0 w).
      { intros w. split.
        - intros (n & t' & H1 & H2 & H3). apply in_app_or in H1 as [H1|[[= <- <-]|[]]]; [left; exists n, t'; auto|now right].
        - intros [(n & t' & H1 & H2)|H]; [exists n, t'; split; [apply in_or_app; now left|exact H2]|]. exists name, t. split; [apply in_or_app; right; now left|auto]. }
      destruct U as [U1 U2 U3 U4 U5]. unfold isEmpty. destruct U5 as [[F ->]|(w & Hw)].
      - cbn. exists t. split; [reflexivity|]. constructor; try apply G1.
        + intros w. rewrite Ax, <- U3. split; [now right|]. intros [(c & l0 & f & (q & _ & Hf) & _)|H]; [destruct Hf|exact H].
        + intros p b q w H. right. exists name, t, p, q, w. split; [apply in_or_app; right; now left|auto].
        + right. eauto.
      - assert (Fu : finals u <> []) by (intros F; destruct Hw as (c & l0 & f & (q & _ & Hf) & _); unfold final_wt in Hf; rewrite F in Hf; destruct Hf).
        destruct (finals u) as [|f0 fr] eqn:Ef; [contradiction|]. cbn [length Nat.eqb andb].
        destruct (union_facts t u (ds_wf _ _ G1) (ds_finals _ _ G1) U1 U2) as (u0 & u1 & E & V1 & V2 & V3 & V4). rewrite E. cbn [obind]. exists u1. split; [reflexivity|]. constructor; auto.
        + intros w'. rewrite V3, Ax, U3. reflexivity.
        + intros p b q w' H. destruct (V4 _ _ _ _ H) as [H'|(p0 & q0 & v0 & [H'|H'])]; [now left| |].
          * destruct (U4 _ _ _ _ H') as [H''|(n & t' & p1 & q1 & w1 & H1 & H2)]; [now left|right]. exists n, t', p1, q1, w1. split; [apply in_or_app; now left|exact H2].
          * right. exists name, t, p0, q0, v0. split; [apply in_or_app; right; now left|auto].
        + right. exists w. apply V3. now left. }
    destruct STEP as (u1 & E1 & U1). rewrite E1. cbn [obind]. destruct (IH _ u1 G2 GU2 U1) as (N2 & moved & u' & E & Uo & Mo & Mc). exists N2, moved, u'. split; [exact E|]. split; [now rewrite <- app_assoc in Uo|]. split.
    + intros n m H. destruct (Mo n m H) as (t' & H1 & H2). exists t'. split; [now right|exact H2].
    + intros n t' [[= <- <-]|H] Hn; [contradiction|eauto].
Qed.
