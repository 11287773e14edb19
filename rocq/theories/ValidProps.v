(** C58: which dictionaries lt-comp refuses. *)
From Verif Require Import Base AlphabetModel AlphabetProofs AlphabetProps TransducerModel TransducerSpec
  TransducerProofs ClosureProofs MinimizeProofs AutomataProps RegexpModel RegexpSpec RegexpProofs RegexpProps TrieProofs CompilerModel
  CompilerSpec CompilerProofs CompilerProps.

(** * Specification *)
(** What is read when a word is recognised: the left symbols that are not empty. *)
Definition input (w : list (Z * Z)) : list Z := filter (fun x => negb (x =? 0)) (map fst w).
(** A word which cannot be looked up: nothing is read, or a space first. *)
Definition unfit (w : list (Z * Z)) : Prop := input w = [] \/ exists r, input w = 32 :: r.
(** There is a limit for the number of spaces with which words of [X] begin. *)
Definition few_spaces (X : pset) : Prop :=
  exists n, forall w, X w -> firstn n (input w) <> repeat 32 n.

(** * Proofs *)
Lemma zidx_in : forall (l : list (Z * Z)) i p c, In (p, c) (zidx Z.of_nat i l) <-> exists j, nth_error l j = Some p /\ c = Z.of_nat (i + j).
Proof.
  induction l as [|q l IH]; intros i p c; cbn [zidx In].
  - split; [intros []|intros ([|j] & H & _); discriminate].
  - rewrite IH. split.
    + intros [H|(j & H & ->)].
      * exists 0%nat. injection H as <- <-. split; [reflexivity|]. f_equal. lia.
      * exists (S j). split; [exact H|]. f_equal. lia.
    + intros ([|j] & H & ->); cbn [nth_error] in H.
      * left. injection H as <-. do 2 f_equal. lia.
      * right. exists j. split; [exact H|]. f_equal. lia.
Qed.
Lemma left_symbols : forall a x c, alph_inv0 a -> (In c (symbolsWhereLeftIs x a) <-> exists y, decode c a = Ok (x, y)).
Proof.
  intros a x c [(_ & _ & H3 & _) _]. unfold symbolsWhereLeftIs. rewrite in_map_iff. split.
  - intros ([[x' y] c'] & E & H). cbn [snd] in E. subst c'. apply filter_In in H as [H E]. cbn [fst] in E. apply Z.eqb_eq in E. subst x'.
    exists y. rewrite H3 in H. apply zidx_in in H as (j & Hj & ->). apply decode_nth. split; [lia|]. cbn [Nat.add]. now rewrite Nat2Z.id.
  - intros (y & H). apply decode_nth in H as [H0 H]. exists ((x, y), c). split; [reflexivity|]. apply filter_In. split; [|apply Z.eqb_refl].
    rewrite H3. apply zidx_in. exists (Z.to_nat c). split; [exact H|]. cbn [Nat.add]. lia.
Qed.
Lemma decode_zero : forall a, alph_inv0 a -> decode 0 a = Ok (0, 0).
Proof. intros a [_ H]. apply decode_nth. split; [lia|exact H]. Qed.

Lemma tag_reach_path : forall t tags p q, tag_reach t tags p q -> exists l, path t p l q /\ Forall (fun x => In (fst x) tags) l.
Proof.
  intros t tags p q H. induction H as [p|p q r c w Hc Ha H (l & Hp & Hl)]; [exists []; split; constructor|].
  exists ((c, w) :: l). split; [econstructor; eauto|constructor; auto].
Qed.
Lemma path_tag_reach : forall t tags l p q, path t p l q -> Forall (fun x => In (fst x) tags) l -> tag_reach t tags p q.
Proof.
  intros t tags l p q H. induction H as [p|p c w q l r Ha H IH]; intros F; [constructor|]. inversion F; subst. econstructor; eauto.
Qed.
(** The word read off a path: what its labels mean. *)
Lemma path_reads : forall a l w, alph_inv0 a -> reads a (word_of 0 l) w ->
  Forall (fun x => exists p, decode (fst x) a = Ok p) l.
Proof.
  intros a l. induction l as [|[c v] l IH]; intros w Ha H; [constructor|]. unfold word_of in H. cbn [filter fst] in H.
  destruct (Z.eqb_spec c 0) as [->|N]; cbn [negb map fst] in H.
  - constructor; [|exact (IH w Ha H)]. exists (0, 0). now apply decode_zero.
  - inversion H as [|? p ? w' Hp Hw]; subst. constructor; [exists p; exact Hp|exact (IH w' Ha Hw)].
Qed.
Lemma reads_app : forall a u v w, reads a (u ++ v) w -> exists w1 w2, w = w1 ++ w2 /\ reads a u w1 /\ reads a v w2.
Proof. intros a u v w H. apply Forall2_app_inv_l in H as (w1 & w2 & H1 & H2 & ->). exists w1, w2. auto. Qed.
Lemma input_app : forall u v, input (u ++ v) = input u ++ input v.
Proof. intros u v. unfold input. now rewrite map_app, filter_app. Qed.
Lemma silent_input : forall a l w, alph_inv0 a -> Forall (fun x => In (fst x) (symbolsWhereLeftIs 0 a)) l -> reads a (word_of 0 l) w -> input w = [].
Proof.
  intros a l. induction l as [|[c v] l IH]; intros w Ha F H; inversion F as [|? ? F1 F2]; subst.
  - inversion H. reflexivity.
  - unfold word_of in H. cbn [filter fst] in H, F1. destruct (Z.eqb_spec c 0) as [->|N]; cbn [negb map fst] in H; [exact (IH w Ha F2 H)|].
    inversion H as [|? p ? w' Hp Hw]; subst. apply (left_symbols a 0 c Ha) in F1 as (y & Hy). assert (p = (0, y)) by congruence. subst p.
    exact (IH w' Ha F2 Hw).
Qed.
Lemma input_silent : forall a l w, alph_inv0 a -> reads a (word_of 0 l) w -> input w = [] -> Forall (fun x => In (fst x) (symbolsWhereLeftIs 0 a)) l.
Proof.
  intros a l. induction l as [|[c v] l IH]; intros w Ha H E; [constructor|].
  unfold word_of in H. cbn [filter fst] in H. destruct (Z.eqb_spec c 0) as [->|N]; cbn [negb map fst] in H.
  - constructor; [|exact (IH w Ha H E)]. apply left_symbols; auto. exists 0. now apply decode_zero.
  - inversion H as [|? [x y] ? w' Hp Hw]; subst. unfold input in E. cbn [map filter fst] in E.
    destruct (Z.eqb_spec x 0) as [->|]; cbn [negb] in E; [|discriminate].
    constructor; [|exact (IH w' Ha Hw E)]. apply left_symbols; auto. exists y. exact Hp.
Qed.
(** A word that begins with a space: the first label that is not silent has it. *)
Lemma input_space : forall a l w r, alph_inv0 a -> reads a (word_of 0 l) w -> input w = 32 :: r ->
  exists l1 c v l2, l = l1 ++ (c, v) :: l2 /\ Forall (fun x => In (fst x) (symbolsWhereLeftIs 0 a)) l1 /\ In c (symbolsWhereLeftIs 32 a).
Proof.
  intros a l. induction l as [|[c v] l IH]; intros w r Ha H E; [inversion H; subst; discriminate|].
  unfold word_of in H. cbn [filter fst] in H. destruct (Z.eqb_spec c 0) as [->|N]; cbn [negb map fst] in H.
  - destruct (IH w r Ha H E) as (l1 & c & v' & l2 & -> & F & Hc). exists ((0, v) :: l1), c, v', l2. split; [reflexivity|]. split; [|exact Hc].
    constructor; auto. apply left_symbols; auto. exists 0. now apply decode_zero.
  - inversion H as [|? [x y] ? w' Hp Hw]; subst. unfold input in E. cbn [map filter fst] in E. destruct (Z.eqb_spec x 0) as [->|]; cbn [negb] in E.
    + destruct (IH w' r Ha Hw E) as (l1 & c' & v' & l2 & -> & F & Hc). exists ((c, v) :: l1), c', v', l2. split; [reflexivity|]. split; [|exact Hc].
      constructor; auto. apply left_symbols; auto. exists y. exact Hp.
    + injection E as -> E. exists [], c, v, l. split; [reflexivity|]. split; [constructor|]. apply left_symbols; auto. exists y. exact Hp.
Qed.

Lemma tag_reach_lt : forall t tags p q, wf t -> (p < nstates t)%nat -> tag_reach t tags p q -> (q < nstates t)%nat.
Proof.
  intros t tags p q W L H. induction H as [p|p q r c w Hc Ha H IH]; [exact L|]. apply IH. exact (wf_arcs t W _ _ _ _ Ha).
Qed.

(** ** One section *)
Lemma check_starts : forall a t l, wf t -> (forall i, In i l -> (i < nstates t)%nat) ->
  forall b, exists b', fold_left (fun (acc : outcome bool) i =>
    let! ok := acc in
    if ok then
      if isFinal t i then Ok false
      else
        let! spaces := closure t i (symbolsWhereLeftIs 32 a) in
        Ok (length spaces <=? 1)%nat
    else Ok false) l (Ok b) = Ok b'
  /\ (b' = true <-> b = true /\ forall i, In i l -> ~ is_final t i /\ forall q, tag_reach t (symbolsWhereLeftIs 32 a) i q -> q = i).
Proof.
  intros a t l W. induction l as [|i l IH]; intros Hl b.
  - exists b. split; [reflexivity|]. split; [intros ->|tauto]. split; [reflexivity|]. intros i [].
  - cbn [fold_left obind]. assert (Fin : isFinal t i = true <-> is_final t i).
    { unfold isFinal, is_final, final_wt. split.
      - destruct (fin_find i (finals t)) as [f|] eqn:E; [|discriminate]. intros _. exists f. apply (fin_find_some i (finals t) f (wf_finals_sorted t W)), E.
      - intros (f & H). apply (fin_find_some i (finals t) f (wf_finals_sorted t W)) in H. now rewrite H. }
    destruct (C15_closure t i (symbolsWhereLeftIs 32 a) W (Hl i (or_introl eq_refl))) as (c & Ec & Nc & Hc).
    assert (One : (length c <=? 1)%nat = true <-> forall q, tag_reach t (symbolsWhereLeftIs 32 a) i q -> q = i).
    { assert (Hi : In i c) by (apply Hc; constructor). rewrite Nat.leb_le. split.
      - intros L q Hq. apply Hc in Hq. destruct c as [|x [|y c]]; cbn [length] in L; [destruct Hi| |lia]. destruct Hi as [->|[]], Hq as [->|[]]. reflexivity.
      - intros H. destruct c as [|x [|y c]]; cbn [length]; [lia|lia|]. exfalso. inversion Nc as [|? ? N1 _]; subst. apply N1. left.
        rewrite (H x), (H y); [reflexivity|apply Hc; cbn; auto|apply Hc; cbn; auto]. }
    assert (Hl' : forall j, In j l -> (j < nstates t)%nat) by (intros j Hj; apply Hl; now right).
    destruct b; [|destruct (IH Hl' false) as (b' & E & H); exists b'; split; [exact E|rewrite H; split; [intros [K _]; discriminate|intros [K _]; discriminate]]].
    destruct (isFinal t i) eqn:Ef.
    + destruct (IH Hl' false) as (b' & E & H). exists b'. split; [exact E|]. rewrite H. split; [intros [K _]; discriminate|]. intros [_ K].
      exfalso. apply (K i (or_introl eq_refl)). now apply Fin.
    + rewrite Ec. cbn [obind]. destruct (IH Hl' (length c <=? 1)%nat) as (b' & E & H). exists b'. split; [exact E|]. rewrite H. split.
      * intros [K1 K2]. split; [reflexivity|]. intros j [<-|Hj]; [|now apply K2]. split; [intros K; apply Fin in K; congruence|now apply One].
      * intros [_ K]. split; [apply One, (K i (or_introl eq_refl))|]. intros j Hj. apply K. now right.
Qed.
Lemma valid_section_spec : forall a t, wf t -> exists b, valid_section a t = Ok b
  /\ (b = true <-> forall i, tag_reach t (symbolsWhereLeftIs 0 a) (initial t) i ->
        ~ is_final t i /\ forall q, tag_reach t (symbolsWhereLeftIs 32 a) i q -> q = i).
Proof.
  intros a t W. unfold valid_section. destruct (C15_closure t (initial t) (symbolsWhereLeftIs 0 a) W (wf_initial t W)) as (c & Ec & _ & Hc).
  rewrite Ec. cbn [obind]. destruct (check_starts a t c W) with (b := true) as (b & Eb & Hb).
  - intros i Hi. apply Hc in Hi. exact (tag_reach_lt _ _ _ _ W (wf_initial t W) Hi).
  - exists b. split; [exact Eb|]. rewrite Hb. split.
    + intros [_ H] i Hi. apply H, Hc, Hi.
    + intros H. split; [reflexivity|]. intros i Hi. apply H, Hc, Hi.
Qed.
Section One.
  Context (a : alphabet) (t t0 : transducer) (X : pset) (Ha : alph_inv0 a) (W : wf t) (M : minimized 0 t0 t)
    (L : forall u, lang t 0 u <-> Tg a X u) (Cv : cov a X).
  Lemma accepted_word : forall l r, path t (initial t) l r -> is_final t r -> exists w, X w /\ reads a (word_of 0 l) w.
  Proof.
    intros l r P (f & F). apply L. exists (cost_of l + f), l, f. split; [exists r; auto|]. auto.
  Qed.
  Lemma word_accepted : forall w, X w -> exists l r, path t (initial t) l r /\ is_final t r /\ reads a (word_of 0 l) w.
  Proof.
    intros w Hw. destruct (Tg_some a X w Cv Hw) as (u & Hu & R). apply L in Hu as (c & l & f & (r & P & F) & <- & _).
    exists l, r. split; [exact P|]. split; [exists f; exact F|exact R].
  Qed.
  Lemma invalid_unfit : valid_section a t = Ok false -> exists w, X w /\ unfit w.
  Proof.
    intros V. destruct (valid_section_spec a t W) as (b & Eb & Hb). assert (b = false) by congruence. subst b.
    destruct (C15_closure t (initial t) (symbolsWhereLeftIs 0 a) W (wf_initial t W)) as (c & Ec & _ & Hc).
    assert (Lt : forall i, tag_reach t (symbolsWhereLeftIs 0 a) (initial t) i -> (i < nstates t)%nat).
    { intros i Hi. exact (tag_reach_lt _ _ _ _ W (wf_initial t W) Hi). }
    assert (Dec : forall l, (forall i, In i l -> tag_reach t (symbolsWhereLeftIs 0 a) (initial t) i) ->
      (exists i, In i l /\ (is_final t i \/ exists q, tag_reach t (symbolsWhereLeftIs 32 a) i q /\ q <> i))
      \/ forall i, In i l -> ~ is_final t i /\ forall q, tag_reach t (symbolsWhereLeftIs 32 a) i q -> q = i).
    { induction l as [|i l IH]; intros Hl; [right; intros i []|].
      destruct IH as [(j & Hj & K)|IH]; [intros j Hj; apply Hl; now right|left; exists j; split; [now right|exact K]|].
      destruct (fin_find i (finals t)) as [f|] eqn:Ef.
      { left. exists i. split; [now left|]. left. exists f. apply (fin_find_some i (finals t) f (wf_finals_sorted t W)), Ef. }
      assert (Nf : ~ is_final t i). { intros (f & K). apply (fin_find_some i (finals t) f (wf_finals_sorted t W)) in K. congruence. }
      destruct (C15_closure t i (symbolsWhereLeftIs 32 a) W (Lt i (Hl i (or_introl eq_refl)))) as (s & _ & _ & Hs).
      destruct (existsb (fun q => negb (q =? i)%nat) s) eqn:Ex.
      - apply existsb_exists in Ex as (q & Hq & K). left. exists i. split; [now left|]. right. exists q. split; [now apply Hs|].
        apply Bool.negb_true_iff, Nat.eqb_neq in K. exact K.
      - right. intros j [<-|Hj]; [|now apply IH]. split; [exact Nf|]. intros q Hq. apply Hs in Hq. destruct (Nat.eq_dec q i) as [|N]; [assumption|]. exfalso.
        assert (K : existsb (fun q => negb (q =? i)%nat) s = true) by (apply existsb_exists; exists q; split; [exact Hq|]; apply Bool.negb_true_iff, Nat.eqb_neq, N).
        congruence. }
    destruct (Dec c) as [(i & Hi & K)|K]; [intros i Hi; now apply Hc| |].
    2:{ assert (false = true); [|discriminate]. apply Hb. intros i Hi. apply K, Hc, Hi. }
    apply Hc in Hi. destruct (tag_reach_path _ _ _ _ Hi) as (l1 & P1 & F1). destruct K as [K|(q & Hq & N)].
    - destruct (accepted_word l1 i P1 K) as (w & Hw & R). exists w. split; [exact Hw|]. left. exact (silent_input a l1 w Ha F1 R).
    - inversion Hq as [|? q' ? x v Hx Hr Hq']; subst; [congruence|].
      destruct (minimized_coaccessible 0 t0 t q' M (wf_arcs t W _ _ _ _ Hr)) as (l2 & f & r & P2 & F2).
      destruct (accepted_word (l1 ++ (x, v) :: l2) r) as (w & Hw & R).
      + eapply path_app; [exact P1|]. econstructor; eauto.
      + exists f. exact F2.
      + exists w. split; [exact Hw|]. right. rewrite word_app in R. apply reads_app in R as (w1 & w2 & -> & R1 & R2).
        rewrite input_app, (silent_input a l1 w1 Ha F1 R1). apply (left_symbols a 32 x Ha) in Hx as (y & Hy).
        assert (Nx : x <> 0). { intros ->. rewrite (decode_zero a Ha) in Hy. discriminate. }
        unfold word_of in R2. cbn [filter fst] in R2. destruct (Z.eqb_spec x 0); [contradiction|]. cbn [negb map fst] in R2.
        inversion R2 as [|? p ? w3 Hp R3]; subst. assert (p = (32, y)) by congruence. subst p. eexists. reflexivity.
  Qed.
  Lemma empty_invalid : forall w, X w -> input w = [] -> valid_section a t = Ok false.
  Proof.
    intros w Hw E. destruct (word_accepted w Hw) as (l & r & P & F & R). destruct (valid_section_spec a t W) as (b & Eb & Hb).
    destruct b; [|exact Eb]. exfalso. destruct (proj1 Hb eq_refl r) as [K _]; [|exact (K F)].
    eapply path_tag_reach; [exact P|]. exact (input_silent a l w Ha R E).
  Qed.
  Lemma space_invalid : few_spaces X -> forall w r, X w -> input w = 32 :: r -> valid_section a t = Ok false.
  Proof.
    intros (n & Hn) w z Hw E. destruct (word_accepted w Hw) as (l & r & P & F & R). destruct (valid_section_spec a t W) as (b & Eb & Hb).
    destruct b; [|exact Eb]. exfalso. destruct (input_space a l w z Ha R E) as (l1 & c & v & l2 & -> & F1 & Hc).
    apply path_app_inv in P as (i & P1 & P2). inversion P2 as [|? ? ? q ? ? Hr P3]; subst.
    destruct (proj1 Hb eq_refl i) as [_ K]; [eapply path_tag_reach; eauto|].
    assert (q = i). { apply K. eapply tr_step; [exact Hc|exact Hr|constructor]. } subst q.
    assert (Loop : forall k, path t i (repeat (c, v) k) i). { induction k; cbn [repeat]; [constructor|econstructor; eauto]. }
    destruct (accepted_word (l1 ++ repeat (c, v) n ++ l2) r) as (w' & Hw' & R').
    - eapply path_app; [exact P1|]. eapply path_app; [apply Loop|exact P3].
    - exact F.
    - apply (Hn w' Hw'). rewrite word_app in R'. apply reads_app in R' as (w1 & w2 & -> & R1 & R2). rewrite input_app, (silent_input a l1 w1 Ha F1 R1).
      rewrite word_app in R2. apply reads_app in R2 as (w3 & w4 & -> & R3 & R4). rewrite input_app. cbn [app].
      assert (Es : input w3 = repeat 32 n).
      { apply (left_symbols a 32 c Ha) in Hc as (y & Hy). assert (Nx : c <> 0). { intros ->. rewrite (decode_zero a Ha) in Hy. discriminate. }
        clear - R3 Hy Nx. revert w3 R3. induction n as [|n IH]; intros w3 R3; cbn [repeat] in R3; [inversion R3; reflexivity|].
        unfold word_of in R3. cbn [filter fst] in R3. destruct (Z.eqb_spec c 0); [contradiction|]. cbn [negb map fst] in R3.
        inversion R3 as [|? p ? w4 Hp R4]; subst. assert (p = (32, y)) by congruence. subst p. change (input ((32, y) :: w4)) with (32 :: input w4). cbn [repeat]. f_equal. now apply IH. }
      rewrite Es. replace n with (length (repeat 32 n)) at 1 by apply repeat_length. now rewrite firstn_app, Nat.sub_diag, firstn_all, app_nil_r.
  Qed.
End One.

(** ** Dictionaries *)
Lemma valid_all : forall a m, (forall n t, In (n, t) m -> wf t) ->
  exists b, valid a m = Ok b /\ (b = false <-> exists n t, In (n, t) m /\ valid_section a t = Ok false).
Proof.
  intros a m. induction m as [|[n t] m IH]; intros W.
  - exists true. split; [reflexivity|]. split; [discriminate|intros (n & t & [] & _)].
  - destruct IH as (b & Eb & Hb); [intros k u Hk; apply (W k u); now right|].
    destruct (valid_section_spec a t (W n t (or_introl eq_refl))) as (c & Ec & _). cbn [valid]. rewrite Ec. cbn [obind]. destruct c.
    + exists b. split; [exact Eb|]. rewrite Hb. split; intros (k & u & Hk & V); exists k, u; (split; [|exact V]); [now right|].
      destruct Hk as [Hk|Hk]; [|exact Hk]. assert (u = t) by congruence. subst u. congruence.
    + exists false. split; [reflexivity|]. split; [|reflexivity]. intros _. exists n, t. split; [now left|exact Ec].
Qed.
Lemma parse_cases : forall ops s items, acx s = [] -> sep s = None -> dict_ok (lr s) (fun _ => no_words) [] items ->
  exists a m, compile s (after ops) (dict_events items) = Ok (a, m) /\ alph_inv0 a
    /\ (forall n t, In (n, t) m -> let X := section_set (lr s) (fun _ => no_words) items n in
          wf t /\ cov a X /\ (forall u, lang t 0 u <-> Tg a X u) /\ exists t0, minimized 0 t0 t)
    /\ (forall n w, section_set (lr s) (fun _ => no_words) items n w -> exists t, In (n, t) m)
    /\ ((parse s (after ops) (dict_events items) = Ok (a, m) /\ forall n t, In (n, t) m -> valid_section a t = Ok true)
        \/ (parse s (after ops) (dict_events items) = Exit /\ exists n t, In (n, t) m /\ valid_section a t = Ok false)).
Proof.
  intros ops s items Hx Hs Ho. destruct (compile_ok s (after ops) items Hx Hs (after_inv ops) Ho) as (a & m & E & Ha & _ & N & H).
  assert (All : forall n t, In (n, t) m -> let X := section_set (lr s) (fun _ => no_words) items n in
          wf t /\ cov a X /\ (forall u, lang t 0 u <-> Tg a X u) /\ exists t0, minimized 0 t0 t).
  { intros n t Hin. apply (name_in_find _ _ _ N) in Hin. destruct (H n) as [Cv Hn]. rewrite Hin in Hn. destruct Hn as (W & _ & L & M).
    split; [exact W|]. split; [exact Cv|]. split; [exact L|exact M]. }
  exists a, m. split; [exact E|]. split; [exact Ha|]. split; [exact All|]. split.
  { intros n w Hw. destruct (H n) as [_ Hn]. destruct (name_find n m) as [t|] eqn:Ef; [|now apply Hn in Hw]. exists t. exact (name_find_in _ _ _ Ef). }
  unfold parse. rewrite E. cbn [obind]. destruct (valid_all a m) as (b & Eb & Hb); [intros n t Hin; apply (All n t Hin)|]. rewrite Eb. cbn [obind].
  destruct b; [left|right].
  - split; [reflexivity|]. intros n t Hin. destruct (valid_section_spec a t) as (c & Ec & _); [apply (All n t Hin)|]. destruct c; [exact Ec|].
    assert (true = false); [|discriminate]. apply Hb. exists n, t. auto.
  - split; [reflexivity|]. now apply Hb.
Qed.

(** A dictionary is refused only if one of its words is not fit for look-up; otherwise the
    result is the one compiled. *)
Theorem C58_refused : forall ops s items, acx s = [] -> sep s = None -> dict_ok (lr s) (fun _ => no_words) [] items ->
  (exists r, parse s (after ops) (dict_events items) = Ok r /\ compile s (after ops) (dict_events items) = Ok r)
  \/ (parse s (after ops) (dict_events items) = Exit
      /\ exists name w, section_set (lr s) (fun _ => no_words) items name w /\ unfit w).
Proof.
  intros ops s items Hx Hs Ho. destruct (parse_cases ops s items Hx Hs Ho) as (a & m & E & Ha & All & _ & [[P _]|[P (n & t & Hin & V)]]).
  - left. exists (a, m). auto.
  - right. split; [exact P|]. destruct (All n t Hin) as (W & _ & L & t0 & M). destruct (invalid_unfit a t t0 _ Ha W M L V) as (w & Hw & U). exists n, w. auto.
Qed.
(** It is refused if a word has nothing on the side that is read. *)
Theorem C58_empty : forall ops s items name w, acx s = [] -> sep s = None -> dict_ok (lr s) (fun _ => no_words) [] items ->
  section_set (lr s) (fun _ => no_words) items name w -> input w = [] -> parse s (after ops) (dict_events items) = Exit.
Proof.
  intros ops s items name w Hx Hs Ho Hw Ei. destruct (parse_cases ops s items Hx Hs Ho) as (a & m & E & Ha & All & Some & [[P V]|[P _]]); [|exact P].
  destruct (Some name w Hw) as (t & Hin). destruct (All name t Hin) as (W & Cv & L & _).
  pose proof (empty_invalid a t _ Ha W L Cv w Hw Ei). rewrite (V name t Hin) in H. discriminate.
Qed.
(** If the words of no section begin with arbitrarily many spaces, it is refused exactly if
    one of its words is not fit for look-up. *)
Theorem C58_exact : forall ops s items, acx s = [] -> sep s = None -> dict_ok (lr s) (fun _ => no_words) [] items ->
  (forall name, few_spaces (section_set (lr s) (fun _ => no_words) items name)) ->
  (parse s (after ops) (dict_events items) = Exit <->
   exists name w, section_set (lr s) (fun _ => no_words) items name w /\ unfit w).
Proof.
  intros ops s items Hx Hs Ho Fs. split.
  - intros P. destruct (C58_refused ops s items Hx Hs Ho) as [(r & P' & _)|[_ H]]; [congruence|exact H].
  - intros (name & w & Hw & [Ei|(r & Ei)]); [exact (C58_empty ops s items name w Hx Hs Ho Hw Ei)|].
    destruct (parse_cases ops s items Hx Hs Ho) as (a & m & E & Ha & All & Some & [[P V]|[P _]]); [|exact P].
    destruct (Some name w Hw) as (t & Hin). destruct (All name t Hin) as (W & Cv & L & _).
    pose proof (space_invalid a t _ Ha W L Cv (Fs name) w r Hw Ei). rewrite (V name t Hin) in H. discriminate.
Qed.

(** * What does not hold *)
(** After an insertion on the other side a regular expression that begins with a repeated space
    is accepted, though there are words that begin with a space. *)
Definition spaces_first : list item := [Sec [109] [[Single [] [120] 0; Regexp [32; 42; 97]]]].
Theorem C58_loop_refuted :
  (exists r, parse plain new_alphabet (dict_events spaces_first) = Ok r)
  /\ exists w, section_set true (fun _ => no_words) spaces_first [109] w /\ unfit w.
Proof.
  split; [eexists; vm_compute; reflexivity|]. exists [(0, 120); (32, 32); (97, 97)]. split; [|right; eexists; reflexivity].
  left. split; [reflexivity|]. exists [Single [] [120] 0; Regexp [32; 42; 97]]. split; [now left|]. exists [(0, 120)], [(32, 32); (97, 97)].
  split; [reflexivity|]. split; [reflexivity|]. exists [(32, 32); (97, 97)], []. split; [reflexivity|]. split; [|reflexivity].
  assert (P : forall c, ~ In c reserved -> g_atom (Chr c) [c]) by (intros c H; now apply g_chr, g_plain_char).
  exists (Cat (Star (Chr 32)) (Chr 97)), [32; 97]. split; [|split; [split; exact I|split; [|reflexivity]]].
  - apply g_one. change [32; 42; 97] with (([32] ++ [42]) ++ [97]).
    apply g_cat; [apply g_star, P|apply g_term, g_plain, P]; cbn; lia.
  - exists [32], [97]. split; [reflexivity|]. split; [|reflexivity]. apply (star_more _ [32] []); [reflexivity|constructor].
Qed.

(** * Examples *)
(** Words for look-up, in both directions; "c" has nothing on the right side and " b" begins
    with a space. *)
Definition sound_dict : list item := [Pardef [80] [[Single [115] [60] 0]; [Single [] [62] 0]]; Sec [109] [[Single [97; 32] [98] 0; Paradigm [80]]]].
Definition empty_dict : list item := [Sec [109] [[Single [97] [98] 0]]; Sec [110] [[Single [99] [] 0]]].
Definition space_dict : list item := [Sec [109] [[Single [97] [98] 0]; [Single [] [100] 0; Single [32; 98] [98] 0]]].
Definition right_left : settings := mkSet false [] None.
Example C58_exact_example :
  (forall lr, dict_ok lr (fun _ => no_words) [] sound_dict /\ dict_ok lr (fun _ => no_words) [] empty_dict /\ dict_ok lr (fun _ => no_words) [] space_dict)
  /\ (forall lr name, few_spaces (section_set lr (fun _ => no_words) space_dict name))
  /\ (exists r, parse plain new_alphabet (dict_events sound_dict) = Ok r)
  /\ (exists r, parse right_left new_alphabet (dict_events sound_dict) = Ok r)
  /\ (exists r, parse plain new_alphabet (dict_events empty_dict) = Ok r) /\ parse right_left new_alphabet (dict_events empty_dict) = Exit
  /\ parse plain new_alphabet (dict_events space_dict) = Exit /\ (exists r, parse right_left new_alphabet (dict_events space_dict) = Ok r).
Proof.
  split.
  { intros lr. split; [|split].
    - cbn [dict_ok sound_dict]. split; [discriminate|]. split; [intros []|]. split; [repeat constructor; cbn; lia|]. split.
      + exists (if lr then [(115, 60)] else [(60, 115)]). exists [Single [115] [60] 0]. split; [now left|]. exists (if lr then [(115, 60)] else [(60, 115)]), [].
        rewrite app_nil_r. destruct lr; repeat split.
      + split; [|exact I]. constructor; [|constructor]. split; [cbn; lia|]. split; [|exact I]. split; [now left|discriminate].
    - split; [constructor; [|constructor]; split; [cbn; lia|exact I]|]. split; [constructor; [|constructor]; split; [cbn; lia|exact I]|exact I].
    - split; [|exact I]. repeat (apply Forall_cons || apply Forall_nil); repeat split; cbn; lia. }
  split.
  { intros lr name. exists 2%nat. intros w [[_ (els & [<-|[<-|[]]] & H)]|[]]; cbn [entry_set element_set] in H.
    - destruct H as (u & v & -> & -> & ->). destruct lr; discriminate.
    - destruct H as (u & v & -> & -> & (u' & v' & -> & -> & ->)). destruct lr; discriminate. }
  repeat split; try (eexists; vm_compute; reflexivity); vm_compute; reflexivity.
Qed.
Example C58_empty_example : section_set false (fun _ => no_words) empty_dict [110] [(0, 99)] /\ input [(0, 99)] = [] /\ unfit [(0, 100); (32, 98); (98, 98)].
Proof.
  split; [|split; [reflexivity|right; eexists; reflexivity]]. right. left. split; [reflexivity|]. exists [Single [99] [] 0]. split; [now left|].
  exists [(0, 99)], []. repeat split.
Qed.

Print Assumptions C58_refused.
Print Assumptions C58_empty.
Print Assumptions C58_exact.
Print Assumptions C58_loop_refuted.
