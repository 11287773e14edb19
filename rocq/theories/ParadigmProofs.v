(** lt-paradigm (ParadigmModel.v): walks through the trimmed transducer, and the transducer of
    a pattern. *)
From Verif Require Import Base CompressionModel SerialiserModel AlphabetModel AlphabetProofs TransducerModel
  TransducerSpec TransducerProofs ReverseProofs NatSets SortedVectorModel RelabelModel RelabelSpec RelabelProofs ComposeModel ComposeSpec ComposeProofs
  AutomataProps ComposeProps TrimModel SearchProofs TrimSpec TrimProofs TrimProps ParadigmModel ParadigmSpec.

Lemma filter_le : forall {X} (p p' : X -> bool) l, (forall z, p' z = true -> p z = true) -> (length (filter p' l) <= length (filter p l))%nat.
Proof.
  intros X p p' l H. induction l as [|x l IH]; cbn [filter length]; [lia|]. specialize (H x). destruct (p' x); [rewrite (H eq_refl); cbn [length]; lia|]. destruct (p x); cbn [length]; lia.
Qed.

(** * Walks *)
Section Walks.
  Context (t : transducer) (a : alphabet).
  Inductive walk : list nat -> nat -> list Z -> nat -> Prop :=
  | walk_nil past s : walk past s [] s
  | walk_cons past s b q w l r : has_arc t s b q w -> ~ In q past -> walk (s :: past) q l r -> walk past s (b :: l) r.

  Definition printed (syms : list Z) (x : line) : Prop := sides syms a = Ok (snd x, fst x) /\ fst x <> [] /\ snd x <> [].
  Lemma here_lines : forall s syms out, here t a s syms = Ok out -> forall x, In x out <-> isFinal t s = true /\ printed syms x.
  Proof.
    intros s syms out H x. unfold here, printed in *. destruct (isFinal t s); [|injection H as <-; split; [intros []|intros [K _]; discriminate K]].
    destruct (sides syms a) as [[l r]| | | |]; try discriminate. cbn [obind] in H. injection H as <-. destruct x as [xr xl]. cbn [fst snd].
    destruct l as [|c l]; [|destruct r as [|d r]].
    - split; [intros []|]. intros (_ & E & _ & K). injection E as <- <-. congruence.
    - split; [intros []|]. intros (_ & E & K & _). injection E as <- <-. congruence.
    - cbn [In]. split.
      + intros [E|[]]. injection E as <- <-. split; [reflexivity|]. split; [reflexivity|]. split; discriminate.
      + intros (_ & E & _). injection E as <- <-. now left.
  Qed.

  Lemma expand_lines : forall fuel s past syms out, expand fuel t a s past syms = Ok out ->
    forall x, In x out <-> exists l q, walk past s l q /\ isFinal t q = true /\ printed (syms ++ l) x.
  Proof.
    induction fuel as [|fuel IH]; intros s past syms out E x; [discriminate|]. cbn [expand] in E.
    destruct (here t a s syms) as [first| | | |] eqn:Eh; try discriminate. cbn [obind] in E.
    match type of E with context [obind (?f (arcs_of t s)) _] => set (F := f) in E end.
    destruct (F (arcs_of t s)) as [rest| | | |] eqn:Er; try discriminate. cbn [obind] in E. injection E as <-.
    assert (R : forall arcs rest, F arcs = Ok rest -> forall x, In x rest <->
      exists b q w l r, In (b, (q, w)) arcs /\ ~ In q past /\ walk (s :: past) q l r /\ isFinal t r = true /\ printed (syms ++ b :: l) x).
    { clear - IH. induction arcs as [|[b [q w]] arcs IHa]; intros rest Er x.
      - cbn in Er. injection Er as <-. split; [intros []|]. intros (b & q & w & l & r & [] & _).
      - cbn [F] in Er. fold F in Er. change (a_dst (b, (q, w))) with q in Er. change (a_tag (b, (q, w))) with b in Er.
        destruct (set_mem q past) eqn:M.
        + rewrite (IHa _ Er). split.
          * intros (b' & q' & w' & l & r & H & K). exists b', q', w', l, r. split; [now right|exact K].
          * intros (b' & q' & w' & l & r & [H|H] & Hn & K); [|exists b', q', w', l, r; auto]. injection H as <- <- <-. exfalso. apply Hn. now apply set_mem_spec.
        + destruct (expand fuel t a q (s :: past) (syms ++ [b])) as [y| | | |] eqn:Ey; try discriminate. cbn [obind] in Er.
          destruct (F arcs) as [ys| | | |] eqn:Eys; try discriminate. cbn [obind] in Er. injection Er as <-.
          rewrite in_app_iff, (IH _ _ _ _ Ey), (IHa _ eq_refl). split.
          * intros [(l & r & W & Fi & P)|(b' & q' & w' & l & r & H & K)].
            -- rewrite <- app_assoc in P. exists b, q, w, l, r. split; [now left|]. split; [|auto]. intros Hq. apply set_mem_spec in Hq. congruence.
            -- exists b', q', w', l, r. split; [now right|exact K].
          * intros (b' & q' & w' & l & r & [H|H] & Hn & W & Fi & P); [|right; exists b', q', w', l, r; auto]. injection H as <- <- <-.
            left. exists l, r. rewrite <- app_assoc. auto. }
    rewrite in_app_iff, (here_lines _ _ _ Eh), (R _ _ Er). split.
    - intros [[Fi P]|(b & q & w & l & r & H & Hn & W & Fi & P)].
      + exists [], s. split; [constructor|]. rewrite app_nil_r. auto.
      + exists (b :: l), r. split; [econstructor; eauto|auto].
    - intros (l & q & W & Fi & P). inversion W as [past0 s0|past0 s0 b q0 w l0 r Ha Hn W']; subst.
      + left. rewrite app_nil_r in P. auto.
      + right. exists b, q0, w, l0, q. auto.
  Qed.

  (** ** The search ends *)
  Context (Wt : wf t) (St : symbols_in t a).
  Lemma sides_ok : forall syms, Forall (fun b => exists x, as_symbols a b x) syms -> exists lr, sides syms a = Ok lr.
  Proof.
    induction syms as [|b syms IH]; intros H; [eexists; reflexivity|]. inversion H as [|? ? (x & l & r & D & L & R) Hs]; subst. cbn [sides]. rewrite D. cbn [obind].
    destruct (IH Hs) as ([ls rs] & ->). assert (G : forall s y, as_symbol a s y -> exists n, getSymbol s a = Ok n).
    { intros s [n|c]; cbn; [intros [_ K]; eauto|]. intros [K _]. unfold getSymbol. destruct (s =? 0); [eauto|]. replace (s <? 0) with false by lia. eauto. }
    destruct (G _ _ L) as (l1 & ->). destruct (G _ _ R) as (r1 & ->). cbn [obind]. eauto.
  Qed.
  Definition left (past : list nat) : nat := length (filter (fun q => negb (set_mem q past)) (seq 0 (nstates t))).
  Lemma expand_ends : forall fuel s past syms, (s < nstates t)%nat -> (2 * left past + (if set_mem s past then 1 else 0) < fuel)%nat ->
    Forall (fun b => exists x, as_symbols a b x) syms -> exists out, expand fuel t a s past syms = Ok out.
  Proof.
    induction fuel as [|fuel IH]; intros s past syms Hs Hf Hy; [lia|]. cbn [expand].
    assert (Eh : exists first, here t a s syms = Ok first).
    { unfold here. destruct (isFinal t s); [|eauto]. destruct (sides_ok syms Hy) as ([l r] & ->). cbn [obind]. eauto. }
    destruct Eh as (first & ->). cbn [obind].
    match goal with |- context [obind (?f (arcs_of t s)) _] => set (F := f) end.
    enough (R : forall arcs, (forall e, In e arcs -> In e (arcs_of t s)) -> exists rest, F arcs = Ok rest).
    { destruct (R _ (fun e H => H)) as (rest & ->). cbn [obind]. eauto. }
    induction arcs as [|[b [q w]] arcs IHa]; intros Hin; [eexists; reflexivity|]. cbn [F]. fold F. change (a_dst (b, (q, w))) with q. change (a_tag (b, (q, w))) with b.
    destruct (IHa (fun e H => Hin e (or_intror H))) as (ys & Eys). destruct (set_mem q past) eqn:M; [eauto|].
    assert (Ha : has_arc t s b q w) by (apply Hin; now left).
    assert (Ls : set_mem s past = false -> (left (s :: past) < left past)%nat).
    { intros Ms. unfold left. apply (filter_less _ _ _ s).
      - intros z Hz. apply negb_true_iff in Hz. apply negb_true_iff. destruct (set_mem z past) eqn:Mz; [|reflexivity]. exfalso. apply set_mem_spec in Mz.
        assert (K : set_mem z (s :: past) = true) by (apply set_mem_spec; now right). congruence.
      - apply in_seq. lia.
      - now rewrite Ms.
      - apply negb_false_iff. apply set_mem_spec. now left. }
    assert (Le : (left (s :: past) <= left past)%nat).
    { unfold left. apply filter_le. intros z Hz. apply negb_true_iff in Hz. apply negb_true_iff. destruct (set_mem z past) eqn:Mz; [|reflexivity]. exfalso. apply set_mem_spec in Mz.
      assert (K : set_mem z (s :: past) = true) by (apply set_mem_spec; now right). congruence. }
    destruct (IH q (s :: past) (syms ++ [b])) as (y & ->).
    - eapply (wf_arcs _ Wt); eauto.
    - destruct (set_mem s past) eqn:Ms.
      + replace (set_mem q (s :: past)) with false; [lia|]. symmetry. destruct (set_mem q (s :: past)) eqn:K; [|reflexivity].
        apply set_mem_spec in K as [->|K]; [congruence|]. apply set_mem_spec in K. congruence.
      + specialize (Ls eq_refl). destruct (set_mem q (s :: past)); lia.
    - apply Forall_app. split; [exact Hy|]. constructor; [|constructor]. eapply St; eauto.
    - cbn [obind]. rewrite Eys. cbn [obind]. eauto.
  Qed.
End Walks.

Lemma expand_more : forall t a fuel fuel' s past syms out, (fuel <= fuel')%nat -> expand fuel t a s past syms = Ok out -> expand fuel' t a s past syms = Ok out.
Proof.
  intros t a. induction fuel as [|fuel IH]; intros [|fuel'] s past syms out Hle E; try discriminate; [lia|]. cbn [expand] in *.
  destruct (here t a s syms) as [first| | | |]; try discriminate. cbn [obind] in *.
  match type of E with context [obind (?f (arcs_of t s)) _] => set (F := f) in E end.
  match goal with |- context [obind (?f (arcs_of t s)) _] => set (G := f) end.
  assert (R : forall arcs rest, F arcs = Ok rest -> G arcs = Ok rest).
  { induction arcs as [|[b [q w]] arcs IHa]; intros rest Er; [exact Er|]. cbn [F G] in *. fold F in Er. fold G. change (a_dst (b, (q, w))) with q in *. change (a_tag (b, (q, w))) with b in *.
    destruct (set_mem q past); [now apply IHa|]. destruct (expand fuel t a q (s :: past) (syms ++ [b])) as [y| | | |] eqn:Ey; try discriminate.
    rewrite (IH fuel' _ _ _ _ ltac:(lia) Ey). cbn [obind] in *. destruct (F arcs) as [ys| | | |] eqn:Eys; try discriminate. now rewrite (IHa _ eq_refl). }
  destruct (F (arcs_of t s)) as [rest| | | |] eqn:Er; try discriminate. now rewrite (R _ _ Er).
Qed.
Lemma path_app : forall t p l q, path t p l q -> forall l' r, path t q l' r -> path t p (l ++ l') r.
Proof. intros t p l q H. induction H as [p|p b w q l r Ha Hp IH]; intros l' r' H'; [exact H'|]. cbn [app]. econstructor; eauto. Qed.
Lemma walk_path : forall t past s l q, walk t past s l q -> exists l', path t s l' q /\ map fst l' = l.
Proof. intros t past s l q H. induction H as [past s|past s b q w l r Ha _ _ (l' & H1 & H2)]; [exists []; split; [constructor|reflexivity]|]. exists ((b, w) :: l'). split; [econstructor; eauto|cbn; now rewrite H2]. Qed.
Lemma path_walk : forall t, acyclic t -> forall s l q, path t s l q -> forall past, (forall p, In p past -> exists l0, l0 <> [] /\ path t p l0 s) -> walk t past s (map fst l) q.
Proof.
  intros t A s l q H. induction H as [s|s b w q l r Ha Hp IH]; intros past Hb; cbn [map fst]; [constructor|].
  assert (H1 : path t s [(b, w)] q) by (econstructor; [exact Ha|constructor]).
  apply (walk_cons t past s b q w _ _ Ha).
  - intros Hq. destruct (Hb q Hq) as (l0 & _ & H0). pose proof (A _ _ (path_app _ _ _ _ H0 _ _ H1)) as K. destruct l0; discriminate K.
  - apply IH. intros p [<-|Hp']; [exists [(b, w)]; split; [discriminate|exact H1]|]. destruct (Hb p Hp') as (l0 & _ & H0). exists (l0 ++ [(b, w)]).
    split; [destruct l0; discriminate|]. exact (path_app _ _ _ _ H0 _ _ H1).
Qed.
Lemma shown_app : forall x y, shown (x ++ y) = shown x ++ shown y.
Proof. intros x y. unfold shown. now rewrite map_app, concat_app. Qed.
Definition small (s : symbol) : Prop := forall c, s = SChar c -> c < 1114112.
Lemma symbol_shown : forall a s x, as_symbol a s x -> small x -> getSymbol s a = Ok (shown (vis x)).
Proof.
  intros a s [n|c] H Hc; cbn [as_symbol] in H.
  - destruct H as [_ H]. rewrite H. unfold vis, shown. cbn. now rewrite app_nil_r.
  - destruct H as [H <-]. specialize (Hc s eq_refl). unfold getSymbol, vis. destruct (s =? 0) eqn:E; [replace s with 0 by lia; reflexivity|]. replace (s <? 0) with false by lia.
    replace (is_eps (SChar s)) with false by (cbn; destruct s; [discriminate E|reflexivity|lia]). unfold shown. cbn [map concat sym_text]. rewrite app_nil_r. unfold append_cp. cbn [app].
    destruct (s <=? 65535) eqn:E1.
    + replace (s <? 65536) with true by lia. rewrite Z.mod_small by lia. reflexivity.
    + replace (s <? 65536) with false by lia. change 0x10000 with 65536. change 0xD800 with 55296. change 0xDC00 with 56320. change 0x3FF with (Z.ones 10).
      rewrite Z.land_ones, Z.shiftr_div_pow2 by lia. change (2 ^ 10) with 1024.
      assert (B : 0 <= (s - 65536) / 1024 < 1024) by (split; [apply Z.div_pos; lia|apply Z.div_lt_upper_bound; lia]).
      assert (M : s mod 1024 = (s - 65536) mod 1024) by (replace s with (s - 65536 + 64 * 1024) at 1 by lia; now rewrite Z.mod_add by lia).
      rewrite M. pose proof (Z.mod_pos_bound (s - 65536) 1024 ltac:(lia)). rewrite !Z.mod_small by lia. reflexivity.
Qed.
Lemma sides_shown : forall a l tr, Forall2 (fun (e : label) (x : (symbol * symbol) * Z) => as_symbols a (fst e) (fst x) /\ snd e = snd x) l tr ->
  (forall x, In x tr -> small (fst (fst x)) /\ small (snd (fst x))) -> sides (map fst l) a = Ok (shown (sym_in tr), shown (sym_out tr)).
Proof.
  intros a l tr H. induction H as [|[b w] [[x y] w'] l tr [(cl & cr & D & L & R) _] H IH]; intros Hs; [reflexivity|]. cbn [map fst snd sides] in *.
  destruct (Hs _ (or_introl eq_refl)) as [S1 S2]. cbn [fst snd] in *. rewrite D. cbn [obind]. rewrite (symbol_shown _ _ _ L S1), (symbol_shown _ _ _ R S2). cbn [obind].
  rewrite IH by (intros z Hz; apply Hs; now right). cbn [obind]. rewrite sym_in_cons, sym_out_cons. cbn [fst snd]. now rewrite !shown_app.
Qed.

(** What is printed for a transducer *)
Lemma isFinal_spec : forall t p, wf t -> (isFinal t p = true <-> is_final t p).
Proof.
  intros t p W. unfold isFinal, is_final. split.
  - destruct (fin_find p (finals t)) as [f|] eqn:E; [|discriminate]. intros _. exists f. now apply (fin_find_some _ _ _ (wf_finals_sorted _ W)).
  - intros (f & H). apply (fin_find_some _ _ _ (wf_finals_sorted _ W)) in H. now rewrite H.
Qed.
Lemma expand_words : forall t a, wf t -> symbols_in t a -> (forall x y c, srel t a x y c -> Forall small x /\ Forall small y) ->
  exists out N, (forall fuel, (N <= fuel)%nat -> expand fuel t a (initial t) [] [] = Ok out)
    /\ (forall r l, In (r, l) out -> exists x y c, srel t a x y c /\ r = shown y /\ l = shown x /\ r <> [] /\ l <> [])
    /\ (acyclic t -> forall r l x y c, srel t a x y c -> r = shown y -> l = shown x -> r <> [] -> l <> [] -> In (r, l) out).
Proof.
  intros t a W St C. destruct (expand_ends t a W St (S (2 * nstates t + 1)) (initial t) [] []) as (out & E).
  - apply W.
  - assert (K : (left t [] <= nstates t)%nat).
    { unfold left. assert (L : forall l : list nat, length (filter (fun _ => true) l) = length l) by (induction l; cbn; auto).
      rewrite <- (seq_length (nstates t) 0) at 2. rewrite <- (L (seq 0 (nstates t))). apply filter_le. auto. }
    replace (set_mem (initial t) []) with false by reflexivity. lia.
  - constructor.
  - assert (SM : forall tr q f, trace (as_symbols a) t (initial t) tr q -> final_wt t q f -> forall x, In x tr -> small (fst (fst x)) /\ small (snd (fst x))).
    { intros tr q f H Hf x Hx. destruct (C (sym_in tr) (sym_out tr) (weight_of tr + f)) as [C1 C2]; [exists tr, f; split; [exists q; auto|auto]|].
      rewrite Forall_forall in C1, C2.
      assert (G : forall s, is_eps s = true -> small s) by (intros [n|[| |]] Hs; try discriminate Hs; intros c [= <-]; lia).
      split; [destruct (is_eps (fst (fst x))) eqn:E0; [auto|apply C1]|destruct (is_eps (snd (fst x))) eqn:E0; [auto|apply C2]];
        (apply filter_In; split; [apply in_map_iff; exists x; auto|now rewrite E0]). }
    exists out, (S (2 * nstates t + 1)). split; [intros fuel Hf; exact (expand_more _ _ _ _ _ _ _ _ Hf E)|]. split.
    + intros r l H. apply (expand_lines t a _ _ _ _ _ E) in H as (tags & q & Hw & Hq & P1 & P2 & P3). cbn [fst snd app] in *.
      apply walk_path in Hw as (l' & Hp & <-). apply isFinal_spec in Hq as (f & Hf); [|exact W].
      assert (T : exists tr, Forall2 (fun (e : label) (x : (symbol * symbol) * Z) => as_symbols a (fst e) (fst x) /\ snd e = snd x) l' tr).
      { clear - Hp St. induction Hp as [p|p b w q l r Ha _ (tr & IH)]; [exists []; constructor|]. destruct (St _ _ _ _ Ha) as (x & Hx). exists ((x, w) :: tr). constructor; [cbn; auto|exact IH]. }
      destruct T as (tr & T). assert (Htr : trace (as_symbols a) t (initial t) tr q) by (apply trace_path; eauto).
      rewrite (sides_shown _ _ _ T (SM _ _ _ Htr Hf)) in P1. injection P1 as <- <-.
      exists (sym_in tr), (sym_out tr), (weight_of tr + f). split; [exists tr, f; split; [exists q; auto|auto]|auto].
    + intros A r l x y c (tr & f & (q & Htr & Hf) & <- & <- & _) -> -> H1 H2. apply (expand_lines t a _ _ _ _ _ E).
      pose proof Htr as Htr0. apply trace_path in Htr as (l' & Hp & T). exists (map fst l'), q. split; [|split].
      * apply (path_walk t A _ _ _ Hp). intros p [].
      * apply isFinal_spec; [exact W|]. now exists f.
      * cbn [app]. unfold printed. cbn [fst snd]. split; [|auto]. exact (sides_shown _ _ _ T (SM _ _ _ Htr0 Hf)).
Qed.
