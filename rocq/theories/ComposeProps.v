(** Property C29: composition. *)
From Verif Require Import Base CompressionModel SerialiserModel SortedVectorModel SortedVectorProofs
  AlphabetModel AlphabetProofs AlphabetProps TransducerModel TransducerSpec TransducerProofs NatSets ReverseProofs
  RelabelModel RelabelSpec RelabelProofs ComposeModel ComposeSpec ComposeProofs AutomataProps.

Lemma sym_fst : forall inv a b, map fst a = map fst b ->
  sym_in (otr inv a) = sym_in (otr inv b) /\ sym_out (otr inv a) = sym_out (otr inv b).
Proof.
  intros inv a b H. unfold sym_in, sym_out, otr. rewrite !map_map. cbn [fst snd].
  assert (E1 : forall l : list ((symbol * symbol) * Z), map (fun e => fst (orient inv (fst e))) l = map (fun e => fst (orient inv e)) (map fst l)) by (intros l; rewrite map_map; reflexivity).
  assert (E2 : forall l : list ((symbol * symbol) * Z), map (fun e => snd (orient inv (fst e))) l = map (fun e => snd (orient inv e)) (map fst l)) by (intros l; rewrite map_map; reflexivity).
  rewrite !E1, !E2, H. auto.
Qed.

(** * The product *)
(** compose terminates, and what it builds accepts exactly what the two transducers
    accept side by side: every accepted sequence, with its weights, is one of the product,
    and every one of the product is accepted with some weights. *)
Theorem C29_product : forall g this f_a g_a inv anywhere,
  wf this -> wf g -> alph_inv0 f_a -> symbols_in this f_a -> symbols_in g g_a -> finals this <> [] ->
  exists j gf a' N, joinFinals 0 this = Ok j
    /\ (forall fuel, (N <= fuel)%nat -> compose fuel g f_a g_a inv anywhere 0 this = Ok (gf, a'))
    /\ wf gf /\ alph_inv0 a' /\ extends f_a a' /\ slexicinv a' = slexicinv f_a /\ symbols_in gf a'
    /\ (forall tr c, accepts_trace (as_symbols a') gf tr c -> paccepts j g f_a g_a inv anywhere tr c)
    /\ (forall tr c, paccepts j g f_a g_a inv anywhere tr c ->
          exists tr', accepts_trace (as_symbols a') gf tr' c /\ map fst tr' = map fst tr).
Proof.
  intros g this f_a g_a inv anywhere W Wg I0 T Tg Hf. assert (I := proj1 I0).
  destruct (joinFinals_spec 0 this W Hf) as (j & Ej & Wj & J).
  assert (Tj := joined_symbols 0 this j f_a J (eps_symbols f_a I0) T).
  destruct (compose_product j g f_a g_a inv anywhere Wj Wg Tj Tg I) as (N & st' & Hl & H1 & H2 & H3 & H4 & H5 & H6).
  exists j. eexists. exists (c_alpha st'), N. split; [exact Ej|]. split.
  - intros fuel Hfuel. unfold compose. rewrite Ej. cbn [obind].
    match goal with |- context [c_loop ?a ?b ?c ?d ?e ?m ?s] => replace (c_loop a b c d e m s) with (Ok st') by (symmetry; exact (Hl fuel Hfuel)) end.
    cbn [obind]. reflexivity.
  - split; [exact H1|]. split; [eapply inv0_extends; [exact I0|exact H2|apply H3]|]. split; [apply H3|]. split; [apply H3|]. split; [exact H4|]. split; [exact H5|exact H6].
Qed.

(** * Words *)
(** Anchored composition, read in either direction: the composite relates x to z when the
    first relates x to some y and the second some y' agreeing with y to a z that becomes z
    when the tags unknown to the first alphabet are dropped; with the sum of the weights. *)
Theorem C29_words : forall g this f_a g_a inv,
  wf this -> wf g -> alph_inv0 f_a -> symbols_in this f_a -> symbols_in g g_a -> finals this <> [] ->
  exists gf a' N, (forall fuel, (N <= fuel)%nat -> compose fuel g f_a g_a inv false 0 this = Ok (gf, a'))
    /\ (forall x z' c, srel_o inv gf a' x z' c ->
          exists y y' z c1 c2, srel_o inv this f_a x y c1 /\ srel g g_a y' z c2 /\ Forall2 agree y y'
            /\ z' = filter (writable f_a) z /\ c = c1 + c2)
    /\ (forall x y y' z c1 c2, srel_o inv this f_a x y c1 -> srel g g_a y' z c2 -> Forall2 agree y y' ->
          exists c, srel_o inv gf a' x (filter (writable f_a) z) c).
Proof.
  intros g this f_a g_a inv W Wg I0 T Tg Hf.
  destruct (C29_product g this f_a g_a inv false W Wg I0 T Tg Hf) as (j & gf & a' & N & Ej & Hc & _ & _ & _ & _ & _ & Hs & Hcm).
  destruct (joinFinals_spec 0 this W Hf) as (j' & Ej' & Wj & J). rewrite Ej in Ej'. injection Ej' as <-.
  assert (JS := fun x y c => joined_srel 0 this j f_a inv x y c W J (eps_symbols f_a I0)).
  exists gf, a', N. split; [exact Hc|]. split.
  - intros x z' c H. apply srel_o_spec in H as (tr & fw & Ha & <- & <- & <-).
    destruct (Hs tr fw Ha) as ([p q] & Ht & (c1 & Hc1 & [(c2 & Hc2 & ->)|(Hd & _)])); [|discriminate]. cbn [fst snd] in *.
    destruct (ptrace_split j g f_a g_a inv _ _ _ Ht) as (tf & tg & H1 & H2 & H3 & H4 & H5 & H6). cbn [fst snd] in *.
    exists (sym_out (otr inv tf)), (sym_in tg), (sym_out tg), (weight_of tf + c1), (weight_of tg + c2).
    split; [apply JS, srel_o_spec; exists tf, c1; split; [exists p; auto|auto]|].
    split; [exists tg, c2; split; [exists q; auto|auto]|]. split; [exact H4|]. split; [exact H5|]. lia.
  - intros x y y' z c1 c2 H1 H2 H3. apply JS, srel_o_spec in H1 as (tf & f1 & (p & Ht1 & Hf1) & <- & <- & _).
    destruct H2 as (tg & f2 & (q & Ht2 & Hf2) & <- & <- & _).
    destruct (ptrace_merge j g f_a g_a inv _ _ _ _ _ _ _ (le_n _) Ht1 Ht2 H3) as (tr & T1 & T2 & T3 & T4).
    destruct (Hcm tr (f1 + f2)) as (tr' & A1 & A2).
    { exists (p, q). split; [exact T1|]. exists f1. split; [exact Hf1|]. left. exists f2. auto. }
    destruct (sym_fst inv tr' tr A2) as [S1 S2]. eexists. apply srel_o_spec. exists tr', (f1 + f2).
    split; [exact A1|]. split; [congruence|]. split; [congruence|reflexivity].
Qed.

Lemma agree_plain : forall m m', ~ wild m -> ~ wild m' -> agree m m' -> m = m'.
Proof.
  intros m m' H1 H2 [E|H]; [exact E|]. unfold wild in *. destruct m as [s|c], m' as [o|d]; cbn in H.
  - destruct H as [-> | ->]; exfalso; auto.
  - destruct H as [-> _]; exfalso; auto.
  - destruct H as [-> _]; exfalso; auto.
  - destruct H.
Qed.
Lemma trace_forall : forall a t (P : symbol * symbol -> Prop), (forall p b q w x, has_arc t p b q w -> as_symbols a b x -> P x) ->
  forall p tr q, trace (as_symbols a) t p tr q -> Forall (fun e => P (fst e)) tr.
Proof. intros a t P H p tr q Ht. induction Ht; constructor; eauto. Qed.
Lemma sym_in_forall : forall (P : symbol * symbol -> Prop) (Q : symbol -> Prop) tr, (forall x, P x -> Q (fst x)) -> Forall (fun e => P (fst e)) tr -> Forall Q (sym_in tr).
Proof.
  intros P Q tr H HF. induction HF as [|[x w] tr H1 H2 IH]; [constructor|]. rewrite sym_in_cons. apply Forall_app. split; [|exact IH].
  unfold vis. destruct (is_eps (fst x)); repeat constructor. now apply H.
Qed.
Lemma sym_out_forall : forall (P : symbol * symbol -> Prop) (Q : symbol -> Prop) tr, (forall x, P x -> Q (snd x)) -> Forall (fun e => P (fst e)) tr -> Forall Q (sym_out tr).
Proof.
  intros P Q tr H HF. induction HF as [|[x w] tr H1 H2 IH]; [constructor|]. rewrite sym_out_cons. apply Forall_app. split; [|exact IH].
  unfold vis. destruct (is_eps (snd x)); repeat constructor. now apply H.
Qed.
Lemma plain_words : forall inv t a x y c, plain t a -> srel_o inv t a x y c -> Forall (fun s => ~ wild s) x /\ Forall (fun s => ~ wild s) y.
Proof.
  intros inv t a x y c P H.
  assert (G : forall x y, srel t a x y c -> Forall (fun s => ~ wild s) x /\ Forall (fun s => ~ wild s) y).
  { intros x0 y0 (tr & f & (q & Ht & _) & <- & <- & _). assert (F := trace_forall a t _ P _ _ _ Ht). split.
    - apply (sym_in_forall (fun x => ~ wild (fst x) /\ ~ wild (snd x))); [tauto|exact F].
    - apply (sym_out_forall (fun x => ~ wild (fst x) /\ ~ wild (snd x))); [tauto|exact F]. }
  unfold srel_o in H. destruct inv; apply G in H; tauto.
Qed.
Lemma agree_words : forall y y', Forall (fun s => ~ wild s) y -> Forall (fun s => ~ wild s) y' -> Forall2 agree y y' -> y = y'.
Proof.
  intros y y' H1 H2 H. induction H as [|m m' y y' H H' IH]; [reflexivity|]. inversion H1; inversion H2; subst. f_equal; [now apply agree_plain|auto].
Qed.
Lemma filter_all : forall {X} (p : X -> bool) l, Forall (fun x => p x = true) l -> filter p l = l.
Proof. intros X p l H. induction H as [|x l H1 H2 IH]; [reflexivity|]. cbn [filter]. now rewrite H1, IH. Qed.

(** Without wildcards, and with all output tags of the second known to the first alphabet,
    compose is the composition of the two relations. *)
Theorem C29_composition : forall g this f_a g_a inv,
  wf this -> wf g -> alph_inv0 f_a -> symbols_in this f_a -> symbols_in g g_a -> finals this <> [] ->
  plain this f_a -> plain g g_a -> outputs_known g g_a f_a ->
  exists gf a' N, (forall fuel, (N <= fuel)%nat -> compose fuel g f_a g_a inv false 0 this = Ok (gf, a'))
    /\ (forall x z, (exists c, srel_o inv gf a' x z c) <->
          exists y c1 c2, srel_o inv this f_a x y c1 /\ srel g g_a y z c2)
    /\ (forall x z c, srel_o inv gf a' x z c ->
          exists y c1 c2, srel_o inv this f_a x y c1 /\ srel g g_a y z c2 /\ c = c1 + c2).
Proof.
  intros g this f_a g_a inv W Wg I0 T Tg Hf Pf Pg Kn.
  destruct (C29_words g this f_a g_a inv W Wg I0 T Tg Hf) as (gf & a' & N & Hc & Hs & Hm).
  assert (Kw : forall y z c, srel g g_a y z c -> filter (writable f_a) z = z).
  { intros y z c (tr & f & (q & Ht & _) & _ & <- & _). apply filter_all.
    apply (sym_out_forall (fun x => writable f_a (snd x) = true)); [auto|].
    exact (trace_forall g_a g (fun x => writable f_a (snd x) = true) Kn _ _ _ Ht). }
  assert (Hs' : forall x z c, srel_o inv gf a' x z c -> exists y c1 c2, srel_o inv this f_a x y c1 /\ srel g g_a y z c2 /\ c = c1 + c2).
  { intros x z c H. destruct (Hs x z c H) as (y & y' & z0 & c1 & c2 & H1 & H2 & H3 & -> & ->).
    assert (E : y = y').
    { apply agree_words; [exact (proj2 (plain_words inv this f_a x y c1 Pf H1))| |exact H3].
      exact (proj1 (plain_words false g g_a y' z0 c2 Pg H2)). }
    subst y'. exists y, c1, c2. split; [exact H1|]. split; [|reflexivity]. rewrite (Kw _ _ _ H2). exact H2. }
  exists gf, a', N. split; [exact Hc|]. split; [|exact Hs'].
  intros x z. split.
  - intros (c & H). destruct (Hs' x z c H) as (y & c1 & c2 & H1 & H2 & _). eauto.
  - intros (y & c1 & c2 & H1 & H2). rewrite <- (Kw _ _ _ H2). eapply Hm; eauto.
    clear. induction y; constructor; [now left|auto].
Qed.

(** * Composing anywhere *)
(** When no arc of the second goes back to its initial state, composing anywhere leaves the
    first unchanged or rewrites an end part of one of its paths with the second. *)
Theorem C29_anywhere : forall g this f_a g_a inv,
  wf this -> wf g -> alph_inv0 f_a -> symbols_in this f_a -> symbols_in g g_a -> finals this <> [] ->
  (forall q b w, ~ has_arc g q b (initial g) w) ->
  exists gf a' N, (forall fuel, (N <= fuel)%nat -> compose fuel g f_a g_a inv true 0 this = Ok (gf, a'))
    /\ forall x z, (exists c, srel_o inv gf a' x z c) <->
         (exists c, srel_o inv this f_a x z c)
         \/ exists tr1 tr2 fw y' z2 c2, accepts_trace (as_symbols f_a) this (tr1 ++ tr2) fw
              /\ srel g g_a y' z2 c2 /\ Forall2 agree (sym_out (otr inv tr2)) y'
              /\ x = sym_in (otr inv tr1) ++ sym_in (otr inv tr2)
              /\ z = sym_out (otr inv tr1) ++ filter (writable f_a) z2.
Proof.
  intros g this f_a g_a inv W Wg I0 T Tg Hf Hno.
  destruct (C29_product g this f_a g_a inv true W Wg I0 T Tg Hf) as (j & gf & a' & N & Ej & Hc & _ & _ & _ & _ & _ & Hs & Hcm).
  destruct (joinFinals_spec 0 this W Hf) as (j' & Ej' & Wj & J). rewrite Ej in Ej'. injection Ej' as <-.
  assert (He := eps_symbols f_a I0).
  assert (JS := fun x y c => joined_srel 0 this j f_a inv x y c W J He).
  assert (JT := joined_traces 0 this j f_a W J He).
  assert (Eeps : forall tr w, sym_in (otr inv (tr ++ [((eps_sym, eps_sym), w)])) = sym_in (otr inv tr)
                            /\ sym_out (otr inv (tr ++ [((eps_sym, eps_sym), w)])) = sym_out (otr inv tr)).
  { intros tr w. rewrite otr_app, sym_in_app, sym_out_app. destruct inv; cbn; now rewrite !app_nil_r. }
  exists gf, a', N. split; [exact Hc|]. intros x z. split.
  - intros (c & H). apply srel_o_spec in H as (tr & fw & Ha & <- & <- & <-).
    destruct (Hs tr fw Ha) as ([p q] & Ht & (c1 & Hc1 & Hc2)). cbn [fst snd] in *.
    destruct (ptrace_prefix j g f_a g_a inv Hno _ _ _ Ht) as [[E Htr]|(tr1 & p1 & tr2 & -> & Htr & Ht2 & Hq)]; cbn [fst snd] in *.
    + left. exists (weight_of tr + c1). apply JS, srel_o_spec. exists tr, c1. split; [exists p; auto|auto].
    + right. destruct Hc2 as [(c2 & Hc2 & ->)|(_ & E & _)]; [|contradiction].
      destruct (ptrace_split j g f_a g_a inv _ _ _ Ht2) as (tf & tg & H1 & H2 & H3 & H4 & H5 & _). cbn [fst snd] in *.
      assert (Hacc : accepts_trace (as_symbols f_a) j (tr1 ++ tf) c1).
      { exists p. split; [|exact Hc1]. apply trace_app. exists p1. auto. }
      assert (Hg : srel g g_a (sym_in tg) (sym_out tg) (weight_of tg + c2)) by (exists tg, c2; split; [exists q; auto|auto]).
      rewrite otr_app, sym_in_app, sym_out_app, H3, H5.
      destruct (proj2 (JT (tr1 ++ tf) c1) Hacc) as [Hthis|(tr' & f' & E & -> & Hthis)].
      * exists tr1, tf, c1, (sym_in tg), (sym_out tg), (weight_of tg + c2). auto.
      * destruct tf as [|e tf] using rev_ind.
        -- rewrite app_nil_r in E. subst tr1. exists tr', [], f', (sym_in tg), (sym_out tg), (weight_of tg + c2).
           rewrite app_nil_r. destruct (Eeps tr' f') as [-> ->]. auto.
        -- rewrite app_assoc in E. apply app_inj_tail in E as [E ->]. subst tr'.
           destruct (Eeps tf f') as [E1 E2]. rewrite E1. rewrite E2 in H4.
           exists tr1, tf, f', (sym_in tg), (sym_out tg), (weight_of tg + c2). auto.
  - intros [(c & H)|(tr1 & tr2 & fw & y' & z2 & c2 & Hacc & Hg & Hag & -> & ->)].
    + apply JS, srel_o_spec in H as (tr & fw & (p & Ht & Hfw) & <- & <- & _).
      assert (Hp : exists c, paccepts j g f_a g_a inv true tr c).
      { assert (Hpt : ptrace j g f_a g_a inv true (initial j, initial g) (tr ++ []) (p, initial g)) by (apply (ptrace_keep j g f_a g_a inv _ _ _ Ht); constructor).
        rewrite app_nil_r in Hpt.
        destruct (fin_find (initial g) (finals g)) as [c2|] eqn:E.
        - exists (fw + c2), (p, initial g). split; [exact Hpt|]. exists fw. split; [exact Hfw|]. left. exists c2. split; [|reflexivity].
          apply (fin_find_some _ _ _ (wf_finals_sorted g Wg)). exact E.
        - exists fw, (p, initial g). split; [exact Hpt|]. exists fw. split; [exact Hfw|]. right. do 3 (split; [try reflexivity; apply fin_find_none; exact E|]). reflexivity. }
      destruct Hp as (c0 & Hp). destruct (Hcm tr c0 Hp) as (tr' & A1 & A2). destruct (sym_fst inv tr' tr A2) as [S1 S2].
      eexists. apply srel_o_spec. exists tr', c0. split; [exact A1|]. split; [exact S1|]. split; [exact S2|reflexivity].
    + assert (Hj : exists tr2' fw', accepts_trace (as_symbols f_a) j (tr1 ++ tr2') fw' /\ sym_in (otr inv tr2') = sym_in (otr inv tr2) /\ sym_out (otr inv tr2') = sym_out (otr inv tr2)).
      { destruct (proj1 (JT (tr1 ++ tr2) fw) Hacc) as [H|H].
        - exists tr2, fw. auto.
        - exists (tr2 ++ [((eps_sym, eps_sym), fw)]), 0. rewrite app_assoc. split; [exact H|]. apply Eeps. }
      destruct Hj as (tf & f1 & (p & Ht & Hf1) & <- & E2). rewrite <- E2 in Hag. apply trace_app in Ht as (p1 & Ht1 & Ht2).
      destruct Hg as (tg & f2 & (q & Hg & Hf2) & <- & <- & _).
      destruct (ptrace_merge j g f_a g_a inv _ _ _ _ _ _ _ (le_n _) Ht2 Hg Hag) as (tr & T1 & T2 & T3 & T4).
      assert (Hpt := ptrace_keep j g f_a g_a inv _ _ _ Ht1 _ _ (ptrace_mode j g f_a g_a inv _ _ _ T1)).
      destruct (Hcm (tr1 ++ tr) (f1 + f2)) as (tr' & A1 & A2).
      { exists (p, q). split; [exact Hpt|]. exists f1. split; [exact Hf1|]. left. exists f2. auto. }
      destruct (sym_fst inv tr' (tr1 ++ tr) A2) as [S1 S2]. rewrite otr_app, sym_in_app, T2 in S1. rewrite otr_app, sym_out_app, T3 in S2.
      eexists. apply srel_o_spec. exists tr', (f1 + f2). split; [exact A1|]. split; [exact S1|]. split; [exact S2|reflexivity].
Qed.

Theorem C29_no_finals : forall fuel g f_a g_a inv anywhere eps this, finals this = [] ->
  compose fuel g f_a g_a inv anywhere eps this = Exit.
Proof. intros fuel g f_a g_a inv anywhere eps this H. unfold compose. now rewrite (C19_no_finals this eps H). Qed.

(** * Examples *)
(** f relates a to b<n>; g relates b<n> to c<m>, and <m> is unknown to the alphabet of f. *)
Definition n_ : ustr := [60; 110; 62].
Definition m_ : ustr := [60; 109; 62].
Definition fA : alphabet := after [OpInclude n_; OpPair (97, 98); OpPair (0, -1); OpPair (97, 99)].
Definition gA : alphabet := after [OpInclude m_; OpInclude n_; OpPair (98, 99); OpPair (-2, -1); OpPair (98, 100); OpPair (99, 100); OpPair (-2, -2)].
Definition fT : transducer := mkT 0 [(2%nat, 7)] [[(1, (1%nat, 1))]; [(2, (2%nat, 0))]; []].
Definition gT : transducer := mkT 0 [(2%nat, 3)] [[(1, (1%nat, 4))]; [(2, (2%nat, 0))]; []].
(** The same with output <n>, known to both. *)
Definition gT2 : transducer := mkT 0 [(2%nat, 3)] [[(1, (1%nat, 4))]; [(5, (2%nat, 0))]; []].

Lemma after_inv0 : forall ops, alph_inv0 (after ops).
Proof. intros ops. unfold after. destruct (aruns_inv ops new_alphabet (proj1 new_inv)) as [H1 H2]. exact (inv0_extends _ _ new_inv H1 H2). Qed.

Definition symbol_of (a : alphabet) (s : Z) : symbol :=
  if s <? 0 then match getSymbol s a with Ok n => STag n | _ => eps_sym end else SChar s.
Definition symbols_of (a : alphabet) (t : Z) : symbol * symbol :=
  match decode t a with Ok (l, r) => (symbol_of a l, symbol_of a r) | _ => (eps_sym, eps_sym) end.
Definition readable (a : alphabet) (t : Z) : bool :=
  match decode t a with
  | Ok (l, r) => forallb (fun s => if s <? 0 then match getSymbol s a with Ok _ => true | _ => false end else true) [l; r]
  | _ => false end.
Lemma readable_symbols : forall a t, readable a t = true -> as_symbols a t (symbols_of a t).
Proof.
  intros a t H. unfold readable in H. unfold symbols_of. destruct (decode t a) as [[l r]| | | |] eqn:E; try discriminate.
  cbn [forallb] in H. rewrite andb_true_r in H. apply andb_true_iff in H as [H1 H2]. exists l, r. split; [exact E|]. cbn [fst snd].
  assert (G : forall s, (if s <? 0 then match getSymbol s a with Ok _ => true | _ => false end else true) = true -> as_symbol a s (symbol_of a s)).
  { intros s Hs. unfold symbol_of. destruct (Z.ltb_spec s 0); [|cbn; lia]. destruct (getSymbol s a) eqn:E'; try discriminate. cbn. auto. }
  split; now apply G.
Qed.
Definition all_readable (t : transducer) (a : alphabet) : bool :=
  forallb (fun arcs => forallb (fun x => readable a (a_tag x)) arcs) (trans t).
Lemma all_readable_symbols : forall t a, all_readable t a = true -> symbols_in t a.
Proof.
  intros t a H p tag q w Ha. exists (symbols_of a tag). apply readable_symbols. unfold all_readable in H. rewrite forallb_forall in H.
  assert (L := has_arc_lt _ _ _ _ _ Ha). unfold has_arc, arcs_of in Ha.
  specialize (H _ (nth_In (trans t) [] L)). rewrite forallb_forall in H. exact (H _ Ha).
Qed.
Lemma symbols_are : forall t a p tag q w x, all_readable t a = true -> has_arc t p tag q w -> as_symbols a tag x -> x = symbols_of a tag.
Proof.
  intros t a p tag q w x H Ha Hx. apply (as_symbols_fun a tag); [exact Hx|]. apply readable_symbols. unfold all_readable in H. rewrite forallb_forall in H.
  assert (L := has_arc_lt _ _ _ _ _ Ha). unfold has_arc, arcs_of in Ha.
  specialize (H _ (nth_In (trans t) [] L)). rewrite forallb_forall in H. exact (H _ Ha).
Qed.

(** srel of a concrete path. *)
Lemma srel_run : forall t a l q f, all_readable t a = true -> path t (initial t) l q -> final_wt t q f ->
  srel t a (filter (fun s => negb (is_eps s)) (map (fun e => fst (symbols_of a (fst e))) l))
           (filter (fun s => negb (is_eps s)) (map (fun e => snd (symbols_of a (fst e))) l)) (cost_of l + f).
Proof.
  intros t a l q f R H Hf. exists (map (fun e => (symbols_of a (fst e), snd e)) l), f.
  split; [exists q; split; [|exact Hf]|].
  - clear Hf. induction H as [p|p b w q l r Ha Hp IH]; cbn [map fst snd]; [constructor|]. econstructor; [exact Ha| |exact IH].
    destruct (all_readable_symbols t a R _ _ _ _ Ha) as (x & Hx). rewrite <- (symbols_are t a _ _ _ _ _ R Ha Hx). exact Hx.
  - unfold sym_in, sym_out. rewrite !map_map. split; [reflexivity|]. split; [reflexivity|]. f_equal. clear. induction l as [|[b w] l IH]; [reflexivity|].
    cbn [map fst snd]. now rewrite weight_cons, cost_cons, IH.
Qed.
(** and conversely: what is related comes from a path *)
Lemma srel_path : forall t a x y c, all_readable t a = true -> srel t a x y c -> exists l q f, path t (initial t) l q /\ final_wt t q f
  /\ x = filter (fun s => negb (is_eps s)) (map (fun e => fst (symbols_of a (fst e))) l)
  /\ y = filter (fun s => negb (is_eps s)) (map (fun e => snd (symbols_of a (fst e))) l) /\ c = cost_of l + f.
Proof.
  intros t a x y c R (tr & f & (q & Ht & Hf) & <- & <- & <-).
  assert (G : forall p q, trace (as_symbols a) t p tr q -> exists l, path t p l q /\ tr = map (fun e => (symbols_of a (fst e), snd e)) l).
  { clear - R. intros p q H. induction H as [p|p b x w q tr r Ha Hx Ht (l & H1 & H2)]; [exists []; split; [constructor|reflexivity]|].
    exists ((b, w) :: l). split; [econstructor; eauto|]. cbn [map fst snd]. rewrite H2. f_equal. f_equal. eapply symbols_are; eauto. }
  destruct (G _ _ Ht) as (l & Hl & ->). exists l, q, f. split; [exact Hl|]. split; [exact Hf|]. unfold sym_in, sym_out. rewrite !map_map.
  split; [reflexivity|]. split; [reflexivity|]. f_equal. clear. induction l as [|[b w] l IH]; [reflexivity|].
  cbn [map fst snd]. now rewrite weight_cons, cost_cons, IH.
Qed.

Example C29_example : exists gf a', compose 20 gT2 fA gA false false 0 fT = Ok (gf, a')
  /\ finals gf = [(2%nat, 10)] /\ trans gf = [[(3, (1%nat, 5))]; [(2, (2%nat, 0))]; []]
  /\ srel fT fA [SChar 97] [SChar 98; STag n_] 8 /\ srel gT2 gA [SChar 98; STag n_] [SChar 99; STag n_] 7
  /\ srel gf a' [SChar 97] [SChar 99; STag n_] 15.
Proof.
  eexists. eexists. split; [vm_compute; reflexivity|]. split; [reflexivity|]. split; [reflexivity|]. split; [|split].
  - apply (srel_run fT fA [(1, 1); (2, 0)] 2 7 eq_refl); [run|now left].
  - apply (srel_run gT2 gA [(1, 4); (5, 0)] 2 3 eq_refl); [run|now left].
  - match goal with |- srel ?t ?a _ _ _ => apply (srel_run t a [(3, 5); (2, 0)] 2 10 eq_refl); [run|now left] end.
Qed.

(** Read right to left: g is applied to the left side of f. *)
Example C29_inverted_example : exists gf a', compose 20 (mkT 0 [(1%nat, 0)] [[(1, (1%nat, 0))]; []]) (after [OpPair (98, 97)]) (after [OpPair (98, 99)]) true false 0
    (mkT 0 [(1%nat, 0)] [[(1, (1%nat, 2))]; []]) = Ok (gf, a')
  /\ srel gf a' [SChar 99] [SChar 97] 2.
Proof.
  eexists. eexists. split; [vm_compute; reflexivity|].
  match goal with |- srel ?t ?a _ _ _ => apply (srel_run t a [(2, 2)] 1 0 eq_refl); [run|now left] end.
Qed.

Lemma arcs_all : forall t a (P : symbol * symbol -> Prop), all_readable t a = true -> (forall arcs, In arcs (trans t) -> forall x, In x arcs -> P (symbols_of a (a_tag x))) ->
  forall p b q w x, has_arc t p b q w -> as_symbols a b x -> P x.
Proof.
  intros t a P R H p b q w x Ha Hx. rewrite (symbols_are _ _ _ _ _ _ _ R Ha Hx). assert (L := has_arc_lt _ _ _ _ _ Ha).
  exact (H _ (nth_In (trans t) [] L) _ Ha).
Qed.
Definition wildb (s : symbol) : bool := match s with STag n => str_eqb n w_any_char || str_eqb n w_any_tag | _ => false end.
Definition plainb (t : transducer) (a : alphabet) : bool :=
  all_readable t a && forallb (fun arcs => forallb (fun x => negb (wildb (fst (symbols_of a (a_tag x)))) && negb (wildb (snd (symbols_of a (a_tag x))))) arcs) (trans t).
Lemma wildb_wild : forall s, wildb s = false -> ~ wild s.
Proof. intros s H [E|E]; subst s; discriminate. Qed.
Lemma plainb_plain : forall t a, plainb t a = true -> plain t a.
Proof.
  intros t a H. unfold plainb in H. apply andb_true_iff in H as [R H]. rewrite forallb_forall in H.
  intros p b q w x. apply (arcs_all t a (fun x => ~ wild (fst x) /\ ~ wild (snd x)) R). intros arcs Ha y Hy. specialize (H _ Ha). rewrite forallb_forall in H.
  specialize (H _ Hy). apply andb_true_iff in H as [H1 H2]. apply negb_true_iff in H1, H2. split; now apply wildb_wild.
Qed.
(** The conditions of C29_composition hold of the example. *)
Example C29_plain_example : plain fT fA /\ plain gT2 gA /\ outputs_known gT2 gA fA /\ symbols_in fT fA /\ symbols_in gT2 gA.
Proof.
  split; [now apply plainb_plain|]. split; [now apply plainb_plain|]. split; [|split; now apply all_readable_symbols].
  intros p b q w x. apply (arcs_all gT2 gA (fun x => writable fA (snd x) = true)); [reflexivity|].
  intros arcs Ha y Hy. cbn in Ha. intuition subst; cbn in Hy; intuition subst; vm_compute; reflexivity.
Qed.

(** * What is not true *)
(** A tag of g unknown to the alphabet of f is lost: the composition of the relations
    relates a to c<m>, compose does not. *)
Theorem C29_tags_refuted : exists this g f_a g_a, wf this /\ wf g /\ alph_inv0 f_a /\ alph_inv0 g_a
  /\ symbols_in this f_a /\ symbols_in g g_a /\ plain this f_a /\ plain g g_a
  /\ exists x y z c1 c2, srel this f_a x y c1 /\ srel g g_a y z c2
  /\ exists gf a', compose 20 g f_a g_a false false 0 this = Ok (gf, a')
       /\ (forall c, ~ srel gf a' x z c) /\ exists z' c, z' <> z /\ srel gf a' x z' c.
Proof.
  exists fT, gT, fA, gA. split; [apply wfb_wf; reflexivity|]. split; [apply wfb_wf; reflexivity|]. split; [apply after_inv0|]. split; [apply after_inv0|].
  split; [now apply all_readable_symbols|]. split; [now apply all_readable_symbols|].
  split; [now apply plainb_plain|]. split; [now apply plainb_plain|].
  exists [SChar 97], [SChar 98; STag n_], [SChar 99; STag m_], 8, 7.
  split; [apply (srel_run fT fA [(1, 1); (2, 0)] 2 7 eq_refl); [run|now left]|].
  split; [apply (srel_run gT gA [(1, 4); (2, 0)] 2 3 eq_refl); [run|now left]|].
  eexists. eexists. split; [vm_compute; reflexivity|]. split.
  - intros c H. apply srel_path in H as (l & q & f & Hp & Hf & Hx & Hy & _); [|reflexivity].
    destruct Hf as [[= <- <-]|[]]. path_cases; cbn in Hy; discriminate.
  - eexists. eexists. split; [|match goal with |- srel ?t ?a _ _ _ => apply (srel_run t a [(3, 5); (0, 0)] 2 10 eq_refl); [run|now left] end]. vm_compute. discriminate.
Qed.

(** Of two ways to relate the same words, only the weight of the one entered first is kept:
    here the weight 2 of the other is lost although it is smaller. *)
Theorem C29_weights_refuted : exists this g f_a g_a, wf this /\ wf g /\ alph_inv0 f_a /\ alph_inv0 g_a
  /\ symbols_in this f_a /\ symbols_in g g_a /\ plain this f_a /\ plain g g_a
  /\ exists x y z c1 c2, srel this f_a x y c1 /\ srel g g_a y z c2
  /\ exists gf a', compose 20 g f_a g_a false false 0 this = Ok (gf, a')
       /\ srel gf a' x z 5 /\ (forall c, srel gf a' x z c -> c = 5) /\ c1 + c2 = 2.
Proof.
  exists (mkT 0 [(1%nat, 0)] [[(1, (1%nat, 5)); (3, (1%nat, 2))]; []]), (mkT 0 [(1%nat, 0)] [[(3, (1%nat, 0)); (4, (1%nat, 0))]; []]), fA, gA.
  split; [apply wfb_wf; reflexivity|]. split; [apply wfb_wf; reflexivity|]. split; [apply after_inv0|]. split; [apply after_inv0|].
  split; [now apply all_readable_symbols|]. split; [now apply all_readable_symbols|]. split; [now apply plainb_plain|]. split; [now apply plainb_plain|].
  exists [SChar 97], [SChar 99], [SChar 100], 2, 0.
  split; [match goal with |- srel ?t ?a _ _ _ => apply (srel_run t a [(3, 2)] 1 0 eq_refl); [run|now left] end|].
  split; [match goal with |- srel ?t ?a _ _ _ => apply (srel_run t a [(4, 0)] 1 0 eq_refl); [run|now left] end|].
  eexists. eexists. split; [vm_compute; reflexivity|]. split; [|split; [|reflexivity]].
  - match goal with |- srel ?t ?a _ _ _ => apply (srel_run t a [(4, 5)] 1 0 eq_refl); [run|now left] end.
  - intros c H. apply srel_path in H as (l & q & f & Hp & Hf & Hx & Hy & Hc); [|reflexivity].
    destruct Hf as [[= <- <-]|[]]. path_cases; cbn in *; congruence.
Qed.

(** The documentation of --anywhere promises matches of sub-paths; a part in the middle is
    not matched: f relates abc to itself, g relates b to B, but abc is not related to aBc. *)
Definition aM : alphabet := after [OpPair (97, 97); OpPair (98, 98); OpPair (99, 99); OpPair (98, 66)].
Theorem C29_subpath_refuted : exists this g a, wf this /\ wf g /\ alph_inv0 a /\ symbols_in this a /\ symbols_in g a
  /\ srel this a [SChar 97; SChar 98; SChar 99] [SChar 97; SChar 98; SChar 99] 0
  /\ srel g a [SChar 98] [SChar 66] 0
  /\ exists gf a', compose 20 g a a false true 0 this = Ok (gf, a')
       /\ forall c, ~ srel gf a' [SChar 97; SChar 98; SChar 99] [SChar 97; SChar 66; SChar 99] c.
Proof.
  exists (mkT 0 [(3%nat, 0)] [[(1, (1%nat, 0))]; [(2, (2%nat, 0))]; [(3, (3%nat, 0))]; []]), (mkT 0 [(1%nat, 0)] [[(4, (1%nat, 0))]; []]), aM.
  split; [apply wfb_wf; reflexivity|]. split; [apply wfb_wf; reflexivity|]. split; [apply after_inv0|].
  split; [now apply all_readable_symbols|]. split; [now apply all_readable_symbols|].
  split; [match goal with |- srel ?t ?a _ _ _ => apply (srel_run t a [(1, 0); (2, 0); (3, 0)] 3 0 eq_refl); [run|now left] end|].
  split; [match goal with |- srel ?t ?a _ _ _ => apply (srel_run t a [(4, 0)] 1 0 eq_refl); [run|now left] end|].
  eexists. eexists. split; [vm_compute; reflexivity|].
  intros c H. apply srel_path in H as (l & q & f & Hp & Hf & Hx & Hy & Hc); [|reflexivity].
  unfold final_wt in Hf. cbn in Hf. path_cases; vm_compute in Hy; discriminate.
Qed.
(** An end part is: bc to Bc needs g to relate bc. *)
Example C29_anywhere_example : exists gf a', compose 20 (mkT 0 [(2%nat, 0)] [[(4, (1%nat, 0))]; [(3, (2%nat, 0))]; []]) aM aM false true 0
    (mkT 0 [(3%nat, 0)] [[(1, (1%nat, 0))]; [(2, (2%nat, 0))]; [(3, (3%nat, 0))]; []]) = Ok (gf, a')
  /\ srel gf a' [SChar 97; SChar 98; SChar 99] [SChar 97; SChar 66; SChar 99] 0
  /\ srel gf a' [SChar 97; SChar 98; SChar 99] [SChar 97; SChar 98; SChar 99] 0.
Proof.
  eexists. eexists. split; [vm_compute; reflexivity|]. split.
  - match goal with |- srel ?t ?a _ _ _ => apply (srel_run t a [(1, 0); (4, 0); (3, 0)] 5 0 eq_refl); [run|cbn; auto] end.
  - match goal with |- srel ?t ?a _ _ _ => apply (srel_run t a [(1, 0); (2, 0); (3, 0)] 4 0 eq_refl); [run|cbn; auto] end.
Qed.

Print Assumptions C29_product.
Print Assumptions C29_words.
Print Assumptions C29_composition.
Print Assumptions C29_anywhere.
Print Assumptions C29_no_finals.
Print Assumptions C29_tags_refuted.
Print Assumptions C29_weights_refuted.
Print Assumptions C29_subpath_refuted.
