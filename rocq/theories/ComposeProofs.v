(** Proofs about composition. *)
From Verif Require Import Base CompressionModel SerialiserModel SortedVectorModel SortedVectorProofs
  AlphabetModel AlphabetProofs TransducerModel TransducerSpec TransducerProofs NatSets ReverseProofs
  RelabelSpec RelabelProofs ComposeModel ComposeSpec.

(** ** Alphabets that only gain pairs *)
Definition grows (a b : alphabet) : Prop :=
  extends a b /\ slexic b = slexic a /\ slexicinv b = slexicinv a.
Lemma grows_refl : forall a, grows a a.
Proof. intros a. split; [apply extends_refl|auto]. Qed.
Lemma grows_trans : forall a b c, grows a b -> grows b c -> grows a c.
Proof. intros a b c (E1 & H1 & H2) (E2 & H3 & H4). split; [eapply extends_trans; eauto|]. split; congruence. Qed.
Lemma pair_grows : forall p a, alph_inv a -> grows a (snd (pair_code p a)).
Proof.
  intros p a I. split; [now apply pair_extends|]. destruct (pair_cases p a I) as [[_ ->]|[_ ->]]; auto.
Qed.
Lemma grows_symbol : forall a b s x, grows a b -> as_symbol a s x -> as_symbol b s x.
Proof. intros a b s x [E _]. now apply as_symbol_extends. Qed.
Lemma grows_symbols : forall a b s x, grows a b -> as_symbols a s x -> as_symbols b s x.
Proof. intros a b s x [E _]. now apply as_symbols_extends. Qed.
Lemma grows_written : forall a b s, grows a b -> as_written b s = as_written a s.
Proof. intros a b [n|c] (_ & E & _); [|reflexivity]. unfold as_written, writable, isSymbolDefined. now rewrite E. Qed.

(** ** sameSymbol and composeLabel on symbols *)
Lemma tag_name_symbol : forall a s n, s < 0 -> getSymbol s a = Ok n -> tag_name s a = Ok n.
Proof.
  intros a s n Hs H. unfold getSymbol in H. unfold tag_name. replace (s =? 0) with false in H by lia.
  replace (s <? 0) with true in H by lia. exact H.
Qed.
Lemma str_eqb_spec : forall a b, str_eqb a b = true <-> a = b.
Proof. intros a b. unfold str_eqb. destruct (ustr_eq_dec a b); intuition congruence. Qed.

Lemma sameSymbol_spec : forall fa ga s s' m m', as_symbol fa s m -> as_symbol ga s' m' -> m' <> eps_sym ->
  exists b, sameSymbol fa s ga s' = Ok b /\ (b = true <-> agree m m').
Proof.
  intros fa ga s s' m m' H H' Hne. unfold sameSymbol.
  destruct m as [n|c], m' as [n'|c']; cbn in H, H'.
  - destruct H as [H1 H2], H' as [H3 H4]. replace (0 <=? s) with false by lia. cbn [andb].
    replace (s <? 0) with true by lia. replace (s' <? 0) with true by lia.
    rewrite (tag_name_symbol _ _ _ H1 H2), (tag_name_symbol _ _ _ H3 H4). cbn [obind]. eexists. split; [reflexivity|].
    rewrite !orb_true_iff, !str_eqb_spec. unfold agree. split.
    + intros [[->|E]|E]; [now left|right; left; exact E|right; right; exact E].
    + intros [E|[E|E]]; [injection E as ->; auto|left; right; exact E|right; exact E].
  - destruct H as [H1 H2], H' as [H3 ->]. replace (0 <=? s) with false by lia. cbn [andb].
    replace (s <? 0) with true by lia. replace (c' <? 0) with false by lia.
    rewrite (tag_name_symbol _ _ _ H1 H2). cbn [obind]. eexists. split; [reflexivity|].
    rewrite andb_true_iff, str_eqb_spec. unfold agree. split.
    + intros [-> E]. right. split; [reflexivity|lia].
    + intros [E|[-> E]]; [discriminate|]. split; [reflexivity|lia].
  - destruct H as [H1 ->], H' as [H3 H4]. replace (c =? s') with false by lia. rewrite andb_false_r.
    replace (c <? 0) with false by lia. replace (s' <? 0) with true by lia.
    cbn [obind]. rewrite (tag_name_symbol _ _ _ H3 H4). cbn [obind]. eexists. split; [reflexivity|].
    rewrite andb_true_iff, str_eqb_spec. unfold agree. split.
    + intros [-> E]. right. split; [reflexivity|lia].
    + intros [E|[-> E]]; [discriminate|]. split; [reflexivity|lia].
  - destruct H as [H1 ->], H' as [H3 ->]. destruct (Z.eqb_spec c c') as [->|Hn].
    + replace (0 <=? c') with true by lia. exists true. split; [reflexivity|]. split; [left; reflexivity|reflexivity].
    + rewrite andb_false_r. replace (c <? 0) with false by lia. replace (c' <? 0) with false by lia. cbn [obind].
      exists false. split; [reflexivity|]. split; [discriminate|]. intros [E|[]]. congruence.
Qed.

Lemma symbol_code_written : forall a n, alph_inv a ->
  as_symbol a (symbol_code n a) (as_written a (STag n)).
Proof.
  intros a n I. unfold as_written, writable. destruct (isSymbolDefined n a) eqn:D.
  - apply defined_iff in D; [|exact I]. apply In_nth_error in D as (i & Hi).
    destruct (symbol_code_nth a n i I Hi) as (E & _ & G). rewrite E. split; [unfold tag_of; lia|exact G].
  - unfold isSymbolDefined in D. unfold symbol_code. destruct (map_find _ _ _); [discriminate|]. split; [lia|reflexivity].
Qed.

Lemma composeLabel_spec : forall fa ga x i s o inv, alph_inv fa -> as_symbol fa x i -> as_symbol ga s o ->
  exists l fa', composeLabel fa ga x s inv = Ok (l, fa') /\ alph_inv fa' /\ grows fa fa'
    /\ as_symbols fa' l (orient inv (i, as_written fa o)).
Proof.
  intros fa ga x i s o inv I Hx Hs. unfold composeLabel.
  assert (R : exists r, (if 0 <=? s then Ok s else let! n := getSymbol s ga in Ok (symbol_code n fa)) = Ok r
    /\ as_symbol fa r (as_written fa o)).
  { destruct o as [n|c]; cbn in Hs; destruct Hs as [H1 H2].
    - replace (0 <=? s) with false by lia. rewrite H2. cbn [obind]. eexists. split; [reflexivity|]. now apply symbol_code_written.
    - subst s. replace (0 <=? c) with true by lia. exists c. split; [reflexivity|]. split; [exact H1|reflexivity]. }
  destruct R as (r & -> & Hr). cbn [obind].
  set (pr := if inv then (r, x) else (x, r)). assert (D := pair_code_decode pr fa I).
  assert (G := pair_grows pr fa I). assert (I' := pair_inv pr fa I).
  destruct (pair_code pr fa) as [l fa'] eqn:E. cbn [fst snd] in *. exists l, fa'. split; [reflexivity|]. split; [exact I'|]. split; [exact G|].
  apply (grows_symbol _ _ _ _ G) in Hx. apply (grows_symbol _ _ _ _ G) in Hr.
  unfold as_symbols, orient, pr in *. destruct inv; cbn [fst snd]; eauto.
Qed.

Lemma eps_symbols : forall a, alph_inv0 a -> as_symbols a 0 (eps_sym, eps_sym).
Proof.
  intros a [I H]. exists 0, 0. split.
  - unfold decode. cbn [Z.ltb Z.compare]. change (Z.to_nat 0) with 0%nat. now rewrite H.
  - split; cbn; lia.
Qed.

(** ** Lookups *)
Lemma mem_pair_spec : forall k l, mem_pair k l = true <-> In k l.
Proof. intros k l. unfold mem_pair. destruct (in_dec spair_dec k l); intuition congruence. Qed.
Lemma cfind_none : forall k m, cfind k m = None <-> ~ In k (map fst m).
Proof.
  intros k. induction m as [|[k' v] m IH]; cbn [cfind map fst In]; [tauto|]. destruct (spair_dec k k') as [->|Hn].
  - split; [discriminate|]. intros H. exfalso. apply H. now left.
  - rewrite IH. intuition congruence.
Qed.
Lemma cfind_some : forall k v m, NoDup (map fst m) -> (cfind k m = Some v <-> In (k, v) m).
Proof.
  intros k v. induction m as [|[k' v'] m IH]; intros ND; cbn [cfind In]; [intuition discriminate|]. cbn in ND. inversion ND as [|? ? Hn ND']; subst.
  destruct (spair_dec k k') as [->|Hne].
  - split; [intros [= ->]; now left|]. intros [[= ->]|Hin]; [reflexivity|]. exfalso. apply Hn. apply in_map_iff. exists (k', v). auto.
  - rewrite IH by exact ND'. intuition congruence.
Qed.

Lemma filter_less : forall {X} (p p' : X -> bool) l x, (forall z, p' z = true -> p z = true) -> In x l -> p x = true -> p' x = false ->
  (length (filter p' l) < length (filter p l))%nat.
Proof.
  intros X p p' l x Himp. assert (Hle : forall l, (length (filter p' l) <= length (filter p l))%nat).
  { induction l0 as [|z l0 IH]; cbn [filter]; [lia|]. destruct (p' z) eqn:E; [rewrite (Himp z E); cbn [length]; lia|]. destruct (p z); cbn [length]; lia. }
  induction l as [|z l IH]; intros Hin H1 H2; [destruct Hin|]. cbn [filter]. destruct Hin as [->|Hin].
  - rewrite H1, H2. cbn [length]. specialize (Hle l). lia.
  - specialize (IH Hin H1 H2). destruct (p' z) eqn:E; [rewrite (Himp z E); cbn [length]; lia|]. destruct (p z); cbn [length]; lia.
Qed.

Definition maxlen (t : transducer) : nat := list_max (map (@length arc) (trans t)).
Lemma maxlen_arcs : forall t p, (length (arcs_of t p) <= maxlen t)%nat.
Proof.
  intros t p. unfold arcs_of, maxlen. destruct (Nat.lt_ge_cases p (length (trans t))) as [L|L].
  - assert (H := proj1 (list_max_le (map (@length arc) (trans t)) _) (le_n _)). rewrite Forall_forall in H. apply H.
    apply in_map. now apply nth_In.
  - rewrite nth_overflow by exact L. cbn. lia.
Qed.

Lemma orient_orient : forall inv {X} (p : X * X), orient inv (orient inv p) = p.
Proof. intros inv X [a b]. unfold orient. now destruct inv. Qed.

Section Compose.
  Context (f g : transducer) (f_a g_a : alphabet) (inv anywhere : bool).
  Context (Wf : wf f) (Wg : wf g).
  Context (Tf : symbols_in f f_a) (Tg : symbols_in g g_a).
  Notation pmove := (pmove f g f_a g_a inv anywhere).
  Let start : spair_t := (initial f, initial g).
  Definition inside (k : spair_t) : Prop := (fst k < nstates f)%nat /\ (snd k < nstates g)%nat.

  Lemma pmove_inside : forall k x w k', pmove k x w k' -> inside k -> inside k'.
  Proof.
    intros k x w k' H [H1 H2]. destruct H; cbn [fst snd] in *; split; cbn [fst snd]; auto;
      try (eapply (wf_arcs f Wf); eassumption); try (eapply (wf_arcs g Wg); eassumption).
  Qed.

  Record INV (st : cst) : Prop := {
    i_alph : alph_inv (c_alpha st);
    i_grow : grows f_a (c_alpha st);
    i_wf : wf (c_gf st);
    i_init : cfind start (c_map st) = Some (initial (c_gf st));
    i_inj : forall k k' s, cfind k (c_map st) = Some s -> cfind k' (c_map st) = Some s -> k = k';
    i_rng : forall k s, cfind k (c_map st) = Some s -> (s < nstates (c_gf st))%nat;
    i_keys : forall k s, cfind k (c_map st) = Some s -> inside k;
    i_nodup : NoDup (map fst (c_map st));
    i_arcs : forall s b s' w, has_arc (c_gf st) s b s' w -> exists k k' x,
       cfind k (c_map st) = Some s /\ cfind k' (c_map st) = Some s' /\ pmove k x w k' /\ as_symbols (c_alpha st) b x;
    i_todo : forall k, In k (c_todo st) -> exists s, cfind k (c_map st) = Some s;
    i_map : forall k s, cfind k (c_map st) = Some s -> In k (c_seen st) \/ In k (c_todo st)
  }.

  Record GROW (k0 : spair_t) (st st' : cst) : Prop := {
    g_map : forall k s, cfind k (c_map st) = Some s -> cfind k (c_map st') = Some s;
    g_seen : c_seen st' = c_seen st;
    g_todo : exists new, c_todo st' = new ++ c_todo st /\ forall k, In k new -> ~ In k (c_seen st) /\ exists x w, pmove k0 x w k;
    g_arcs : forall s b s' w, has_arc (c_gf st) s b s' w -> has_arc (c_gf st') s b s' w;
    g_alpha : grows (c_alpha st) (c_alpha st')
  }.
  Lemma GROW_refl : forall k st, GROW k st st.
  Proof. intros k0 st. split; auto using grows_refl. exists []. split; [reflexivity|intros k []]. Qed.
  Lemma GROW_trans : forall k a b c, GROW k a b -> GROW k b c -> GROW k a c.
  Proof.
    intros k0 a b c [M1 S1 (n1 & T1 & N1) A1 G1] [M2 S2 (n2 & T2 & N2) A2 G2]. split; auto.
    - congruence.
    - exists (n2 ++ n1). split; [rewrite T2, T1; apply app_assoc|]. intros k Hk. apply in_app_or in Hk as [Hk|Hk]; [|auto].
      rewrite <- S1. auto.
    - eapply grows_trans; eauto.
  Qed.

  (** The move from k to k' reading x has been entered, and k' is seen or was pushed above
      the stack [base]. *)
  Definition done (base : list spair_t) (st : cst) (k : spair_t) (x : symbol * symbol) (k' : spair_t) : Prop :=
    (exists s s' b w, cfind k (c_map st) = Some s /\ cfind k' (c_map st) = Some s' /\ has_arc (c_gf st) s b s' w
       /\ as_symbols (c_alpha st) b x)
    /\ exists new, c_todo st = new ++ base /\ (In k' (c_seen st) \/ In k' new).
  Lemma done_grow : forall base st st' k0 k x k', GROW k0 st st' -> done base st k x k' -> done base st' k x k'.
  Proof.
    intros base st st' k0 k x k' [M S (n & T & _) A G] [(s & s' & b & w & H1 & H2 & H3 & H4) (new & E & H5)]. split.
    - exists s, s', b, w. split; [auto|]. split; [auto|]. split; [auto|]. eapply grows_symbols; eauto.
    - exists (n ++ new). split; [rewrite T, E; apply app_assoc|]. rewrite S. destruct H5; [now left|right; apply in_or_app; now right].
  Qed.

  Lemma visit_spec : forall st k s x w k' label base n, INV st -> cfind k (c_map st) = Some s -> pmove k x w k' ->
    as_symbols (c_alpha st) label x -> c_todo st = n ++ base ->
    exists st', c_visit s k' label w st = Ok st' /\ INV st' /\ GROW k st st' /\ done base st' k x k'
      /\ (length (c_todo st') <= 1 + length (c_todo st))%nat.
  Proof.
    intros st k s x w k' label base n [Ia Ig Iw Ii Iin Ir Ik In_ Iarc It Im] Hk Hm Hl Hb. unfold c_visit. cbv zeta.
    assert (Hk' : inside k') by (eapply pmove_inside; eauto).
    match goal with |- context [if mem_pair k' (c_seen st) then ?a else ?b] => set (todo := if mem_pair k' (c_seen st) then a else b) end.
    assert (Ht : exists new, todo = new ++ c_todo st /\ (forall z, In z new -> z = k' /\ ~ In z (c_seen st)) /\ (In k' (c_seen st) \/ In k' new) /\ (length todo <= 1 + length (c_todo st))%nat).
    { unfold todo. destruct (mem_pair k' (c_seen st)) eqn:E.
      - exists []. split; [reflexivity|]. split; [intros z []|]. split; [left; now apply mem_pair_spec|lia].
      - exists [k']. split; [reflexivity|]. assert (Hn : ~ In k' (c_seen st)) by (intros H; apply mem_pair_spec in H; congruence).
        split; [intros z [<-|[]]; auto|]. split; [right; now left|cbn; lia]. }
    destruct Ht as (new & Et & Hn1 & Hn2 & Hlen). clearbody todo.
    destruct (cfind k' (c_map st)) as [s'|] eqn:Ek'.
    - (* known *)
      destruct (linkStates_spec s s' label w (c_gf st) Iw (Ir _ _ Hk) (Ir _ _ Ek')) as (t' & El & Wt & Nt & Init & Fin & Hlink).
      rewrite El. cbn [obind]. eexists. split; [reflexivity|].
      assert (Harc : forall p a r v, has_arc t' p a r v -> has_arc (c_gf st) p a r v \/ (p = s /\ a = label /\ r = s' /\ v = w)).
      { intros p a r v H. destruct Hlink as [[-> _]|[_ Hlink]]; [now left|]. now apply Hlink. }
      assert (Hmono : forall p a r v, has_arc (c_gf st) p a r v -> has_arc t' p a r v).
      { intros p a r v H. destruct Hlink as [[-> _]|[_ Hlink]]; [exact H|]. apply Hlink. now left. }
      assert (Hhas : exists w', has_arc t' s label s' w').
      { destruct Hlink as [[-> H]|[_ Hlink]]; [exact H|]. exists w. apply Hlink. now right. }
      split; [|split; [|split]].
      + split; cbn [c_gf c_map c_todo c_seen c_alpha]; auto.
        * now rewrite Init.
        * intros z v Hz. rewrite Nt. eauto.
        * intros p a r v H. apply Harc in H as [H|(-> & -> & -> & ->)]; [exact (Iarc _ _ _ _ H)|]. exists k, k', x. auto.
        * intros z Hz. rewrite Et in Hz. apply in_app_or in Hz as [Hz|Hz]; [|auto]. apply Hn1 in Hz as [-> _]. eauto.
        * intros z v Hz. destruct (Im _ _ Hz) as [H|H]; [now left|]. right. rewrite Et. apply in_or_app. now right.
      + split; cbn [c_gf c_map c_todo c_seen c_alpha]; auto using grows_refl.
        exists new. split; [exact Et|]. intros z Hz. apply Hn1 in Hz as [-> Hz]. eauto.
      + split; cbn [c_gf c_map c_todo c_seen c_alpha].
        * destruct Hhas as (w' & Hw'). exists s, s', label, w'. auto.
        * exists (new ++ n). split; [rewrite Et, Hb; apply app_assoc|]. destruct Hn2; [now left|right; apply in_or_app; now left].
      + exact Hlen.
    - (* new *)
      destruct (newState_spec (c_gf st)) as (E1 & E2 & E3 & E4 & E5'). destruct (newState (c_gf st)) as [s' gf1] eqn:En. cbn [fst snd] in *.
      assert (E5 : forall p a r v, has_arc gf1 p a r v <-> has_arc (c_gf st) p a r v) by (intros; unfold has_arc; now rewrite E5').
      assert (W1 : wf gf1) by (pose proof (newState_wf _ Iw) as X; rewrite En in X; exact X).
      assert (Hs : (s < nstates gf1)%nat) by (specialize (Ir _ _ Hk); lia).
      assert (Hs' : (s' < nstates gf1)%nat) by lia.
      destruct (linkStates_spec s s' label w gf1 W1 Hs Hs') as (t' & El & Wt & Nt & Init & Fin & Hlink).
      rewrite El. cbn [obind]. eexists. split; [reflexivity|].
      assert (Harc : forall p a r v, has_arc t' p a r v -> has_arc (c_gf st) p a r v \/ (p = s /\ a = label /\ r = s' /\ v = w)).
      { intros p a r v H. destruct Hlink as [[-> _]|[_ Hlink]]; [left; now apply E5|]. apply Hlink in H as [H|H]; [left; now apply E5|now right]. }
      assert (Hmono : forall p a r v, has_arc (c_gf st) p a r v -> has_arc t' p a r v).
      { intros p a r v H. apply E5 in H. destruct Hlink as [[-> _]|[_ Hlink]]; [exact H|]. apply Hlink. now left. }
      assert (Hhas : exists w', has_arc t' s label s' w').
      { destruct Hlink as [[-> H]|[_ Hlink]]; [exact H|]. exists w. apply Hlink. now right. }
      assert (Hfind : forall z v, cfind z (c_map st) = Some v -> cfind z ((k', s') :: c_map st) = Some v).
      { intros z v Hz. cbn [cfind]. destruct (spair_dec z k') as [->|]; [congruence|exact Hz]. }
      assert (Hfind' : cfind k' ((k', s') :: c_map st) = Some s') by (cbn [cfind]; destruct (spair_dec k' k'); congruence).
      assert (Hinv : forall z v, cfind z ((k', s') :: c_map st) = Some v -> (z = k' /\ v = s') \/ cfind z (c_map st) = Some v).
      { intros z v Hz. cbn [cfind] in Hz. destruct (spair_dec z k') as [->|]; [left; split; congruence|now right]. }
      split; [|split; [|split]].
      + split; cbn [c_gf c_map c_todo c_seen c_alpha]; auto.
        * rewrite Init, E3. now apply Hfind.
        * intros z z' v Hz Hz'. apply Hinv in Hz as [[-> ->]|Hz]; apply Hinv in Hz' as [[-> ?]|Hz']; auto.
          -- exfalso. specialize (Ir _ _ Hz'). lia.
          -- subst. exfalso. specialize (Ir _ _ Hz). lia.
          -- eauto.
        * intros z v Hz. rewrite Nt. apply Hinv in Hz as [[-> ->]|Hz]; [exact Hs'|]. specialize (Ir _ _ Hz). lia.
        * intros z v Hz. apply Hinv in Hz as [[-> ->]|Hz]; [exact Hk'|eauto].
        * cbn [map fst]. constructor; [now apply cfind_none|exact In_].
        * intros p a r v H. apply Harc in H as [H|(-> & -> & -> & ->)].
          -- destruct (Iarc _ _ _ _ H) as (z & z' & y & A1 & A2 & A3). exists z, z', y. split; [now apply Hfind|]. split; [now apply Hfind|exact A3].
          -- exists k, k', x. split; [now apply Hfind|]. auto.
        * intros z Hz. rewrite Et in Hz. apply in_app_or in Hz as [Hz|Hz].
          -- apply Hn1 in Hz as [-> _]. eauto.
          -- destruct (It _ Hz) as (v & Hv). exists v. now apply Hfind.
        * intros z v Hz. rewrite Et. apply Hinv in Hz as [[-> ->]|Hz].
          -- destruct Hn2 as [H|H]; [now left|right; apply in_or_app; now left].
          -- destruct (Im _ _ Hz) as [H|H]; [now left|]. right. apply in_or_app. now right.
      + split; cbn [c_gf c_map c_todo c_seen c_alpha]; auto using grows_refl.
        exists new. split; [exact Et|]. intros z Hz. apply Hn1 in Hz as [-> Hz]. eauto.
      + split; cbn [c_gf c_map c_todo c_seen c_alpha].
        * destruct Hhas as (w' & Hw'). exists s, s', label, w'. auto.
        * exists (new ++ n). split; [rewrite Et, Hb; apply app_assoc|]. destruct Hn2; [now left|right; apply in_or_app; now left].
      + exact Hlen.
  Qed.

  Lemma visit_new_spec : forall st k s i o w k' fi gr base n, INV st -> cfind k (c_map st) = Some s ->
    as_symbol (c_alpha st) fi i -> as_symbol g_a gr o ->
    pmove k (orient inv (i, as_written f_a o)) w k' -> c_todo st = n ++ base ->
    exists st', c_visit_new g_a inv s k' fi gr w st = Ok st' /\ INV st' /\ GROW k st st'
      /\ done base st' k (orient inv (i, as_written f_a o)) k'
      /\ (length (c_todo st') <= 1 + length (c_todo st))%nat.
  Proof.
    intros st k s i o w k' fi gr base n I Hk Hi Ho Hm Hb. unfold c_visit_new.
    destruct (composeLabel_spec (c_alpha st) g_a fi i gr o inv (i_alph _ I) Hi Ho) as (l & fa' & -> & Ia' & G & Hl). cbn [obind].
    rewrite (grows_written f_a (c_alpha st) o (i_grow _ I)) in Hl.
    set (st1 := mkC (c_gf st) (c_map st) (c_todo st) (c_seen st) fa').
    assert (I1 : INV st1).
    { destruct I. split; cbn [st1 c_gf c_map c_todo c_seen c_alpha]; auto.
      - eapply grows_trans; eauto.
      - intros p a r v H. destruct (i_arcs0 _ _ _ _ H) as (z & z' & x & A1 & A2 & A3 & A4). exists z, z', x.
        split; [auto|]. split; [auto|]. split; [auto|]. eapply grows_symbols; eauto. }
    assert (G1 : GROW k st st1).
    { split; cbn [st1 c_gf c_map c_todo c_seen c_alpha]; auto. exists []. split; [reflexivity|intros z []]. }
    destruct (visit_spec st1 k s _ w k' l base n I1 Hk Hm Hl Hb) as (st' & E & I' & G' & D & L).
    exists st'. split; [exact E|]. split; [exact I'|]. split; [eapply GROW_trans; eauto|]. split; [exact D|exact L].
  Qed.

  Lemma grow_base : forall k st st' n base, GROW k st st' -> c_todo st = n ++ base -> exists n', c_todo st' = n' ++ base.
  Proof. intros k st st' n base [_ _ (new & E & _) _ _] H. exists (new ++ n). rewrite E, H. apply app_assoc. Qed.

  Lemma g_decode : forall q a, In a (arcs_of g q) -> exists l r m o,
    decode (a_tag a) g_a = Ok (l, r) /\ as_symbol g_a l m /\ as_symbol g_a r o /\ as_symbols g_a (a_tag a) (m, o)
    /\ has_arc g q (a_tag a) (a_dst a) (a_wt a).
  Proof.
    intros q [b [q' w]] H. destruct (Tg q b q' w H) as ([m o] & Hx). destruct Hx as (l & r & E & H1 & H2).
    exists l, r, m, o. split; [exact E|]. split; [exact H1|]. split; [exact H2|]. split; [exists l, r; auto|exact H].
  Qed.

  Lemma symbol_zero : forall a s m, as_symbol a s m -> (s = 0 <-> m = eps_sym).
  Proof.
    intros a s [n|c] H; cbn in H; destruct H as [H1 H2]; split.
    - lia.
    - discriminate.
    - intros ->. now rewrite <- H2.
    - intros [= ->]. exact H2.
  Qed.

  Lemma geps_spec : forall base k s arcs st n, INV st -> cfind k (c_map st) = Some s ->
    incl arcs (arcs_of g (snd k)) -> c_todo st = n ++ base ->
    exists st', c_geps g_a inv (fst k) s arcs st = Ok st' /\ INV st' /\ GROW k st st'
      /\ (length (c_todo st') <= length arcs + length (c_todo st))%nat
      /\ forall b q' w o, In (b, (q', w)) arcs -> as_symbols g_a b (eps_sym, o) ->
           done base st' k (orient inv (eps_sym, as_written f_a o)) (fst k, q').
  Proof.
    intros base k s. induction arcs as [|a arcs IH]; intros st n I Hk Hin Hb; cbn [c_geps].
    - exists st. split; [reflexivity|]. split; [exact I|]. split; [apply GROW_refl|]. split; [cbn; lia|]. intros b q' w o [].
    - destruct (g_decode (snd k) a (Hin _ (or_introl eq_refl))) as (l & r & m & o & Ed & Hl & Hr & Ha & Harc).
      rewrite Ed. cbn [obind].
      assert (S : exists st1, (if l =? 0 then c_visit_new g_a inv s (fst k, a_dst a) 0 r (a_wt a) st else Ok st) = Ok st1
        /\ INV st1 /\ GROW k st st1 /\ (length (c_todo st1) <= 1 + length (c_todo st))%nat
        /\ (m = eps_sym -> done base st1 k (orient inv (eps_sym, as_written f_a o)) (fst k, a_dst a))).
      { destruct (Z.eqb_spec l 0) as [E|E].
        - assert (Em : m = eps_sym) by (now apply (symbol_zero g_a l m)). subst m.
          destruct (visit_new_spec st k s eps_sym o (a_wt a) (fst k, a_dst a) 0 r base n I Hk) as (st1 & E1 & I1 & G1 & D1 & L1); auto.
          + cbn. lia.
          + destruct k as [p q]. cbn [fst snd]. eapply pm_g; eauto.
          + exists st1. auto.
        - exists st. split; [reflexivity|]. split; [exact I|]. split; [apply GROW_refl|]. split; [lia|].
          intros Em. exfalso. apply E. apply (symbol_zero g_a l m); auto. }
      destruct S as (st1 & -> & I1 & G1 & L1 & D1). cbn [obind].
      destruct (grow_base _ _ _ _ _ G1 Hb) as (n1 & Hb1).
      destruct (IH st1 n1 I1 (g_map _ _ _ G1 _ _ Hk) (fun z Hz => Hin z (or_intror Hz)) Hb1) as (st2 & E2 & I2 & G2 & L2 & D2).
      exists st2. split; [exact E2|]. split; [exact I2|]. split; [eapply GROW_trans; eauto|]. split; [cbn [length]; lia|].
      intros b q' w o' [Hq|Hq] Hs; [|eauto]. subst a. cbn [a_tag a_dst a_wt fst snd] in *.
      assert (X := as_symbols_fun _ _ _ _ Ha Hs). injection X as -> ->. eapply done_grow; eauto.
  Qed.

  Lemma match_spec : forall base k s fa_ fi fo i m wf_ p', has_arc f (fst k) fa_ p' wf_ ->
    as_symbols f_a fa_ (orient inv (i, m)) -> forall arcs st n,
    as_symbol (c_alpha st) fi i -> as_symbol (c_alpha st) fo m -> INV st -> cfind k (c_map st) = Some s ->
    incl arcs (arcs_of g (snd k)) -> c_todo st = n ++ base ->
    exists st', c_match g_a inv s p' fi fo wf_ arcs st = Ok st' /\ INV st' /\ GROW k st st'
      /\ (length (c_todo st') <= length arcs + length (c_todo st))%nat
      /\ forall b q' w m' o, In (b, (q', w)) arcs -> as_symbols g_a b (m', o) -> m' <> eps_sym -> agree m m' ->
           done base st' k (orient inv (i, as_written f_a o)) (p', q').
  Proof.
    intros base k s fa_ fi fo i m wf_ p' Hf Hfs. induction arcs as [|a arcs IH]; intros st n Hi Hm I Hk Hin Hb; cbn [c_match].
    - exists st. split; [reflexivity|]. split; [exact I|]. split; [apply GROW_refl|]. split; [cbn; lia|]. intros b q' w m' o [].
    - destruct (g_decode (snd k) a (Hin _ (or_introl eq_refl))) as (l & r & m' & o & Ed & Hl & Hr & Ha & Harc).
      rewrite Ed. cbn [obind].
      assert (S0 : exists b, (if l =? 0 then Ok false else sameSymbol (c_alpha st) fo g_a l) = Ok b
        /\ (b = true <-> m' <> eps_sym /\ agree m m')).
      { destruct (Z.eqb_spec l 0) as [E|E].
        - exists false. split; [reflexivity|]. split; [discriminate|]. intros [H _]. exfalso. apply H. now apply (symbol_zero g_a l m').
        - assert (Hn : m' <> eps_sym) by (intros E'; apply E; now apply (symbol_zero g_a l m')).
          destruct (sameSymbol_spec (c_alpha st) g_a fo l m m' Hm Hl Hn) as (b & E1 & E2). exists b. split; [exact E1|]. tauto. }
      destruct S0 as (b0 & -> & Hb0). cbn [obind].
      assert (S : exists st1, (if b0 then c_visit_new g_a inv s (p', a_dst a) fi r (wf_ + a_wt a) st else Ok st) = Ok st1
        /\ INV st1 /\ GROW k st st1 /\ (length (c_todo st1) <= 1 + length (c_todo st))%nat
        /\ (m' <> eps_sym -> agree m m' -> done base st1 k (orient inv (i, as_written f_a o)) (p', a_dst a))).
      { destruct b0.
        - destruct (proj1 Hb0 eq_refl) as [Hn Hag].
          destruct (visit_new_spec st k s i o (wf_ + a_wt a) (p', a_dst a) fi r base n I Hk Hi Hr) as (st1 & E1 & I1 & G1 & D1 & L1); auto.
          + destruct k as [p q]. cbn [fst snd] in *. eapply pm_both; eauto.
          + exists st1. auto.
        - exists st. split; [reflexivity|]. split; [exact I|]. split; [apply GROW_refl|]. split; [lia|].
          intros H1 H2. exfalso. assert (X : false = true) by (apply Hb0; auto). discriminate. }
      destruct S as (st1 & -> & I1 & G1 & L1 & D1). cbn [obind].
      destruct (grow_base _ _ _ _ _ G1 Hb) as (n1 & Hb1).
      destruct (IH st1 n1 (grows_symbol _ _ _ _ (g_alpha _ _ _ G1) Hi) (grows_symbol _ _ _ _ (g_alpha _ _ _ G1) Hm) I1 (g_map _ _ _ G1 _ _ Hk) (fun z Hz => Hin z (or_intror Hz)) Hb1) as (st2 & E2 & I2 & G2 & L2 & D2).
      exists st2. split; [exact E2|]. split; [exact I2|]. split; [eapply GROW_trans; eauto|]. split; [cbn [length]; lia|].
      intros b q' w m2 o2 [Hq|Hq] Hs H1 H2; [|eauto]. subst a. cbn [a_tag a_dst a_wt fst snd] in *.
      assert (X := as_symbols_fun _ _ _ _ Ha Hs). injection X as -> ->. eapply done_grow; eauto.
  Qed.

  Lemma orient_symbols : forall a b i m, as_symbols a b (orient inv (i, m)) <->
    exists pr, decode b a = Ok pr /\ as_symbol a (fst (orient inv pr)) i /\ as_symbol a (snd (orient inv pr)) m.
  Proof.
    intros a b i m. unfold as_symbols, orient. destruct inv; cbn [fst snd]; split.
    - intros (l & r & E & H1 & H2). exists (l, r). auto.
    - intros ([l r] & E & H1 & H2). exists l, r. auto.
    - intros (l & r & E & H1 & H2). exists (l, r). auto.
    - intros ([l r] & E & H1 & H2). exists l, r. auto.
  Qed.

  Lemma farcs_spec : forall base k s arcs st n, INV st -> cfind k (c_map st) = Some s ->
    incl arcs (arcs_of f (fst k)) -> c_todo st = n ++ base ->
    exists st', c_farcs g g_a inv anywhere (snd k) s arcs st = Ok st' /\ INV st' /\ GROW k st st'
      /\ (length (c_todo st') <= length arcs * (length (arcs_of g (snd k)) + 2) + length (c_todo st))%nat
      /\ (forall a i m w1 p' b m' o w2 q', In (a, (p', w1)) arcs -> as_symbols f_a a (orient inv (i, m)) ->
            has_arc g (snd k) b q' w2 -> as_symbols g_a b (m', o) -> m' <> eps_sym -> agree m m' ->
            done base st' k (orient inv (i, as_written f_a o)) (p', q'))
      /\ (forall a i w p', In (a, (p', w)) arcs -> as_symbols f_a a (orient inv (i, eps_sym)) ->
            done base st' k (orient inv (i, eps_sym)) (p', snd k))
      /\ (anywhere = true -> snd k = initial g -> forall a x w p', In (a, (p', w)) arcs -> as_symbols f_a a x ->
            done base st' k x (p', snd k)).
  Proof.
    intros base k s. induction arcs as [|a arcs IH]; intros st n I Hk Hin Hb; cbn [c_farcs].
    - exists st. split; [reflexivity|]. split; [exact I|]. split; [apply GROW_refl|]. split; [cbn; lia|].
      split; [intros * []|]. split; [intros * []|intros _ _ * []].
    - assert (Hf : has_arc f (fst k) (a_tag a) (a_dst a) (a_wt a)) by (destruct a as [b [q' w]]; apply Hin; now left).
      destruct (Tf _ _ _ _ Hf) as (x & Hx). set (im := orient inv x). assert (Ex : x = orient inv (fst im, snd im)).
      { unfold im. rewrite <- surjective_pairing. symmetry. apply orient_orient. }
      assert (Hx0 := Hx). rewrite Ex in Hx. clearbody im. destruct im as [i m]. cbn [fst snd] in *. subst x.
      assert (Hx1 := grows_symbols _ _ _ _ (i_grow _ I) Hx).
      apply orient_symbols in Hx1 as (pr & Ed & Hi & Hm). rewrite Ed. cbn [obind].
      change (if inv then (snd pr, fst pr) else pr) with (orient inv pr).
      destruct (orient inv pr) as [fi fo] eqn:Eo. cbn [fst snd] in Hi, Hm.
      destruct (match_spec base k s _ fi fo i m _ _ Hf Hx (arcs_of g (snd k)) st n Hi Hm I Hk (incl_refl _) Hb) as (st1 & -> & I1 & G1 & L1 & D1).
      cbn [obind]. destruct (grow_base _ _ _ _ _ G1 Hb) as (n1 & Hb1).
      assert (S2 : exists st2, (if anywhere && (snd k =? initial g)%nat then c_visit s (a_dst a, snd k) (a_tag a) (a_wt a) st1 else Ok st1) = Ok st2
        /\ INV st2 /\ GROW k st1 st2 /\ (length (c_todo st2) <= 1 + length (c_todo st1))%nat
        /\ (anywhere = true -> snd k = initial g -> done base st2 k (orient inv (i, m)) (a_dst a, snd k))).
      { destruct (anywhere && (snd k =? initial g)%nat) eqn:E.
        - apply andb_true_iff in E as [E1 E2]. apply Nat.eqb_eq in E2.
          destruct (visit_spec st1 k s (orient inv (i, m)) (a_wt a) (a_dst a, snd k) (a_tag a) base n1 I1 (g_map _ _ _ G1 _ _ Hk)) as (st2 & E3 & I2 & G2 & D2 & L2); auto.
          + destruct k as [p q]. cbn [fst snd] in *. subst q. eapply pm_copy; eauto.
          + eapply grows_symbols; [exact (i_grow _ I1)|exact Hx].
          + exists st2. auto.
        - exists st1. split; [reflexivity|]. split; [exact I1|]. split; [apply GROW_refl|]. split; [lia|].
          intros H1 H2. rewrite H1, H2, Nat.eqb_refl in E. discriminate. }
      destruct S2 as (st2 & -> & I2 & G2 & L2 & D2). cbn [obind]. destruct (grow_base _ _ _ _ _ G2 Hb1) as (n2 & Hb2).
      assert (G12 := GROW_trans _ _ _ _ G1 G2).
      assert (S3 : exists st3, (if fo =? 0 then c_visit s (a_dst a, snd k) (a_tag a) (a_wt a) st2 else Ok st2) = Ok st3
        /\ INV st3 /\ GROW k st2 st3 /\ (length (c_todo st3) <= 1 + length (c_todo st2))%nat
        /\ (m = eps_sym -> done base st3 k (orient inv (i, eps_sym)) (a_dst a, snd k))).
      { destruct (Z.eqb_spec fo 0) as [E|E].
        - assert (Em : m = eps_sym) by (now apply (symbol_zero (c_alpha st) fo m)). subst m.
          destruct (visit_spec st2 k s (orient inv (i, eps_sym)) (a_wt a) (a_dst a, snd k) (a_tag a) base n2 I2 (g_map _ _ _ G12 _ _ Hk)) as (st3 & E3 & I3 & G3 & D3 & L3); auto.
          + destruct k as [p q]. cbn [fst snd] in *. eapply pm_f; eauto.
          + eapply grows_symbols; [exact (i_grow _ I2)|exact Hx].
          + exists st3. auto.
        - exists st2. split; [reflexivity|]. split; [exact I2|]. split; [apply GROW_refl|]. split; [lia|].
          intros Em. exfalso. apply E. apply (symbol_zero (c_alpha st) fo m); auto. }
      destruct S3 as (st3 & -> & I3 & G3 & L3 & D3). cbn [obind]. destruct (grow_base _ _ _ _ _ G3 Hb2) as (n3 & Hb3).
      assert (G13 := GROW_trans _ _ _ _ G12 G3).
      destruct (IH st3 n3 I3 (g_map _ _ _ G13 _ _ Hk) (fun z Hz => Hin z (or_intror Hz)) Hb3) as (st4 & E4 & I4 & G4 & L4 & A4 & B4 & C4).
      exists st4. split; [exact E4|]. split; [exact I4|]. split; [eapply GROW_trans; eauto|]. split; [cbn [length]; lia|].
      assert (G23 := GROW_trans _ _ _ _ G2 G3). assert (G24 := GROW_trans _ _ _ _ G23 G4). assert (G34 := GROW_trans _ _ _ _ G3 G4).
      split; [|split].
      + intros a0 i0 m0 w1 p' b m' o w2 q' [Hq|Hq] Hs Hg Hgs H1 H2; [|eauto]. subst a. cbn [a_tag a_dst a_wt fst snd] in *.
        assert (X := as_symbols_fun _ _ _ _ Hx Hs). apply (f_equal (orient inv)) in X. rewrite !orient_orient in X. injection X as <- <-.
        eapply done_grow; [exact G24|]. eapply D1; eauto.
      + intros a0 i0 w1 p' [Hq|Hq] Hs; [|eauto]. subst a. cbn [a_tag a_dst a_wt fst snd] in *.
        assert (X := as_symbols_fun _ _ _ _ Hx Hs). apply (f_equal (orient inv)) in X. rewrite !orient_orient in X. injection X as <- ->.
        eapply done_grow; [exact G4|]. eapply D3; eauto.
      + intros Hany Hq0 a0 x0 w1 p' [Hq|Hq] Hs; [|eauto]. subst a. cbn [a_tag a_dst a_wt fst snd] in *.
        assert (X := as_symbols_fun _ _ _ _ Hx Hs). subst x0.
        eapply done_grow; [exact G34|]. eapply D2; eauto.
  Qed.

  Let K : nat := (maxlen g + maxlen f * (maxlen g + 2))%nat.

  Lemma step_spec : forall st current rest, INV st -> c_todo st = current :: rest ->
    exists s st1 st2, cfind current (c_map st) = Some s
      /\ c_geps g_a inv (fst current) s (arcs_of g (snd current)) (mkC (c_gf st) (c_map st) rest (current :: c_seen st) (c_alpha st)) = Ok st1
      /\ c_farcs g g_a inv anywhere (snd current) s (arcs_of f (fst current)) st1 = Ok st2
      /\ INV st2 /\ GROW current (mkC (c_gf st) (c_map st) rest (current :: c_seen st) (c_alpha st)) st2
      /\ (length (c_todo st2) <= K + length rest)%nat
      /\ forall x w k', pmove current x w k' -> done rest st2 current x k'.
  Proof.
    intros st current rest I Et. set (st0 := mkC (c_gf st) (c_map st) rest (current :: c_seen st) (c_alpha st)).
    destruct (i_todo _ I current) as (s & Hs); [rewrite Et; now left|].
    assert (I0 : INV st0).
    { destruct I. split; cbn [st0 c_gf c_map c_todo c_seen c_alpha]; auto.
      - intros k Hk. apply i_todo0. rewrite Et. now right.
      - intros k v Hk. destruct (i_map0 _ _ Hk) as [H|H]; [left; now right|]. rewrite Et in H. destruct H as [->|H]; [left; now left|now right]. }
    destruct (geps_spec rest current s (arcs_of g (snd current)) st0 [] I0 Hs (incl_refl _) eq_refl) as (st1 & E1 & I1 & G1 & L1 & D1).
    destruct (grow_base _ _ _ [] _ G1 eq_refl) as (n1 & Hb1).
    destruct (farcs_spec rest current s (arcs_of f (fst current)) st1 n1 I1 (g_map _ _ _ G1 _ _ Hs) (incl_refl _) Hb1) as (st2 & E2 & I2 & G2 & L2 & A2 & B2 & C2).
    exists s, st1, st2. split; [exact Hs|]. split; [exact E1|]. split; [exact E2|]. split; [exact I2|]. split; [eapply GROW_trans; eauto|]. split.
    - cbn [st0 c_todo] in L1. pose proof (maxlen_arcs g (snd current)). pose proof (maxlen_arcs f (fst current)).
      assert ((length (arcs_of f (fst current)) * (length (arcs_of g (snd current)) + 2) <= maxlen f * (maxlen g + 2))%nat) by (apply Nat.mul_le_mono; lia).
      unfold K. lia.
    - intros x w k' H. destruct H; cbn [fst snd] in *.
      + eapply done_grow; [exact G2|]. eapply D1; eauto.
      + eapply A2; eauto.
      + eapply B2; eauto.
      + eapply C2; eauto.
  Qed.

  Definition linked (st : cst) (k : spair_t) (x : symbol * symbol) (k' : spair_t) : Prop :=
    exists s s' b w, cfind k (c_map st) = Some s /\ cfind k' (c_map st) = Some s' /\ has_arc (c_gf st) s b s' w
       /\ as_symbols (c_alpha st) b x.
  Lemma linked_grow : forall k0 st st' k x k', GROW k0 st st' -> linked st k x k' -> linked st' k x k'.
  Proof.
    intros k0 st st' k x k' [M S _ A G] (s & s' & b & w & H1 & H2 & H3 & H4).
    exists s, s', b, w. split; [auto|]. split; [auto|]. split; [auto|]. eapply grows_symbols; eauto.
  Qed.

  Definition unseen (seen : list spair_t) : nat :=
    length (filter (fun z => negb (mem_pair z seen)) (list_prod (seq 0 (nstates f)) (seq 0 (nstates g)))).

  Definition ordered (st : cst) : Prop := forall pre k post, c_todo st = pre ++ k :: post -> In k (c_seen st) ->
    forall x w k', pmove k x w k' -> In k' (c_seen st) \/ In k' pre.
  Definition closed (st : cst) : Prop := forall k, In k (c_seen st) -> forall x w k', pmove k x w k' -> linked st k x k'.

  Lemma loop_spec : forall m st, INV st -> ordered st -> closed st ->
    (unseen (c_seen st) * (K + 1) + length (c_todo st) <= m)%nat ->
    exists st', (forall fuel, (m <= fuel)%nat -> c_loop f g g_a inv anywhere fuel st = Ok st')
      /\ INV st' /\ forall k s, cfind k (c_map st') = Some s -> forall x w k', pmove k x w k' -> linked st' k x k'.
  Proof.
    induction m as [|m IH]; intros st I O C Hm.
    - assert (E : c_todo st = []) by (destruct (c_todo st); [reflexivity|cbn in Hm; lia]).
      exists st. split; [intros fuel _; destruct fuel; cbn [c_loop]; now rewrite E|]. split; [exact I|].
      intros k s Hk. apply C. destruct (i_map _ I _ _ Hk) as [H|H]; [exact H|]. rewrite E in H. destruct H.
    - destruct (c_todo st) as [|current rest] eqn:Et.
      { exists st. split; [intros fuel _; destruct fuel; cbn [c_loop]; now rewrite Et|]. split; [exact I|].
        intros k s Hk. apply C. destruct (i_map _ I _ _ Hk) as [H|H]; [exact H|]. rewrite Et in H. destruct H. }
      destruct (step_spec st current rest I Et) as (s & st1 & st2 & Hs & E1 & E2 & I2 & G & L & D).
      assert (S2 := g_seen _ _ _ G). cbn [c_seen] in S2.
      destruct (g_todo _ _ _ G) as (new & T2 & N2). cbn [c_todo c_seen] in T2, N2.
      assert (O2 : ordered st2).
      { intros pre k post E Hk x w k' Hp. rewrite S2 in *. rewrite T2 in E.
        assert (Hpre : exists pre', pre = new ++ pre' /\ rest = pre' ++ k :: post).
        { clear - E N2 Hk. revert pre E. induction new as [|z new IHn]; intros pre E; cbn in E.
          - exists pre. auto.
          - destruct pre as [|y pre]; cbn in E; injection E as -> E.
            + exfalso. apply (proj1 (N2 _ (or_introl eq_refl))). exact Hk.
            + destruct (IHn (fun z Hz => N2 z (or_intror Hz)) pre E) as (pre' & -> & ->). exists pre'. auto. }
        destruct Hpre as (pre' & -> & Er).
        assert (Hcur : k = current -> In k' (current :: c_seen st) \/ In k' (new ++ pre')).
        { intros ->. destruct (D _ _ _ Hp) as [_ (new' & En & H)]. rewrite S2 in H. rewrite T2 in En. apply app_inv_tail in En. subst new'.
          destruct H as [H|H]; [now left|right; apply in_or_app; now left]. }
        destruct Hk as [<-|Hk]; [auto|].
        destruct (O (current :: pre') k post) with (x := x) (w := w) (k' := k') as [H|[H|H]]; auto.
        - rewrite Et, Er. reflexivity.
        - left. now right.
        - left. now left.
        - right. apply in_or_app. now right. }
      assert (C2 : closed st2).
      { intros k Hk x w k' Hp. rewrite S2 in Hk. destruct Hk as [<-|Hk].
        - destruct (D _ _ _ Hp) as [H _]. exact H.
        - eapply linked_grow; [exact G|]. destruct (C k Hk x w k' Hp) as (s1 & s2 & b & w' & H). exists s1, s2, b, w'. exact H. }
      assert (M2 : (unseen (c_seen st2) * (K + 1) + length (c_todo st2) <= m)%nat).
      { rewrite S2. cbn [length] in Hm. destruct (in_dec spair_dec current (c_seen st)) as [Hin|Hnin].
        - assert (Enew : new = []).
          { destruct new as [|z new]; [reflexivity|]. exfalso. destruct (N2 z (or_introl eq_refl)) as [Hn (x & w & Hp)].
            destruct (O [] current rest Et Hin x w z Hp) as [H|[]]. apply Hn. now right. }
          rewrite T2, Enew. cbn [app].
          assert (Eu : unseen (current :: c_seen st) = unseen (c_seen st)).
          { unfold unseen. f_equal. apply filter_ext. intros z. f_equal. destruct (mem_pair z (c_seen st)) eqn:E.
            - apply mem_pair_spec. right. now apply mem_pair_spec.
            - match goal with |- ?b = false => destruct b eqn:E' end; [|reflexivity]. apply mem_pair_spec in E' as [E'|E'].
              + subst z. apply mem_pair_spec in Hin. congruence.
              + apply mem_pair_spec in E'. congruence. }
          rewrite Eu. lia.
        - assert (Hlt : (unseen (current :: c_seen st) < unseen (c_seen st))%nat).
          { unfold unseen. apply (filter_less _ _ _ current).
            - intros z Hz. apply negb_true_iff in Hz. apply negb_true_iff. match goal with |- ?b = false => destruct b eqn:E' end; [|reflexivity].
              apply mem_pair_spec in E'. assert (X : mem_pair z (current :: c_seen st) = true) by (apply mem_pair_spec; now right). congruence.
            - destruct (i_keys _ I _ _ Hs) as [H1 H2]. destruct current as [p q]. apply in_prod; apply in_seq; cbn [fst snd] in *; lia.
            - apply negb_true_iff. match goal with |- ?b = false => destruct b eqn:E' end; [|reflexivity]. apply mem_pair_spec in E'. contradiction.
            - apply negb_false_iff. apply mem_pair_spec. now left. }
          nia. }
      destruct (IH st2 I2 O2 C2 M2) as (st' & Hl & H). exists st'. split; [|exact H].
      intros fuel Hf. destruct fuel as [|fuel]; [lia|]. cbn [c_loop]. rewrite Et. cbn [c_map]. rewrite Hs, E1. cbn [obind]. rewrite E2. cbn [obind]. apply Hl. lia.
  Qed.

  (** *** Finals *)
  Lemma c_final_spec : forall k s fin p c, finals_sorted fin ->
    (In (p, c) (c_final f g anywhere (k, s) fin) <->
     In (p, c) fin \/ (p = s /\ pfinal f g anywhere k c /\ forall c', ~ In (s, c') fin)).
  Proof.
    intros [pf qg] s fin p c Hs. unfold c_final, pfinal. cbn [fst snd].
    destruct (fin_find pf (finals f)) as [w1|] eqn:E1.
    - assert (H1 : final_wt f pf w1) by (apply (fin_find_some _ _ _ (wf_finals_sorted f Wf)); exact E1).
      assert (U1 : forall c1, final_wt f pf c1 -> c1 = w1) by (intros c1 Hc; eapply (finals_unique (finals f)); [apply Wf|exact Hc|exact H1]).
      destruct (fin_find qg (finals g)) as [w2|] eqn:E2.
      + assert (H2 : final_wt g qg w2) by (apply (fin_find_some _ _ _ (wf_finals_sorted g Wg)); exact E2).
        assert (U2 : forall c1, final_wt g qg c1 -> c1 = w2) by (intros c1 Hc; eapply (finals_unique (finals g)); [apply Wg|exact Hc|exact H2]).
        rewrite (fin_insert_in s (w1 + w2) fin p c Hs). split.
        * intros [H|(-> & -> & H)]; [now left|]. right. split; [reflexivity|]. split; [|exact H]. exists w1. split; [exact H1|]. left. eauto.
        * intros [H|(-> & (c1 & Hc1 & Hc) & H)]; [now left|]. right. split; [reflexivity|]. split; [|exact H].
          rewrite (U1 _ Hc1) in *. destruct Hc as [(c2 & Hc2 & ->)|(_ & _ & Hn & _)]; [now rewrite (U2 _ Hc2)|]. destruct (Hn _ H2).
      + assert (H2 : forall c2, ~ final_wt g qg c2) by (apply fin_find_none; exact E2).
        destruct (anywhere && (initial g =? qg)%nat) eqn:E3.
        * apply andb_true_iff in E3 as [E3 E4]. apply Nat.eqb_eq in E4.
          rewrite (fin_insert_in s (w1 + 0) fin p c Hs). rewrite Z.add_0_r. split.
          -- intros [H|(-> & -> & H)]; [now left|]. right. split; [reflexivity|]. split; [|exact H]. exists w1. split; [exact H1|]. right. auto.
          -- intros [H|(-> & (c1 & Hc1 & Hc) & H)]; [now left|]. right. split; [reflexivity|]. split; [|exact H].
             rewrite (U1 _ Hc1) in *. destruct Hc as [(c2 & Hc2 & ->)|(_ & _ & _ & ->)]; [|reflexivity]. destruct (H2 _ Hc2).
        * split; [now left|]. intros [H|(-> & (c1 & Hc1 & Hc) & H)]; [exact H|]. exfalso.
          destruct Hc as [(c2 & Hc2 & _)|(Ha & Hq & _ & _)]; [destruct (H2 _ Hc2)|]. rewrite Ha, Hq, Nat.eqb_refl in E3. discriminate.
    - assert (H1 : forall c1, ~ final_wt f pf c1) by (apply fin_find_none; exact E1).
      split; [now left|]. intros [H|(-> & (c1 & Hc1 & _) & _)]; [exact H|]. destruct (H1 _ Hc1).
  Qed.
  Lemma c_final_sorted : forall e fin, finals_sorted fin -> finals_sorted (c_final f g anywhere e fin).
  Proof.
    intros [[pf qg] s] fin H. unfold c_final. destruct (fin_find pf (finals f)); [|exact H].
    destruct (fin_find qg (finals g)); [now apply fin_insert_sorted|]. destruct (_ && _); [now apply fin_insert_sorted|exact H].
  Qed.

  Lemma c_finals_fold : forall m fin, finals_sorted fin -> NoDup (map snd m) ->
    (forall k s c, In (k, s) m -> ~ In (s, c) fin) ->
    finals_sorted (fold_left (fun fin e => c_final f g anywhere e fin) m fin)
    /\ forall p c, In (p, c) (fold_left (fun fin e => c_final f g anywhere e fin) m fin) <->
         In (p, c) fin \/ exists k, In (k, p) m /\ pfinal f g anywhere k c.
  Proof.
    induction m as [|[k s] m IH]; intros fin Hs ND Hd; cbn [fold_left].
    - split; [exact Hs|]. intros p c. split; [now left|]. intros [H|(k & [] & _)]. exact H.
    - cbn [map snd] in ND. inversion ND as [|? ? Hn ND']; subst.
      assert (Hs' := c_final_sorted (k, s) fin Hs).
      destruct (IH (c_final f g anywhere (k, s) fin) Hs' ND') as [I1 I2].
      + intros k' s' c Hin H. apply (c_final_spec k s fin s' c Hs) in H as [H|(-> & _ & _)].
        * apply (Hd k' s' c); [now right|exact H].
        * apply Hn. apply in_map_iff. exists (k', s). auto.
      + split; [exact I1|]. intros p c. rewrite I2, (c_final_spec k s fin p c Hs). cbn [In]. split.
        * intros [[H|(-> & H & _)]|(k' & H1 & H2)]; [now left|right; exists k; auto|right; exists k'; auto].
        * intros [H|(k' & [[= -> ->]|H1] & H2)]; [auto| |right; exists k'; auto].
          left. right. split; [reflexivity|]. split; [exact H2|]. intros c'. apply (Hd k' p c'). now left.
  Qed.

  (** *** The product *)
  Let st0 : cst := mkC new_transducer [(start, initial new_transducer)] [start] [] f_a.
  Lemma compose_start : alph_inv f_a -> INV st0 /\ ordered st0 /\ closed st0.
  Proof.
    intros Ia. assert (Hf : forall k s, cfind k (c_map st0) = Some s -> k = start /\ s = 0%nat).
    { intros k s H. cbn [st0 c_map cfind] in H. destruct (spair_dec k start); [|discriminate]. injection H as <-. auto. }
    assert (H0 : cfind start (c_map st0) = Some 0%nat) by (cbn [st0 c_map cfind]; destruct (spair_dec start start); [reflexivity|congruence]).
    split; [|split].
    - split; auto using grows_refl, new_transducer_wf.
      + intros k k' s H1 H2. apply Hf in H1 as [-> _]. apply Hf in H2 as [-> _]. reflexivity.
      + intros k s H. apply Hf in H as [-> ->]. cbn. lia.
      + intros k s H. apply Hf in H as [-> ->]. split; [apply Wf|apply Wg].
      + repeat constructor. intros [].
      + intros s b s' w H. unfold has_arc, arcs_of in H. cbn in H. destruct s as [|[|s]]; destruct H.
      + intros k [<-|[]]. eauto.
      + intros k s H. apply Hf in H as [-> _]. right. now left.
    - intros pre k post _ [].
    - intros k [].
  Qed.

  Lemma compose_product : alph_inv f_a -> exists N st', (forall fuel, (N <= fuel)%nat -> c_loop f g g_a inv anywhere fuel st0 = Ok st')
    /\ let t' := mkT (initial (c_gf st')) (c_finals f g anywhere (c_map st')) (trans (c_gf st')) in
       wf t' /\ alph_inv (c_alpha st') /\ grows f_a (c_alpha st') /\ symbols_in t' (c_alpha st')
       /\ (forall tr c, accepts_trace (as_symbols (c_alpha st')) t' tr c -> paccepts f g f_a g_a inv anywhere tr c)
       /\ (forall tr c, paccepts f g f_a g_a inv anywhere tr c ->
             exists tr', accepts_trace (as_symbols (c_alpha st')) t' tr' c /\ map fst tr' = map fst tr).
  Proof.
    intros Ia. destruct (compose_start Ia) as (I0 & O0 & C0).
    destruct (loop_spec _ st0 I0 O0 C0 (le_n _)) as (st' & Hl & I & Hc).
    eexists. exists st'. split; [exact Hl|]. intros t'.
    assert (ND : NoDup (map snd (c_map st'))).
    { pose proof (i_nodup _ I) as N. pose proof (i_inj _ I) as J.
      assert (J' : forall k k' s, In (k, s) (c_map st') -> In (k', s) (c_map st') -> k = k').
      { intros k k' s H1 H2. apply (J k k' s); apply cfind_some; auto. }
      clear - N J'. induction (c_map st') as [|[k s] m IH]; cbn [map snd] in *; [constructor|]. inversion N as [|? ? Hn N']; subst. constructor.
      - intros H. apply in_map_iff in H as ([k' s'] & Hs & Hin). cbn [snd] in Hs. subst s'.
        assert (X := J' k k' s (or_introl eq_refl) (or_intror Hin)). subst k'. apply Hn. apply in_map_iff. exists (k, s). auto.
      - apply IH; [exact N'|]. intros k1 k2 s1 H1 H2. apply (J' k1 k2 s1); now right. }
    destruct (c_finals_fold (c_map st') [] ltac:(constructor) ND ltac:(intros; intros [])) as [F1 F2].
    assert (Hfin : forall p c, final_wt t' p c <-> exists k, cfind k (c_map st') = Some p /\ pfinal f g anywhere k c).
    { intros p c. unfold final_wt, t'. cbn [finals]. unfold c_finals. rewrite F2. cbn [In]. split.
      - intros [[]|(k & H1 & H2)]. exists k. split; [apply cfind_some; [apply (i_nodup _ I)|exact H1]|exact H2].
      - intros (k & H1 & H2). right. exists k. split; [apply cfind_some; [apply (i_nodup _ I)|exact H1]|exact H2]. }
    pose proof (i_wf _ I) as W'.
    split; [|split; [|split; [|split; [|split]]]].
    - constructor.
      + apply (wf_initial _ W').
      + intros p c H. apply Hfin in H as (k & H & _). apply (i_rng _ I) in H. exact H.
      + exact F1.
      + apply (wf_arcs _ W').
      + apply (wf_sorted _ W').
    - apply (i_alph _ I).
    - apply (i_grow _ I).
    - intros p tag q w H. destruct (i_arcs _ I p tag q w H) as (k & k' & x & _ & _ & _ & H4). exists x. exact H4.
    - intros tr c (q & Ht & Hq). apply Hfin in Hq as (kq & Hkq & Hq). exists kq. split; [|exact Hq].
      assert (G : forall p tr q, trace (as_symbols (c_alpha st')) t' p tr q -> forall k, cfind k (c_map st') = Some p ->
        forall k2, cfind k2 (c_map st') = Some q -> ptrace f g f_a g_a inv anywhere k tr k2).
      { clear - I. intros p tr q H. induction H as [p|p a x w q tr r Ha Hx Ht IH]; intros k Hk k2 Hk2.
        - rewrite (i_inj _ I _ _ _ Hk Hk2). constructor.
        - destruct (i_arcs _ I p a q w Ha) as (k1 & k' & x' & H1 & H2 & H3 & H4).
          rewrite (i_inj _ I _ _ _ Hk H1). rewrite (as_symbols_fun _ _ _ _ Hx H4). econstructor; [exact H3|]. apply IH; auto. }
      eapply G; [exact Ht|exact (i_init _ I)|exact Hkq].
    - intros tr c (k & Ht & Hk).
      assert (G : forall k tr k2, ptrace f g f_a g_a inv anywhere k tr k2 -> forall p, cfind k (c_map st') = Some p ->
        exists q tr', cfind k2 (c_map st') = Some q /\ trace (as_symbols (c_alpha st')) t' p tr' q /\ map fst tr' = map fst tr).
      { clear - I Hc. intros k tr k2 H. induction H as [k|k x w k' tr k2 Hm Ht IH]; intros p Hp.
        - exists p, []. split; [exact Hp|]. split; [constructor|reflexivity].
        - destruct (Hc k p Hp x w k' Hm) as (s & s' & b & w' & H1 & H2 & H3 & H4). rewrite Hp in H1. injection H1 as <-.
          destruct (IH s' H2) as (q & tr' & A1 & A2 & A3). exists q, ((x, w') :: tr'). split; [exact A1|]. split; [|cbn; now rewrite A3].
          econstructor; [exact H3|exact H4|exact A2]. }
      destruct (G _ _ _ Ht _ (i_init _ I)) as (q & tr' & A1 & A2 & A3). exists tr'. split; [|exact A3].
      exists q. split; [exact A2|]. apply Hfin. exists k. auto.
  Qed.
End Compose.

(** ** Words *)
Lemma srel_o_spec : forall inv t a x z c, srel_o inv t a x z c <->
  exists tr f, accepts_trace (as_symbols a) t tr f /\ sym_in (otr inv tr) = x /\ sym_out (otr inv tr) = z /\ weight_of tr + f = c.
Proof.
  intros inv t a x z c. unfold srel_o, srel, sym_in, sym_out, otr.
  assert (E1 : forall tr : list ((symbol * symbol) * Z), map (fun e => fst (fst e)) (map (fun e => (orient inv (fst e), snd e)) tr) = map (fun e => if inv then snd (fst e) else fst (fst e)) tr).
  { intros tr. rewrite map_map. apply map_ext. intros [[u v] w]. now destruct inv. }
  assert (E2 : forall tr : list ((symbol * symbol) * Z), map (fun e => snd (fst e)) (map (fun e => (orient inv (fst e), snd e)) tr) = map (fun e => if inv then fst (fst e) else snd (fst e)) tr).
  { intros tr. rewrite map_map. apply map_ext. intros [[u v] w]. now destruct inv. }
  destruct inv; split; intros (tr & f & H1 & H2 & H3 & H4); exists tr, f; rewrite ?E1, ?E2 in *; auto.
Qed.

Definition vis (s : symbol) : list symbol := if is_eps s then [] else [s].
Lemma sym_in_cons : forall x w tr, sym_in ((x, w) :: tr) = vis (fst x) ++ sym_in tr.
Proof. intros [a b] w tr. unfold sym_in, vis. cbn [map fst snd filter]. now destruct (is_eps a). Qed.
Lemma sym_out_cons : forall x w tr, sym_out ((x, w) :: tr) = vis (snd x) ++ sym_out tr.
Proof. intros [a b] w tr. unfold sym_out, vis. cbn [map fst snd filter]. now destruct (is_eps b). Qed.
Lemma otr_cons : forall inv x w tr, otr inv ((x, w) :: tr) = (orient inv x, w) :: otr inv tr.
Proof. reflexivity. Qed.
Lemma is_eps_spec : forall s, is_eps s = true <-> s = eps_sym.
Proof. intros [n|[|p|p]]; cbn; split; intros H; try discriminate; try reflexivity. Qed.
Lemma vis_eps : vis eps_sym = [].
Proof. reflexivity. Qed.
Lemma vis_some : forall s, s <> eps_sym -> vis s = [s].
Proof. intros s H. unfold vis. destruct (is_eps s) eqn:E; [apply is_eps_spec in E; contradiction|reflexivity]. Qed.
Lemma vis_written : forall a s, vis (as_written a s) = filter (writable a) (vis s).
Proof.
  intros a s. unfold vis at 2. unfold as_written. destruct (is_eps s) eqn:E.
  - apply is_eps_spec in E. subst s. reflexivity.
  - cbn [filter]. destruct (writable a s) eqn:W; [|reflexivity]. unfold vis. now rewrite E.
Qed.
Lemma agree_eps : forall m m', agree m m' -> m' <> eps_sym -> m <> eps_sym.
Proof.
  intros m m' [->|H] Hn E; [contradiction|]. subst m. destruct m' as [n|c]; cbn in H; [destruct H; lia|exact H].
Qed.

Lemma weight_cons : forall {X} (x : X) w tr, weight_of ((x, w) :: tr) = w + weight_of tr.
Proof. reflexivity. Qed.
Lemma cost_cons : forall (x : Z) w l, cost_of ((x, w) :: l) = w + cost_of l.
Proof. reflexivity. Qed.

Section Words.
  Context (f g : transducer) (f_a g_a : alphabet) (inv : bool).

  Lemma ptrace_split : forall k tr k', ptrace f g f_a g_a inv false k tr k' ->
    exists tf tg, trace (as_symbols f_a) f (fst k) tf (fst k') /\ trace (as_symbols g_a) g (snd k) tg (snd k')
      /\ sym_in (otr inv tr) = sym_in (otr inv tf)
      /\ Forall2 agree (sym_out (otr inv tf)) (sym_in tg)
      /\ sym_out (otr inv tr) = filter (writable f_a) (sym_out tg)
      /\ weight_of tr = weight_of tf + weight_of tg.
  Proof.
    intros k tr k' H. induction H as [k|k x w k1 tr k2 Hm Ht (tf & tg & H1 & H2 & H3 & H4 & H5 & H6)].
    - exists [], []. do 2 (split; [constructor|]). split; [reflexivity|]. split; [constructor|]. split; reflexivity.
    - destruct Hm as [p q b o w q' Hg Hgs|p q a i m w1 p' b m' o w2 q' Hf Hfs Hg Hgs Hn Hag|p q a i w p' Hf Hfs|]; [| | |discriminate]; cbn [fst snd] in *.
      + exists tf, (((eps_sym, o), w) :: tg). split; [exact H1|]. split; [econstructor; eauto|].
        rewrite otr_cons, orient_orient, !sym_in_cons, !sym_out_cons. cbn [fst snd]. rewrite vis_eps, vis_written, filter_app, H3, H5. cbn [app].
        do 3 (split; [auto|]). rewrite !weight_cons. lia.
      + exists ((orient inv (i, m), w1) :: tf), (((m', o), w2) :: tg).
        split; [econstructor; eauto|]. split; [econstructor; eauto|].
        rewrite !otr_cons, !orient_orient, !sym_in_cons, !sym_out_cons. cbn [fst snd]. rewrite vis_written, filter_app, H3, H5.
        rewrite (vis_some m') by exact Hn. rewrite (vis_some m) by (eapply agree_eps; eauto). cbn [app].
        split; [reflexivity|]. split; [now constructor|]. split; [reflexivity|]. rewrite !weight_cons. lia.
      + exists ((orient inv (i, eps_sym), w) :: tf), tg.
        split; [econstructor; eauto|]. split; [exact H2|].
        rewrite !otr_cons, !orient_orient, !sym_in_cons, !sym_out_cons. cbn [fst snd]. rewrite vis_eps, H3, H5. cbn [app].
        do 3 (split; [auto|]). rewrite !weight_cons. lia.
  Qed.

  Lemma ptrace_merge : forall n p tf p' q tg q', (length tf + length tg <= n)%nat ->
    trace (as_symbols f_a) f p tf p' -> trace (as_symbols g_a) g q tg q' ->
    Forall2 agree (sym_out (otr inv tf)) (sym_in tg) ->
    exists tr, ptrace f g f_a g_a inv false (p, q) tr (p', q')
      /\ sym_in (otr inv tr) = sym_in (otr inv tf)
      /\ sym_out (otr inv tr) = filter (writable f_a) (sym_out tg)
      /\ weight_of tr = weight_of tf + weight_of tg.
  Proof.
    induction n as [|n IH]; intros p tf p' q tg q' Hn Hf Hg Hag.
    - destruct tf as [|]; [|cbn in Hn; lia]. destruct tg as [|]; [|cbn in Hn; lia]. inversion Hf; inversion Hg; subst.
      exists []. split; [constructor|]. auto.
    - assert (CG : forall b o w q1 tg1, has_arc g q b q1 w -> as_symbols g_a b (eps_sym, o) -> trace (as_symbols g_a) g q1 tg1 q' -> tg = ((eps_sym, o), w) :: tg1 ->
        exists tr, ptrace f g f_a g_a inv false (p, q) tr (p', q') /\ sym_in (otr inv tr) = sym_in (otr inv tf)
          /\ sym_out (otr inv tr) = filter (writable f_a) (sym_out tg) /\ weight_of tr = weight_of tf + weight_of tg).
      { intros b o w q1 tg1 Ha Hs Hg1 ->. rewrite sym_in_cons in Hag. cbn [fst] in Hag. rewrite vis_eps in Hag. cbn [app] in Hag.
        destruct (IH p tf p' q1 tg1 q') as (tr & T1 & T2 & T3 & T4); auto; [cbn [length] in Hn; lia|].
        exists ((orient inv (eps_sym, as_written f_a o), w) :: tr). split; [econstructor; [eapply pm_g; eauto|exact T1]|].
        rewrite otr_cons, orient_orient, !sym_in_cons, !sym_out_cons. cbn [fst snd]. rewrite vis_eps, vis_written, filter_app, T2, T3.
        split; [reflexivity|]. split; [reflexivity|]. rewrite !weight_cons. lia. }
      destruct Hf as [p|p a x w1 p1 tf p' Hfa Hfs Hf].
      + destruct Hg as [q|q b y w2 q1 tg q' Hga Hgs Hg].
        * exists []. split; [constructor|]. auto.
        * destruct y as [m' o]. rewrite sym_in_cons in Hag. cbn [fst] in Hag. unfold vis in Hag. destruct (is_eps m') eqn:E; [|cbn in Hag; inversion Hag].
          apply is_eps_spec in E. subst m'. eapply CG; eauto.
      + assert (Ex : x = orient inv (orient inv x)) by (symmetry; apply orient_orient).
        destruct (orient inv x) as [i m] eqn:Ei. destruct (is_eps m) eqn:Em.
        * apply is_eps_spec in Em. subst m. rewrite otr_cons, Ei, sym_out_cons in Hag. cbn [snd] in Hag. rewrite vis_eps in Hag. cbn [app] in Hag.
          destruct (IH p1 tf p' q tg q') as (tr & T1 & T2 & T3 & T4); auto; [cbn [length] in Hn; lia|].
          exists ((x, w1) :: tr). split.
          -- econstructor; [|exact T1]. rewrite Ex. eapply pm_f; [exact Hfa|]. rewrite <- Ex. exact Hfs.
          -- rewrite !otr_cons, Ei, !sym_in_cons, !sym_out_cons. cbn [fst snd]. rewrite vis_eps, T2, T3. cbn [app].
             split; [reflexivity|]. split; [reflexivity|]. rewrite !weight_cons. lia.
        * assert (Hm : m <> eps_sym) by (intros E'; apply is_eps_spec in E'; congruence).
          destruct Hg as [q|q b y w2 q1 tg q' Hga Hgs Hg].
          -- rewrite otr_cons, Ei, sym_out_cons in Hag. cbn [snd] in Hag. rewrite vis_some in Hag by exact Hm. inversion Hag.
          -- destruct y as [m' o]. destruct (is_eps m') eqn:Em'; [apply is_eps_spec in Em'; subst m'; eapply CG; eauto|].
             assert (Hm' : m' <> eps_sym) by (intros E'; apply is_eps_spec in E'; congruence).
             rewrite otr_cons, Ei, sym_out_cons, sym_in_cons in Hag. cbn [fst snd] in Hag. rewrite vis_some in Hag by exact Hm. rewrite vis_some in Hag by exact Hm'.
             cbn [app] in Hag. inversion Hag as [|? ? ? ? Ha1 Ha2]; subst.
             destruct (IH p1 tf p' q1 tg q') as (tr & T1 & T2 & T3 & T4); auto; [cbn [length] in Hn; lia|].
             exists ((orient inv (i, as_written f_a o), w1 + w2) :: tr). split.
             ++ econstructor; [|exact T1]. eapply pm_both; eauto.
             ++ rewrite !otr_cons, !orient_orient, !sym_in_cons, !sym_out_cons. cbn [fst snd]. rewrite vis_written, filter_app, T2, T3.
                split; [reflexivity|]. split; [reflexivity|]. rewrite !weight_cons. lia.
  Qed.
End Words.

(** ** Joining the final states *)
Lemma srel_wlang : forall t a eps x y c, as_symbols a eps (eps_sym, eps_sym) ->
  (srel t a x y c <-> exists w xs, wlang t eps w c /\ Forall2 (as_symbols a) w xs
     /\ filter (fun s => negb (is_eps s)) (map fst xs) = x /\ filter (fun s => negb (is_eps s)) (map snd xs) = y).
Proof.
  intros t a eps x y c He. split.
  - intros (tr & f & (q & Ht & Hf) & <- & <- & <-).
    assert (G : forall p tr q, trace (as_symbols a) t p tr q -> exists l xs, path t p l q /\ cost_of l = weight_of tr
      /\ Forall2 (as_symbols a) (word_of eps l) xs
      /\ filter (fun s => negb (is_eps s)) (map fst xs) = sym_in tr /\ filter (fun s => negb (is_eps s)) (map snd xs) = sym_out tr).
    { clear - He. intros p tr q H. induction H as [p|p b [m o] w q tr r Ha Hx Ht (l & xs & H1 & H2 & H3 & H4 & H5)].
      - exists [], []. split; [constructor|]. split; [reflexivity|]. split; [constructor|]. auto.
      - destruct (Z.eqb_spec b eps) as [->|Hn].
        + assert (X := as_symbols_fun _ _ _ _ Hx He). injection X as -> ->. exists ((eps, w) :: l), xs.
          split; [econstructor; eauto|]. split; [rewrite cost_cons, weight_cons; lia|].
          unfold word_of in *. cbn [filter fst]. rewrite Z.eqb_refl. cbn [negb]. auto.
        + exists ((b, w) :: l), ((m, o) :: xs). split; [econstructor; eauto|]. split; [rewrite cost_cons, weight_cons; lia|].
          unfold word_of in *. cbn [filter fst]. replace (b =? eps) with false by lia. cbn [negb map fst].
          split; [now constructor|]. rewrite sym_in_cons, sym_out_cons. cbn [map fst snd filter]. rewrite H4, H5. unfold vis.
          split; [now destruct (is_eps m)|now destruct (is_eps o)]. }
    destruct (G _ _ _ Ht) as (l & xs & H1 & H2 & H3 & H4 & H5). exists (word_of eps l), xs.
    split; [|auto]. exists l, f. split; [exists q; auto|]. split; [reflexivity|]. lia.
  - intros (w & xs & (l & f & (q & Hp & Hf) & <- & <-) & H3 & <- & <-).
    assert (G : forall p l q, path t p l q -> forall xs, Forall2 (as_symbols a) (word_of eps l) xs ->
      exists tr, trace (as_symbols a) t p tr q /\ weight_of tr = cost_of l /\ sym_in tr = filter (fun s => negb (is_eps s)) (map fst xs)
        /\ sym_out tr = filter (fun s => negb (is_eps s)) (map snd xs)).
    { clear - He. intros p l q H. induction H as [p|p b w q l r Ha Hp IH]; intros xs Hxs.
      - inversion Hxs; subst. exists []. split; [constructor|]. auto.
      - unfold word_of in *. cbn [filter fst] in Hxs. destruct (Z.eqb_spec b eps) as [->|Hn]; cbn [negb map fst] in Hxs.
        + destruct (IH xs Hxs) as (tr & T1 & T2 & T3 & T4). exists (((eps_sym, eps_sym), w) :: tr).
          split; [econstructor; eauto|]. split; [rewrite cost_cons, weight_cons; lia|].
          rewrite sym_in_cons, sym_out_cons. auto.
        + inversion Hxs as [|? [m o] ? xs' Hb Hxs']; subst. destruct (IH xs' Hxs') as (tr & T1 & T2 & T3 & T4). exists (((m, o), w) :: tr).
          split; [econstructor; eauto|]. split; [rewrite cost_cons, weight_cons; lia|].
          rewrite sym_in_cons, sym_out_cons. cbn [map fst snd filter]. rewrite T3, T4. unfold vis. split; [now destruct (is_eps m)|now destruct (is_eps o)]. }
    destruct (G _ _ _ Hp xs H3) as (tr & T1 & T2 & T3 & T4). exists tr, f. split; [exists q; auto|]. split; [exact T3|]. split; [exact T4|]. lia.
Qed.

Lemma joined_srel : forall eps t j a inv x y c, wf t -> joined eps t j -> as_symbols a eps (eps_sym, eps_sym) ->
  (srel_o inv j a x y c <-> srel_o inv t a x y c).
Proof.
  intros eps t j a inv x y c W J He. unfold srel_o. destruct inv; rewrite !(srel_wlang _ a eps _ _ _ He);
    split; intros (w & xs & H1 & H2); exists w, xs; (split; [|exact H2]); now apply (joined_wlang eps t j w c W J).
Qed.
Lemma joined_symbols : forall eps t j a, joined eps t j -> as_symbols a eps (eps_sym, eps_sym) -> symbols_in t a -> symbols_in j a.
Proof.
  intros eps t j a J He Hs. destruct J as [p f H|j H1 H2 H3 H4 H5 H6]; [exact Hs|].
  intros p tag q w H. apply H6 in H as [H|(-> & _)]; [eauto|]. eauto.
Qed.

(** Traces of the joined transducer. *)
Lemma trace_path : forall a t p tr q, trace (as_symbols a) t p tr q <->
  exists l, path t p l q /\ Forall2 (fun e x => as_symbols a (fst e) (fst x) /\ snd e = snd x) l tr.
Proof.
  intros a t p tr q. split.
  - intros H. induction H as [p|p b x w q tr r Ha Hx Ht (l & H1 & H2)]; [exists []; split; constructor|].
    exists ((b, w) :: l). split; [econstructor; eauto|]. constructor; [cbn; auto|exact H2].
  - intros (l & H & HF). revert tr HF. induction H as [p|p b w q l r Ha Hp IH]; intros tr HF; inversion HF as [|? [x w'] ? tr' [H1 H2] H3]; subst; [constructor|].
    cbn [fst snd] in *. subst w'. econstructor; eauto.
Qed.
Lemma trace_app : forall {X} (D : Z -> X -> Prop) t p tr1 tr2 r,
  trace D t p (tr1 ++ tr2) r <-> exists q, trace D t p tr1 q /\ trace D t q tr2 r.
Proof.
  intros X D t p tr1 tr2 r. split.
  - revert p. induction tr1 as [|[x w] tr1 IH]; intros p H; cbn [app] in H; [exists p; split; [constructor|exact H]|].
    inversion H as [|? a ? ? q ? ? Ha Hx Ht]; subst. destruct (IH q Ht) as (q' & H1 & H2). exists q'. split; [econstructor; eauto|exact H2].
  - intros (q & H1 & H2). induction H1; cbn [app]; [exact H2|]. econstructor; eauto.
Qed.
(** Splitting an accepted trace: the joined transducer only adds an empty last step. *)
Lemma joined_traces : forall eps t j a, wf t -> joined eps t j -> as_symbols a eps (eps_sym, eps_sym) -> forall tr f,
  (accepts_trace (as_symbols a) t tr f -> accepts_trace (as_symbols a) j tr f \/ accepts_trace (as_symbols a) j (tr ++ [((eps_sym, eps_sym), f)]) 0)
  /\ (accepts_trace (as_symbols a) j tr f -> accepts_trace (as_symbols a) t tr f
        \/ exists tr' f', tr = tr' ++ [((eps_sym, eps_sym), f')] /\ f = 0 /\ accepts_trace (as_symbols a) t tr' f').
Proof.
  intros eps t j a W J He tr f. destruct J as [p c H|j H1 H2 H3 H4 H5 H6]; [split; auto|]. split.
  - intros (q & Ht & Hf). right. exists (nstates t). split; [|unfold final_wt; rewrite H5; now left]. rewrite H4.
    apply trace_app. exists q. split.
    + apply trace_path. apply trace_path in Ht as (l & Hl & HF). exists l. split; [|exact HF]. eapply join_path_old; eauto.
    + econstructor; [apply H6; right; eauto|exact He|constructor].
  - intros (q & Ht & Hf). unfold final_wt in Hf. rewrite H5 in Hf. destruct Hf as [[= <- <-]|[]]. right.
    apply trace_path in Ht as (l & Hl & HF). rewrite H4 in Hl.
    destruct (join_path_inv eps t j W H6 _ _ _ Hl (wf_initial t W)) as [[_ Hlt]|(_ & l' & f' & -> & (q & Hq & Hf'))]; [lia|].
    apply Forall2_app_inv_l in HF as (tr1 & tr2 & HF1 & HF2 & ->).
    inversion HF2 as [|? [x w] ? ? [E1 E2] E3]; subst. inversion E3; subst. cbn [fst snd] in *. subst w.
    rewrite (as_symbols_fun _ _ _ _ E1 He). exists tr1, f'. split; [reflexivity|]. split; [reflexivity|]. exists q. split; [|exact Hf'].
    apply trace_path. exists l'. auto.
Qed.

(** ** Composing anywhere: a prefix is kept *)
Section Anywhere.
  Context (f g : transducer) (f_a g_a : alphabet) (inv : bool).
  Context (Hno : forall q b w, ~ has_arc g q b (initial g) w).

  Lemma ptrace_inside : forall k tr k', ptrace f g f_a g_a inv true k tr k' -> snd k <> initial g ->
    ptrace f g f_a g_a inv false k tr k' /\ snd k' <> initial g.
  Proof.
    intros k tr k' H. induction H as [k|k x w k1 tr k2 Hm Ht IH]; intros Hk; [split; [constructor|exact Hk]|].
    destruct Hm as [p q b o w q' Hg Hgs|p q a i m w1 p' b m' o w2 q' Hf Hfs Hg Hgs Hn Hag|p q a i w p' Hf Hfs|]; cbn [snd] in *.
    - destruct IH as [I1 I2]; [intros ->; eapply Hno; eauto|]. split; [|exact I2]. econstructor; [eapply pm_g; eauto|exact I1].
    - destruct IH as [I1 I2]; [intros ->; eapply Hno; eauto|]. split; [|exact I2]. econstructor; [eapply pm_both; eauto|exact I1].
    - destruct IH as [I1 I2]; [exact Hk|]. split; [|exact I2]. econstructor; [eapply pm_f; eauto|exact I1].
    - contradiction.
  Qed.

  (** Leaving the initial state of g once. *)
  Lemma ptrace_prefix : forall p tr k', ptrace f g f_a g_a inv true (p, initial g) tr k' ->
    (snd k' = initial g /\ trace (as_symbols f_a) f p tr (fst k'))
    \/ exists tr1 p1 tr2, tr = tr1 ++ tr2 /\ trace (as_symbols f_a) f p tr1 p1
         /\ ptrace f g f_a g_a inv false (p1, initial g) tr2 k' /\ snd k' <> initial g.
  Proof.
    intros p tr k' H. remember (p, initial g) as k eqn:Ek. revert p Ek. induction H as [k|k x w k1 tr k2 Hm Ht IH]; intros p0 ->.
    - left. split; [reflexivity|constructor].
    - assert (Copy : forall b p', has_arc f p0 b p' w -> as_symbols f_a b x -> k1 = (p', initial g) ->
        (snd k2 = initial g /\ trace (as_symbols f_a) f p0 ((x, w) :: tr) (fst k2))
        \/ exists tr1 p1 tr2, (x, w) :: tr = tr1 ++ tr2 /\ trace (as_symbols f_a) f p0 tr1 p1
           /\ ptrace f g f_a g_a inv false (p1, initial g) tr2 k2 /\ snd k2 <> initial g).
      { intros b p' Hb Hx E. destruct (IH p' E) as [[I1 I2]|(tr1 & p1 & tr2 & -> & I1 & I2 & I3)].
        - left. split; [exact I1|]. econstructor; eauto.
        - right. exists ((x, w) :: tr1), p1, tr2. split; [reflexivity|]. split; [econstructor; eauto|]. auto. }
      inversion Hm as [? ? b o ? q' Hg Hgs E1 E2|? ? a i m w1 p' b m' o w2 q' Hf Hfs Hg Hgs Hn Hag E1 E2|? ? a i ? p' Hf Hfs E1 E2|? a ? ? p' _ Hf Hfs E1 E2]; subst.
      + right. exists [], p0. eexists. split; [reflexivity|]. split; [constructor|].
        destruct (ptrace_inside _ _ _ Ht) as [I1 I2]; [cbn [snd]; intros ->; eapply Hno; eauto|]. split; [|exact I2].
        econstructor; [eapply pm_g; eauto|exact I1].
      + right. exists [], p0. eexists. split; [reflexivity|]. split; [constructor|].
        destruct (ptrace_inside _ _ _ Ht) as [I1 I2]; [cbn [snd]; intros ->; eapply Hno; eauto|]. split; [|exact I2].
        econstructor; [eapply pm_both; eauto|exact I1].
      + eapply Copy; eauto.
      + eapply Copy; eauto.
  Qed.

  Lemma ptrace_mode : forall k tr k', ptrace f g f_a g_a inv false k tr k' -> ptrace f g f_a g_a inv true k tr k'.
  Proof.
    intros k tr k' H. induction H as [k|k x w k1 tr k2 Hm Ht IH]; [constructor|]. econstructor; [|exact IH].
    destruct Hm; [eapply pm_g|eapply pm_both|eapply pm_f|discriminate]; eauto.
  Qed.
  Lemma ptrace_keep : forall p tr1 p1, trace (as_symbols f_a) f p tr1 p1 -> forall tr2 k',
    ptrace f g f_a g_a inv true (p1, initial g) tr2 k' -> ptrace f g f_a g_a inv true (p, initial g) (tr1 ++ tr2) k'.
  Proof.
    intros p tr1 p1 H. induction H; intros tr2 k' H'; cbn [app]; [exact H'|]. econstructor; [eapply pm_copy; eauto|auto].
  Qed.
End Anywhere.

Lemma otr_app : forall inv a b, otr inv (a ++ b) = otr inv a ++ otr inv b.
Proof. intros. unfold otr. apply map_app. Qed.
Lemma sym_in_app : forall a b, sym_in (a ++ b) = sym_in a ++ sym_in b.
Proof. intros. unfold sym_in. now rewrite map_app, filter_app. Qed.
Lemma sym_out_app : forall a b, sym_out (a ++ b) = sym_out a ++ sym_out b.
Proof. intros. unfold sym_out. now rewrite map_app, filter_app. Qed.
Lemma weight_app : forall {X} (a b : list (X * Z)), weight_of (a ++ b) = weight_of a + weight_of b.
Proof. intros X a b. induction a as [|[x w] a IH]; [reflexivity|]. cbn [app]. rewrite !weight_cons, IH. lia. Qed.
