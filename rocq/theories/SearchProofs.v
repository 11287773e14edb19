(** Searches that number what they find (TrimModel.v): the transducer built has a path exactly
    where the moves of the search lead. *)
From Verif Require Import Base CompressionModel AlphabetModel TransducerModel TransducerSpec
  TransducerProofs RationalProofs ComposeModel ComposeProofs TrimModel.

Section Search.
  Context {K : Type} (K_dec : forall a b : K, {a = b} + {a <> b}).
  Notation kfind := (kfind K_dec). Notation kmem := (kmem K_dec).
  Notation search := (search K).
  Context (mv : K -> Z -> Z -> K -> Prop) (start : K) (all : list K).
  Context (all_start : In start all) (all_mv : forall k b w k', mv k b w k' -> In k all -> In k' all).

  Lemma kmem_spec : forall k l, kmem k l = true <-> In k l.
  Proof. intros k l. unfold kmem. destruct (in_dec K_dec k l); intuition congruence. Qed.
  Lemma kmem_not : forall k l, kmem k l = false <-> ~ In k l.
  Proof. intros k l. rewrite <- kmem_spec. destruct (kmem k l); intuition congruence. Qed.
  Lemma kfind_none : forall k m, kfind k m = None <-> ~ In k (map fst m).
  Proof.
    intros k. induction m as [|[k' v] m IH]; cbn [TrimModel.kfind map fst In]; [tauto|]. destruct (K_dec k k') as [->|Hn].
    - split; [discriminate|]. intros H. exfalso. apply H. now left.
    - rewrite IH. intuition congruence.
  Qed.
  Lemma kfind_some : forall k v m, NoDup (map fst m) -> (kfind k m = Some v <-> In (k, v) m).
  Proof.
    intros k v. induction m as [|[k' v'] m IH]; intros ND; cbn [TrimModel.kfind In]; [intuition discriminate|]. cbn in ND. inversion ND as [|? ? Hn ND']; subst.
    destruct (K_dec k k') as [->|Hne].
    - split; [intros [= ->]; now left|]. intros [[= ->]|Hin]; [reflexivity|]. exfalso. apply Hn. apply in_map_iff. exists (k', v). auto.
    - rewrite IH by exact ND'. intuition congruence.
  Qed.
  Lemma kfind_cons : forall k k' v m, kfind k ((k', v) :: m) = if K_dec k k' then Some v else kfind k m.
  Proof. reflexivity. Qed.

  (** In [all], and reached by moves *)
  Inductive reach : K -> Prop :=
  | reach_start : reach start
  | reach_mv k b w k' : reach k -> mv k b w k' -> reach k'.
  Definition sound (k : K) : Prop := In k all /\ reach k.
  Lemma sound_start : sound start.
  Proof. split; [exact all_start|constructor]. Qed.
  Lemma sound_mv : forall k b w k', mv k b w k' -> sound k -> sound k'.
  Proof. intros k b w k' H [H1 H2]. split; [eauto|]. econstructor; eauto. Qed.

  Record INV (st : search) : Prop := {
    i_wf : wf (w_out st);
    i_init : kfind start (w_map st) = Some (initial (w_out st));
    i_inj : forall k k' s, kfind k (w_map st) = Some s -> kfind k' (w_map st) = Some s -> k = k';
    i_rng : forall k s, kfind k (w_map st) = Some s -> (s < nstates (w_out st))%nat;
    i_keys : forall k s, kfind k (w_map st) = Some s -> sound k;
    i_nodup : NoDup (map fst (w_map st));
    i_arcs : forall s b s' w, has_arc (w_out st) s b s' w -> exists k k',
       kfind k (w_map st) = Some s /\ kfind k' (w_map st) = Some s' /\ mv k b w k';
    i_todo : forall k, In k (w_todo st) -> exists s, kfind k (w_map st) = Some s;
    i_map : forall k s, kfind k (w_map st) = Some s -> In k (w_seen st) \/ In k (w_todo st);
    i_seen : forall k, In k (w_seen st) -> exists s, kfind k (w_map st) = Some s
  }.
  Record GROW (k0 : K) (st st' : search) : Prop := {
    g_map : forall k s, kfind k (w_map st) = Some s -> kfind k (w_map st') = Some s;
    g_seen : w_seen st' = w_seen st;
    g_todo : exists new, w_todo st' = new ++ w_todo st /\ forall k, In k new -> ~ In k (w_seen st) /\ exists b w, mv k0 b w k;
    g_arcs : forall s b s' w, has_arc (w_out st) s b s' w -> has_arc (w_out st') s b s' w;
    g_fin : finals (w_out st') = finals (w_out st)
  }.
  Lemma GROW_refl : forall k st, GROW k st st.
  Proof. intros k0 st. split; auto. exists []. split; [reflexivity|intros k []]. Qed.
  Lemma GROW_trans : forall k a b c, GROW k a b -> GROW k b c -> GROW k a c.
  Proof.
    intros k0 a b c [M1 S1 (n1 & T1 & N1) A1 F1] [M2 S2 (n2 & T2 & N2) A2 F2]. split; auto; try congruence.
    exists (n2 ++ n1). split; [rewrite T2, T1; apply app_assoc|]. intros k Hk. apply in_app_or in Hk as [Hk|Hk]; [|auto].
    rewrite <- S1. auto.
  Qed.
  (** The move from k to k' has been entered, and k' is seen or was pushed above [base]. *)
  Definition linked (st : search) (k : K) (b : Z) (k' : K) : Prop :=
    exists s s' w, kfind k (w_map st) = Some s /\ kfind k' (w_map st) = Some s' /\ has_arc (w_out st) s b s' w.
  Definition done (base : list K) (st : search) (k : K) (b : Z) (k' : K) : Prop :=
    linked st k b k' /\ exists new, w_todo st = new ++ base /\ (In k' (w_seen st) \/ In k' new).
  Lemma linked_grow : forall k0 st st' k b k', GROW k0 st st' -> linked st k b k' -> linked st' k b k'.
  Proof. intros k0 st st' k b k' [M S _ A F] (s & s' & w & H1 & H2 & H3). exists s, s', w. auto. Qed.
  Lemma done_grow : forall base st st' k0 k b k', GROW k0 st st' -> done base st k b k' -> done base st' k b k'.
  Proof.
    intros base st st' k0 k b k' G [L (new & E & H5)]. split; [exact (linked_grow _ _ _ _ _ _ G L)|].
    destruct G as [M S (n & T & _) A F].
    exists (n ++ new). split; [rewrite T, E; apply app_assoc|]. rewrite S. destruct H5; [now left|right; apply in_or_app; now right].
  Qed.
  Lemma grow_base : forall k st st' n base, GROW k st st' -> w_todo st = n ++ base -> exists n', w_todo st' = n' ++ base.
  Proof. intros k st st' n base [_ _ (new & E & _) _ _] H. exists (new ++ n). rewrite E, H. apply app_assoc. Qed.

  (** A link between two numbered search states *)
  Lemma link_step : forall st k s b w k' s' base n, INV st -> kfind k (w_map st) = Some s -> mv k b w k' ->
    kfind k' (w_map st) = Some s' -> w_todo st = n ++ base -> In k' (w_seen st) \/ In k' n ->
    exists out, linkStates s s' b w (w_out st) = Ok out /\ nstates out = nstates (w_out st) /\
      let st' := mkSearch out (w_map st) (w_todo st) (w_seen st) in INV st' /\ GROW k st st' /\ done base st' k b k'.
  Proof.
    intros st k s b w k' s' base n [Iw Ii Iin Ir Ik In_ Iarc It Im Ise] Hk Hm Ek' Hb Hn.
    destruct (linkStates_spec s s' b w (w_out st) Iw (Ir _ _ Hk) (Ir _ _ Ek')) as (t' & El & Wt & Nt & Init & Fin & Hlink).
    assert (Harc : forall p a r v, has_arc t' p a r v -> has_arc (w_out st) p a r v \/ (p = s /\ a = b /\ r = s' /\ v = w)).
    { intros p a r v H. destruct Hlink as [[-> _]|[_ Hlink]]; [now left|]. now apply Hlink. }
    assert (Hmono : forall p a r v, has_arc (w_out st) p a r v -> has_arc t' p a r v).
    { intros p a r v H. destruct Hlink as [[-> _]|[_ Hlink]]; [exact H|]. apply Hlink. now left. }
    assert (Hhas : exists w', has_arc t' s b s' w').
    { destruct Hlink as [[-> H]|[_ Hlink]]; [exact H|]. exists w. apply Hlink. now right. }
    exists t'. split; [exact El|]. split; [exact Nt|]. cbv zeta. split; [|split].
    - split; cbn [w_out w_map w_todo w_seen]; auto.
      + now rewrite Init.
      + intros z v Hz. rewrite Nt. eauto.
      + intros p a r v H. apply Harc in H as [H|(-> & -> & -> & ->)]; [exact (Iarc _ _ _ _ H)|]. exists k, k'. auto.
    - split; cbn [w_out w_map w_todo w_seen]; auto. exists []. split; [reflexivity|intros z []].
    - split; cbn [w_out w_map w_todo w_seen]; [|exists n; auto]. destruct Hhas as (w' & Hw'). exists s, s', w'. auto.
  Qed.
  (** A new state, numbered as [k'] *)
  Lemma number_step : forall st k b w k', INV st -> sound k -> mv k b w k' -> kfind k' (w_map st) = None ->
    let '(s', out) := newState (w_out st) in
    let st' := mkSearch out ((k', s') :: w_map st) (if kmem k' (w_seen st) then w_todo st else k' :: w_todo st) (w_seen st) in
    INV st' /\ GROW k st st' /\ kfind k' (w_map st') = Some s'.
  Proof.
    intros st k b w k' [Iw Ii Iin Ir Ik In_ Iarc It Im Ise] Hk Hm En.
    destruct (newState_spec (w_out st)) as (E1 & E2 & E3 & E4 & E5'). destruct (newState (w_out st)) as [s' out] eqn:Es. cbn [fst snd] in *.
    assert (E5 : forall p a r v, has_arc out p a r v <-> has_arc (w_out st) p a r v) by (intros; unfold has_arc; now rewrite E5').
    assert (W1 : wf out) by (pose proof (newState_wf _ Iw) as X; rewrite Es in X; exact X).
    assert (Hfind : forall z v, kfind z (w_map st) = Some v -> kfind z ((k', s') :: w_map st) = Some v).
    { intros z v Hz. rewrite kfind_cons. destruct (K_dec z k') as [->|]; [congruence|exact Hz]. }
    assert (Hfind' : kfind k' ((k', s') :: w_map st) = Some s') by (rewrite kfind_cons; destruct (K_dec k' k'); congruence).
    assert (Hinv : forall z v, kfind z ((k', s') :: w_map st) = Some v -> (z = k' /\ v = s') \/ kfind z (w_map st) = Some v).
    { intros z v Hz. rewrite kfind_cons in Hz. destruct (K_dec z k') as [->|]; [left; split; congruence|now right]. }
    assert (Sub : forall z, In z (w_todo st) -> In z (if kmem k' (w_seen st) then w_todo st else k' :: w_todo st)).
    { intros z Hz. destruct (kmem k' (w_seen st)); [exact Hz|now right]. }
    cbv zeta. split; [|split; [|exact Hfind']].
    - split; cbn [w_out w_map w_todo w_seen]; auto.
      + rewrite E3. now apply Hfind.
      + intros z z' v Hz Hz'. apply Hinv in Hz as [[-> ->]|Hz]; apply Hinv in Hz' as [[-> ?]|Hz']; auto.
        * exfalso. specialize (Ir _ _ Hz'). lia.
        * subst. exfalso. specialize (Ir _ _ Hz). lia.
        * eauto.
      + intros z v Hz. apply Hinv in Hz as [[-> ->]|Hz]; [lia|]. specialize (Ir _ _ Hz). lia.
      + intros z v Hz. apply Hinv in Hz as [[-> ->]|Hz]; eauto using sound_mv.
      + cbn [map fst]. constructor; [now apply kfind_none|exact In_].
      + intros p a r v H. apply E5 in H. destruct (Iarc _ _ _ _ H) as (z & z' & A1 & A2 & A3). exists z, z'.
        split; [now apply Hfind|]. split; [now apply Hfind|exact A3].
      + intros z Hz. destruct (kmem k' (w_seen st)).
        * destruct (It _ Hz) as (v & Hv). exists v. now apply Hfind.
        * destruct Hz as [<-|Hz]; [eauto|]. destruct (It _ Hz) as (v & Hv). exists v. now apply Hfind.
      + intros z v Hz. apply Hinv in Hz as [[-> ->]|Hz].
        * destruct (kmem k' (w_seen st)) eqn:E; [left; now apply kmem_spec|right; now left].
        * destruct (Im _ _ Hz) as [H|H]; [now left|right; auto].
      + intros z Hz. destruct (Ise _ Hz) as (v & Hv). exists v. now apply Hfind.
    - split; cbn [w_out w_map w_todo w_seen]; auto.
      + destruct (kmem k' (w_seen st)) eqn:E; [exists []; split; [reflexivity|intros z []]|]. exists [k']. split; [reflexivity|].
        intros z [<-|[]]. split; [now apply kmem_not|eauto].
      + intros p a r v H. now apply E5.
  Qed.
  (** Pushing a numbered search state *)
  Lemma push_step : forall st k b w k' s', INV st -> mv k b w k' -> kfind k' (w_map st) = Some s' ->
    let st' := mkSearch (w_out st) (w_map st) (if kmem k' (w_seen st) then w_todo st else k' :: w_todo st) (w_seen st) in
    INV st' /\ GROW k st st'.
  Proof.
    intros st k b w k' s' [Iw Ii Iin Ir Ik In_ Iarc It Im Ise] Hm Hk'. cbv zeta. split.
    - split; cbn [w_out w_map w_todo w_seen]; auto.
      + intros z Hz. destruct (kmem k' (w_seen st)); [auto|]. destruct Hz as [<-|Hz]; eauto.
      + intros z v Hz. destruct (Im _ _ Hz) as [H|H]; [now left|right]. destruct (kmem k' (w_seen st)); [exact H|now right].
    - split; cbn [w_out w_map w_todo w_seen]; auto.
      destruct (kmem k' (w_seen st)) eqn:E; [exists []; split; [reflexivity|intros z []]|]. exists [k']. split; [reflexivity|].
      intros z [<-|[]]. split; [now apply kmem_not|eauto].
  Qed.
  (** A state made and forgotten *)
  Lemma forget_step : forall st k, INV st ->
    let st' := mkSearch (snd (newState (w_out st))) (w_map st) (w_todo st) (w_seen st) in INV st' /\ GROW k st st'.
  Proof.
    clear all_mv all_start. intros st k [Iw Ii Iin Ir Ik In_ Iarc It Im Ise]. destruct (newState_spec (w_out st)) as (E1 & E2 & E3 & E4 & E5').
    assert (W1 := newState_wf _ Iw). cbv zeta. set (out := snd (newState (w_out st))) in *.
    assert (E5 : forall p a r v, has_arc out p a r v <-> has_arc (w_out st) p a r v) by (intros; unfold has_arc; now rewrite E5').
    split.
    - split; cbn [w_out w_map w_todo w_seen]; auto.
      + intros z v Hz. specialize (Ir _ _ Hz). lia.
      + intros p a r v H. apply E5 in H. eauto.
    - split; cbn [w_out w_map w_todo w_seen]; auto.
      + exists []. split; [reflexivity|intros z []].
      + intros p a r v H. now apply E5.
  Qed.
  Lemma pushed : forall k' (seen todo n base : list K), todo = n ++ base ->
    exists n', (if kmem k' seen then todo else k' :: todo) = n' ++ base /\ (In k' seen \/ In k' n')
      /\ (length (if kmem k' seen then todo else k' :: todo) <= 1 + length todo)%nat.
  Proof.
    intros k' seen todo n base ->. destruct (kmem k' seen) eqn:E.
    - exists n. split; [reflexivity|]. split; [left; now apply kmem_spec|lia].
    - exists (k' :: n). split; [reflexivity|]. split; [right; now left|cbn; lia].
  Qed.
  Lemma visit_spec : forall st k s b w k' base n, INV st -> kfind k (w_map st) = Some s -> mv k b w k' -> w_todo st = n ++ base ->
    exists s' st', visit K_dec s k' b w st = Ok (s', st') /\ INV st' /\ GROW k st st' /\ done base st' k b k'
      /\ (length (w_todo st') <= 1 + length (w_todo st))%nat.
  Proof.
    intros st k s b w k' base n I Hk Hm Hb. unfold visit. cbv zeta. destruct (kfind k' (w_map st)) as [s'|] eqn:Ek'.
    - destruct (push_step st k b w k' s' I Hm Ek') as [I1 G1]. cbv zeta in I1, G1. set (st1 := mkSearch _ _ _ _) in *.
      destruct (pushed k' (w_seen st) (w_todo st) n base Hb) as (n' & En & Hn & Hl).
      destruct (link_step st1 k s b w k' s' base n' I1 Hk Hm Ek' En Hn) as (out & E & _ & I2 & G2 & D2). cbn [st1 w_out] in E. rewrite E. cbn [obind].
      eexists. eexists. split; [reflexivity|]. split; [exact I2|]. split; [exact (GROW_trans _ _ _ _ G1 G2)|]. split; [exact D2|exact Hl].
    - pose proof (number_step st k b w k' I (i_keys _ I _ _ Hk) Hm Ek') as N. destruct (newState (w_out st)) as [s' out1] eqn:Es.
      cbv zeta in N. destruct N as (I1 & G1 & F1). set (st1 := mkSearch _ _ _ _) in *.
      destruct (pushed k' (w_seen st) (w_todo st) n base Hb) as (n' & En & Hn & Hl).
      destruct (link_step st1 k s b w k' s' base n' I1 (g_map _ _ _ G1 _ _ Hk) Hm F1 En Hn) as (out & E & _ & I2 & G2 & D2). cbn [st1 w_out] in E. rewrite E. cbn [obind].
      eexists. eexists. split; [reflexivity|]. split; [exact I2|]. split; [exact (GROW_trans _ _ _ _ G1 G2)|]. split; [exact D2|exact Hl].
  Qed.

  (** * The loop *)
  Context (stp : search -> search -> Prop) (KB : nat).
  Definition popped (st : search) (current : K) (rest : list K) : search := mkSearch (w_out st) (w_map st) rest (current :: w_seen st).
  Lemma popped_INV : forall st current rest, INV st -> w_todo st = current :: rest -> INV (popped st current rest).
  Proof.
    intros st current rest [Iw Ii Iin Ir Ik In_ Iarc It Im Ise] E. split; cbn [popped w_out w_map w_todo w_seen]; auto.
    - intros k Hk. apply It. rewrite E. now right.
    - intros k s Hk. destruct (Im _ _ Hk) as [H|H]; [left; now right|]. rewrite E in H. destruct H as [<-|H]; [left; now left|now right].
    - intros k [<-|H]; [|auto]. apply It. rewrite E. now left.
  Qed.
  Context (step_ok : forall st current rest, INV st -> w_todo st = current :: rest ->
    exists st2, stp st st2 /\ INV st2 /\ GROW current (popped st current rest) st2 /\ (length (w_todo st2) <= KB + length rest)%nat
      /\ forall b w k', mv current b w k' -> done rest st2 current b k').

  Definition unseen (seen : list K) : nat := length (filter (fun z => negb (kmem z seen)) all).
  Definition ordered (st : search) : Prop := forall pre k post, w_todo st = pre ++ k :: post -> In k (w_seen st) ->
    forall b w k', mv k b w k' -> In k' (w_seen st) \/ In k' pre.
  Definition closed (st : search) : Prop := forall k, In k (w_seen st) -> forall b w k', mv k b w k' -> linked st k b k'.

  Lemma loop_spec : forall m st, INV st -> ordered st -> closed st ->
    (unseen (w_seen st) * (KB + 1) + length (w_todo st) <= m)%nat ->
    exists st', (forall loop : nat -> search -> outcome search,
        (forall fuel st, w_todo st = [] -> loop fuel st = Ok st) ->
        (forall fuel st st2, INV st -> w_todo st <> [] -> stp st st2 -> loop (S fuel) st = loop fuel st2) ->
        forall fuel, (m <= fuel)%nat -> loop fuel st = Ok st')
      /\ INV st' /\ finals (w_out st') = finals (w_out st)
      /\ forall k s, kfind k (w_map st') = Some s -> forall b w k', mv k b w k' -> linked st' k b k'.
  Proof.
    induction m as [|m IH]; intros st I O C Hm.
    - assert (E : w_todo st = []) by (destruct (w_todo st); [reflexivity|cbn in Hm; lia]).
      exists st. split; [intros loop L1 L2 fuel _; now apply L1|]. split; [exact I|]. split; [reflexivity|].
      intros k s Hk. apply C. destruct (i_map _ I _ _ Hk) as [H|H]; [exact H|]. rewrite E in H. destruct H.
    - destruct (w_todo st) as [|current rest] eqn:Et.
      { exists st. split; [intros loop L1 L2 fuel _; now apply L1|]. split; [exact I|]. split; [reflexivity|].
        intros k s Hk. apply C. destruct (i_map _ I _ _ Hk) as [H|H]; [exact H|]. rewrite Et in H. destruct H. }
      destruct (step_ok st current rest I Et) as (st2 & Hstp & I2 & G & L & D).
      destruct (i_todo _ I current) as (s & Hs); [rewrite Et; now left|].
      assert (S2 := g_seen _ _ _ G). cbn [popped w_seen] in S2.
      destruct (g_todo _ _ _ G) as (new & T2 & N2). cbn [popped w_todo w_seen] in T2, N2.
      assert (O2 : ordered st2).
      { intros pre k post E Hk b w k' Hp. rewrite S2 in *. rewrite T2 in E.
        assert (Hpre : exists pre', pre = new ++ pre' /\ rest = pre' ++ k :: post).
        { clear - E N2 Hk. revert pre E. induction new as [|z new IHn]; intros pre E; cbn in E.
          - exists pre. auto.
          - destruct pre as [|y pre]; cbn in E; injection E as -> E.
            + exfalso. apply (proj1 (N2 _ (or_introl eq_refl))). exact Hk.
            + destruct (IHn (fun z Hz => N2 z (or_intror Hz)) pre E) as (pre' & -> & ->). exists pre'. auto. }
        destruct Hpre as (pre' & -> & Er).
        assert (Hcur : k = current -> In k' (current :: w_seen st) \/ In k' (new ++ pre')).
        { intros ->. destruct (D _ _ _ Hp) as [_ (new' & En & H)]. rewrite S2 in H. rewrite T2 in En. apply app_inv_tail in En. subst new'.
          destruct H as [H|H]; [now left|right; apply in_or_app; now left]. }
        destruct Hk as [<-|Hk]; [auto|].
        destruct (O (current :: pre') k post) with (b := b) (w := w) (k' := k') as [H|[H|H]]; auto.
        - rewrite Et, Er. reflexivity.
        - left. now right.
        - left. now left.
        - right. apply in_or_app. now right. }
      assert (C2 : closed st2).
      { intros k Hk b w k' Hp. rewrite S2 in Hk. destruct Hk as [<-|Hk].
        - destruct (D _ _ _ Hp) as [H _]. exact H.
        - eapply linked_grow; [exact G|]. destruct (C k Hk b w k' Hp) as (s1 & s2 & w' & H). exists s1, s2, w'. exact H. }
      assert (M2 : (unseen (w_seen st2) * (KB + 1) + length (w_todo st2) <= m)%nat).
      { rewrite S2. cbn [length] in Hm. destruct (in_dec K_dec current (w_seen st)) as [Hin|Hnin].
        - assert (Enew : new = []).
          { destruct new as [|z new]; [reflexivity|]. exfalso. destruct (N2 z (or_introl eq_refl)) as [Hn (b & w & Hp)].
            destruct (O [] current rest Et Hin b w z Hp) as [H|[]]. apply Hn. now right. }
          rewrite T2, Enew. cbn [app].
          assert (Eu : unseen (current :: w_seen st) = unseen (w_seen st)).
          { unfold unseen. f_equal. apply filter_ext. intros z. f_equal. destruct (kmem z (w_seen st)) eqn:E.
            - apply kmem_spec. right. now apply kmem_spec.
            - apply kmem_not. apply kmem_not in E. intros [->|H]; contradiction. }
          rewrite Eu. lia.
        - assert (Hlt : (unseen (current :: w_seen st) < unseen (w_seen st))%nat).
          { unfold unseen. apply (filter_less _ _ _ current).
            - intros z Hz. apply negb_true_iff, kmem_not in Hz. apply negb_true_iff, kmem_not. intros H. apply Hz. now right.
            - exact (proj1 (i_keys _ I _ _ Hs)).
            - apply negb_true_iff. now apply kmem_not.
            - apply negb_false_iff. apply kmem_spec. now left. }
          nia. }
      destruct (IH st2 I2 O2 C2 M2) as (st' & Hl & I' & F' & H). exists st'. split; [|split; [exact I'|split; [|exact H]]].
      + intros loop L1 L2 fuel Hf. destruct fuel as [|fuel]; [lia|]. rewrite (L2 fuel st st2 I) by (auto; congruence). apply Hl; auto. lia.
      + rewrite F', (g_fin _ _ _ G). reflexivity.
  Qed.

  Definition st0 : search := mkSearch new_transducer [(start, 0%nat)] [start] [].
  Lemma search_start : INV st0 /\ ordered st0 /\ closed st0.
  Proof.
    assert (Hf : forall k s, kfind k (w_map st0) = Some s -> k = start /\ s = 0%nat).
    { intros k s H. cbn [st0 w_map TrimModel.kfind] in H. destruct (K_dec k start); [|discriminate]. injection H as <-. auto. }
    assert (H0 : kfind start (w_map st0) = Some 0%nat) by (cbn [st0 w_map TrimModel.kfind]; destruct (K_dec start start); [reflexivity|congruence]).
    split; [|split].
    - split; auto using new_transducer_wf.
      + intros k k' s H1 H2. apply Hf in H1 as [-> _]. apply Hf in H2 as [-> _]. reflexivity.
      + intros k s H. apply Hf in H as [-> ->]. cbn. lia.
      + intros k s H. apply Hf in H as [-> ->]. exact sound_start.
      + repeat constructor. intros [].
      + intros s b s' w H. unfold has_arc, arcs_of in H. cbn in H. destruct s as [|[|s]]; destruct H.
      + intros k [<-|[]]. eauto.
      + intros k s H. apply Hf in H as [-> _]. right. now left.
      + intros k [].
    - intros pre k post _ [].
    - intros k [].
  Qed.

  (** Sequences of moves *)
  Inductive moves : K -> list (Z * Z) -> K -> Prop :=
  | mvs_nil k : moves k [] k
  | mvs_cons k b w k' l k'' : mv k b w k' -> moves k' l k'' -> moves k ((b, w) :: l) k''.

  Lemma moves_snoc : forall k l k', moves k l k' -> forall b w k'', mv k' b w k'' -> moves k (l ++ [(b, w)]) k''.
  Proof. intros k l k' H. induction H; intros; cbn [app]; econstructor; eauto. constructor. Qed.
  Lemma reach_moves : forall k, reach k -> exists l, moves start l k.
  Proof. intros k H. induction H as [|k b w k' _ (l & H) Hm]; [exists []; constructor|]. exists (l ++ [(b, w)]). eapply moves_snoc; eauto. Qed.

  (** The search ends, and its result has exactly the moves. *)
  Lemma search_result : exists N st', (forall loop : nat -> search -> outcome search,
        (forall fuel st, w_todo st = [] -> loop fuel st = Ok st) ->
        (forall fuel st st2, INV st -> w_todo st <> [] -> stp st st2 -> loop (S fuel) st = loop fuel st2) ->
        forall fuel, (N <= fuel)%nat -> loop fuel st0 = Ok st')
      /\ INV st' /\ finals (w_out st') = []
      /\ (forall p l q, path (w_out st') p l q -> forall k, kfind k (w_map st') = Some p -> exists k', kfind k' (w_map st') = Some q /\ moves k l k')
      /\ (forall k l k', moves k l k' -> forall p, kfind k (w_map st') = Some p ->
            exists q l', kfind k' (w_map st') = Some q /\ path (w_out st') p l' q /\ map fst l' = map fst l
              /\ ((forall k b w w' k', mv k b w k' -> mv k b w' k' -> w = w') -> l' = l)).
  Proof.
    destruct search_start as (I0 & O0 & C0). destruct (loop_spec _ st0 I0 O0 C0 (le_n _)) as (st' & Hl & I & F & Hc).
    eexists. exists st'. split; [exact Hl|]. split; [exact I|]. split; [exact F|]. split.
    - intros p l q H. induction H as [p|p a w q l r Ha Hp IH]; intros k Hk; [exists k; split; [exact Hk|constructor]|].
      destruct (i_arcs _ I _ _ _ _ Ha) as (k1 & k' & H1 & H2 & H3). rewrite (i_inj _ I _ _ _ Hk H1).
      destruct (IH k' H2) as (k'' & E & M). exists k''. split; [exact E|]. econstructor; eauto.
    - intros k l k' H. induction H as [k|k b w k' l k'' Hm Ht IH]; intros p Hp.
      + exists p, []. split; [exact Hp|]. split; [constructor|]. auto.
      + destruct (Hc k p Hp b w k' Hm) as (s & s' & w' & H1 & H2 & H3). rewrite Hp in H1. injection H1 as <-.
        destruct (IH s' H2) as (q & l' & A1 & A2 & A3 & A4). exists q, ((b, w') :: l'). split; [exact A1|]. split; [econstructor; eauto|].
        split; [cbn; now rewrite A3|]. intros U. rewrite (A4 U). f_equal. f_equal.
        destruct (i_arcs _ I _ _ _ _ H3) as (k1 & k2 & B1 & B2 & B3). rewrite (i_inj _ I _ _ _ B1 Hp) in B3. rewrite (i_inj _ I _ _ _ B2 H2) in B3.
        exact (U _ _ _ _ _ B3 Hm).
  Qed.

  (** Final states chosen by search state *)
  Definition choose (sel : K -> option Z) (fin : list (nat * Z)) (e : K * nat) : list (nat * Z) :=
    match sel (fst e) with Some w => fin_insert (snd e) w fin | None => fin end.
  Lemma choose_fold : forall sel m fin, finals_sorted fin -> NoDup (map snd m) ->
    (forall k s c, In (k, s) m -> ~ In (s, c) fin) ->
    finals_sorted (fold_left (choose sel) m fin)
    /\ forall p c, In (p, c) (fold_left (choose sel) m fin) <-> In (p, c) fin \/ exists k, In (k, p) m /\ sel k = Some c.
  Proof.
    intros sel. induction m as [|[k s] m IH]; intros fin Hs ND Hd; cbn [fold_left].
    - split; [exact Hs|]. intros p c. split; [now left|]. intros [H|(k & [] & _)]. exact H.
    - cbn [map snd] in ND. inversion ND as [|? ? Hn ND']; subst. unfold choose at 2 4. cbn [fst snd].
      destruct (sel k) as [w|] eqn:Es.
      + destruct (IH (fin_insert s w fin) (fin_insert_sorted _ _ _ Hs) ND') as [I1 I2].
        * intros k' s' c Hin H. apply (fin_insert_in s w fin s' c Hs) in H as [H|(-> & _ & _)].
          -- apply (Hd k' s' c); [now right|exact H].
          -- apply Hn. apply in_map_iff. exists (k', s). auto.
        * split; [exact I1|]. intros p c. rewrite I2, (fin_insert_in s w fin p c Hs). cbn [In]. split.
          -- intros [[H|(-> & -> & _)]|(k' & H1 & H2)]; [now left|right; exists k; auto|right; exists k'; auto].
          -- intros [H|(k' & [[= -> ->]|H1] & H2)]; [auto| |right; exists k'; auto].
             left. right. split; [reflexivity|]. split; [congruence|]. intros c'. apply (Hd k' p c'). now left.
      + destruct (IH fin Hs ND') as [I1 I2].
        * intros k' s' c Hin H. apply (Hd k' s' c); [now right|exact H].
        * split; [exact I1|]. intros p c. rewrite I2. cbn [In]. split.
          -- intros [H|(k' & H1 & H2)]; [now left|right; exists k'; auto].
          -- intros [H|(k' & [[= -> ->]|H1] & H2)]; [auto|congruence|right; exists k'; auto].
  Qed.
  Lemma map_injective : forall st, INV st -> NoDup (map snd (w_map st)).
  Proof.
    intros st I. pose proof (i_nodup _ I) as N. pose proof (i_inj _ I) as J.
    assert (J' : forall k k' s, In (k, s) (w_map st) -> In (k', s) (w_map st) -> k = k').
    { intros k k' s H1 H2. apply (J k k' s); apply kfind_some; auto. }
    clear - N J'. induction (w_map st) as [|[k s] m IH]; cbn [map snd] in *; [constructor|]. inversion N as [|? ? Hn N']; subst. constructor.
    - intros H. apply in_map_iff in H as ([k' s'] & Hs & Hin). cbn [snd] in Hs. subst s'.
      assert (X := J' k k' s (or_introl eq_refl) (or_intror Hin)). subst k'. apply Hn. apply in_map_iff. exists (k, s). auto.
    - apply IH; [exact N'|]. intros k1 k2 s1 H1 H2. apply (J' k1 k2 s1); now right.
  Qed.
End Search.
