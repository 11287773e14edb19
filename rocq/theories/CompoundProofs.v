(** Compound analysis on values: the live analyses of the loop are the compounds. *)
From Verif Require Import Base CompressionModel AlphabetModel StateModel StateSpec StatePathProofs
  StateProps FinalsModel FinalsProps StreamModel ProcessorModel.

Section Paths.
  Context {W : Type} (find : nat -> Z -> list (Z * (nat * W))).
  Notation cpath := (cpath find).

  Lemma cpath_app : forall p a s d q, cpath p a s d q -> forall b s' d' r, cpath q b s' d' r ->
    cpath p (a ++ b) (s ++ s') (d || d') r.
  Proof.
    induction 1; intros l' s' d' r' H'; cbn [app orb]; auto.
    - rewrite <- app_assoc. eapply cp_eps; eauto.
    - rewrite <- app_assoc, <- orb_assoc. eapply cp_sym; eauto.
  Qed.
  Lemma cpath_split : forall p l s d r, cpath p l s d r -> forall a b, l = a ++ b ->
    exists s1 d1 q s2 d2, cpath p a s1 d1 q /\ cpath q b s2 d2 r /\ s = s1 ++ s2 /\ d = d1 || d2.
  Proof.
    induction 1; intros a b' E.
    - symmetry in E. apply app_eq_nil in E as [-> ->].
      exists [], false, p, [], false. split; [constructor|]. split; [constructor|]. auto.
    - destruct (IHcpath a b' E) as (s1 & d1 & q' & s2 & d2 & P1 & P2 & -> & ->).
      exists ((if o =? 0 then [] else [(o, w)]) ++ s1), d1, q', s2, d2.
      split; [eapply cp_eps; eauto|]. split; auto. split; [apply app_assoc|auto].
    - destruct a as [|c a]; cbn [app] in E.
      + subst b'. exists [], false, p, ((if i =? 0 then [] else [(ov o, w)]) ++ s), (d || b).
        split; [constructor|]. split; [eapply cp_sym; eauto|]. auto.
      + injection E as <- E. destruct (IHcpath a b' E) as (s1 & d1 & q' & s2 & d2 & P1 & P2 & -> & ->).
        exists ((if i =? 0 then [] else [(ov o, w)]) ++ s1), (d || d1), q', s2, d2.
        split; [eapply cp_sym; eauto|]. split; auto. split; [apply app_assoc|apply orb_assoc].
  Qed.


  Lemma cpath_nil_clean : forall p l s d q, cpath p l s d q -> l = [] -> d = false.
  Proof. induction 1; auto. discriminate. Qed.

  (** One step from a list of analyses closed under epsilon moves. *)
  Lemma step_from : forall fuel c st r,
    (forall p s0 d0 s q, In (mkV p s0 d0) st -> cpath p [] s false q -> In (mkV q (s0 ++ s) d0) st) ->
    v_closure find fuel 0 (v_choose find c st) = Ok r ->
    forall q s d, In (mkV q s d) r <->
      exists p s0 d0 s1 d1, In (mkV p s0 d0) st /\ cpath p [c] s1 d1 q /\ s = s0 ++ s1 /\ d = d0 || d1.
  Proof.
    intros fuel c st r Hcl H q s d. rewrite (closure_exact find _ _ _ H). split.
    - intros (x & Hx & E). apply choose_in in Hx as (ov & opts & [p s0 d0] & i & d' & o & q2 & w & -> & H1 & H2 & H3 & ->).
      apply eps_moves_path in E as (s2 & P2 & E & D). cbn [v_where v_seq v_dirty] in *. subst s d.
      exists p, s0, d0, ((if i =? 0 then [] else [(ov o, w)]) ++ s2), (d' || false).
      split; auto. split; [eapply cp_sym; eauto|]. split; [now rewrite app_assoc|now rewrite orb_false_r].
    - intros (p & s0 & d0 & s1 & d1 & H0 & P & -> & ->).
      destruct (cpath_end_inv find _ _ _ _ _ P [] c eq_refl)
        as (q1 & s1' & b1 & ov & opts & i & d' & o & q2 & w & s2 & -> & P1 & I1 & I2 & P2 & -> & ->).
      assert (b1 = false) by (eapply cpath_nil_clean; eauto). subst b1.
      exists (mkV q2 ((s0 ++ s1') ++ if i =? 0 then [] else [(ov o, w)]) (d0 || d')). split.
      + apply choose_in. exists ov, opts, (mkV q1 (s0 ++ s1') d0), i, d', o, q2, w.
        split; auto. split; [eapply Hcl; eauto|]. auto.
      + replace (s0 ++ s1' ++ (if i =? 0 then [] else [(ov o, w)]) ++ s2)
          with (((s0 ++ s1') ++ (if i =? 0 then [] else [(ov o, w)])) ++ s2) by now rewrite !app_assoc.
        apply (path_eps_moves find _ _ _ _ _ P2 eq_refl).
  Qed.

  Lemma restart_exact : forall fuel required sep (w0 : W) fin init st r, required <> sep ->
    v_grow fuel (v_restart required sep w0 fin init) 0 st = Ok r ->
    forall x, In x r <-> In x st \/ exists y z, In y st /\ In z init /\ fin (v_where y) = true
      /\ lastPartHasRequiredSymbol (v_seq y) required sep = true
      /\ x = mkV (v_where z) (v_seq y ++ [(sep, w0)]) (v_dirty y).
  Proof.
    intros fuel required sep w0 fin init st r Hne H x.
    set (f := v_restart required sep w0 fin init) in *.
    assert (Hf : forall y x, In x (f y) <-> exists z, In z init /\ fin (v_where y) = true
      /\ lastPartHasRequiredSymbol (v_seq y) required sep = true
      /\ x = mkV (v_where z) (v_seq y ++ [(sep, w0)]) (v_dirty y)).
    { intros y x'. unfold f, v_restart.
      destruct (fin (v_where y)); cbn [andb]; [|split; [intros []|intros (z & _ & E & _); discriminate]].
      destruct (lastPartHasRequiredSymbol (v_seq y) required sep);
        [|split; [intros []|intros (z & _ & _ & E & _); discriminate]].
      rewrite in_map_iff. split; [intros (z & <- & Hz)|intros (z & Hz & _ & _ & ->)]; eauto 6. }
    rewrite (grow_exact fuel f st r H (fun s y => y = s \/ In y (f s))).
    - split.
      + intros (s & Hs & [-> | Hx]); auto. right. apply Hf in Hx as (z & Hz & A & B & E). exists s, z. auto.
      + intros [Hx|(y & z & Hy & Hz & A & B & E)]; [exists x; auto|].
        exists y. split; auto. right. apply Hf. eauto.
    - auto.
    - intros s s' s'' [-> | Hs'] Hs''; auto. exfalso.
      unfold f in Hs', Hs''.
      assert (E : v_restart required sep w0 fin init s' = []) by (eapply restart_once; eauto). rewrite E in Hs''. destruct Hs''.
    - intros Q s s' [-> | Hs'] HQ Hstep; eauto.
  Qed.
End Paths.

Section Compounds.
  Context (find : nat -> Z -> list (Z * (nat * Z))) (root : nat) (final : nat -> bool) (onlyL : Z).
  Notation cpath := (cpath find).
  Notation seq := (list (Z * Z)).
  Hypothesis quiet : forall s d q, cpath root [] s d q -> s = [].
  Hypothesis HL : onlyL <> 43.

  (** Analyses of one part or more; every part but the last ends in a final node and has the
      required symbol.  In [parts] the last part may be one that has just begun. *)
  Inductive parts : list choice -> seq -> bool -> nat -> Prop :=
  | pt_one : forall cs s d q, cpath root cs s d q -> parts cs s d q
  | pt_join : forall cs1 s1 d1 q1 cs2 s2 d2 q2, cs1 <> [] -> parts cs1 s1 d1 q1 -> final q1 = true ->
      carries onlyL 43 s1 -> cpath root cs2 s2 d2 q2 ->
      parts (cs1 ++ cs2) (s1 ++ (43, 0) :: s2) (d1 || d2) q2.
  Definition whole (cs : list choice) (s : seq) (d : bool) (q : nat) : Prop :=
    cpath root cs s d q
    \/ exists cs1 s1 d1 q1 cs2 s2 d2, cs1 <> [] /\ cs2 <> [] /\ parts cs1 s1 d1 q1 /\ final q1 = true
       /\ carries onlyL 43 s1 /\ cpath root cs2 s2 d2 q
       /\ cs = cs1 ++ cs2 /\ s = s1 ++ (43, 0) :: s2 /\ d = d1 || d2.
  Lemma whole_parts : forall cs s d q, whole cs s d q -> parts cs s d q.
  Proof.
    intros cs s d q [H|(cs1 & s1 & d1 & q1 & cs2 & s2 & d2 & H1 & H2 & H3 & H4 & H5 & H6 & -> & -> & ->)].
    - now constructor.
    - eapply pt_join; eauto.
  Qed.
  Lemma parts_extend : forall cs s d q, parts cs s d q -> forall cs' s' d' r, cpath q cs' s' d' r ->
    parts (cs ++ cs') (s ++ s') (d || d') r.
  Proof.
    intros cs s d q H cs' s' d' r H'. inversion H as [? ? ? ? P|cs1 s1 d1 q1 cs2 s2 d2 q2 Hn P1 Hf Hc P2]; subst.
    - constructor. eapply cpath_app; eauto.
    - rewrite <- !app_assoc, <- app_comm_cons, <- orb_assoc. eapply pt_join; eauto. eapply cpath_app; eauto.
  Qed.
  Lemma no_carry : forall s : seq, ~ carries onlyL 43 (s ++ [(43, 0)]).
  Proof.
    intros s (a & p & E & Hp & Hin).
    destruct p as [|x p] using rev_ind; [destruct Hin|]. clear IHp.
    rewrite app_assoc in E. apply app_inj_tail in E as [_ <-].
    apply (Hp (43, 0)); [apply in_or_app; right; now left|]. reflexivity.
  Qed.

  (** Before the first character. *)
  Lemma start_parts : forall fuel st, v_closure find fuel 0 [mkV root [] false] = Ok st ->
    forall q s d, In (mkV q s d) st <-> parts [] s d q.
  Proof.
    intros fuel st H q s d. rewrite (init_holds find _ _ _ H q s d). split; [now constructor|].
    intros Hp. inversion Hp as [|cs1 s1 d1 q1 cs2 s2 d2 q2 Hn P1 Hf Hc P2 E]; subst; auto.
    exfalso. destruct cs1; [|discriminate]. cbn in *. congruence.
  Qed.
  (** One character. *)
  Lemma step_parts : forall fuel cs c st r, (forall q s d, In (mkV q s d) st <-> parts cs s d q) ->
    v_closure find fuel 0 (v_choose find c st) = Ok r ->
    forall q s d, In (mkV q s d) r <-> whole (cs ++ [c]) s d q.
  Proof.
    intros fuel cs c st r Hst H q s d. rewrite (step_from find fuel c st r); auto.
    - split.
      + intros (p & s0 & d0 & s1 & d1 & Hin & P & -> & ->). apply Hst in Hin.
        inversion Hin as [? ? ? ? P0|cs1 s1' d1' q1 cs2 s2 d2 q2 Hn P1 Hf Hc P2]; subst.
        * left. eapply cpath_app; eauto.
        * right. exists cs1, s1', d1', q1, (cs2 ++ [c]), (s2 ++ s1), (d2 || d1).
          split; auto. split; [now destruct cs2|]. do 3 (split; auto). split; [eapply cpath_app; eauto|].
          split; [now rewrite app_assoc|]. split; [now rewrite <- app_assoc|]. now rewrite orb_assoc.
      + intros [P|(cs1 & s1 & d1 & q1 & cs2 & s2 & d2 & H1 & H2 & H3 & H4 & H5 & H6 & E & -> & ->)].
        * destruct (cpath_split find _ _ _ _ _ P cs [c] eq_refl) as (s1 & d1 & p & s2 & d2 & P1 & P2 & -> & ->).
          exists p, s1, d1, s2, d2. split; [apply Hst; now constructor|]. auto.
        * destruct cs2 as [|c2 cs2] using rev_ind; [congruence|]. clear IHcs2.
          rewrite app_assoc in E. apply app_inj_tail in E as [-> ->].
          destruct (cpath_split find _ _ _ _ _ H6 cs2 [c2] eq_refl) as (s1' & d1' & p & s2' & d2' & P1 & P2 & -> & ->).
          exists p, (s1 ++ (43, 0) :: s1'), (d1 || d1'), s2', d2'.
          split; [apply Hst; eapply pt_join; eauto|]. split; auto.
          split; [now rewrite <- app_assoc|]. apply orb_assoc.
    - intros p s0 d0 s' q' Hin P. apply Hst. apply Hst in Hin.
      rewrite <- (app_nil_r cs), <- (orb_false_r d0). eapply parts_extend; eauto.
  Qed.
  (** Restarting. *)
  Lemma restart_parts : forall fuel fuel' cs init st r, cs <> [] ->
    v_closure find fuel' 0 [mkV root [] false] = Ok init ->
    (forall q s d, In (mkV q s d) st <-> whole cs s d q) ->
    v_grow fuel (v_restart onlyL 43 0 final init) 0 st = Ok r ->
    forall q s d, In (mkV q s d) r <-> parts cs s d q.
  Proof.
    intros fuel fuel' cs init st r Hcs Hi Hst H q s d.
    pose proof (init_holds find _ _ _ Hi) as HI.
    rewrite (restart_exact find _ _ _ _ _ _ _ _ HL H). split.
    - intros [Hin|([q1 s1 d1] & [q2 s2 d2] & Hy & Hz & Hf & Hl & E)].
      + apply whole_parts, Hst, Hin.
      + cbn [v_where v_seq v_dirty] in *. injection E as -> -> ->.
        apply Hst, whole_parts in Hy. apply HI in Hz.
        assert (s2 = []) by (eapply quiet; eauto). assert (d2 = false) by (eapply cpath_nil_clean; eauto).
        subst s2 d2. rewrite <- (app_nil_r cs). rewrite <- (orb_false_r d1).
        eapply pt_join; eauto. apply last_part_carries; auto.
    - intros Hp. inversion Hp as [? ? ? ? P|cs1 s1 d1 q1 cs2 s2 d2 q2 Hn P1 Hf Hc P2]; subst.
      + left. apply Hst. now left.
      + destruct cs2 as [|c cs2].
        * right. rewrite app_nil_r in *. assert (s2 = []) by (eapply quiet; eauto).
          assert (d2 = false) by (eapply cpath_nil_clean; eauto). subst s2 d2.
          exists (mkV q1 s1 d1), (mkV q [] false). cbn [v_where v_seq v_dirty]. split.
          -- apply Hst. inversion P1 as [? ? ? ? P|cs1' s1' d1' q1' cs2' s2' d2' q2' Hn' P1' Hf' Hc' P2']; subst.
             ++ now left.
             ++ destruct cs2' as [|c' cs2'].
                ** exfalso. assert (s2' = []) by (eapply quiet; eauto). subst s2'. apply (no_carry _ Hc).
                ** right. exists cs1', s1', d1', q1', (c' :: cs2'), s2', d2'. repeat (split; auto). discriminate.
          -- split; [now apply HI|]. split; auto. split; [now apply last_part_carries|]. now rewrite orb_false_r.
        * left. apply Hst. right. exists cs1, s1, d1, q1, (c :: cs2), s2, d2. repeat (split; auto). discriminate.
  Qed.
  (** Nothing alive after a prefix: no compound. *)
  Lemma parts_prefix : forall l s d q, parts l s d q -> forall a b, l = a ++ b -> exists s' d' q', parts a s' d' q'.
  Proof.
    induction 1 as [cs s d q P|cs1 s1 d1 q1 cs2 s2 d2 q2 Hn P1 IH Hf Hc P2]; intros a b E.
    - subst cs. destruct (cpath_split find _ _ _ _ _ P a b eq_refl) as (s1 & d1 & p & s2 & d2 & Pa & Pb & _).
      exists s1, d1, p. now constructor.
    - apply app_eq_app in E as (l & [[-> ->]|[-> ->]]).
      + destruct (IH a l eq_refl) as (s' & d' & q' & HH). eauto.
      + destruct (cpath_split find _ _ _ _ _ P2 l b eq_refl) as (sa & da & p & sb & db & Pa & Pb & _).
        do 3 eexists. eapply pt_join; eauto.
  Qed.
End Compounds.
