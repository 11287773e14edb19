(** State on values: the live analyses are exactly the paths; closure terminates exactly
    without input-epsilon cycles. *)
From Verif Require Import Base StateModel StateSpec.

Section Grow.
  Context {W : Type}.
  Notation vns := (@vns W).
  Implicit Types (f : vns -> list vns) (st : list vns).

  Lemma grow_unfold : forall fuel f i st, v_grow fuel f i st =
    match nth_error st i with
    | None => Ok st
    | Some s => match fuel with O => NoFuel | S fuel => v_grow fuel f (S i) (st ++ f s) end
    end.
  Proof. now intros [|fuel]. Qed.

  Lemma grow_ok : forall fuel f i st, exists r, v_grow fuel f i st = Ok r \/ v_grow fuel f i st = NoFuel.
  Proof.
    induction fuel; intros f i st; rewrite grow_unfold; destruct (nth_error st i); eauto 1; try (exists st; auto; fail).
  Qed.

  Lemma grow_mono : forall fuel f i st r, v_grow fuel f i st = Ok r ->
    forall fuel', (fuel <= fuel')%nat -> v_grow fuel' f i st = Ok r.
  Proof.
    induction fuel as [|fuel IH]; intros f i st r H fuel' L; rewrite grow_unfold in H |- *;
      destruct (nth_error st i); auto; try discriminate.
    destruct fuel' as [|fuel']; [lia|]. apply IH; auto. lia.
  Qed.

  (** Everything in the result comes from the start by repeated [f]. *)
  Lemma grow_from : forall fuel f (P : vns -> Prop) i st r,
    (forall s, In s st -> P s) -> (forall s s', P s -> In s' (f s) -> P s') ->
    v_grow fuel f i st = Ok r -> forall s, In s r -> P s.
  Proof.
    induction fuel as [|fuel IH]; intros f P i st r H0 Hf H; rewrite grow_unfold in H;
      destruct (nth_error st i) as [x|] eqn:E; try discriminate;
      try (injection H as <-; auto; fail).
    eapply IH; [| |exact H]; auto. intros s Hs. apply in_app_or in Hs as [Hs|Hs]; auto.
    eapply Hf; [|exact Hs]. apply H0. eapply nth_error_In; eauto.
  Qed.

  Lemma grow_prefix : forall fuel f i st r, v_grow fuel f i st = Ok r -> exists t, r = st ++ t.
  Proof.
    induction fuel as [|fuel IH]; intros f i st r H; rewrite grow_unfold in H;
      destruct (nth_error st i) as [x|] eqn:E; try discriminate;
      try (injection H as <-; exists []; now rewrite app_nil_r).
    apply IH in H as (t & ->). exists (f x ++ t). now rewrite app_assoc.
  Qed.

  (** The offspring of every visited element stands behind it. *)
  Lemma grow_closed : forall fuel f i st r, v_grow fuel f i st = Ok r ->
    forall j s s', (i <= j)%nat -> nth_error r j = Some s -> In s' (f s) ->
    exists j', (j < j')%nat /\ nth_error r j' = Some s'.
  Proof.
    induction fuel as [|fuel IH]; intros f i st r H j s s' Hj Hs Hin; rewrite grow_unfold in H;
      destruct (nth_error st i) as [x|] eqn:E; try discriminate.
    1, 3: injection H as <-; apply nth_error_None in E;
      assert (j < length st)%nat by (apply nth_error_Some; congruence); lia.
    destruct (Nat.eq_dec i j) as [<- | Hne]; [|eapply IH; eauto; lia].
    destruct (grow_prefix _ _ _ _ _ H) as (t & ->).
    assert (Li : (i < length st)%nat) by (apply nth_error_Some; congruence).
    rewrite <- app_assoc, nth_error_app1, E in Hs by auto. injection Hs as <-.
    apply In_nth_error in Hin as (m & Hm). exists (length st + m)%nat. split; [lia|].
    rewrite <- app_assoc, nth_error_app2 by lia.
    replace (length st + m - length st)%nat with m by lia.
    rewrite nth_error_app1; auto. apply nth_error_Some. congruence.
  Qed.

  Lemma grow_exact : forall fuel f st r, v_grow fuel f 0 st = Ok r ->
    forall (R : vns -> vns -> Prop),
    (forall s, R s s) -> (forall s s' s'', R s s' -> In s'' (f s') -> R s s'') ->
    (forall (P : vns -> Prop) s s', R s s' -> P s ->
       (forall a b, P a -> In b (f a) -> P b) -> P s') ->
    forall x, In x r <-> exists s, In s st /\ R s x.
  Proof.
    intros fuel f st r H R R0 R1 Rind x. split.
    - revert x. eapply grow_from; [| |exact H].
      + intros s Hs. exists s. auto.
      + intros s s' (s0 & Hs0 & HR) Hin. exists s0. split; auto. eapply R1; eauto.
    - intros (s & Hs & HR). apply (Rind (fun y => In y r) s x HR).
      + destruct (grow_prefix _ _ _ _ _ H) as (t & ->). apply in_or_app; auto.
      + intros a b Ha Hb. apply In_nth_error in Ha as (j & Hj).
        destruct (grow_closed _ _ _ _ _ H j a b) as (j' & _ & Hj'); auto; [lia|].
        eapply nth_error_In; eauto.
  Qed.

  (** Termination: a count of offspring. *)
  Lemma grow_terminates : forall f (size : vns -> nat),
    (forall s, (1 + list_sum (map size (f s)) <= size s)%nat) ->
    forall fuel i st, (list_sum (map size (skipn i st)) <= fuel)%nat ->
    exists r, v_grow fuel f i st = Ok r.
  Proof.
    intros f size Hs. induction fuel as [|fuel IH]; intros i st H; rewrite grow_unfold;
      destruct (nth_error st i) as [x|] eqn:E; eauto.
    - assert (Hk : skipn i st = x :: skipn (S i) st).
      { clear - E. revert st E. induction i; intros [|y st] E; cbn in *; try discriminate; auto.
        congruence. }
      rewrite Hk in H. cbn in H. specialize (Hs x). lia.
    - apply IH.
      assert (Hk : skipn i st = x :: skipn (S i) st).
      { clear - E. revert st E. induction i; intros [|y st] E; cbn in *; try discriminate; auto.
        congruence. }
      assert (Li : (i < length st)%nat) by (apply nth_error_Some; congruence).
      rewrite skipn_app. replace (S i - length st)%nat with 0%nat by lia.
      change (skipn 0 (f x)) with (f x).
      rewrite Hk in H. rewrite map_app, list_sum_app. specialize (Hs x).
      set (l := skipn (S i) st) in *. clearbody l. cbn [map list_sum fold_right] in H.
      change (fold_right Nat.add 0%nat (map size l)) with (list_sum (map size l)) in H. lia.
  Qed.

  (** Endless offspring: never finishes. *)
  Lemma grow_endless : forall f (C : vns -> Prop) fuel st s,
    (forall a, C a -> exists b, In b (f a) /\ C b) -> In s st -> C s ->
    v_grow fuel f 0 st = NoFuel.
  Proof.
    intros f C fuel st s HC Hin Hs.
    destruct (grow_ok fuel f 0 st) as (r & [H|H]); auto. exfalso.
    assert (B : forall n, exists j a, (n <= j)%nat /\ nth_error r j = Some a /\ C a).
    { induction n as [|n (j & a & Hj & Ha & Ca)].
      - destruct (grow_prefix _ _ _ _ _ H) as (t & ->).
        apply In_nth_error in Hin as (j & Hj). exists j, s. split; [lia|]. split; auto.
        rewrite nth_error_app1; auto. apply nth_error_Some. congruence.
      - destruct (HC a Ca) as (b & Hb & Cb).
        destruct (grow_closed _ _ _ _ _ H j a b) as (j' & Hj' & E); auto; [lia|].
        exists j', b. split; [lia|]. auto. }
    destruct (B (length r)) as (j & a & Hj & Ha & _).
    assert (j < length r)%nat by (apply nth_error_Some; congruence). lia.
  Qed.
End Grow.

Section Paths.
  Context {W : Type}.
  Context (find : nat -> Z -> list (Z * (nat * W))).
  Notation vns := (@vns W).
  Notation cpath := (cpath find).
  Notation rpath := (rpath find).

  Lemma v_eps_move : forall s s' : vns, In s' (v_eps find s) <-> eps_move find s s'.
  Proof.
    intros s s'. unfold v_eps, eps_move. rewrite in_map_iff. split.
    - intros ([o [q w]] & <- & H). eauto.
    - intros (o & q & w & H & ->). exists (o, (q, w)). auto.
  Qed.

  Lemma closure_exact : forall fuel st r, v_closure find fuel 0 st = Ok r ->
    forall x, In x r <-> exists s, In s st /\ eps_moves find s x.
  Proof.
    intros fuel st r H. apply (grow_exact fuel (v_eps find) st r H).
    - intros s. apply em_refl.
    - intros s s' s'' H1 H2. eapply em_step; [exact H1|]. now apply v_eps_move.
    - intros P s s' HR HP Hs. induction HR as [|s s' s'' _ IH Hm]; auto.
      eapply Hs; [apply IH; auto|]. now apply v_eps_move.
  Qed.

  (** Sizes for the termination count. *)
  Fixpoint npaths (k : nat) (p : nat) : nat :=
    match k with
    | O => 1
    | S k => 1 + list_sum (map (fun x : Z * (nat * W) => npaths k (fst (snd x))) (find p 0))
    end.

  Lemma npaths_enough : forall (rank : nat -> nat),
    (forall p o q w, In (o, (q, w)) (find p 0) -> (rank q < rank p)%nat) ->
    forall k p, (rank p <= k)%nat ->
    npaths (rank p) p = npaths k p.
  Proof.
    intros rank Hr.
    assert (H : forall k k' p, (rank p <= k)%nat -> (rank p <= k')%nat -> npaths k p = npaths k' p).
    { assert (Z : forall p, rank p = 0%nat -> find p 0 = []).
      { intros p Hp. destruct (find p 0) as [|[o [q w]] r] eqn:E; auto.
        specialize (Hr p o q w). rewrite E in Hr. specialize (Hr (or_introl eq_refl)). lia. }
      induction k as [|k IH]; intros [|k'] p H1 H2; cbn [npaths]; auto.
      - rewrite Z by lia. auto.
      - rewrite Z by lia. auto.
      - do 2 f_equal. apply map_ext_in. intros [o [q w]] Hin. cbn.
        specialize (Hr _ _ _ _ Hin). apply IH; lia. }
    intros k p Hk. apply H; auto.
  Qed.

  Lemma closure_terminates : eps_acyclic find -> forall st, exists N, forall fuel, (N <= fuel)%nat ->
    exists r, v_closure find fuel 0 st = Ok r.
  Proof.
    intros (rank & Hr) st.
    pose (size := fun s : vns => npaths (rank (v_where s)) (v_where s)).
    exists (list_sum (map size st)). intros fuel Hf.
    apply (grow_terminates (v_eps find) size); auto.
    intros s. unfold size. destruct (find (v_where s) 0) as [|a l] eqn:E.
    - unfold v_eps. rewrite E. cbn. destruct (rank (v_where s)); cbn [npaths]; lia.
    - destruct (rank (v_where s)) as [|k] eqn:Ek.
      + destruct a as [o [q w]]. specialize (Hr (v_where s) o q w). rewrite E in Hr.
        specialize (Hr (or_introl eq_refl)). lia.
      + cbn [npaths]. apply le_n_S. unfold v_eps. rewrite map_map. cbn [v_where].
        apply Nat.eq_le_incl. f_equal. apply map_ext_in. intros [o [q w]] Hin. cbn.
        apply npaths_enough; auto. specialize (Hr _ _ _ _ Hin). lia.
  Qed.

  Lemma closure_endless : forall (C : nat -> Prop) fuel st s,
    (forall p, C p -> exists o q w, In (o, (q, w)) (find p 0) /\ C q) ->
    In s st -> C (v_where s) -> v_closure find fuel 0 st = NoFuel.
  Proof.
    intros C fuel st s HC Hin Hs.
    apply (grow_endless (v_eps find) (fun a => C (v_where a)) fuel st s); auto.
    intros a Ha. destruct (HC _ Ha) as (o & q & w & Hi & Cq).
    exists (mkV q (v_seq a ++ (if o =? 0 then [] else [(o, w)])) (v_dirty a)).
    split; auto. apply v_eps_move. exists o, q, w. auto.
  Qed.

  (** cpath at its far end. *)
  Lemma cpath_eps_end : forall p l s b q, cpath p l s b q ->
    forall o r w, In (o, (r, w)) (find q 0) ->
    cpath p l (s ++ (if o =? 0 then [] else [(o, w)])) b r.
  Proof.
    induction 1; intros o' r' w' Hin.
    - rewrite <- (app_nil_r (if o' =? 0 then [] else [(o', w')])). cbn [app].
      eapply cp_eps; [exact Hin|]. constructor.
    - rewrite <- app_assoc. eapply cp_eps; eauto.
    - rewrite <- app_assoc. eapply cp_sym; eauto.
  Qed.

  Lemma cpath_sym_end : forall p l s b q, cpath p l s b q ->
    forall ov opts i d o r w, In (i, d) (opts q) -> In (o, (r, w)) (find q i) ->
    cpath p (l ++ [Some (ov, opts)]) (s ++ (if i =? 0 then [] else [(ov o, w)])) (b || d) r.
  Proof.
    induction 1; intros ov' opts' i' d' o' r' w' Ho Hin.
    - cbn [app orb]. rewrite <- (app_nil_r (if i' =? 0 then [] else _)).
      rewrite <- (orb_false_r d'). eapply cp_sym; eauto. constructor.
    - rewrite <- app_assoc. eapply cp_eps; eauto.
    - rewrite <- app_assoc. cbn [app]. rewrite <- orb_assoc. eapply cp_sym; eauto.
  Qed.

  Lemma cpath_end_inv : forall p L s b r, cpath p L s b r -> forall l c, L = l ++ [c] ->
    exists q1 s1 b1 ov opts i d o q2 w s2,
      c = Some (ov, opts) /\ cpath p l s1 b1 q1 /\ In (i, d) (opts q1) /\
      In (o, (q2, w)) (find q1 i) /\ cpath q2 [] s2 false r /\
      s = s1 ++ (if i =? 0 then [] else [(ov o, w)]) ++ s2 /\ b = b1 || d.
  Proof.
    assert (Hnil : forall p l s b r, cpath p l s b r -> l = [] -> b = false).
    { induction 1; auto. discriminate. }
    induction 1; intros l' c E.
    - destruct l'; discriminate.
    - destruct (IHcpath l' c E) as (q1 & s1 & b1 & ov & opts & i & d & o' & q2 & w' & s2 & E1 & P1 & I1 & I2 & P2 & E2 & E3).
      exists q1, ((if o =? 0 then [] else [(o, w)]) ++ s1), b1, ov, opts, i, d, o', q2, w', s2.
      split; auto. split; [eapply cp_eps; eauto|]. do 3 (split; auto).
      subst s. now rewrite <- app_assoc.
    - destruct l' as [|c' l'].
      + injection E as <- ->. assert (b = false) by (eapply Hnil; eauto). subst b.
        exists p, [], false, ov, opts, i, d, o, q, w, s.
        split; auto. split; [constructor|]. do 4 (split; auto). now rewrite orb_false_r.
      + injection E as <- ->.
        destruct (IHcpath l' c eq_refl) as (q1 & s1 & b1 & ov' & opts' & i' & d' & o' & q2 & w' & s2 & E1 & P1 & I1 & I2 & P2 & E2 & E3).
        exists q1, ((if i =? 0 then [] else [(ov o, w)]) ++ s1), (d || b1), ov', opts', i', d', o', q2, w', s2.
        split; auto. split; [eapply cp_sym; eauto|]. do 3 (split; auto). split.
        * subst s. now rewrite <- app_assoc.
        * subst b. now rewrite orb_assoc.
  Qed.

  Lemma eps_moves_path : forall s x, eps_moves find s x ->
    exists s2, cpath (v_where s) [] s2 false (v_where x) /\ v_seq x = v_seq s ++ s2 /\
      v_dirty x = v_dirty s.
  Proof.
    induction 1 as [s|s s' s'' _ (s2 & P & E & D) (o & q & w & Hin & ->)].
    - exists []. split; [constructor|]. now rewrite app_nil_r.
    - exists (s2 ++ (if o =? 0 then [] else [(o, w)])). cbn [v_where v_seq v_dirty].
      split; [eapply cpath_eps_end; eauto|]. rewrite E, app_assoc. auto.
  Qed.

  Lemma eps_front : forall s s' x, eps_move find s s' -> eps_moves find s' x -> eps_moves find s x.
  Proof.
    intros s s' x H1 H2. induction H2.
    - eapply em_step; [apply em_refl|]; auto.
    - eapply em_step; eauto.
  Qed.

  Lemma path_eps_moves : forall p l s2 b q, cpath p l s2 b q -> l = [] ->
    forall s d, eps_moves find (mkV p s d) (mkV q (s ++ s2) d).
  Proof.
    induction 1; intros E s0 d0; try discriminate.
    - rewrite app_nil_r. constructor.
    - eapply eps_front.
      + exists o, q, w. cbn [v_where v_seq v_dirty]. split; eauto.
      + rewrite app_assoc. apply IHcpath; auto.
  Qed.

  (** One step of the value-level State. *)
  Lemma choose_in : forall c st x, In x (v_choose find c st) <->
    exists ov opts s i d o q w, c = Some (ov, opts) /\ In s st /\ In (i, d) (opts (v_where s)) /\
      In (o, (q, w)) (find (v_where s) i) /\
      x = mkV q (v_seq s ++ if i =? 0 then [] else [(ov o, w)]) (v_dirty s || d).
  Proof.
    intros [[ov opts]|] st x; cbn [v_choose].
    - rewrite in_flat_map. split.
      + intros (s & Hs & H). apply in_flat_map in H as ([i d] & Hi & H). cbn in H.
        unfold v_into in H. apply in_map_iff in H as ([o [q w]] & <- & Hd).
        exists ov, opts, s, i, d, o, q, w. auto.
      + intros (ov' & opts' & s & i & d & o & q & w & E & Hs & Hi & Hd & ->).
        injection E as <- <-. exists s. split; auto. apply in_flat_map. exists (i, d). split; auto.
        unfold v_into. apply in_map_iff. exists (o, (q, w)). auto.
    - split; [intros []|]. intros (ov' & opts' & s & i & d & o & q & w & E & _). discriminate.
  Qed.

  (** [st] holds exactly the paths from [n] over [cs]. *)
  Definition holds (n : nat) (cs : list choice) (st : list vns) : Prop :=
    forall q s d, In (mkV q s d) st <-> cpath n cs s d q.

  Lemma init_holds : forall fuel n r, v_closure find fuel 0 [mkV n [] false] = Ok r -> holds n [] r.
  Proof.
    intros fuel n r H q s d. rewrite (closure_exact _ _ _ H). split.
    - intros (s0 & [<- | []] & E). apply eps_moves_path in E as (s2 & P & E & D). cbn in *. subst. auto.
    - intros P. exists (mkV n [] false). split; [now left|].
      assert (d = false).
      { clear - P. remember [] as l. induction P; auto. discriminate. }
      subst d. apply (path_eps_moves _ _ _ _ _ P eq_refl [] false).
  Qed.

  Lemma step_holds : forall fuel n cs c st r, holds n cs st ->
    v_closure find fuel 0 (v_choose find c st) = Ok r -> holds n (cs ++ [c]) r.
  Proof.
    intros fuel n cs c st r Hh H q s d. rewrite (closure_exact _ _ _ H). split.
    - intros (s0 & H0 & E). apply choose_in in H0 as (ov & opts & [q1 s1 d1] & i & d' & o & q2 & w & -> & H1 & H2 & H3 & ->).
      apply Hh in H1. cbn [v_where v_seq v_dirty] in *.
      apply eps_moves_path in E as (s2 & P & E & D). cbn [v_where v_seq v_dirty] in *. subst s d.
      pose proof (cpath_sym_end _ _ _ _ _ H1 ov opts i d' o q2 w H2 H3) as P1.
      clear - P P1. remember [] as l. remember false as b. revert P1.
      generalize (s1 ++ (if i =? 0 then [] else [(ov o, w)])). induction P; intros s0 P1; subst.
      + now rewrite app_nil_r.
      + rewrite app_assoc. apply IHP; auto. eapply cpath_eps_end; eauto.
      + discriminate.
    - intros P. destruct (cpath_end_inv _ _ _ _ _ P cs c eq_refl)
        as (q1 & s1 & b1 & ov & opts & i & d' & o & q2 & w & s2 & -> & P1 & I1 & I2 & P2 & -> & ->).
      exists (mkV q2 (s1 ++ if i =? 0 then [] else [(ov o, w)]) (b1 || d')). split.
      + apply choose_in. exists ov, opts, (mkV q1 s1 b1), i, d', o, q2, w.
        split; auto. split; [now apply Hh|]. auto.
      + rewrite app_assoc. apply (path_eps_moves _ _ _ _ _ P2 eq_refl).
  Qed.

  (** Plain steps: reading exactly the input. *)
  Lemma cpath_rpath : forall n l s b q, cpath n (map one l) s b q <-> b = false /\ rpath n l s q.
  Proof.
    intros n l s b q. split.
    - intros P. remember (map one l) as cs. revert l Heqcs. induction P; intros l0 E.
      + destruct l0; [|discriminate]. split; auto. constructor.
      + destruct (IHP _ E) as [-> R]. split; auto. eapply rp_eps; eauto.
      + destruct l0 as [|i0 l0]; [discriminate|]. cbn in E.
        unfold one, alternatives in E. cbn [existsb fst] in E. rewrite orb_false_r in E.
        destruct (i0 =? 0) eqn:E0; [discriminate|]. injection E as -> -> ->.
        destruct H as [H|[]]. injection H as <- <-. rewrite E0.
        destruct (IHP l0 eq_refl) as [-> R]. split; auto. cbn [app].
        unfold same. eapply rp_sym; eauto. lia.
    - intros [-> R]. induction R.
      + constructor.
      + eapply cp_eps; eauto.
      + cbn [map]. unfold one at 1, alternatives. cbn [existsb fst].
        replace (i =? 0) with false by lia. cbn [orb].
        change ((o, w) :: s) with ([(same o, w)] ++ s).
        replace [(same o, w)] with (if i =? 0 then [] else [(same o, w)])
          by (replace (i =? 0) with false by lia; auto).
        change false with (false || false) at 2.
        eapply cp_sym; eauto. now left.
  Qed.
End Paths.
