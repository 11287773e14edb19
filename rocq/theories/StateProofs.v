(** State: the cells and the pool never change what the object holds. *)
From Verif Require Import Base StateModel StateSpec.
From Coq Require Import Permutation.

Section Refine.
  Context {W : Type}.
  Context (find : nat -> Z -> list (Z * (nat * W))).
  Notation heap := (@heap W).
  Notation seq_t := (@seq_t W).

  Definition alive (h : heap) (p : ptr) : Prop := exists v, nth_error h p = Some (Some v).
  (** [l]: every pointer anyone holds. *)
  Definition good (h : heap) (l : list ptr) : Prop := NoDup l /\ forall p, In p l -> alive h p.

  Lemma good_perm : forall h l l', Permutation l l' -> good h l -> good h l'.
  Proof.
    intros h l l' P [N A]. split.
    - eapply Permutation_NoDup; eauto.
    - intros p Hp. apply A. eapply Permutation_in; [apply Permutation_sym|]; eauto.
  Qed.

  Lemma get_alive : forall h p, alive h p -> h_get h p = Ok (cell h p).
  Proof. intros h p [v E]. unfold h_get, cell. now rewrite E. Qed.

  Lemma put_same : forall (h : heap) p c, (p < length h)%nat -> nth_error (h_put h p c) p = Some c.
  Proof.
    induction h as [|x h IH]; intros [|p] c H; cbn in *; try lia; auto. apply IH. lia.
  Qed.
  Lemma put_other : forall (h : heap) p q c, p <> q -> nth_error (h_put h p c) q = nth_error h q.
  Proof.
    induction h as [|x h IH]; intros [|p] [|q] c H; cbn; auto; try congruence.
  Qed.
  Lemma alive_lt : forall h p, alive h p -> (p < length h)%nat.
  Proof. intros h p [v E]. apply nth_error_Some. congruence. Qed.

  Lemma set_spec : forall h p v, alive h p ->
    exists h', h_set h p v = Ok h' /\ cell h' p = v /\ alive h' p /\
      (forall q, q <> p -> nth_error h' q = nth_error h q).
  Proof.
    intros h p v A. unfold h_set. rewrite (get_alive _ _ A). cbn.
    eexists. split; [reflexivity|]. pose proof (alive_lt _ _ A) as L.
    unfold cell, alive. rewrite put_same by auto. repeat split; eauto.
    intros q Hq. apply put_other. congruence.
  Qed.

  Lemma alive_eq : forall (h h' : heap) p, nth_error h' p = nth_error h p -> alive h p -> alive h' p.
  Proof. intros h h' p E [v H]. exists v. congruence. Qed.
  Lemma cell_eq : forall (h h' : heap) p, nth_error h' p = nth_error h p -> cell h' p = cell h p.
  Proof. intros h h' p E. unfold cell. now rewrite E. Qed.

  (** Taking a cell from the pool. *)
  Lemma new_spec : forall h pool L, good h (L ++ pool) ->
    exists p h' pool', new_sequence h pool = (p, h', pool') /\
      good h' (p :: L ++ pool') /\
      (forall q, In q L -> nth_error h' q = nth_error h q).
  Proof.
    intros h [|p pool] L G; cbn.
    - do 3 eexists. split; [reflexivity|]. destruct G as [N A]. rewrite app_nil_r in *.
      assert (Hlt : forall q, In q L -> (q < length h)%nat) by (intros q Hq; apply alive_lt; auto).
      split; [split|].
      + constructor; auto. intros Hin. specialize (Hlt _ Hin). lia.
      + intros q [<- | Hq].
        * exists []. rewrite nth_error_app2 by lia. now rewrite Nat.sub_diag.
        * destruct (A _ Hq) as [v E]. exists v. rewrite nth_error_app1; auto.
      + intros q Hq. apply nth_error_app1; auto.
    - do 3 eexists. split; [reflexivity|]. split; auto.
      eapply good_perm; [|exact G]. apply Permutation_sym, Permutation_middle.
  Qed.

  Lemma spawn_spec : forall h pool L src extra, good h (L ++ pool) -> In src L ->
    exists p h' pool', h_spawn h pool src extra = Ok (p, h', pool') /\
      good h' (p :: L ++ pool') /\
      (forall q, In q L -> nth_error h' q = nth_error h q) /\
      cell h' p = cell h src ++ extra.
  Proof.
    intros h pool L src extra G Hs. unfold h_spawn.
    destruct (new_spec _ _ _ G) as (p & h1 & pool1 & -> & G1 & K1).
    assert (As : alive h1 src) by (apply (proj2 G1); right; apply in_or_app; auto).
    rewrite (get_alive _ _ As). cbn [obind].
    assert (Ap : alive h1 p) by (apply (proj2 G1); now left).
    destruct (set_spec h1 p (cell h1 src ++ extra) Ap) as (h2 & -> & Ec & A2 & K2). cbn [obind].
    do 3 eexists. split; [reflexivity|].
    destruct G1 as [N1 A1]. inversion N1 as [|? ? Hnin N1']; subst.
    split; [split|split]; auto.
    - intros q Hq. destruct (Nat.eq_dec q p) as [-> | Hne]; auto.
      eapply alive_eq; [apply K2; auto|]. apply A1; auto.
    - intros q Hq. rewrite K2; auto. intros ->. apply Hnin, in_or_app; auto.
    - rewrite Ec. f_equal. apply cell_eq. apply K1; auto.
  Qed.

  Lemma view_ext : forall (h h' : heap) st,
    (forall q, In q (map t_seq st) -> nth_error h' q = nth_error h q) -> view h' st = view h st.
  Proof.
    intros h h' st K. unfold view. apply map_ext_in. intros s Hs. f_equal.
    apply cell_eq, K, in_map, Hs.
  Qed.
  Lemma view_app : forall h a b, @view W h (a ++ b) = view h a ++ view h b.
  Proof. intros. apply map_app. Qed.

  (** [makes]: a computation that adds new analyses [vals], changing no cell in [L]. *)
  Definition makes (h : heap) (L : list ptr) (r : outcome (heap * list ptr * list tns))
      (vals : list vns) : Prop :=
    exists h' pool' st, r = Ok (h', pool', st) /\
      good h' (map t_seq st ++ L ++ pool') /\
      (forall q, In q L -> nth_error h' q = nth_error h q) /\
      view h' st = vals.

  Lemma makes_nil : forall h L pool, good h (L ++ pool) -> makes h L (Ok (h, pool, [])) [].
  Proof. intros h L pool G. exists h, pool, []. cbn. repeat split; auto; apply G. Qed.

  (** Sequencing: the first batch is kept while the second is made. *)
  Lemma makes_then : forall h L r vals vals' (k : heap -> list ptr -> outcome (heap * list ptr * list tns)),
    makes h L r vals ->
    (forall h' pool' L', good h' (L' ++ pool') -> incl L L' ->
        (forall q, In q L -> nth_error h' q = nth_error h q) ->
        makes h' L' (k h' pool') vals') ->
    makes h L (let! (h, pool, l) := r in
               let! (h, pool, l') := k h pool in Ok (h, pool, l ++ l')) (vals ++ vals').
  Proof.
    intros h L r vals vals' k (h1 & pool1 & st1 & -> & G1 & K1 & V1) Hk. cbn [obind].
    assert (G1' : good h1 ((map t_seq st1 ++ L) ++ pool1)) by (now rewrite <- app_assoc).
    destruct (Hk h1 pool1 (map t_seq st1 ++ L) G1') as (h2 & pool2 & st2 & -> & G2 & K2 & V2).
    { intros q Hq. apply in_or_app; auto. }
    { auto. }
    cbn [obind]. do 3 eexists. split; [reflexivity|]. split; [|split].
    - eapply good_perm; [|exact G2]. rewrite map_app, !app_assoc.
      do 2 apply Permutation_app_tail. apply Permutation_app_comm.
    - intros q Hq. rewrite K2; [auto|]. apply in_or_app; auto.
    - rewrite view_app. f_equal; auto. rewrite <- V1. apply view_ext.
      intros q Hq. apply K2. apply in_or_app; auto.
  Qed.

  Lemma makes_cons : forall h pool L src extra q d vals'
      (k : heap -> list ptr -> outcome (heap * list ptr * list tns)),
    good h (L ++ pool) -> In src L ->
    (forall h' pool' L', good h' (L' ++ pool') -> incl L L' ->
        (forall q, In q L -> nth_error h' q = nth_error h q) ->
        makes h' L' (k h' pool') vals') ->
    makes h L (let! (p, h, pool) := h_spawn h pool src extra in
               let! (h, pool, l) := k h pool in Ok (h, pool, mkTN q p d :: l))
      (mkV q (cell h src ++ extra) d :: vals').
  Proof.
    intros h pool L src extra q d vals' k G Hs Hk.
    destruct (spawn_spec h pool L src extra G Hs) as (p & h1 & pool1 & -> & G1 & K1 & C1).
    cbn [obind].
    destruct (Hk h1 pool1 (p :: L) G1) as (h2 & pool2 & st2 & -> & G2 & K2 & V2); auto.
    { intros x Hx; now right. }
    cbn [obind]. do 3 eexists. split; [reflexivity|]. split; [|split].
    - cbn [map t_seq]. eapply good_perm; [|exact G2].
      cbn. apply Permutation_sym, Permutation_middle.
    - intros x Hx. rewrite K2; auto. now right.
    - cbn [view map t_where t_seq t_dirty]. f_equal; auto. f_equal.
      rewrite <- C1. apply cell_eq, K2. now left.
  Qed.

  Definition vof (h : heap) (s : tns) : vns := mkV (t_where s) (cell h (t_seq s)) (t_dirty s).

  Lemma spawn_dests_makes : forall ds h pool L s dirty extra,
    good h (L ++ pool) -> In (t_seq s) L ->
    makes h L (spawn_dests h pool s dirty extra ds)
      (map (fun x : Z * (nat * W) =>
              mkV (fst (snd x)) (cell h (t_seq s) ++ extra (fst x) (snd (snd x)))
                  (t_dirty s || dirty)) ds).
  Proof.
    induction ds as [|[o [q w]] ds IH]; intros h pool L s dirty extra G Hs; cbn [spawn_dests map].
    - apply makes_nil; auto.
    - cbn [fst snd].
      apply (makes_cons h pool L (t_seq s) (extra o w) q (t_dirty s || dirty) _
               (fun h pool => spawn_dests h pool s dirty extra ds)); auto.
      intros h' pool' L' G' I K. specialize (IH h' pool' L' s dirty extra G' (I _ Hs)).
      rewrite (cell_eq h h' (t_seq s)) in IH; auto.
  Qed.

  Lemma into_makes : forall h pool L ov i s d, good h (L ++ pool) -> In (t_seq s) L ->
    makes h L (apply_into find h pool ov i s d) (v_into find ov i (vof h s) d).
  Proof.
    intros h pool L ov i s d G Hs. unfold apply_into, v_into. cbn [v_where v_seq v_dirty vof].
    apply spawn_dests_makes; auto.
  Qed.

  Lemma vof_ext : forall h h' s, nth_error h' (t_seq s) = nth_error h (t_seq s) ->
    vof h' s = vof h s.
  Proof. intros h h' s E. unfold vof. f_equal. now apply cell_eq. Qed.

  Lemma opts_makes : forall opts h pool L ov s, good h (L ++ pool) -> In (t_seq s) L ->
    makes h L (apply_opts find h pool ov s opts)
      (flat_map (fun x => v_into find ov (fst x) (vof h s) (snd x)) opts).
  Proof.
    induction opts as [|[i d] opts IH]; intros h pool L ov s G Hs; cbn [apply_opts flat_map].
    - apply makes_nil; auto.
    - cbn [fst snd].
      apply (makes_then h L _ _ _ (fun h pool => apply_opts find h pool ov s opts)).
      + apply into_makes; auto.
      + intros h' pool' L' G' I K. rewrite <- (vof_ext h h' s); auto.
  Qed.

  Lemma view_cons : forall h s st, @view W h (s :: st) = vof h s :: view h st.
  Proof. reflexivity. Qed.

  (** The apply loops release the old cells one by one. *)
  Lemma all_makes : forall st h pool R ov opts, good h (map t_seq st ++ R ++ pool) ->
    makes h R (apply_all find h pool ov opts st) (v_choose find (Some (ov, opts)) (view h st)).
  Proof.
    induction st as [|s st IH]; intros h pool R ov opts G; cbn [apply_all].
    - apply makes_nil; auto.
    - rewrite view_cons. cbn [v_choose flat_map].
      assert (G' : good h ((map t_seq (s :: st) ++ R) ++ pool)) by (now rewrite <- app_assoc).
      destruct (opts_makes (opts (t_where s)) h pool (map t_seq (s :: st) ++ R) ov s G')
        as (h1 & pool1 & st1 & -> & G1 & K1 & V1); [cbn; auto|].
      cbn [obind].
      assert (G2 : good h1 (map t_seq st ++ (map t_seq st1 ++ R) ++ t_seq s :: pool1)).
      { eapply good_perm; [|exact G1]. cbn [map].
        rewrite <- !app_assoc. cbn.
        rewrite Permutation_app_comm. cbn. rewrite <- !app_assoc.
        rewrite !app_assoc. rewrite <- Permutation_middle. constructor.
        rewrite <- !app_assoc. apply Permutation_app_head.
        rewrite (app_assoc R), (app_assoc (map t_seq st1)).
        rewrite (Permutation_app_comm (R ++ pool1)), app_assoc. reflexivity. }
      destruct (IH h1 (t_seq s :: pool1) (map t_seq st1 ++ R) ov opts G2)
        as (h2 & pool2 & st2 & -> & G3 & K2 & V2).
      cbn [obind]. do 3 eexists. split; [reflexivity|]. split; [|split].
      + eapply good_perm; [|exact G3]. rewrite map_app, !app_assoc.
        do 2 apply Permutation_app_tail. apply Permutation_app_comm.
      + intros q Hq. rewrite K2 by (apply in_or_app; auto). apply K1.
        apply in_or_app; auto.
      + rewrite view_app. f_equal.
        * cbn [v_where vof]. change (t_where s) with (v_where (vof h s)) in V1.
          etransitivity; [|exact V1]. apply view_ext. intros q Hq. apply K2, in_or_app; auto.
        * rewrite V2. cbn [v_choose]. rewrite (view_ext h h1 st); auto.
          intros q Hq. apply K1. cbn. right. apply in_or_app; auto.
  Qed.

  (** Deleting. *)
  Lemma delete_all_spec : forall ps h L, good h (ps ++ L) ->
    exists h', h_delete_all h ps = Ok h' /\ good h' L /\
      (forall q, In q L -> nth_error h' q = nth_error h q).
  Proof.
    induction ps as [|p ps IH]; intros h L G; cbn [h_delete_all].
    - eauto.
    - unfold h_delete. rewrite get_alive by (apply (proj2 G); now left). cbn [obind].
      destruct G as [N A]. inversion N as [|? ? Hnin N']; subst.
      destruct (IH (h_put h p None) L) as (h' & -> & G' & K').
      { split; auto. intros q Hq. eapply alive_eq; [|apply A; right; exact Hq].
        apply put_other. intros ->. contradiction. }
      eexists. split; [reflexivity|]. split; auto.
      intros q Hq. rewrite K' by auto. apply put_other. intros ->.
      apply Hnin, in_or_app; auto.
  Qed.

  (** What one object owns. *)
  Definition owned (o : sobj) : list ptr := map t_seq (so_state o) ++ so_pool o.

  (** [turns h R o r st']: the call [r] on object [o], with other objects owning [R],
      leaves the values [st'], or both run out of fuel. *)
  Definition turns (h : heap) (R : list ptr) (r : outcome (heap * sobj))
      (v : outcome (list vns)) : Prop :=
    match v with
    | Ok vals => exists h' o', r = Ok (h', o') /\ good h' (owned o' ++ R) /\
        (forall q, In q R -> nth_error h' q = nth_error h q) /\
        view h' (so_state o') = vals
    | NoFuel => r = NoFuel
    | _ => False
    end.

  Lemma makes_turns : forall h R r vals, makes h R r vals ->
    turns h R (let! (h, pool, st) := r in Ok (h, mkSO st pool)) (Ok vals).
  Proof.
    intros h R r vals (h' & pool' & st & -> & G & K & V). cbn.
    do 2 eexists. split; [reflexivity|]. unfold owned. cbn. split; [|split]; auto.
    eapply good_perm; [|exact G]. rewrite <- app_assoc. apply Permutation_app_head.
    apply Permutation_app_comm.
  Qed.

  Lemma owned_perm : forall o R, Permutation (owned o ++ R) (map t_seq (so_state o) ++ R ++ so_pool o).
  Proof.
    intros. unfold owned. rewrite <- app_assoc. apply Permutation_app_head, Permutation_app_comm.
  Qed.

  Lemma gen_turns : forall h R o ov opts, good h (owned o ++ R) ->
    turns h R (apply_gen find h o ov opts) (Ok (v_choose find (Some (ov, opts)) (view h (so_state o)))).
  Proof.
    intros h R o ov opts G. unfold apply_gen. apply makes_turns.
    apply all_makes. eapply good_perm; [apply owned_perm|auto].
  Qed.

  Lemma destroy_turns : forall h R o, good h (owned o ++ R) ->
    turns h R (destroy h o) (Ok []).
  Proof.
    intros h R o G. unfold destroy, turns. unfold owned in G. rewrite <- app_assoc in G.
    destruct (delete_all_spec _ _ _ G) as (h1 & -> & G1 & K1). cbn [obind].
    destruct (delete_all_spec _ _ _ G1) as (h2 & -> & G2 & K2). cbn [obind].
    do 2 eexists. split; [reflexivity|]. cbn. repeat split; auto; try apply G2.
    intros q Hq. rewrite K2 by auto. apply K1. apply in_or_app; auto.
  Qed.

  (** Leaving cells behind is harmless. *)
  Lemma good_sub : forall h l l', good h (l' ++ l) -> good h l.
  Proof.
    intros h l l' [N A]. split.
    - induction l'; auto. inversion N; auto. apply IHl'; auto.
      intros p Hp. apply A. now right.
    - intros p Hp. apply A, in_or_app; auto.
  Qed.
  Lemma drop_turns : forall h R o, good h (owned o ++ R) ->
    turns h R (Ok (h, mkSO [] (so_pool o))) (Ok []).
  Proof.
    intros h R o G. cbn. do 2 eexists. split; [reflexivity|]. cbn. split; [|split]; auto.
    unfold owned in *. cbn. rewrite <- app_assoc in G. eapply good_sub; eauto.
  Qed.

  (** The growing loops. *)
  Lemma view_nth : forall h st i, nth_error (@view W h st) i = option_map (vof h) (nth_error st i).
  Proof. intros. apply nth_error_map. Qed.

  Definition grows (h : heap) (R : list ptr) (r : outcome (heap * list ptr * list tns))
      (v : outcome (list vns)) : Prop :=
    match v with
    | Ok vals => makes h R r vals
    | NoFuel => r = NoFuel
    | _ => False
    end.

  Lemma grow_loop : forall (f : vns -> list vns)
      (k : heap -> list ptr -> tns -> outcome (heap * list ptr * list tns))
      (loop : nat -> heap -> list ptr -> nat -> list tns -> outcome (heap * list ptr * list tns))
      (R0 : list ptr) (h0 : heap),
    (forall h pool L s, good h (L ++ pool) -> In (t_seq s) L -> incl R0 L ->
       (forall q, In q R0 -> nth_error h q = nth_error h0 q) ->
       makes h L (k h pool s) (f (vof h s))) ->
    (forall fuel h pool i st, loop fuel h pool i st =
       match nth_error st i with
       | None => Ok (h, pool, st)
       | Some s => match fuel with
                   | O => NoFuel
                   | S fuel => let! (h, pool, l) := k h pool s in loop fuel h pool (S i) (st ++ l)
                   end
       end) ->
    forall fuel h pool R i st, good h (map t_seq st ++ R ++ pool) -> incl R0 R ->
    (forall q, In q R0 -> nth_error h q = nth_error h0 q) ->
    grows h R (loop fuel h pool i st) (v_grow fuel f i (view h st)).
  Proof.
    intros f k loop R0 h0 Hk Hl.
    induction fuel as [|fuel IH]; intros h pool R i st G I K; rewrite Hl; cbn [v_grow];
      rewrite view_nth; destruct (nth_error st i) as [s|] eqn:E; cbn [option_map].
    - reflexivity.
    - cbn. exists h, pool, st. auto.
    - assert (G' : good h ((map t_seq st ++ R) ++ pool)) by (now rewrite <- app_assoc).
      destruct (Hk h pool (map t_seq st ++ R) s G') as (h1 & pool1 & st1 & -> & G1 & K1 & V1).
      { apply in_or_app; left. apply in_map. eapply nth_error_In; eauto. }
      { intros q Hq. apply in_or_app; auto. }
      { auto. }
      cbn [obind]. rewrite <- V1.
      replace (view h st) with (view h1 st)
        by (apply view_ext; intros q Hq; apply K1, in_or_app; auto).
      rewrite <- view_app.
      assert (G2 : good h1 (map t_seq (st ++ st1) ++ R ++ pool1)).
      { eapply good_perm; [|exact G1]. rewrite map_app, !app_assoc.
        do 2 apply Permutation_app_tail. apply Permutation_app_comm. }
      assert (K2 : forall q, In q R0 -> nth_error h1 q = nth_error h0 q).
      { intros q Hq. rewrite K1 by (apply in_or_app; auto). auto. }
      specialize (IH h1 pool1 R (S i) (st ++ st1) G2 I K2).
      destruct (v_grow fuel f (S i) (view h1 (st ++ st1))); cbn in IH |- *; auto.
      destruct IH as (h2 & pool2 & st2 & E2 & G3 & K3 & V3).
      exists h2, pool2, st2. split; auto. split; auto. split; auto.
      intros q Hq. rewrite K3 by auto. apply K1, in_or_app; auto.
    - cbn. exists h, pool, st. auto.
  Qed.

  Lemma closure_grows : forall fuel h pool R i st, good h (map t_seq st ++ R ++ pool) ->
    grows h R (closure find fuel h pool i st) (v_closure find fuel i (view h st)).
  Proof.
    intros fuel h pool R i st G.
    apply (grow_loop (v_eps find)
             (fun h pool s => spawn_dests h pool s false eps_extra (find (t_where s) 0))
             (closure find) [] h); auto.
    - clear. intros h' pool L s G Hs _ _.
      pose proof (spawn_dests_makes (find (t_where s) 0) h' pool L s false eps_extra G Hs) as M.
      rewrite orb_false_r in M. exact M.
    - intros [|f] h' pool' i' st'; reflexivity.
    - apply incl_nil_l.
  Qed.

  Lemma grows_turns : forall h R r v, grows h R r v ->
    turns h R (let! (h, pool, st) := r in Ok (h, mkSO st pool)) v.
  Proof.
    intros h R r [vals| | | |] Hg; cbn in Hg; try contradiction.
    - apply makes_turns; auto.
    - now subst.
  Qed.

  Lemma epsilon_turns : forall fuel h R o, good h (owned o ++ R) ->
    turns h R (epsilonClosure find fuel h o) (v_closure find fuel 0 (view h (so_state o))).
  Proof.
    intros fuel h R o G. apply grows_turns, closure_grows.
    eapply good_perm; [apply owned_perm|auto].
  Qed.

  Lemma turns_then_closure : forall fuel h R r vals,
    turns h R r (Ok vals) ->
    turns h R (then_closure find fuel r) (v_closure find fuel 0 vals).
  Proof.
    intros fuel h R r vals (h1 & o1 & -> & G1 & K1 & V1). cbn [then_closure obind].
    pose proof (epsilon_turns fuel h1 R o1 G1) as T. rewrite V1 in T.
    unfold turns in *. destruct (v_closure find fuel 0 vals); auto.
    destruct T as (h2 & o2 & E & G2 & K2 & V2). exists h2, o2.
    split; auto. split; auto. split; auto. intros q Hq. rewrite K2; auto.
  Qed.

  Lemma choose_none : forall st, v_choose find None st = [].
  Proof. reflexivity. Qed.

  Lemma apply1_turns : forall h R o i, good h (owned o ++ R) ->
    turns h R (apply1 find h o i) (Ok (v_choose find (one i) (view h (so_state o)))).
  Proof.
    intros h R o i G. unfold apply1, one, alternatives. cbn [existsb fst].
    rewrite orb_false_r. destruct (i =? 0); [apply destroy_turns|apply gen_turns]; auto.
  Qed.

  Lemma apply2_turns : forall h R o i a, good h (owned o ++ R) ->
    turns h R (apply2 find h o i a) (Ok (v_choose find (two i a) (view h (so_state o)))).
  Proof.
    intros h R o i a G. unfold apply2, two, alternatives. cbn [existsb fst].
    destruct (i =? 0) eqn:E0; cbn [orb]; [apply destroy_turns; auto|].
    destruct (i =? a) eqn:E1.
    - replace (a =? 0) with false by lia. cbn [existsb].
      unfold apply1. rewrite E0. apply gen_turns; auto.
    - cbn [existsb fst]. rewrite orb_false_r.
      destruct (a =? 0); [apply destroy_turns|apply gen_turns]; auto.
  Qed.

  Lemma apply3_turns : forall h R o i a b, good h (owned o ++ R) ->
    turns h R (apply3 find h o i a b) (Ok (v_choose find (three i a b) (view h (so_state o)))).
  Proof.
    intros h R o i a b G. unfold apply3, three.
    destruct (i =? 0) eqn:E0; cbn [orb].
    - destruct (a =? 0) eqn:E1; cbn [orb]; [apply drop_turns; auto|].
      destruct (b =? 0) eqn:E2; [apply drop_turns; auto|].
      replace (i =? a) with false by lia. replace (i =? b) with false by lia.
      unfold alternatives. cbn [existsb fst]. rewrite E0. apply drop_turns; auto.
    - destruct ((a =? 0) || (b =? 0)) eqn:E; [apply drop_turns; auto|].
      destruct (i =? a); [apply apply2_turns; auto|].
      destruct (i =? b); [apply apply2_turns; auto|].
      unfold alternatives. cbn [existsb fst]. rewrite E0.
      apply orb_false_elim in E as [-> ->]. apply gen_turns; auto.
  Qed.

  Lemma apply_set_turns : forall h R o i l, good h (owned o ++ R) ->
    turns h R (apply_set find h o i l)
      (Ok (v_choose find (if existsb (Z.eqb 0) l then None
              else alternatives ((i, false)
                     :: map (fun a => (a, true)) (filter (fun a => negb (a =? i)) l)))
            (view h (so_state o)))).
  Proof.
    intros h R o i l G. unfold apply_set.
    assert (E : existsb (fun a => a =? 0) l = existsb (Z.eqb 0) l).
    { clear. induction l as [|x l IH]; [reflexivity|]. cbn [existsb]. rewrite IH, Z.eqb_sym. reflexivity. }
    rewrite E. destruct (existsb (Z.eqb 0) l) eqn:El.
    - rewrite orb_true_r. apply drop_turns; auto.
    - rewrite orb_false_r. unfold alternatives. cbn [existsb fst].
      replace (existsb _ (map _ _)) with false; [rewrite orb_false_r|].
      + destruct (i =? 0); [apply drop_turns|apply gen_turns]; auto.
      + symmetry. apply not_true_is_false. intros Hx. apply existsb_exists in Hx as (x & Hx & Hz).
        apply in_map_iff in Hx as (a & <- & Ha). apply filter_In in Ha as [Ha _]. cbn in Hz.
        apply not_false_iff_true in El; auto. apply existsb_exists. exists a. split; [auto|lia].
  Qed.

  Lemma careful_turns : forall h R o i a, good h (owned o ++ R) ->
    turns h R (apply_careful find h o i a)
      (Ok (v_choose find (if (i =? 0) || (a =? 0) then None
              else Some (same, fun p => match find p i with [] => [(a, true)] | _ => [(i, false)] end))
            (view h (so_state o)))).
  Proof.
    intros h R o i a G. unfold apply_careful.
    destruct ((i =? 0) || (a =? 0)); [apply destroy_turns|apply gen_turns]; auto.
  Qed.

  Lemma over3_turns : forall h R o i x y, good h (owned o ++ R) ->
    turns h R (apply_override3 find h o i x y) (Ok (v_choose find (over3 i x y) (view h (so_state o)))).
  Proof.
    intros h R o i x y G. unfold apply_override3, over3.
    destruct ((i =? 0) || (x =? 0)); [apply destroy_turns|apply gen_turns]; auto.
  Qed.
  Lemma over4_turns : forall h R o i a x y, good h (owned o ++ R) ->
    turns h R (apply_override4 find h o i a x y) (Ok (v_choose find (over4 i a x y) (view h (so_state o)))).
  Proof.
    intros h R o i a x y G. unfold apply_override4, over4.
    destruct (i =? a); [apply over3_turns; auto|].
    destruct ((i =? 0) || (x =? 0)); [apply destroy_turns|apply gen_turns]; auto.
  Qed.

  Lemma init_turns : forall fuel h R o n, good h (owned o ++ R) ->
    turns h R (init find fuel h o n) (v_closure find fuel 0 [mkV n [] false]).
  Proof.
    intros fuel h R o n G. unfold init.
    assert (G0 : good h (R ++ so_pool o)).
    { apply (good_sub h _ (map t_seq (so_state o))). eapply good_perm; [apply owned_perm|auto]. }
    destruct (new_spec _ _ _ G0) as (p & h1 & pool1 & -> & G1 & K1).
    destruct (set_spec h1 p [] (proj2 G1 p (or_introl eq_refl))) as (h2 & -> & C2 & A2 & K2).
    cbn [obind].
    destruct G1 as [N1 A1]. inversion N1 as [|? ? Hnin N1']; subst.
    assert (G2 : good h2 (owned (mkSO [mkTN n p false] pool1) ++ R)).
    { unfold owned. cbn. eapply (good_perm _ (p :: R ++ pool1)).
      - constructor. apply Permutation_app_comm.
      - split; auto. intros q Hq. destruct (Nat.eq_dec q p) as [-> | Hne]; auto.
        eapply alive_eq; [apply K2; auto|]. auto. }
    pose proof (epsilon_turns fuel h2 R _ G2) as T. cbn [so_state view map t_where t_seq t_dirty] in T.
    rewrite C2 in T. unfold turns in *.
    destruct (v_closure find fuel 0 [mkV n [] false]); auto.
    destruct T as (h3 & o3 & E & G3 & K3 & V3). exists h3, o3. split; auto. split; auto. split; auto.
    intros q Hq. rewrite K3 by auto. rewrite K2; auto. intros ->. apply Hnin, in_or_app; auto.
  Qed.

  Lemma optional_makes : forall st h pool L val, good h (L ++ pool) -> incl (map t_seq st) L ->
    makes h L (optional_all find h pool val st)
      (flat_map (fun s => v_into find same val s false) (view h st)).
  Proof.
    induction st as [|s st IH]; intros h pool L val G I; cbn [optional_all].
    - apply makes_nil; auto.
    - rewrite view_cons. cbn [flat_map].
      apply (makes_then h L _ _ _ (fun h pool => optional_all find h pool val st)).
      + apply into_makes; auto. apply I. now left.
      + intros h' pool' L' G' I' K'.
        rewrite <- (view_ext h h' st).
        * apply IH; auto. intros q Hq. apply I', I. now right.
        * intros q Hq. apply K', I. now right.
  Qed.

  Lemma optional_turns : forall fuel h R o v, good h (owned o ++ R) ->
    turns h R (step_optional find fuel h o v)
      (if v =? 0 then Ok (view h (so_state o))
       else let! l := v_closure find fuel 0
                        (flat_map (fun s => v_into find same v s false) (view h (so_state o))) in
            Ok (view h (so_state o) ++ l)).
  Proof.
    intros fuel h R o v G. unfold step_optional. destruct (v =? 0).
    - cbn. exists h, o. auto.
    - assert (G0 : good h ((map t_seq (so_state o) ++ R) ++ so_pool o)).
      { rewrite <- app_assoc. eapply good_perm; [apply owned_perm|auto]. }
      destruct (optional_makes (so_state o) h (so_pool o) _ v G0)
        as (h1 & pool1 & st1 & -> & G1 & K1 & V1); [intros q Hq; apply in_or_app; auto|].
      cbn [obind].
      pose proof (closure_grows fuel h1 pool1 (map t_seq (so_state o) ++ R) 0 st1 G1) as C.
      rewrite V1 in C.
      destruct (v_closure find fuel 0 (flat_map (fun s => v_into find same v s false)
                  (view h (so_state o)))) as [l| | | |]; cbn in C; try contradiction; cbn [obind].
      + destruct C as (h2 & pool2 & st2 & -> & G2 & K2 & V2). cbn.
        exists h2, (mkSO (so_state o ++ st2) pool2). split; auto. split; [|split].
        * unfold owned. cbn. rewrite map_app. eapply good_perm; [|exact G2].
          rewrite <- !app_assoc.
          rewrite (app_assoc (map t_seq st2)), (app_assoc (map t_seq (so_state o))).
          rewrite (Permutation_app_comm (map t_seq st2) (map t_seq (so_state o))).
          apply Permutation_app_head, Permutation_app_comm.
        * intros q Hq. rewrite K2, K1; auto; apply in_or_app; auto.
        * cbn [so_state]. rewrite view_app, V2. f_equal. apply view_ext. intros q Hq.
          rewrite K2, K1; auto; apply in_or_app; auto.
      + rewrite C. reflexivity.
  Qed.

  Lemma copy_makes : forall st h pool L, good h (L ++ pool) -> incl (map t_seq st) L ->
    makes h L (copy_cells h pool st) (view h st).
  Proof.
    induction st as [|s st IH]; intros h pool L G I; cbn [copy_cells].
    - apply makes_nil; auto.
    - rewrite view_cons. unfold vof. rewrite <- (app_nil_r (cell h (t_seq s))).
      apply (makes_cons h pool L (t_seq s) [] (t_where s) (t_dirty s) _
               (fun h pool => copy_cells h pool st)); auto.
      + apply I. now left.
      + intros h' pool' L' G' I' K'. rewrite <- (view_ext h h' st).
        * apply IH; auto. intros q Hq. apply I', I. now right.
        * intros q Hq. apply K', I. now right.
  Qed.

  Lemma copy_ctor_turns : forall h R s, good h R -> incl (map t_seq (so_state s)) R ->
    turns h R (copy_ctor h s) (Ok (view h (so_state s))).
  Proof.
    intros h R s G I. unfold copy_ctor, copy. cbn [so_state so_pool map h_delete_all obind].
    apply makes_turns. apply copy_makes; auto. now rewrite app_nil_r.
  Qed.

  Lemma assign_turns : forall h R o s, good h (owned o ++ R) -> incl (map t_seq (so_state s)) R ->
    turns h R (assign h o s) (Ok (view h (so_state s))).
  Proof.
    intros h R o s G I. unfold assign.
    unfold destroy. unfold owned in G. rewrite <- app_assoc in G.
    destruct (delete_all_spec _ _ _ G) as (h1 & -> & G1 & K1). cbn [obind].
    destruct (delete_all_spec _ _ _ G1) as (h2 & -> & G2 & K2). cbn [obind].
    pose proof (copy_ctor_turns h2 R s G2 I) as T. unfold copy_ctor in T. unfold turns in *.
    assert (K : forall q, In q R -> nth_error h2 q = nth_error h q).
    { intros q Hq. rewrite K2 by auto. apply K1, in_or_app; auto. }
    destruct T as (h3 & o3 & E & G3 & K3 & V3). exists h3, o3. split; auto. split; auto. split.
    - intros q Hq. rewrite K3; auto.
    - rewrite V3. apply view_ext. intros q Hq. apply K, I, Hq.
  Qed.

  Lemma merge_turns : forall h R o s, good h (owned o ++ R) -> incl (map t_seq (so_state s)) R ->
    turns h R (merge h o s) (Ok (view h (so_state o) ++ view h (so_state s))).
  Proof.
    intros h R o s G I. unfold merge.
    assert (G0 : good h ((map t_seq (so_state o) ++ R) ++ so_pool o)).
    { rewrite <- app_assoc. eapply good_perm; [apply owned_perm|auto]. }
    destruct (copy_makes (so_state s) h (so_pool o) _ G0)
      as (h1 & pool1 & st1 & -> & G1 & K1 & V1); [intros q Hq; apply in_or_app; right; apply I, Hq|].
    cbn [obind turns]. do 2 eexists. split; [reflexivity|]. split; [|split].
    - unfold owned. cbn. rewrite map_app. eapply good_perm; [|exact G1].
      rewrite <- !app_assoc.
      rewrite (app_assoc (map t_seq st1)), (app_assoc (map t_seq (so_state o))).
      rewrite (Permutation_app_comm (map t_seq st1) (map t_seq (so_state o))).
      apply Permutation_app_head, Permutation_app_comm.
    - intros q Hq. apply K1, in_or_app; auto.
    - cbn [so_state]. rewrite view_app, V1. f_equal. apply view_ext. intros q Hq.
      apply K1, in_or_app; auto.
  Qed.

  Lemma restart_one_makes : forall rs h pool L src dirty extra, good h (L ++ pool) -> In src L ->
    makes h L (restart_one h pool src dirty extra rs)
      (map (fun r => mkV (t_where r) (cell h src ++ extra) dirty) rs).
  Proof.
    induction rs as [|r rs IH]; intros h pool L src dirty extra G Hs; cbn [restart_one map].
    - apply makes_nil; auto.
    - apply (makes_cons h pool L src extra (t_where r) dirty _
               (fun h pool => restart_one h pool src dirty extra rs)); auto.
      intros h' pool' L' G' I K. rewrite <- (cell_eq h h' src) by auto. apply IH; auto.
  Qed.

  Lemma restart_turns : forall fuel h R o fin req s sep w0, good h (owned o ++ R) ->
    turns h R (restartFinals fuel h o fin req s sep w0)
      (v_grow fuel (v_restart req sep w0 fin (view h (so_state s))) 0 (view h (so_state o))).
  Proof.
    intros fuel h R o fin req s sep w0 G. unfold restartFinals. apply grows_turns.
    apply (grow_loop (v_restart req sep w0 fin (view h (so_state s)))
             (fun h pool x => let! v := h_get h (t_seq x) in
                if fin (t_where x) && lastPartHasRequiredSymbol v req sep
                then restart_one h pool (t_seq x) (t_dirty x) [(sep, w0)] (so_state s)
                else Ok (h, pool, []))
             (fun fuel => restart_loop fuel fin req sep w0 (so_state s)) [] h).
    - clear G. intros h0 pool L x G Hx _ _. cbn beta.
      rewrite get_alive by (apply (proj2 G), in_or_app; auto). cbn [obind].
      unfold v_restart. cbn [v_where v_seq v_dirty vof].
      destruct (fin (t_where x) && lastPartHasRequiredSymbol (cell h0 (t_seq x)) req sep).
      + pose proof (restart_one_makes (so_state s) h0 pool L (t_seq x) (t_dirty x) [(sep, w0)] G Hx)
          as M.
        unfold view. rewrite map_map. exact M.
      + apply makes_nil; auto.
    - intros [|f] h' pool' i' st'; cbn [restart_loop];
        destruct (nth_error st' i'); auto. destruct (h_get h' (t_seq t)); reflexivity.
    - eapply good_perm; [apply owned_perm|auto].
    - intros q [].
    - auto.
  Qed.

  Lemma get_all_ok : forall st h, (forall s, In s st -> alive h (t_seq s)) ->
    h_get_all h st = Ok (map v_seq (view h st)).
  Proof.
    induction st as [|s st IH]; intros h A; cbn [h_get_all]; auto.
    rewrite get_alive by (apply A; now left). cbn [obind].
    rewrite IH by (intros; apply A; now right). reflexivity.
  Qed.

  Lemma prune_spec : forall f st h R pool, good h (map t_seq st ++ R ++ pool) ->
    exists st' pool',
      prune_by (map f (map v_seq (view h st))) st pool = (st', pool') /\
      good h (map t_seq st' ++ R ++ pool') /\
      view h st' = filter (fun s => f (v_seq s)) (view h st).
  Proof.
    induction st as [|s st IH]; intros h R pool G.
    - exists [], pool. auto.
    - rewrite view_cons. cbn [map prune_by filter v_seq vof].
      destruct (f (cell h (t_seq s))).
      + destruct (IH h (t_seq s :: R) pool) as (st' & pool' & -> & G' & V').
        { eapply good_perm; [|exact G]. cbn. apply Permutation_middle. }
        exists (s :: st'), pool'. split; auto. split.
        * eapply good_perm; [|exact G']. cbn. apply Permutation_sym, Permutation_middle.
        * rewrite view_cons. now f_equal.
      + apply IH. eapply good_perm; [|exact G]. cbn [map app].
        rewrite !app_assoc. apply Permutation_middle.
  Qed.

  Lemma prune_turns : forall h R o (keep : list seq_t -> seq_t -> bool), good h (owned o ++ R) ->
    turns h R
      (let! seqs := h_get_all h (so_state o) in
       let '(st, pool) := prune_by (map (keep seqs) seqs) (so_state o) (so_pool o) in
       Ok (h, mkSO st pool))
      (Ok (filter (fun s => keep (map v_seq (view h (so_state o))) (v_seq s))
             (view h (so_state o)))).
  Proof.
    intros h R o keep G. rewrite get_all_ok.
    - cbn [obind]. set (seqs := map v_seq (view h (so_state o))).
      destruct (prune_spec (keep seqs) (so_state o) h R (so_pool o)) as (st' & pool' & E & G' & V').
      { eapply good_perm; [apply owned_perm|auto]. }
      fold seqs in E.
      match goal with |- context [prune_by ?a ?b ?c] =>
        replace (prune_by a b c) with (st', pool') by (symmetry; exact E) end.
      cbn. do 2 eexists. split; [reflexivity|]. split; [|split]; auto.
      eapply good_perm; [|exact G']. apply Permutation_sym, (owned_perm (mkSO st' pool')).
    - intros s Hs. apply (proj2 G). apply in_or_app; left. apply in_or_app; left. now apply in_map.
  Qed.

  (** All the objects. *)
  Context (u_isupper : Z -> bool) (u_tolower : Z -> Z).
  Notation exec := (exec find u_isupper u_tolower).
  Notation v_exec := (v_exec find u_isupper u_tolower).

  Definition all_owned (os : list sobj) : list ptr := concat (map owned os).
  Definition sound (w : world (W:=W)) : Prop := good (w_heap w) (all_owned (w_objs w)).

  Lemma step_turns : forall fuel h R o op c, good h (owned o ++ R) ->
    choice_of find u_isupper u_tolower op = Some c ->
    turns h R (step find u_isupper u_tolower fuel h o op)
      (v_closure find fuel 0 (v_choose find c (view h (so_state o)))).
  Proof.
    intros fuel h R o op c G E.
    destruct op; cbn [choice_of] in E; try discriminate E; injection E as <-; cbn [step].
    - apply turns_then_closure, apply1_turns; auto.
    - apply turns_then_closure, apply2_turns; auto.
    - apply turns_then_closure, apply3_turns; auto.
    - apply turns_then_closure, apply_set_turns; auto.
    - apply turns_then_closure, careful_turns; auto.
    - apply turns_then_closure, over3_turns; auto.
    - apply turns_then_closure, over4_turns; auto.
    - destruct (u_isupper val), caseSensitive; cbn [negb orb andb];
        apply turns_then_closure; (apply apply1_turns || apply apply2_turns); auto.
    - destruct (u_isupper val), caseSensitive; cbn [negb orb andb];
        try (apply turns_then_closure, apply2_turns; auto; fail).
      destruct (val =? u_tolower val); cbn [negb]; apply turns_then_closure;
        (apply apply2_turns || apply apply3_turns); auto.
    - destruct (u_isupper val), caseSensitive; cbn [negb orb andb];
        apply turns_then_closure; (apply apply1_turns || apply over4_turns); auto.
  Qed.

  Lemma put_nth_split : forall {A} (l : list A) k d, (k < length l)%nat ->
    exists a b, l = a ++ nth k l d :: b /\ length a = k /\ forall x, put_nth k x l = a ++ x :: b.
  Proof.
    induction l as [|y l IH]; intros [|k] d H; cbn in H; try lia.
    - exists [], l. auto.
    - destruct (IH k d) as (a & b & E & L & P); [lia|]. exists (y :: a), b. cbn [nth put_nth].
      split; [|split].
      + cbn. now f_equal.
      + cbn. now f_equal.
      + intros x. cbn. now rewrite P.
  Qed.

  Lemma exec_turns : forall fuel w k op, sound w ->
    match v_exec fuel (views w) k op with
    | Ok vs => exists w', exec fuel w k op = Ok w' /\ sound w' /\ views w' = vs
    | NoFuel => exec fuel w k op = NoFuel
    | _ => False
    end.
  Proof.
    intros fuel w k op G. unfold StateModel.exec, StateSpec.v_exec.
    assert (HL : length (views w) = length (w_objs w)) by apply map_length.
    rewrite HL. destruct (k <? length (w_objs w))%nat eqn:Ek; cbn [negb]; [|exists w; auto].
    apply Nat.ltb_lt in Ek.
    destruct (put_nth_split (w_objs w) k (mkSO [] []) Ek) as (a & b & E & La & P).
    fold (w_get w k) in E. set (o := w_get w k) in *. set (h := w_heap w).
    set (R := all_owned a ++ all_owned b).
    assert (Go : good h (owned o ++ R)).
    { unfold sound in G. rewrite E in G. unfold all_owned in G.
      rewrite map_app, concat_app in G. cbn in G. eapply good_perm; [|exact G].
      unfold R. rewrite app_assoc. rewrite (Permutation_app_comm _ (owned o)).
      rewrite <- app_assoc. reflexivity. }
    assert (Hn : nth k (views w) [] = view h (so_state o)).
    { unfold views. change [] with ((fun o => view (w_heap w) (so_state o)) (mkSO [] [])).
      rewrite map_nth. reflexivity. }
    rewrite Hn.
    assert (Hj : forall j, (j <? length (w_objs w))%nat = true -> (j =? k)%nat = false ->
      nth j (views w) [] = view h (so_state (w_get w j)) /\
      incl (map t_seq (so_state (w_get w j))) R).
    { intros j Hj Hne. apply Nat.ltb_lt in Hj. apply Nat.eqb_neq in Hne. split.
      - unfold views. change [] with ((fun o => view (w_heap w) (so_state o)) (mkSO [] [])).
        rewrite map_nth. reflexivity.
      - assert (Hin : In (w_get w j) (a ++ b)).
        { unfold w_get. rewrite E. rewrite E in Hj. rewrite app_length in Hj. cbn in Hj.
          destruct (Nat.lt_ge_cases j (length a)).
          - rewrite app_nth1 by auto. apply in_or_app; left. now apply nth_In.
          - rewrite app_nth2 by auto. destruct (j - length a)%nat as [|m] eqn:Em; [lia|].
            cbn. apply in_or_app; right. apply nth_In. lia. }
        intros q Hq. unfold R, all_owned. rewrite <- concat_app, <- map_app.
        apply in_concat. exists (owned (w_get w j)). split; [now apply in_map|].
        unfold owned. apply in_or_app; auto. }
    set (r := match op with SInit n => init find fuel h o n | _ => _ end).
    set (v := match op with SInit n => v_closure find fuel 0 [mkV n [] false] | _ => _ end).
    assert (T : turns h R r v).
    { subst r v. destruct op; cbn iota; try (apply step_turns; auto; reflexivity).
      - apply init_turns; auto.
      - apply optional_turns; auto.
      - exact (prune_turns h R o (fun seqs s =>
          negb (min_elements required sep maxel seqs <? compound_elements required sep s)) Go).
      - exact (prune_turns h R o (fun _ s => negb (existsb (fun x => fst x =? forbidden) s)) Go).
      -
        destruct (restart_state <? length (w_objs w))%nat eqn:E1; cbn [negb orb];
          [|cbn; exists h, o; auto].
        destruct (restart_state =? k)%nat eqn:E2; [cbn; exists h, o; auto|].
        destruct (Hj _ E1 E2) as [-> _]. apply restart_turns; auto.
      -
        destruct (other <? length (w_objs w))%nat eqn:E1; cbn [negb orb];
          [|cbn; exists h, o; auto].
        destruct (other =? k)%nat eqn:E2; [cbn; exists h, o; auto|].
        destruct (Hj _ E1 E2) as [-> I]. apply merge_turns; auto.
      -
        destruct (other <? length (w_objs w))%nat eqn:E1; cbn [negb orb];
          [|cbn; exists h, o; auto].
        destruct (other =? k)%nat eqn:E2; [cbn; exists h, o; auto|].
        destruct (Hj _ E1 E2) as [-> I]. apply assign_turns; auto.
      - apply destroy_turns; auto. }
    clearbody r v. destruct v as [vals| | | |]; cbn [turns] in T; try contradiction.
    - destruct T as (h' & o' & -> & G' & K' & V'). cbn [obind].
      eexists. split; [reflexivity|]. split.
      + unfold sound. cbn [w_heap w_objs]. rewrite P. unfold all_owned.
        rewrite map_app, concat_app. cbn. eapply good_perm; [|exact G'].
        unfold R. rewrite app_assoc, (Permutation_app_comm (owned o')), <- app_assoc. reflexivity.
      + unfold views. cbn [w_heap w_objs]. rewrite P.
        rewrite E, !map_app. cbn [map]. rewrite V'.
        assert (Ka : forall l, incl (all_owned l) R ->
          map (fun o0 => view h' (so_state o0)) l = map (fun o0 => view h (so_state o0)) l).
        { intros l Il. apply map_ext_in. intros x Hx. apply view_ext. intros q Hq. apply K', Il.
          unfold all_owned. apply in_concat. exists (owned x). split; [now apply in_map|].
          unfold owned. apply in_or_app; auto. }
        rewrite (Ka a), (Ka b).
        * fold h. clear - La.
          generalize (map (fun o0 => view h (so_state o0)) b) (view h (so_state o)). intros vb x.
          subst k. induction a as [|y a IH]; cbn [map app length put_nth]; [reflexivity|].
          rewrite IH. reflexivity.
        * intros q Hq. apply in_or_app; auto.
        * intros q Hq. apply in_or_app; auto.
    - rewrite T. reflexivity.
  Qed.

  Theorem exec_all_turns : forall fuel ops w, sound w ->
    match v_exec_all find u_isupper u_tolower fuel (views w) ops with
    | Ok vs => exists w', exec_all find u_isupper u_tolower fuel w ops = Ok w' /\ sound w' /\ views w' = vs
    | NoFuel => exec_all find u_isupper u_tolower fuel w ops = NoFuel
    | _ => False
    end.
  Proof.
    induction ops as [|[k op] ops IH]; intros w G; cbn [v_exec_all exec_all].
    - exists w. auto.
    - pose proof (exec_turns fuel w k op G) as T.
      destruct (v_exec fuel (views w) k op) as [vs| | | |] eqn:E; try contradiction; cbn [obind].
      + destruct T as (w1 & -> & G1 & <-). cbn [obind]. apply IH; auto.
      + rewrite T. reflexivity.
  Qed.

  Lemma fresh_sound : forall n, sound (fresh_world n).
  Proof.
    intros n. unfold sound, fresh_world. cbn. induction n; cbn; auto.
    split; [constructor|]. intros p [].
  Qed.
  Lemma fresh_views : forall n, views (@fresh_world W n) = repeat [] n.
  Proof. intros n. unfold views, fresh_world. cbn. induction n; cbn; auto. now f_equal. Qed.
End Refine.
