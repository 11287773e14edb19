(** State numbers: specification and proofs (C14). *)
From Verif Require Import Base SerialiserModel SerialiserProofs SerialiserProps TransducerModel TransducerMapModel.

(** * Specification *)
Definition states (t : mtransducer) : list Z := map fst (m_trans t).
(** The states are 0..n-1, in this order. *)
Definition consecutive (t : mtransducer) : Prop :=
  states t = map Z.of_nat (seq 0 (length (m_trans t))).
(** Every state and every transition of [t] is one of [t']. *)
Definition kept (t t' : mtransducer) : Prop :=
  (forall s, In s (states t) -> In s (states t'))
  /\ (forall s arcs a, In (s, arcs) (m_trans t) -> In a arcs -> exists arcs', In (s, arcs') (m_trans t') /\ In a arcs').
(** The calls that need an existing state: the others report a missing one. *)
Definition call_ok (t : mtransducer) (c : call) : Prop :=
  match c with
  | CNewSingle _ source _ => In source (states t)
  | CInsert source _ _ => In source (states t)
  | _ => True
  end.
(** A history: calls, each made on the result of those before *)
Inductive history : mtransducer -> list call -> mtransducer -> Prop :=
| h_nil t : history t [] t
| h_call t c l r t1 t2 : call_ok t c -> exec t c = Ok (r, t1) -> history t1 l t2 -> history t (c :: l) t2.

(** * Proofs *)
Fixpoint indexed {A} (i : Z) (l : list A) : list (Z * A) :=
  match l with [] => [] | x :: r => (i, x) :: indexed (i + 1) r end.
Lemma indexed_length : forall A (l : list A) i, length (indexed i l) = length l.
Proof. induction l as [|x l IH]; intros i; cbn [indexed length]; auto. Qed.
Lemma indexed_keys : forall A (l : list A) n, map fst (indexed (Z.of_nat n) l) = map Z.of_nat (seq n (length l)).
Proof.
  induction l as [|x l IH]; intros n; [reflexivity|]. cbn [indexed map fst length seq]. f_equal.
  rewrite <- IH. f_equal. f_equal. lia.
Qed.
Lemma keys_indexed : forall A (m : list (Z * A)) n, map fst m = map Z.of_nat (seq n (length m)) ->
  m = indexed (Z.of_nat n) (map snd m).
Proof.
  induction m as [|[k v] m IH]; intros n H; [reflexivity|]. cbn [map fst length seq snd indexed] in *.
  assert (k = Z.of_nat n) by congruence. subst k. f_equal.
  replace (Z.of_nat n + 1) with (Z.of_nat (S n)) by lia. apply IH. congruence.
Qed.
Lemma consecutive_iff : forall t, consecutive t <-> exists l, m_trans t = indexed 0 l.
Proof.
  intros t. unfold consecutive, states. split.
  - intros H. exists (map snd (m_trans t)). apply (keys_indexed _ _ 0 H).
  - intros (l & ->). rewrite indexed_length. apply (indexed_keys _ l 0).
Qed.
Lemma indexed_find : forall A (l : list A) i k,
  z_find k (indexed i l) = if (i <=? k) && (k <? i + Z.of_nat (length l)) then nth_error l (Z.to_nat (k - i)) else None.
Proof.
  induction l as [|x l IH]; intros i k; cbn [indexed z_find length].
  - destruct (i <=? k) eqn:E1; [|reflexivity]. destruct (k <? i + Z.of_nat 0) eqn:E2; [lia|reflexivity].
  - destruct (k =? i) eqn:E.
    + apply Z.eqb_eq in E. subst k. rewrite Z.leb_refl. replace (i <? i + Z.of_nat (S (length l))) with true by lia.
      rewrite Z.sub_diag. reflexivity.
    + rewrite IH. apply Z.eqb_neq in E.
      destruct (i <=? k) eqn:E1, (k <? i + Z.of_nat (S (length l))) eqn:E2;
        destruct (i + 1 <=? k) eqn:E3, (k <? i + 1 + Z.of_nat (length l)) eqn:E4; cbn [andb]; try reflexivity; try lia.
      replace (Z.to_nat (k - i)) with (S (Z.to_nat (k - (i + 1)))) by lia. reflexivity.
Qed.
Lemma indexed_set : forall A (v : A) l i k, i <= k < i + Z.of_nat (length l) ->
  z_set k v (indexed i l) = indexed i (upd (Z.to_nat (k - i)) (fun _ => v) l).
Proof.
  induction l as [|x l IH]; intros i k H; cbn [length] in H; [lia|]. cbn [indexed z_set].
  replace (k <? i) with false by lia. destruct (k =? i) eqn:E.
  - apply Z.eqb_eq in E. subst k. rewrite Z.sub_diag. reflexivity.
  - apply Z.eqb_neq in E. rewrite IH by lia.
    replace (Z.to_nat (k - i)) with (S (Z.to_nat (k - (i + 1)))) by lia. reflexivity.
Qed.
Lemma indexed_set_end : forall A (v : A) l i, z_set (i + Z.of_nat (length l)) v (indexed i l) = indexed i (l ++ [v]).
Proof.
  induction l as [|x l IH]; intros i; cbn [indexed z_set length app].
  - f_equal. f_equal. lia.
  - replace (i + Z.of_nat (S (length l)) <? i) with false by lia.
    replace (i + Z.of_nat (S (length l)) =? i) with false by lia. f_equal. rewrite <- IH. f_equal. lia.
Qed.
Lemma indexed_in : forall A (l : list A) i k v, In (k, v) (indexed i l) <-> i <= k /\ nth_error l (Z.to_nat (k - i)) = Some v.
Proof.
  induction l as [|x l IH]; intros i k v; cbn [indexed In].
  - split; [intros []|]. intros [_ H]. destruct (Z.to_nat (k - i)); discriminate.
  - rewrite IH. split.
    + intros [H|[H1 H2]].
      * assert (k = i) by congruence. assert (v = x) by congruence. subst. rewrite Z.sub_diag. split; [lia|reflexivity].
      * split; [lia|]. replace (Z.to_nat (k - i)) with (S (Z.to_nat (k - (i + 1)))) by lia. exact H2.
    + intros [H1 H2]. destruct (Z.eq_dec k i) as [-> |E].
      * left. rewrite Z.sub_diag in H2. cbn in H2. congruence.
      * right. split; [lia|]. replace (Z.to_nat (k - i)) with (S (Z.to_nat (k - (i + 1)))) in H2 by lia. exact H2.
Qed.

(** Transducers with the states 0..n-1 *)
Definition of_list (i : Z) (f : list (Z * Z)) (l : list (list marc)) : mtransducer := mkMT i f (indexed 0 l).
Lemma of_list_exists : forall i f l s, m_exists (of_list i f l) s = (0 <=? s) && (s <? Z.of_nat (length l)).
Proof.
  intros i f l s. unfold m_exists, of_list. cbn [m_trans]. rewrite indexed_find. cbn [Z.add].
  destruct ((0 <=? s) && (s <? Z.of_nat (length l))) eqn:E; [|reflexivity].
  rewrite Z.sub_0_r. destruct (nth_error l (Z.to_nat s)) eqn:N; [reflexivity|].
  apply nth_error_None in N. apply andb_true_iff in E. lia.
Qed.
Lemma of_list_states : forall i f l s, In s (states (of_list i f l)) <-> 0 <= s < Z.of_nat (length l).
Proof.
  intros i f l s. unfold states, of_list. cbn [m_trans]. change 0 with (Z.of_nat 0) at 1. rewrite indexed_keys, in_map_iff. split.
  - intros (x & <- & H). apply in_seq in H. lia.
  - intros H. exists (Z.to_nat s). split; [lia|]. apply in_seq. lia.
Qed.
Lemma of_list_arcs : forall i f l s, 0 <= s < Z.of_nat (length l) -> m_arcs (of_list i f l) s = nth (Z.to_nat s) l [].
Proof.
  intros i f l s H. unfold m_arcs, of_list. cbn [m_trans]. rewrite indexed_find. cbn [Z.add].
  replace ((0 <=? s) && (s <? Z.of_nat (length l))) with true by lia. rewrite Z.sub_0_r.
  destruct (nth_error l (Z.to_nat s)) eqn:E.
  - symmetry. now apply nth_error_nth.
  - apply nth_error_None in E. lia.
Qed.
Lemma of_list_new : forall i f l, m_newState (of_list i f l) = Ok (Z.of_nat (length l), of_list i f (l ++ [[]])).
Proof.
  intros i f l. unfold m_newState.
  assert (E : length (m_trans (of_list i f l)) = length l) by apply indexed_length. rewrite E.
  assert (F : free_number (length l) (Z.of_nat (length l)) (of_list i f l) = Ok (Z.of_nat (length l))).
  { destruct (length l) eqn:El; cbn [free_number]; rewrite of_list_exists, El; replace (_ <? _) with false by lia;
      rewrite andb_false_r; reflexivity. }
  rewrite F. cbn [obind]. unfold of_list. cbn [m_initial m_finals m_trans].
  pose proof (indexed_set_end _ (@nil marc) l 0) as H. cbn [Z.add] in H. now rewrite H.
Qed.
Lemma upd_ext : forall A (f g : A -> A) l i, (forall x, nth_error l i = Some x -> f x = g x) -> upd i f l = upd i g l.
Proof.
  induction l as [|x l IH]; intros [|i] H; cbn; auto.
  - now rewrite (H x).
  - now rewrite IH.
Qed.
Lemma upd_len : forall A (f : A -> A) l i, length (upd i f l) = length l.
Proof. induction l as [|x l IH]; intros [|i]; cbn; auto. Qed.
Lemma of_list_add : forall i f l s a, 0 <= s < Z.of_nat (length l) ->
  m_add_arc s a (of_list i f l) = of_list i f (upd (Z.to_nat s) (marc_insert a) l).
Proof.
  intros i f l s a H. unfold m_add_arc. rewrite of_list_arcs by auto. unfold of_list. cbn [m_initial m_finals m_trans].
  f_equal. rewrite indexed_set by lia. rewrite Z.sub_0_r. f_equal. apply upd_ext. intros x Hx.
  apply nth_error_nth with (d := []) in Hx. now rewrite Hx.
Qed.

(** The list of multimaps grows. *)
Definition grows (l l' : list (list marc)) : Prop :=
  (length l <= length l')%nat /\ forall s a, In a (nth s l []) -> In a (nth s l' []).
Lemma grows_refl : forall l, grows l l.
Proof. intros l. split; auto. Qed.
Lemma grows_trans : forall a b c, grows a b -> grows b c -> grows a c.
Proof. intros a b c (H1 & H2) (H3 & H4). split; [lia|auto]. Qed.
Lemma grows_new : forall l, grows l (l ++ [[]]).
Proof.
  intros l. split; [rewrite app_length; lia|]. intros s a H. destruct (Nat.lt_ge_cases s (length l)) as [K|K].
  - now rewrite app_nth1.
  - rewrite nth_overflow in H by lia. destruct H.
Qed.
Lemma marc_insert_in : forall a l x, In x (marc_insert a l) <-> x = a \/ In x l.
Proof.
  intros a l x. induction l as [|b l IH]; cbn [marc_insert].
  - cbn [In]. intuition.
  - destruct (fst a <? fst b); cbn [In]; [intuition|]. rewrite IH. intuition.
Qed.
Lemma upd_nth : forall A (f : A -> A) l i j d, nth j (upd i f l) d = if ((i =? j) && (i <? length l))%nat then f (nth j l d) else nth j l d.
Proof.
  induction l as [|x l IH]; intros i j d.
  - rewrite andb_false_r. destruct i; reflexivity.
  - destruct i as [|i], j as [|j]; try reflexivity. cbn [upd nth length]. rewrite IH. change (S i =? S j)%nat with (i =? j)%nat. change (S i <? S (length l))%nat with (i <? length l)%nat. reflexivity.
Qed.
Lemma grows_add : forall l s a, grows l (upd s (marc_insert a) l).
Proof.
  intros l s a. split; [rewrite upd_len; lia|]. intros s' x H. rewrite upd_nth.
  destruct ((s =? s') && (s <? length l))%nat; [|exact H]. apply marc_insert_in. now right.
Qed.
Lemma grows_kept : forall i f l i' f' l', grows l l' -> kept (of_list i f l) (of_list i' f' l').
Proof.
  intros i f l i' f' l' (H1 & H2). split.
  - intros s. rewrite !of_list_states. lia.
  - intros s arcs a H Ha. unfold of_list in *. cbn [m_trans] in *. apply indexed_in in H as (H & Hn).
    rewrite Z.sub_0_r in Hn. exists (nth (Z.to_nat s) l' []). split.
    + apply indexed_in. rewrite Z.sub_0_r. split; auto. apply nth_error_nth'.
      assert (Z.to_nat s < length l)%nat by (apply nth_error_Some; congruence). lia.
    + apply H2. apply nth_error_nth with (d := []) in Hn. now rewrite Hn.
Qed.

Lemma link_list : forall i f l s d tag w t', m_linkStates s d tag w (of_list i f l) = Ok t' ->
  exists l', t' = of_list i f l' /\ grows l l' /\ length l' = length l.
Proof.
  intros i f l s d tag w t' H. unfold m_linkStates in H. rewrite !of_list_exists in H.
  destruct ((0 <=? s) && (s <? Z.of_nat (length l))) eqn:E; [|discriminate].
  destruct ((0 <=? d) && (d <? Z.of_nat (length l))) eqn:E2; [|discriminate]. cbn [andb] in H.
  destruct (existsb _ _) in H; injection H as <-.
  - exists l. split; [reflexivity|]. split; [apply grows_refl|reflexivity].
  - eexists. rewrite of_list_add by lia. split; [reflexivity|]. split; [apply grows_add|apply upd_len].
Qed.
Lemma link_finals_list : forall fs i f l d eps t', m_link_finals fs d eps (of_list i f l) = Ok t' ->
  exists l', t' = of_list i f l' /\ grows l l' /\ length l' = length l.
Proof.
  induction fs as [|[s w] fs IH]; intros i f l d eps t' H; cbn [m_link_finals] in H.
  - injection H as <-. exists l. split; [reflexivity|]. split; [apply grows_refl|reflexivity].
  - destruct (m_linkStates s d eps w (of_list i f l)) as [t1| | | |] eqn:E; try discriminate. cbn [obind] in H.
    destruct (link_list _ _ _ _ _ _ _ _ E) as (l1 & -> & G1 & L1).
    destruct (IH _ _ _ _ _ _ H) as (l2 & -> & G2 & L2). exists l2. split; [reflexivity|].
    split; [eapply grows_trans; eauto|congruence].
Qed.
Lemma make_relation_list : forall ts rel i f l, exists rel',
  make_relation ts rel (of_list i f l) = Ok (rel', of_list i f (l ++ map (fun _ => []) ts))
  /\ (forall k, In k (map fst ts) -> Z.of_nat (length l) <= related rel' k < Z.of_nat (length l + length ts))
  /\ (forall k, ~ In k (map fst ts) -> z_find k rel' = z_find k rel).
Proof.
  induction ts as [|[k arcs] ts IH]; intros rel i f l.
  - exists rel. cbn [make_relation map]. rewrite app_nil_r. split; [reflexivity|]. split; [intros k []|reflexivity].
  - cbn [make_relation]. rewrite of_list_new. cbn [obind].
    destruct (IH (z_set k (Z.of_nat (length l)) rel) i f (l ++ [[]])) as (rel' & E & R1 & R2).
    exists rel'. split; [rewrite E, <- app_assoc; reflexivity|].
    assert (Zs : forall (m : list (Z * Z)) k v k', z_find k' (z_set k v m) = if k' =? k then Some v else z_find k' m).
    { clear. induction m as [|[x y] m IH]; intros k v k'; cbn [z_set z_find]; [reflexivity|].
      destruct (k <? x) eqn:E1; [reflexivity|]. destruct (k =? x) eqn:E2.
      - apply Z.eqb_eq in E2. subst x. cbn [z_find]. destruct (k' =? k); reflexivity.
      - cbn [z_find]. rewrite IH. destruct (k' =? x) eqn:E3; [|reflexivity].
        apply Z.eqb_eq in E3. subst k'. rewrite Z.eqb_sym, E2. reflexivity. }
    rewrite app_length in R1. cbn [length map fst In] in *. split.
    + intros k' H. destruct (in_dec Z.eq_dec k' (map fst ts)) as [K|K].
      * specialize (R1 _ K). lia.
      * destruct H as [-> |H]; [|contradiction]. unfold related. rewrite R2, Zs, Z.eqb_refl by auto. lia.
    + intros k' H. rewrite R2 by tauto. rewrite Zs. rewrite (proj2 (Z.eqb_neq k' k)) by (intros ->; tauto). reflexivity.
Qed.
Lemma copy_arcs_list : forall ts rel i f l, (forall k, In k (map fst ts) -> 0 <= related rel k < Z.of_nat (length l)) ->
  exists l', m_copy_arcs ts rel (of_list i f l) = of_list i f l' /\ grows l l' /\ length l' = length l.
Proof.
  induction ts as [|[k arcs] ts IH]; intros rel i f l H; cbn [m_copy_arcs].
  - exists l. split; [reflexivity|]. split; [apply grows_refl|reflexivity].
  - assert (G : exists l1, fold_left (fun self a => m_add_arc (related rel k) (fst a, (related rel (fst (snd a)), snd (snd a))) self)
        arcs (of_list i f l) = of_list i f l1 /\ grows l l1 /\ length l1 = length l).
    { assert (Hk : 0 <= related rel k < Z.of_nat (length l)) by (apply H; now left).
      clear H IH. revert l Hk. induction arcs as [|a arcs IH]; intros l Hk; cbn [fold_left].
      - exists l. split; [reflexivity|]. split; [apply grows_refl|reflexivity].
      - rewrite of_list_add by auto.
        destruct (IH (upd (Z.to_nat (related rel k)) (marc_insert (fst a, (related rel (fst (snd a)), snd (snd a)))) l)) as (l1 & -> & G & L).
        { now rewrite upd_len. }
        exists l1. split; [reflexivity|]. rewrite upd_len in L. split; [|exact L]. eapply grows_trans; [apply grows_add|exact G]. }
    destruct G as (l1 & -> & G1 & L1). destruct (IH rel i f l1) as (l2 & -> & G2 & L2).
    { intros k' Hk'. rewrite L1. apply H. now right. }
    exists l2. split; [reflexivity|]. split; [eapply grows_trans; eauto|congruence].
Qed.
Lemma join_list : forall i f l eps t', m_joinFinals eps (of_list i f l) = Ok t' ->
  exists f' l', t' = of_list i f' l' /\ grows l l'.
Proof.
  intros i f l eps t' H. unfold m_joinFinals in H. cbn [m_finals of_list] in H.
  destruct f as [|p [|q f]]; [discriminate| |].
  - injection H as <-. exists [p], l. split; [reflexivity|apply grows_refl].
  - change (mkMT i (p :: q :: f) (indexed 0 l)) with (of_list i (p :: q :: f) l) in H. rewrite of_list_new in H. cbn [obind] in H.
    destruct (m_link_finals _ _ _ _) as [t1| | | |] eqn:E in H; try discriminate. cbn [obind] in H. injection H as <-.
    destruct (link_finals_list _ _ _ _ _ _ _ E) as (l1 & -> & G & L). eexists. exists l1. split; [reflexivity|].
    eapply grows_trans; [apply grows_new|exact G].
Qed.

(** One call: the numbers stay consecutive, nothing is removed, the initial state stays,
    and what is called new is new. *)
Theorem C14_call : forall t c r t', consecutive t -> call_ok t c -> exec t c = Ok (r, t') ->
  consecutive t' /\ kept t t' /\ m_initial t' = m_initial t
  /\ match c with
     | CNew | CNewSingle _ _ _ => exists s, r = Some s /\ ~ In s (states t) /\ In s (states t')
     | CSingle _ _ _ => exists s, r = Some s
         /\ (t' = t \/ (~ In s (states t) /\ In s (states t')))
     | CInsert source u _ => exists s, r = Some s
         /\ (m_trans u = [] /\ s = source /\ t' = t
             \/ (length (states t') >= length (states t) + length (states u))%nat)
     | CLink s d _ _ => r = None /\ In s (states t) /\ In d (states t) /\ states t' = states t
     | CFinal _ _ _ => r = None /\ m_trans t' = m_trans t
     | CJoin _ => r = None /\ exists f, map fst (m_finals t') = [f]
     end.
Proof.
  intros t c r t' Hc Hok He. apply consecutive_iff in Hc as (l & Hl). destruct t as [i f tr]. cbn [m_trans] in Hl. subst tr.
  change (mkMT i f (indexed 0 l)) with (of_list i f l) in *.
  assert (Hcons : forall i f l, consecutive (of_list i f l)) by (intros; apply consecutive_iff; eexists; reflexivity).
  destruct c as [|tag s w|tag s w|s u eps|s d tag w|s w v|eps]; cbn [exec call_ok] in *.
  - rewrite of_list_new in He. cbn [obind] in He. injection He as <- <-. split; [apply Hcons|].
    split; [apply grows_kept, grows_new|]. split; [reflexivity|]. eexists. split; [reflexivity|].
    rewrite !of_list_states, app_length. cbn [length]. lia.
  - unfold m_insertSingle in He. rewrite of_list_exists in He.
    assert (Same : forall x, Ok (Some x, of_list i f l) = Ok (r, t') -> consecutive t' /\ kept (of_list i f l) t' /\ m_initial t' = m_initial (of_list i f l)
      /\ exists s, r = Some s /\ (t' = of_list i f l \/ (~ In s (states (of_list i f l)) /\ In s (states t')))).
    { intros x E. injection E as <- <-. split; [apply Hcons|]. split; [apply grows_kept, grows_refl|]. split; [reflexivity|].
      exists x. auto. }
    destruct ((0 <=? s) && (s <? Z.of_nat (length l))) eqn:E; [|cbn [obind] in He; exact (Same _ He)].
    destruct (marc_range tag _) as [|a [|b [|? ?]]] eqn:Er in He; cbn [obind] in He; try exact (Same _ He).
    + rewrite of_list_new in He. cbn [obind] in He. injection He as <- <-.
      rewrite of_list_add by (rewrite app_length; cbn [length]; lia). split; [apply Hcons|].
      split; [apply grows_kept; eapply grows_trans; [apply grows_new|apply grows_add]|]. split; [reflexivity|].
      eexists. split; [reflexivity|]. right. rewrite !of_list_states, upd_len, app_length. cbn [length]. lia.
    + destruct (negb _) in He; cbn [obind] in He; [exact (Same _ He)|].
      destruct (negb _) in He; cbn [obind] in He; exact (Same _ He).
  - unfold m_insertNewSingle in He. rewrite of_list_new in He. cbn [obind] in He. injection He as <- <-.
    apply of_list_states in Hok. rewrite of_list_add by (rewrite app_length; cbn [length]; lia).
    split; [apply Hcons|]. split; [apply grows_kept; eapply grows_trans; [apply grows_new|apply grows_add]|].
    split; [reflexivity|]. eexists. split; [reflexivity|]. rewrite !of_list_states, upd_len, app_length. cbn [length]. lia.
  - unfold m_insertTransducer in He. destruct (m_trans u) as [|k0 ts] eqn:Eu.
    + cbn [obind] in He. injection He as <- <-. split; [apply Hcons|]. split; [apply grows_kept, grows_refl|]. split; [reflexivity|].
      exists s. split; [reflexivity|]. left. auto.
    + destruct (m_joinFinals eps u) as [u'| | | |] eqn:Ej; try discriminate. cbn [obind] in He.
      destruct (make_relation_list (m_trans u') [] i f l) as (rel & Em & R1 & R2). rewrite Em in He. cbn [obind] in He.
      destruct (copy_arcs_list (m_trans u') rel i f (l ++ map (fun _ => []) (m_trans u'))) as (l1 & Ec & G1 & L1).
      { intros k Hk. specialize (R1 k Hk). rewrite app_length, map_length. lia. }
      rewrite Ec in He. rewrite app_length, map_length in L1. apply of_list_states in Hok.
      rewrite of_list_add in He by lia.
      destruct (m_finals u') as [|[fu wu] fs]; [discriminate|]. cbn [obind] in He. injection He as <- <-.
      split; [apply Hcons|]. split; [|split; [reflexivity|]].
      * apply grows_kept. eapply grows_trans; [|eapply grows_trans; [exact G1|apply grows_add]].
        split; [rewrite app_length; lia|]. intros x a H. destruct (Nat.lt_ge_cases x (length l)) as [K|K].
        -- now rewrite app_nth1.
        -- rewrite nth_overflow in H by lia. destruct H.
      * eexists. split; [reflexivity|]. right. unfold states, of_list. cbn [m_trans].
        rewrite !map_length, !indexed_length, upd_len, L1.
        assert (length (m_trans u) <= length (m_trans u'))%nat; [|lia].
        unfold m_joinFinals in Ej. destruct (m_finals u) as [|p [|q fu']]; [discriminate|injection Ej as <-; lia|].
        unfold m_newState in Ej. destruct (free_number _ _ _) as [n| | | |]; try discriminate. cbn [obind] in Ej.
        destruct (m_link_finals _ _ _ _) as [u1| | | |] eqn:El in Ej; try discriminate. cbn [obind] in Ej. injection Ej as <-.
        cbn [m_trans].
        assert (Zl : forall A (v : A) k m, (length m <= length (z_set k v m))%nat).
        { intros A v k m. induction m as [|[x y] m IH]; cbn [z_set length]; [lia|].
          destruct (k <? x); cbn [length]; [lia|]. destruct (k =? x); cbn [length]; lia. }
        assert (Ll : forall fs d e t0 t1, m_link_finals fs d e t0 = Ok t1 -> (length (m_trans t0) <= length (m_trans t1))%nat).
        { intros fs0. induction fs0 as [|[a b] fs0 IH]; intros d e t0 t1 H; cbn [m_link_finals] in H; [injection H as <-; lia|].
          destruct (m_linkStates a d e b t0) as [t2| | | |] eqn:E2; try discriminate. cbn [obind] in H. apply IH in H.
          unfold m_linkStates in E2. destruct (_ && _) in E2; [|discriminate]. destruct (existsb _ _) in E2; injection E2 as <-; [lia|].
          unfold m_add_arc in H. cbn [m_trans] in H. pose proof (Zl _ (marc_insert (e, (d, b)) (m_arcs t0 a)) a (m_trans t0)). lia. }
        apply Ll in El. cbn [m_trans] in El. pose proof (Zl _ (@nil marc) n (m_trans u)). lia.
  - destruct (m_linkStates s d tag w (of_list i f l)) as [t1| | | |] eqn:E; try discriminate. cbn [obind] in He. injection He as <- <-.
    destruct (link_list _ _ _ _ _ _ _ _ E) as (l1 & -> & G & L). split; [apply Hcons|].
    split; [now apply grows_kept|]. split; [reflexivity|]. split; [reflexivity|].
    unfold m_linkStates in E. rewrite !of_list_exists in E.
    destruct ((0 <=? s) && (s <? Z.of_nat (length l))) eqn:E1; [|discriminate].
    destruct ((0 <=? d) && (d <? Z.of_nat (length l))) eqn:E2; [|discriminate].
    rewrite !of_list_states. split; [lia|]. split; [lia|]. unfold states, of_list. cbn [m_trans]. change 0 with (Z.of_nat 0).
    now rewrite !indexed_keys, L.
  - injection He as <- <-. unfold m_setFinal. cbn [m_initial m_finals m_trans of_list].
    change (mkMT i (if v then z_insert s w f else z_erase s f) (indexed 0 l)) with (of_list i (if v then z_insert s w f else z_erase s f) l).
    split; [apply Hcons|]. split; [apply grows_kept, grows_refl|]. auto.
  - destruct (m_joinFinals eps (of_list i f l)) as [t1| | | |] eqn:E; try discriminate. cbn [obind] in He. injection He as <- <-.
    destruct (join_list _ _ _ _ _ E) as (f' & l1 & -> & G). split; [apply Hcons|]. split; [now apply grows_kept|].
    split; [reflexivity|]. split; [reflexivity|].
    unfold m_joinFinals in E. cbn [m_finals of_list] in E. destruct f as [|p [|q f]]; [discriminate| |].
    + apply (f_equal (fun x => match x with Ok t => m_finals t | _ => [] end)) in E. cbn [m_finals of_list] in *.
      rewrite <- E. exists (fst p). reflexivity.
    + change (mkMT i (p :: q :: f) (indexed 0 l)) with (of_list i (p :: q :: f) l) in E. rewrite of_list_new in E. cbn [obind] in E.
      destruct (m_link_finals _ _ _ _) as [t2| | | |] in E; try discriminate. cbn [obind] in E.
      apply (f_equal (fun x => match x with Ok t => m_finals t | _ => [] end)) in E. cbn [m_finals of_list] in *.
      rewrite <- E. exists (Z.of_nat (length l)). reflexivity.
Qed.

(** Histories of any length. *)
Lemma kept_trans : forall a b c, kept a b -> kept b c -> kept a c.
Proof.
  intros a b c (H1 & H2) (H3 & H4). split; [auto|]. intros s arcs x Hs Hx.
  destruct (H2 s arcs x Hs Hx) as (arcs' & K1 & K2). exact (H4 s arcs' x K1 K2).
Qed.
Lemma kept_refl : forall a, kept a a.
Proof. intros a. split; [auto|]. intros s arcs x Hs Hx. eauto. Qed.
Theorem C14_history : forall t l t', consecutive t -> history t l t' ->
  consecutive t' /\ kept t t' /\ m_initial t' = m_initial t.
Proof.
  intros t l t' Hc H. induction H as [t|t c l r t1 t2 Hok He Hh IH].
  - split; [exact Hc|]. split; [apply kept_refl|reflexivity].
  - destruct (C14_call t c r t1 Hc Hok He) as (C1 & K1 & I1 & _). destruct (IH C1) as (C2 & K2 & I2).
    split; [exact C2|]. split; [eapply kept_trans; eauto|congruence].
Qed.
(** From the constructor on *)
Theorem C14_from_new : forall l t, history m_new l t ->
  states t = map Z.of_nat (seq 0 (length (m_trans t))) /\ m_initial t = 0 /\ In 0 (states t).
Proof.
  intros l t H. destruct (C14_history m_new l t) as (C & (K & _) & I).
  - reflexivity.
  - exact H.
  - split; [exact C|]. split; [exact I|]. apply K. now left.
Qed.
(** A call on existing states never ends the process, except joining no final states. *)
Theorem C14_no_exit : forall t c, consecutive t -> (forall f w, In (f, w) (m_finals t) -> In f (states t)) ->
  match c with
  | CLink s d _ _ => In s (states t) /\ In d (states t)
  | CInsert _ _ _ => False
  | CJoin _ => m_finals t <> []
  | _ => True
  end -> exists r t', exec t c = Ok (r, t').
Proof.
  intros t c Hc Hf Hok. apply consecutive_iff in Hc as (l & Hl). destruct t as [i f tr]. cbn [m_trans] in Hl. subst tr.
  change (mkMT i f (indexed 0 l)) with (of_list i f l) in *. cbn [m_finals of_list] in *.
  assert (Lk : forall f0 l s d tag w, 0 <= s < Z.of_nat (length l) -> 0 <= d < Z.of_nat (length l) ->
    exists l', m_linkStates s d tag w (of_list i f0 l) = Ok (of_list i f0 l') /\ length l' = length l).
  { clear. intros f l s d tag w Hs Hd. unfold m_linkStates. rewrite !of_list_exists.
    replace ((0 <=? s) && (s <? Z.of_nat (length l))) with true by lia.
    replace ((0 <=? d) && (d <? Z.of_nat (length l))) with true by lia. cbn [andb].
    destruct (existsb _ _); eexists; [split; reflexivity|]. rewrite of_list_add by auto. split; [reflexivity|apply upd_len]. }
  destruct c as [|tag s w|tag s w|s u eps|s d tag w|s w v|eps]; cbn [exec].
  - rewrite of_list_new. cbn [obind]. eauto.
  - unfold m_insertSingle. rewrite of_list_exists. destruct (_ && _); [|cbn [obind]; eauto].
    destruct (marc_range tag _) as [|a [|b [|? ?]]]; cbn [obind]; eauto.
    + rewrite of_list_new. cbn [obind]. eauto.
    + destruct (negb _); cbn [obind]; eauto. destruct (negb _); cbn [obind]; eauto.
  - unfold m_insertNewSingle. rewrite of_list_new. cbn [obind]. eauto.
  - destruct Hok.
  - rewrite !of_list_states in Hok. destruct (Lk f l s d tag w) as (l' & -> & _); try tauto. cbn [obind]. eauto.
  - eauto.
  - unfold m_joinFinals. cbn [m_finals of_list]. destruct f as [|p [|q f]]; [congruence|cbn [obind]; eauto|].
    change (mkMT i (p :: q :: f) (indexed 0 l)) with (of_list i (p :: q :: f) l). rewrite of_list_new. cbn [obind].
    assert (G : forall fs f0 l0, (forall s w, In (s, w) fs -> 0 <= s < Z.of_nat (length l0)) -> (length l < length l0)%nat ->
      exists t', m_link_finals fs (Z.of_nat (length l)) eps (of_list i f0 l0) = Ok t').
    { induction fs as [|[s w] fs IH]; intros f0 l0 H1 H2; cbn [m_link_finals]; [eauto|].
      destruct (Lk f0 l0 s (Z.of_nat (length l)) eps w) as (l1 & -> & L1); [apply (H1 s w); now left|lia|]. cbn [obind].
      apply IH; rewrite L1; [|exact H2]. intros s' w' H. apply (H1 s' w'). now right. }
    destruct (G (p :: q :: f) (p :: q :: f) (l ++ [[]])) as (t' & ->).
    + intros s w H. apply Hf in H. apply of_list_states in H. rewrite app_length. lia.
    + rewrite app_length. cbn [length]. lia.
    + cbn [obind]. eauto.
Qed.
Example C14_example :
  let t := mkMT 0 [(1, 0)] [(0, [(5, (1, 0))]); (1, [])] in
  exists t', history m_new [CSingle 5 0 0; CSingle 5 0 7; CNewSingle 5 0 1; CFinal 1 0 true; CInsert 2 t 0; CLink 3 0 0 0] t'
    /\ m_trans t' = [(0, [(5, (1, 0)); (5, (2, 1))]); (1, []); (2, [(0, (3, 0))]); (3, [(0, (0, 0)); (5, (4, 0))]); (4, [])].
Proof.
  eexists. split.
  - repeat (eapply h_call; [cbn; tauto|vm_compute; reflexivity|]). apply h_nil.
  - reflexivity.
Qed.
(** On a missing state insertNewSingleTransduction leaves a gap in the numbers, and the
    next new state is not the number of states. *)
Theorem C14_missing_source_refuted : exists t t',
  exec m_new (CNewSingle 5 7 0) = Ok (Some 1, t) /\ states t = [0; 1; 7]
  /\ exec (mkMT 0 [] [(0, []); (2, [])]) CNew = Ok (Some 3, t') /\ states t' = [0; 2; 3].
Proof. do 2 eexists. vm_compute. auto. Qed.

(** * The lists of TransducerModel.v are these maps *)
Definition to_marc (a : arc) : marc := (a_tag a, (Z.of_nat (a_dst a), a_wt a)).
Definition to_fin (p : nat * Z) : Z * Z := (Z.of_nat (fst p), snd p).
Definition to_map (t : transducer) : mtransducer :=
  of_list (Z.of_nat (initial t)) (map to_fin (finals t)) (map (map to_marc) (trans t)).
Definition omap {A B} (f : A -> B) (x : outcome A) : outcome B := let! a := x in Ok (f a).

Lemma to_insert : forall a l, marc_insert (to_marc a) (map to_marc l) = map to_marc (mm_insert a l).
Proof.
  induction l as [|b l IH]; [reflexivity|]. cbn [map marc_insert mm_insert]. unfold to_marc at 1 2 3. cbn [fst].
  destruct (a_tag a <? a_tag b); [reflexivity|]. cbn [map]. now rewrite <- IH.
Qed.
Lemma to_range : forall tag l, marc_range tag (map to_marc l) = map to_marc (equal_range tag l).
Proof.
  intros tag. induction l as [|b l IH]; [reflexivity|]. unfold marc_range, equal_range in *. cbn [map filter].
  unfold to_marc at 1. cbn [fst]. destruct (a_tag b =? tag); cbn [map]; now rewrite IH.
Qed.
Lemma upd_map : forall A B (h : A -> B) f g, (forall x, g (h x) = h (f x)) -> forall l i, upd i g (map h l) = map h (upd i f l).
Proof. intros A B h f g H. induction l as [|x l IH]; intros [|i]; cbn; auto; [now rewrite H|now rewrite IH]. Qed.
Lemma to_exists : forall t s, m_exists (to_map t) (Z.of_nat s) = (s <? nstates t)%nat.
Proof. intros t s. unfold to_map, nstates. rewrite of_list_exists, map_length. lia. Qed.
Lemma to_arcs : forall t s, (s < nstates t)%nat -> m_arcs (to_map t) (Z.of_nat s) = map to_marc (arcs_of t s).
Proof.
  intros t s H. unfold to_map, nstates in *. rewrite of_list_arcs by (rewrite map_length; lia). rewrite Nat2Z.id.
  unfold arcs_of. change (@nil marc) with (map to_marc []). apply map_nth.
Qed.
Lemma to_add : forall t s a, (s < nstates t)%nat -> m_add_arc (Z.of_nat s) (to_marc a) (to_map t) = to_map (add_arc s a t).
Proof.
  intros t s a H. unfold to_map, add_arc, nstates in *. cbn [initial finals trans].
  rewrite of_list_add by (rewrite map_length; lia). rewrite Nat2Z.id. f_equal. apply upd_map. intros x. apply to_insert.
Qed.
Lemma to_new : forall t, m_newState (to_map t) = Ok (let '(s, t) := newState t in (Z.of_nat s, to_map t)).
Proof.
  intros t. unfold to_map. rewrite of_list_new. unfold newState, nstates. rewrite map_length. cbn [initial finals trans].
  rewrite map_app. reflexivity.
Qed.
Lemma to_single : forall t tag s w, m_insertSingle tag (Z.of_nat s) w (to_map t)
  = Ok (let '(r, t) := insertSingleTransduction tag s w t in (match r with Some x => Z.of_nat x | None => -1 end, to_map t)).
Proof.
  intros t tag s w. unfold m_insertSingle, insertSingleTransduction. rewrite to_exists.
  destruct (s <? nstates t)%nat eqn:E; [|reflexivity]. apply Nat.ltb_lt in E. rewrite to_arcs, to_range by auto.
  destruct (equal_range tag (arcs_of t s)) as [|a [|b [|c l]]]; cbn [map]; try reflexivity.
  - rewrite to_new. unfold newState. cbn [obind].
    rewrite <- (to_add (mkT (initial t) (finals t) (trans t ++ [[]])) s (tag, (nstates t, w))); [reflexivity|].
    unfold nstates in *. cbn [trans]. rewrite app_length. lia.
  - unfold to_marc. cbn [fst snd]. replace (Z.of_nat (a_dst a) =? Z.of_nat s) with (a_dst a =? s)%nat by lia.
    replace (Z.of_nat (a_dst b) =? Z.of_nat s) with (a_dst b =? s)%nat by lia.
    destruct (a_dst a =? s)%nat; cbn [negb]; [|reflexivity]. destruct (a_dst b =? s)%nat; reflexivity.
Qed.
Lemma to_newsingle : forall t tag s w, (s < nstates t)%nat -> m_insertNewSingle tag (Z.of_nat s) w (to_map t)
  = Ok (let '(r, t) := insertNewSingleTransduction tag s w t in (Z.of_nat r, to_map t)).
Proof.
  intros t tag s w H. unfold m_insertNewSingle, insertNewSingleTransduction. rewrite to_new. unfold newState. cbn [obind].
  rewrite <- (to_add (mkT (initial t) (finals t) (trans t ++ [[]])) s (tag, (nstates t, w))); [reflexivity|].
  unfold nstates in *. cbn [trans]. rewrite app_length. lia.
Qed.
Lemma to_link : forall t s d tag w, m_linkStates (Z.of_nat s) (Z.of_nat d) tag w (to_map t)
  = omap to_map (linkStates s d tag w t).
Proof.
  intros t s d tag w. unfold m_linkStates, linkStates. rewrite !to_exists.
  destruct (s <? nstates t)%nat eqn:E; [|reflexivity]. destruct (d <? nstates t)%nat eqn:E2; [|reflexivity]. cbn [andb].
  apply Nat.ltb_lt in E. rewrite to_arcs, to_range by auto.
  assert (X : forall l, existsb (fun a : marc => (fst a =? tag) && (fst (snd a) =? Z.of_nat d)) (map to_marc l)
    = existsb (fun a => (a_tag a =? tag) && (a_dst a =? d)%nat) l).
  { induction l as [|a l IH]; [reflexivity|]. cbn [map existsb]. rewrite IH. f_equal. unfold to_marc. cbn [fst snd]. f_equal. lia. }
  rewrite X. destruct (existsb _ _); [reflexivity|]. cbn [omap obind]. f_equal.
  apply (to_add t s (tag, (d, w)) E).
Qed.
Lemma to_setFinal : forall t s w v, m_setFinal (Z.of_nat s) w v (to_map t) = to_map (setFinal s w v t).
Proof.
  intros t s w v. unfold m_setFinal, to_map, of_list, setFinal. cbn [m_initial m_finals m_trans initial finals trans]. f_equal.
  destruct v.
  - induction (finals t) as [|[x y] l IH]; [reflexivity|]. cbn [map fin_insert]. unfold to_fin at 1. cbn [fst snd z_insert].
    replace (Z.of_nat s <? Z.of_nat x) with (s <? x)%nat by lia. replace (Z.of_nat s =? Z.of_nat x) with (s =? x)%nat by lia.
    destruct (s <? x)%nat; [reflexivity|]. destruct (s =? x)%nat; [reflexivity|]. cbn [map]. now rewrite IH.
  - unfold z_erase, fin_erase. induction (finals t) as [|[x y] l IH]; [reflexivity|]. cbn [map filter fst to_fin].
    replace (Z.of_nat x =? Z.of_nat s) with (x =? s)%nat by lia. destruct (x =? s)%nat; cbn [negb map]; now rewrite IH.
Qed.
Lemma to_link_finals : forall fs t d eps, m_link_finals (map to_fin fs) (Z.of_nat d) eps (to_map t)
  = omap to_map (link_finals fs d eps t).
Proof.
  induction fs as [|[s w] fs IH]; intros t d eps; [reflexivity|]. cbn [map m_link_finals link_finals to_fin fst snd].
  rewrite to_link. destruct (linkStates s d eps w t) as [t1| | | |]; cbn [omap obind]; auto.
Qed.
Lemma to_join : forall t eps, m_joinFinals eps (to_map t) = omap to_map (joinFinals eps t).
Proof.
  intros t eps. unfold m_joinFinals, joinFinals. cbn [m_finals to_map of_list].
  destruct (finals t) as [|p [|q f]] eqn:E; cbn [map]; [reflexivity|reflexivity|].
  change (mkMT (Z.of_nat (initial t)) (map to_fin (finals t)) (indexed 0 (map (map to_marc) (trans t)))) with (to_map t).
  rewrite to_new. unfold newState. cbn [obind].
  change (to_fin p :: to_fin q :: map to_fin f) with (map to_fin (p :: q :: f)).
  rewrite to_link_finals. rewrite E. destruct (link_finals _ _ _ _) as [t1| | | |]; reflexivity.
Qed.
(** insertTransducer: the relation is "number plus the number of states before" *)
Lemma z_set_end : forall (m : list (Z * Z)) k v, (forall x, In x (map fst m) -> x < k) -> z_set k v m = m ++ [(k, v)].
Proof.
  induction m as [|[x y] m IH]; intros k v H; [reflexivity|]. cbn [z_set app]. assert (x < k) by (apply H; now left).
  replace (k <? x) with false by lia. replace (k =? x) with false by lia. rewrite IH; [reflexivity|].
  intros z Hz. apply H. now right.
Qed.
Lemma to_relation : forall (ts : list (list marc)) n rel self, rel = map (fun i => (Z.of_nat i, Z.of_nat (nstates self - n + i))) (seq 0 n) ->
  (n <= nstates self)%nat ->
  make_relation (indexed (Z.of_nat n) ts) rel (to_map self)
  = Ok (map (fun i => (Z.of_nat i, Z.of_nat (nstates self - n + i))) (seq 0 (n + length ts)),
        to_map (mkT (initial self) (finals self) (trans self ++ map (fun _ => []) ts))).
Proof.
  induction ts as [|a ts IH]; intros n rel self Hr Hn; cbn [indexed make_relation map length].
  - rewrite Hr, Nat.add_0_r, app_nil_r. destruct self. reflexivity.
  - rewrite to_new. unfold newState. cbn [obind]. replace (Z.of_nat n + 1) with (Z.of_nat (S n)) by lia.
    set (self' := mkT (initial self) (finals self) (trans self ++ [[]])).
    assert (N : nstates self' = S (nstates self)) by (unfold self', nstates; cbn [trans]; rewrite app_length; cbn; lia).
    rewrite (IH (S n) _ self').
    + rewrite N. cbn [initial finals trans self']. rewrite <- app_assoc. cbn [app]. f_equal. f_equal.
      replace (S n + length ts)%nat with (n + S (length ts))%nat by lia. apply map_ext. intros i; f_equal; lia.
    + rewrite z_set_end.
      * rewrite Hr, N. rewrite seq_S, map_app. cbn [map Nat.add]. do 4 f_equal. lia.
      * subst rel. rewrite map_map. cbn [fst]. intros x Hx. apply in_map_iff in Hx as (i & <- & Hi). apply in_seq in Hi. lia.
    + rewrite N. lia.
Qed.
Lemma related_seq : forall n base i, (i < n)%nat ->
  related (map (fun i => (Z.of_nat i, Z.of_nat (base + i))) (seq 0 n)) (Z.of_nat i) = Z.of_nat (base + i).
Proof.
  intros n base i H. unfold related.
  assert (G : forall m s, (s <= i < s + m)%nat -> z_find (Z.of_nat i) (map (fun i => (Z.of_nat i, Z.of_nat (base + i))) (seq s m)) = Some (Z.of_nat (base + i))).
  { induction m as [|m IH]; intros s Hs; [lia|]. cbn [seq map z_find].
    destruct (Z.of_nat i =? Z.of_nat s) eqn:E; [replace s with i by lia; reflexivity|]. apply IH. lia. }
  rewrite (G n 0%nat) by lia. reflexivity.
Qed.
Lemma fold_add_nstates : forall (f : arc -> arc) s arcs self,
  nstates (fold_left (fun self a => add_arc s (f a) self) arcs self) = nstates self.
Proof.
  induction arcs as [|a arcs IH]; intros self; [reflexivity|]. cbn [fold_left]. rewrite IH. unfold nstates, add_arc. cbn [trans].
  apply upd_len.
Qed.
Lemma to_copy : forall n base ts k self, (base + n <= nstates self)%nat -> (k + length ts <= n)%nat ->
  Forall (Forall (fun a => (a_dst a < n)%nat)) ts ->
  m_copy_arcs (indexed (Z.of_nat k) (map (map to_marc) ts)) (map (fun i => (Z.of_nat i, Z.of_nat (base + i))) (seq 0 n)) (to_map self)
  = to_map (copy_arcs base k ts self).
Proof.
  intros n base. induction ts as [|arcs ts IH]; intros k self Hn Hk Hf; [reflexivity|]. cbn [map indexed m_copy_arcs copy_arcs length] in *.
  inversion Hf as [|? ? Ha Hf']; subst. rewrite related_seq by lia.
  assert (G : forall arcs self, (base + n <= nstates self)%nat -> Forall (fun a => (a_dst a < n)%nat) arcs ->
    fold_left (fun self a => m_add_arc (Z.of_nat (base + k))
        (fst a, (related (map (fun i => (Z.of_nat i, Z.of_nat (base + i))) (seq 0 n)) (fst (snd a)), snd (snd a))) self)
      (map to_marc arcs) (to_map self)
    = to_map (fold_left (fun self a => add_arc (base + k) (a_tag a, ((base + a_dst a)%nat, a_wt a)) self) arcs self)).
  { clear - Hk. induction arcs as [|a arcs IH]; intros self Hn Ha; [reflexivity|]. inversion Ha; subst. cbn [map fold_left].
    change (fst (to_marc a)) with (a_tag a). change (fst (snd (to_marc a))) with (Z.of_nat (a_dst a)).
    change (snd (snd (to_marc a))) with (a_wt a). rewrite related_seq by auto.
    change (a_tag a, (Z.of_nat (base + a_dst a), a_wt a)) with (to_marc (a_tag a, ((base + a_dst a)%nat, a_wt a))).
    rewrite to_add by lia. apply IH; auto. unfold nstates, add_arc in *. cbn [trans]. now rewrite upd_len. }
  rewrite G by auto. replace (Z.of_nat k + 1) with (Z.of_nat (S k)) by lia. apply IH; auto; [|lia].
  rewrite (fold_add_nstates (fun a => (a_tag a, ((base + a_dst a)%nat, a_wt a)))). exact Hn.
Qed.

Lemma join_nonempty : forall eps t t', joinFinals eps t = Ok t' -> exists f w l, finals t' = (f, w) :: l.
Proof.
  intros eps t t' H. unfold joinFinals in H. destruct (finals t) as [|[f w] [|q l]] eqn:E; [discriminate| |].
  - injection H as <-. eauto.
  - unfold newState in H. destruct (link_finals _ _ _ _) as [t1| | | |]; try discriminate. injection H as <-. cbn [finals]. eauto.
Qed.
(** What the code does on the map is what TransducerModel.v does on the list, for every call
    on transducers whose targets, initial and final states exist. *)
Definition closed (t : transducer) : Prop :=
  (initial t < nstates t)%nat /\ Forall (fun p => (fst p < nstates t)%nat) (finals t)
  /\ Forall (Forall (fun a => (a_dst a < nstates t)%nat)) (trans t).
Lemma closed_more : forall t n, closed t -> (nstates t <= n)%nat -> (initial t < n)%nat
  /\ Forall (fun p => (fst p < n)%nat) (finals t) /\ Forall (Forall (fun a => (a_dst a < n)%nat)) (trans t).
Proof.
  intros t n (H1 & H2 & H3) Hn. split; [lia|]. split.
  - eapply Forall_impl; [|exact H2]. intros; cbn in *; lia.
  - eapply Forall_impl; [|exact H3]. intros l Hl. eapply Forall_impl; [|exact Hl]. intros; cbn in *; lia.
Qed.
Lemma mm_insert_all : forall (P : arc -> Prop) a l, P a -> Forall P l -> Forall P (mm_insert a l).
Proof.
  intros P a l Ha. induction l as [|b l IH]; intros H; cbn [mm_insert]; [now constructor|].
  inversion H; subst. destruct (a_tag a <? a_tag b); constructor; auto.
Qed.
Lemma upd_all : forall A (P : A -> Prop) f l i, (forall x, P x -> P (f x)) -> Forall P l -> Forall P (upd i f l).
Proof.
  induction l as [|x l IH]; intros [|i] Hf H; cbn; auto; inversion H; subst; constructor; auto.
Qed.
Lemma closed_add : forall t s a, closed t -> (a_dst a < nstates t)%nat -> closed (add_arc s a t).
Proof.
  intros t s a (H1 & H2 & H3) Ha.
  assert (N : nstates (add_arc s a t) = nstates t) by (unfold nstates, add_arc; cbn [trans]; apply upd_len).
  unfold closed. rewrite N. cbn [add_arc initial finals trans]. split; [auto|]. split; [auto|].
  apply upd_all; auto. intros x Hx. now apply mm_insert_all.
Qed.
Lemma closed_new : forall t, closed t -> closed (snd (newState t)) /\ nstates (snd (newState t)) = S (nstates t).
Proof.
  intros t H. assert (N : nstates (snd (newState t)) = S (nstates t)) by (unfold nstates, newState; cbn [trans snd]; rewrite app_length; cbn; lia).
  split; [|exact N]. destruct (closed_more t (S (nstates t)) H ltac:(lia)) as (K1 & K2 & K3).
  unfold closed. rewrite N. cbn [newState snd initial finals trans]. split; [auto|]. split; [auto|].
  apply Forall_app. split; [auto|]. constructor; constructor.
Qed.
Lemma closed_link : forall t s d tag w t', closed t -> linkStates s d tag w t = Ok t' -> closed t' /\ nstates t' = nstates t.
Proof.
  intros t s d tag w t' H E. unfold linkStates in E. destruct ((s <? nstates t) && (d <? nstates t))%nat eqn:Eb; [|discriminate].
  apply andb_true_iff in Eb as [E1 E2]. apply Nat.ltb_lt in E1, E2. destruct (existsb _ _) in E; injection E as <-; [auto|].
  split; [now apply closed_add|]. unfold nstates, add_arc. cbn [trans]. apply upd_len.
Qed.
Lemma closed_join : forall eps t t', closed t -> joinFinals eps t = Ok t' -> closed t'.
Proof.
  intros eps t t' H E. unfold joinFinals in E. destruct (finals t) as [|p [|q l]] eqn:Ef; [discriminate|injection E as <-; exact H|].
  destruct (closed_new t H) as (H1 & N1). unfold newState in *. cbn [snd] in *.
  set (t1 := mkT (initial t) (finals t) (trans t ++ [[]])) in *.
  assert (G : forall fs t1 t2, closed t1 -> link_finals fs (nstates t) eps t1 = Ok t2 -> closed t2 /\ nstates t2 = nstates t1).
  { clear. induction fs as [|[s w] fs IH]; intros t1 t2 Hc E; cbn [link_finals] in E; [injection E as <-; auto|].
    destruct (linkStates s (nstates t) eps w t1) as [t3| | | |] eqn:E3; try discriminate. cbn [obind] in E.
    destruct (closed_link _ _ _ _ _ _ Hc E3) as (C3 & N3). destruct (IH _ _ C3 E) as (C2 & N2). split; [auto|congruence]. }
  destruct (link_finals (p :: q :: l) (nstates t) eps t1) as [t2| | | |] eqn:E2; try discriminate. cbn [obind] in E. injection E as <-.
  destruct (G _ _ _ H1 E2) as ((K1 & K2 & K3) & N2). unfold closed. change (nstates (mkT (initial t2) [(nstates t, 0)] (trans t2))) with (nstates t2).
  cbn [initial finals trans]. split; [exact K1|]. split; [|exact K3]. constructor; [|constructor]. cbn [fst]. lia.
Qed.
Lemma to_insertTransducer : forall s t eps self, (s < nstates self)%nat -> closed t ->
  m_insertTransducer (Z.of_nat s) (to_map t) eps (to_map self)
  = omap (fun '(r, self, t) => (Z.of_nat r, to_map self, to_map t)) (insertTransducer s t eps self).
Proof.
  intros s t eps self Hs Ht. unfold m_insertTransducer, insertTransducer.
  destruct (trans t) as [|a0 l0] eqn:Et.
  - assert (Em : m_trans (to_map t) = []) by (unfold to_map, of_list; cbn [m_trans]; now rewrite Et).
    rewrite Em. reflexivity.
  - assert (Em : m_trans (to_map t) = (0, map to_marc a0) :: indexed 1 (map (map to_marc) l0)).
    { unfold to_map, of_list. cbn [m_trans]. rewrite Et. reflexivity. }
    rewrite Em. rewrite to_join. destruct (joinFinals eps t) as [u| | | |] eqn:Ej; try reflexivity. cbn [omap obind].
    destruct (closed_join _ _ _ Ht Ej) as (C1 & C2 & C3).
    change (m_trans (to_map u)) with (indexed (Z.of_nat 0) (map (map to_marc) (trans u))).
    rewrite (to_relation (map (map to_marc) (trans u)) 0 [] self eq_refl ltac:(lia)). cbn [obind].
    rewrite map_map, map_length, Nat.sub_0_r. cbn [Nat.add].
    set (self1 := mkT (initial self) (finals self) (trans self ++ map (fun _ => []) (trans u))).
    assert (N1 : nstates self1 = (nstates self + nstates u)%nat) by (unfold self1, nstates; cbn [trans]; now rewrite app_length, map_length).
    change (length (trans u)) with (nstates u).
    rewrite (to_copy (nstates u) (nstates self) (trans u) 0 self1) by (first [exact C3 | lia | unfold nstates; lia]).
    change (m_initial (to_map u)) with (Z.of_nat (initial u)). rewrite related_seq by auto.
    set (self2 := copy_arcs (nstates self) 0 (trans u) self1).
    assert (N2 : nstates self2 = nstates self1).
    { unfold self2. generalize 0%nat self1. clear. intros k self1. revert self1 k. induction (trans u) as [|arcs ts IH]; intros self1 k; [reflexivity|].
      cbn [copy_arcs]. rewrite IH. apply (fold_add_nstates (fun a => (a_tag a, ((nstates self + a_dst a)%nat, a_wt a)))). }
    change (eps, (Z.of_nat (nstates self + initial u), 0)) with (to_marc (eps, ((nstates self + initial u)%nat, 0))).
    rewrite to_add by lia.
    destruct (join_nonempty _ _ _ Ej) as (f & w & l & Ef).
    change (m_finals (to_map u)) with (map to_fin (finals u)). rewrite Ef in *. cbn [map to_fin fst snd]. inversion C2 as [|? ? Hf _]; subst.
    cbn [fst] in Hf. rewrite related_seq by auto. reflexivity.
Qed.
Theorem C14_same_as_lists : forall t, closed t ->
  m_newState (to_map t) = Ok (let '(s, t) := newState t in (Z.of_nat s, to_map t))
  /\ (forall tag s w, m_insertSingle tag (Z.of_nat s) w (to_map t)
       = Ok (let '(r, t) := insertSingleTransduction tag s w t in (match r with Some x => Z.of_nat x | None => -1 end, to_map t)))
  /\ (forall tag s w, (s < nstates t)%nat -> m_insertNewSingle tag (Z.of_nat s) w (to_map t)
       = Ok (let '(r, t) := insertNewSingleTransduction tag s w t in (Z.of_nat r, to_map t)))
  /\ (forall s d tag w, m_linkStates (Z.of_nat s) (Z.of_nat d) tag w (to_map t) = omap to_map (linkStates s d tag w t))
  /\ (forall s w v, m_setFinal (Z.of_nat s) w v (to_map t) = to_map (setFinal s w v t))
  /\ (forall eps, m_joinFinals eps (to_map t) = omap to_map (joinFinals eps t))
  /\ (forall s u eps, (s < nstates t)%nat -> closed u -> m_insertTransducer (Z.of_nat s) (to_map u) eps (to_map t)
       = omap (fun '(r, t, u) => (Z.of_nat r, to_map t, to_map u)) (insertTransducer s u eps t)).
Proof.
  intros t Ht. split; [apply to_new|]. split; [intros; apply to_single|]. split; [intros; now apply to_newsingle|].
  split; [intros; apply to_link|]. split; [intros; apply to_setFinal|]. split; [intros; apply to_join|].
  intros. now apply to_insertTransducer.
Qed.

(** * C53: serialise and deserialise *)
Fixpoint increasing (l : list Z) : Prop :=
  match l with
  | x :: ((y :: _) as r) => x < y /\ increasing r
  | _ => True
  end.
Fixpoint nondecreasing (l : list Z) : Prop :=
  match l with
  | x :: ((y :: _) as r) => x <= y /\ nondecreasing r
  | _ => True
  end.
Definition int32 (z : Z) : Prop := - 2 ^ 31 <= z < 2 ^ 31.
Definition double (z : Z) : Prop := 0 <= z < 2 ^ 64.
(** A transducer as it can be in memory: ints, doubles, containers in order *)
Definition in_memory (t : mtransducer) : Prop :=
  int32 (m_initial t)
  /\ Z.of_nat (length (m_finals t)) < 2 ^ 64 /\ increasing (map fst (m_finals t))
  /\ Forall (fun p => int32 (fst p) /\ double (snd p)) (m_finals t)
  /\ Z.of_nat (length (m_trans t)) < 2 ^ 64 /\ increasing (states t)
  /\ Forall (fun p => int32 (fst p) /\ Z.of_nat (length (snd p)) < 2 ^ 64 /\ nondecreasing (map fst (snd p))
        /\ Forall (fun a : marc => int32 (fst a) /\ int32 (fst (snd a)) /\ double (snd (snd a))) (snd p)) (m_trans t).

Lemma increasing_head : forall l x, increasing (x :: l) -> Forall (Z.lt x) l.
Proof.
  induction l as [|y l IH]; intros x H; [constructor|]. cbn [increasing] in H. destruct H as [H1 H2].
  constructor; [exact H1|]. eapply Forall_impl; [|apply IH; exact H2]. intros; cbn in *; lia.
Qed.
Lemma nondecreasing_head : forall l x, nondecreasing (x :: l) -> Forall (Z.le x) l.
Proof.
  induction l as [|y l IH]; intros x H; [constructor|]. cbn [nondecreasing] in H. destruct H as [H1 H2].
  constructor; [exact H1|]. eapply Forall_impl; [|apply IH; exact H2]. intros; cbn in *; lia.
Qed.
Lemma increasing_ordered : forall A (f : A -> Z) (g : A -> sval) l, (forall x, skey (g x) = SInt (f x)) ->
  increasing (map f l) -> ordered (lt_key skey) (map g l).
Proof.
  intros A f g l H. induction l as [|x l IH]; intros Hi; [exact I|]. cbn [map ordered] in *. split.
  - apply increasing_head in Hi. apply Forall_forall. intros v Hv. apply in_map_iff in Hv as (y & <- & Hy).
    unfold lt_key. rewrite !H. cbn [scmp]. apply Z.compare_gt_iff. rewrite Forall_forall in Hi. apply Hi. now apply in_map.
  - apply IH. destruct l; [exact I|]. apply Hi.
Qed.
Lemma nondecreasing_ordered : forall A (f : A -> Z) (g : A -> sval) l, (forall x, skey (g x) = SInt (f x)) ->
  nondecreasing (map f l) -> ordered (le_key skey) (map g l).
Proof.
  intros A f g l H. induction l as [|x l IH]; intros Hi; [exact I|]. cbn [map ordered] in *. split.
  - apply nondecreasing_head in Hi. apply Forall_forall. intros v Hv. apply in_map_iff in Hv as (y & <- & Hy).
    unfold le_key. rewrite !H. cbn [scmp]. rewrite Z.compare_lt_iff. rewrite Forall_forall in Hi.
    specialize (Hi _ (in_map f _ _ Hy)). lia.
  - apply IH. destruct l; [exact I|]. apply Hi.
Qed.
Lemma sv_has_ty : forall t, in_memory t ->
  has_ty ty_int (SInt (m_initial t)) /\ has_ty ty_finals (sv_finals (m_finals t)) /\ has_ty ty_transitions (sv_trans (m_trans t)).
Proof.
  intros t (H1 & H2 & H3 & H4 & H5 & H6 & H7). split; [exact H1|]. split.
  - unfold sv_finals, ty_finals. cbn [has_ty]. rewrite map_length. split; [exact H2|]. split.
    + apply Forall_map. eapply Forall_impl; [|exact H4]. intros p Hp. exact Hp.
    + apply (increasing_ordered _ fst); [reflexivity|exact H3].
  - unfold sv_trans, ty_transitions. cbn [has_ty]. rewrite map_length. split; [exact H5|]. split.
    + apply Forall_map. eapply Forall_impl; [|exact H7]. intros p (K1 & K2 & K3 & K4). split; [exact K1|].
      unfold sv_arcs. rewrite map_length. split; [exact K2|]. split.
      * apply Forall_map. eapply Forall_impl; [|exact K4]. intros a Ha. exact Ha.
      * apply (nondecreasing_ordered _ fst); [reflexivity|exact K3].
    + apply (increasing_ordered _ fst); [reflexivity|exact H6].
Qed.
Lemma vs_sv : forall t, vs_list (vs_pair vs_int vs_int) (sv_finals (m_finals t)) = m_finals t
  /\ vs_list (vs_pair vs_int (vs_list (vs_pair vs_int (vs_pair vs_int vs_int)))) (sv_trans (m_trans t)) = m_trans t.
Proof.
  intros [i f tr]. cbn [m_finals m_trans]. split.
  - unfold sv_finals, vs_list. rewrite map_map. cbn [vs_pair vs_int]. rewrite <- map_id. apply map_ext. intros []. reflexivity.
  - unfold sv_trans. cbn [vs_list]. rewrite map_map. cbn [vs_pair vs_int]. rewrite <- map_id. apply map_ext. intros [k l]. cbn [fst snd].
    f_equal. unfold sv_arcs. cbn [vs_list]. rewrite map_map. cbn [vs_pair vs_int]. rewrite <- map_id. apply map_ext. intros (a & b & c). reflexivity.
Qed.
Lemma types_plain : no_uchar ty_int /\ no_uchar ty_finals /\ no_uchar ty_transitions.
Proof. cbn. repeat split; discriminate. Qed.
(** What was serialised comes back, whatever follows it in the stream; every cut is an
    exception; and two transducers with the same bytes are the same. *)
Theorem C53_roundtrip : forall t rest, in_memory t -> t_deserialise (t_serialise t ++ rest) = Ok (t, rest).
Proof.
  intros t rest H. destruct (sv_has_ty t H) as (T1 & T2 & T3). destruct types_plain as (P1 & P2 & P3). destruct (vs_sv t) as (V1 & V2).
  unfold t_deserialise, t_serialise. rewrite <- !app_assoc.
  rewrite (C06_roundtrip _ _ _ P1 T1). cbn [obind]. rewrite (C06_roundtrip _ _ _ P2 T2). cbn [obind].
  rewrite (C06_roundtrip _ _ _ P3 T3). cbn [obind]. rewrite V1, V2. destruct t. reflexivity.
Qed.
Theorem C53_unique : forall t u, in_memory t -> in_memory u -> t_serialise t = t_serialise u -> t = u.
Proof.
  intros t u Ht Hu E. pose proof (C53_roundtrip t [] Ht) as H1. pose proof (C53_roundtrip u [] Hu) as H2. rewrite E in H1. congruence.
Qed.
Theorem C53_truncated : forall t p q, in_memory t -> t_serialise t = p ++ q -> q <> [] -> t_deserialise p = Throw.
Proof.
  intros t p q H E Hq. destruct (sv_has_ty t H) as (T1 & T2 & T3). destruct types_plain as (P1 & P2 & P3).
  unfold t_serialise in E. unfold t_deserialise.
  set (a := serialise ty_int (SInt (m_initial t))) in *. set (b := serialise ty_finals (sv_finals (m_finals t))) in *.
  set (c := serialise ty_transitions (sv_trans (m_trans t))) in *.
  assert (Split : forall (x y p q : list Z), x ++ y = p ++ q -> (exists r, x = p ++ r /\ r <> []) \/ (exists r, p = x ++ r /\ y = r ++ q)).
  { clear. induction x as [|z x IH]; intros y p q E; [right; exists p; auto|]. destruct p as [|w p].
    - left. exists (z :: x). split; [reflexivity|discriminate].
    - cbn [app] in E. assert (z = w) by congruence. subst w. destruct (IH y p q ltac:(congruence)) as [(r & -> & Hr)|(r & -> & ->)].
      + left. exists r. auto.
      + right. exists r. auto. }
  destruct (Split a (b ++ c) p q E) as [(r & Ea & Hr)|(r & -> & E2)].
  { rewrite (C06_truncated_refused ty_int _ p r P1 T1 Ea Hr). reflexivity. }
  rewrite (C06_roundtrip _ _ _ P1 T1). cbn [obind].
  destruct (Split b c r q E2) as [(r2 & Eb & Hr)|(r2 & -> & E3)].
  { rewrite (C06_truncated_refused ty_finals _ r r2 P2 T2 Eb Hr). reflexivity. }
  rewrite (C06_roundtrip _ _ _ P2 T2). cbn [obind].
  rewrite (C06_truncated_refused ty_transitions _ r2 q P3 T3 E3 Hq). reflexivity.
Qed.
Example C53_example :
  let t := mkMT 0 [(1, 4607182418800017408)] [(0, [(-3, (1, 0)); (5, (0, 7))]); (1, [])] in
  in_memory t /\ t_deserialise (t_serialise t ++ [9]) = Ok (t, [9]).
Proof.
  split; [|vm_compute; reflexivity]. unfold in_memory, int32, double. cbn [m_initial m_finals m_trans states map fst snd length increasing].
  repeat (split || constructor); cbn [fst snd]; lia.
Qed.

Print Assumptions C14_call.
Print Assumptions C14_history.
Print Assumptions C14_from_new.
Print Assumptions C14_no_exit.
Print Assumptions C14_missing_source_refuted.
Print Assumptions C14_same_as_lists.
Print Assumptions C53_roundtrip.
Print Assumptions C53_unique.
Print Assumptions C53_truncated.
