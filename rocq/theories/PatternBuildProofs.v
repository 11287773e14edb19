(** C69: the automaton built from patterns.  States are the beginnings of patterns. *)
From Verif Require Import Base CompressionModel AlphabetModel TransducerModel TransducerSpec TransducerProofs TrieProofs MatchModel PatternModel AlphabetProofs.

(** * Linking *)
Definition rows (t : transducer) : Prop :=
  forall p, NoDup (arcs_of t p) /\ arcs_sorted (arcs_of t p) /\ forall v q w, In (v, (q, w)) (arcs_of t p) -> w = 0 /\ (q < nstates t)%nat.
Definition with_arc (t t' : transducer) (n : nat) (L : list (nat * arc)) : Prop :=
  rows t' /\ nstates t' = n /\ initial t' = initial t /\ finals t' = finals t
  /\ forall p x, In x (arcs_of t' p) <-> In x (arcs_of t p) \/ In (p, x) L.
Lemma NoDup_insert : forall (x : arc) l, NoDup l -> ~ In x l -> NoDup (mm_insert x l).
Proof.
  intros x l H Hn. induction l as [|y l IH]; cbn [mm_insert]; [constructor; auto; constructor|]. destruct (a_tag x <? a_tag y).
  - constructor; auto.
  - inversion H; subst. constructor; [|apply IH; auto; intros K; apply Hn; now right]. rewrite mm_insert_in. intros [->|K]; [apply Hn; now left|contradiction].
Qed.
Lemma add_with : forall t p v q, rows t -> (p < nstates t)%nat -> (q < nstates t)%nat -> ~ In (v, (q, 0)) (arcs_of t p) ->
  with_arc t (add_arc p (v, (q, 0)) t) (nstates t) [(p, (v, (q, 0)))].
Proof.
  intros t p v q R Hp Hq Hn.
  assert (M : forall p' x, In x (arcs_of (add_arc p (v, (q, 0)) t) p') <-> In x (arcs_of t p') \/ In (p', x) [(p, (v, (q, 0)))]).
  { intros p' x. destruct (Nat.eq_dec p' p) as [->|N].
    - rewrite arcs_add_same by exact Hp. rewrite mm_insert_in. cbn [In]. split; [intros [->|K]; auto|intros [K|[K|[]]]; [now right|left; congruence]].
    - rewrite arcs_add_other by exact N. cbn [In]. split; [auto|intros [K|[K|[]]]; [exact K|congruence]]. }
  split; [|split; [apply nstates_add_arc|split; [reflexivity|split; [reflexivity|exact M]]]].
  intros p'. destruct (R p') as (R1 & R2 & R3). destruct (Nat.eq_dec p' p) as [->|N].
  - split; [|split].
    + rewrite arcs_add_same by exact Hp. now apply NoDup_insert.
    + rewrite arcs_add_same by exact Hp. now apply mm_insert_sorted.
    + intros v' q' w' K. rewrite nstates_add_arc. apply M in K as [K|[K|[]]]; [now apply R3 in K|]. injection K as <- <- <-. auto.
  - rewrite (arcs_add_other _ _ _ _ N), nstates_add_arc. split; [exact R1|]. split; [exact R2|exact R3].
Qed.
Lemma link_with : forall t p v q, rows t -> (p < nstates t)%nat -> (q < nstates t)%nat ->
  exists t', linkStates p q v 0 t = Ok t' /\ with_arc t t' (nstates t) [(p, (v, (q, 0)))].
Proof.
  intros t p v q R Hp Hq. unfold linkStates.
  replace ((p <? nstates t)%nat && (q <? nstates t)%nat) with true by (symmetry; apply andb_true_iff; split; apply Nat.ltb_lt; auto).
  destruct (existsb _ _) eqn:E.
  - exists t. split; [reflexivity|]. apply existsb_exists in E as ([v' [q' w']] & Hi & E). apply andb_true_iff in E as [E1 E2].
    apply Z.eqb_eq in E1. apply Nat.eqb_eq in E2. cbn in E1, E2. subst. apply filter_In in Hi as [Hi _].
    destruct (R p) as (_ & _ & R3). destruct (R3 _ _ _ Hi) as [-> _].
    split; [exact R|]. split; [reflexivity|]. split; [reflexivity|]. split; [reflexivity|]. intros p' x. cbn [In]. split; [auto|].
    intros [K|[K|[]]]; [exact K|]. injection K as <- <-. exact Hi.
  - eexists. split; [reflexivity|]. apply add_with; auto. intros K.
    assert (X : existsb (fun a => (a_tag a =? v) && (a_dst a =? q)%nat) (equal_range v (arcs_of t p)) = true); [|congruence].
    apply existsb_exists. exists (v, (q, 0)). split; [apply filter_In; split; [exact K|apply Z.eqb_refl]|]. cbn. now rewrite Z.eqb_refl, Nat.eqb_refl.
Qed.
Lemma with_trans : forall t t1 t2 n1 n2 L1 L2, with_arc t t1 n1 L1 -> with_arc t1 t2 n2 L2 -> with_arc t t2 n2 (L1 ++ L2).
Proof.
  intros t t1 t2 n1 n2 L1 L2 (_ & _ & I1 & F1 & M1) (R & N & I2 & F2 & M2).
  split; [exact R|]. split; [exact N|]. split; [congruence|]. split; [congruence|]. intros p x. rewrite M2, M1, in_app_iff. tauto.
Qed.
(** insertSingleTransduction where nothing is there yet, and where one arc is *)
Lemma insert_new : forall t p v, rows t -> (p < nstates t)%nat -> (forall q w, ~ In (v, (q, w)) (arcs_of t p)) ->
  exists t', insert_or_ub v p t = Ok (nstates t, t') /\ with_arc t t' (S (nstates t)) [(p, (v, (nstates t, 0)))].
Proof.
  intros t p v R Hp Hn. unfold insert_or_ub, insertSingleTransduction. replace (p <? nstates t)%nat with true by (symmetry; apply Nat.ltb_lt; auto).
  assert (E : equal_range v (arcs_of t p) = []).
  { destruct (equal_range v (arcs_of t p)) as [|[v' [q w]] l] eqn:E; [reflexivity|exfalso].
    assert (K : In (v', (q, w)) (equal_range v (arcs_of t p))) by (rewrite E; now left). apply filter_In in K as [K1 K2]. apply Z.eqb_eq in K2. cbn in K2. subst. eapply Hn; eauto. }
  rewrite E. destruct (newState_spec t) as (N1 & N2 & N3 & N4 & N5). destruct (newState t) as [n t1] eqn:En. cbn [fst snd] in *. subst n.
  eexists. split; [reflexivity|].
  assert (R1 : rows t1).
  { intros p'. rewrite N5, N2. destruct (R p') as (X1 & X2 & X3). split; [exact X1|]. split; [exact X2|]. intros v' q' w' K. apply X3 in K. lia. }
  assert (W : with_arc t t1 (S (nstates t)) []).
  { split; [exact R1|]. split; [exact N2|]. split; [exact N3|]. split; [exact N4|]. intros p' x. rewrite N5. cbn. tauto. }
  rewrite <- N2. eapply (with_trans t t1 _ _ _ [] _ W). rewrite <- N2 in *. apply add_with; auto; try lia. rewrite N5. apply Hn.
Qed.
Lemma insert_old : forall t p v q, rows t -> (p < nstates t)%nat -> In (v, (q, 0)) (arcs_of t p) ->
  (forall q' w, In (v, (q', w)) (arcs_of t p) -> q' = q) -> insert_or_ub v p t = Ok (q, t).
Proof.
  intros t p v q R Hp Hi Hu. unfold insert_or_ub, insertSingleTransduction. replace (p <? nstates t)%nat with true by (symmetry; apply Nat.ltb_lt; auto).
  assert (E : equal_range v (arcs_of t p) = [(v, (q, 0))]).
  { destruct (R p) as (R1 & _ & R3). unfold equal_range.
    assert (K : forall x, In x (filter (fun a => a_tag a =? v) (arcs_of t p)) <-> x = (v, (q, 0))).
    { intros [v' [q' w']]. rewrite filter_In. cbn [a_tag fst]. split.
      - intros [X Y]. apply Z.eqb_eq in Y. subst. pose proof (Hu _ _ X). apply R3 in X as [-> _]. congruence.
      - intros X. injection X as -> -> ->. split; [exact Hi|apply Z.eqb_refl]. }
    assert (D : NoDup (filter (fun a => a_tag a =? v) (arcs_of t p))) by now apply NoDup_filter.
    destruct (filter (fun a => a_tag a =? v) (arcs_of t p)) as [|x [|y l]].
    - exfalso. apply (proj2 (K _) eq_refl).
    - f_equal. apply K. now left.
    - exfalso. assert (x = (v, (q, 0))) by (apply K; now left). assert (y = (v, (q, 0))) by (apply K; right; now left). inversion D; subst. apply H3. now left. }
  rewrite E. reflexivity.
Qed.

(** * The trie *)
Section Build.
  Context (a : alphabet).
  Notation anyc := (symbol_code ANY_CHAR a).
  Notation anyt := (symbol_code ANY_TAG a).
  Notation queue := (symbol_code QUEUE a).
  Hypothesis Hac : anyc < 0. Hypothesis Hat : anyt < 0. Hypothesis Hq : queue < 0.
  Hypothesis Hcq : anyc <> queue. Hypothesis Htq : anyt <> queue. Hypothesis Hct : anyc <> anyt.
  Definition any (v : Z) : Prop := v = anyc \/ v = anyt.
  Definition qmark (v : Z) : Prop := In v [95; 32; 35].

  (** The beginnings of the patterns *)
  Context (B : list Z -> Prop).
  Hypothesis B_prefix : forall k v, B (k ++ [v]) -> B k.
  Hypothesis c1 : forall k v, any v -> B (k ++ [v; v]) -> False.
  Hypothesis c2 : forall k v, B (k ++ [queue]) -> B (k ++ [v]) -> ~ qmark v.
  Hypothesis c3 : forall k v, B (k ++ [queue; v]) -> ~ any v /\ ~ qmark v /\ v <> queue.
  Hypothesis c4 : forall k v, B (k ++ [queue; v]) -> B (k ++ [v]) -> False.

  (** An arc from [k] to [k'] *)
  Definition link (k : list Z) (v : Z) (k' : list Z) : Prop :=
    (k' = k ++ [v] /\ v <> queue) \/ (k' = k /\ any v /\ exists k0, k = k0 ++ [v])
    \/ (k' = k ++ [queue] /\ qmark v) \/ (k' = k /\ v = anyc /\ exists k0, k = k0 ++ [queue])
    \/ (k' = k ++ [queue; v] /\ v <> queue).
  Lemma qmark_pos : forall v, qmark v -> 0 < v.
  Proof. intros v [<-|[<-|[<-|[]]]]; lia. Qed.
  Lemma any_neg : forall v, any v -> v < 0 /\ v <> queue.
  Proof. intros v [->| ->]; auto. Qed.
  Lemma snoc_inj : forall (x y : list Z) u v, x ++ [u] = y ++ [v] -> x = y /\ u = v.
  Proof. intros. now apply app_inj_tail. Qed.
  Lemma snoc2 : forall (x : list Z) u v, x ++ [u; v] = (x ++ [u]) ++ [v].
  Proof. intros. now rewrite <- app_assoc. Qed.
  Lemma snoc_neq : forall (x : list Z) y, y <> [] -> x ++ y <> x.
  Proof. intros x y Hy E. apply (f_equal (@length Z)) in E. rewrite app_length in E. destruct y; [congruence|cbn in E; lia]. Qed.
  (** At most one target for each symbol *)
  Lemma link_det : forall k v k1 k2, B k -> B k1 -> B k2 -> link k v k1 -> link k v k2 -> k1 = k2.
  Proof.
    intros k v k1 k2 Bk B1 B2 H1 H2.
    assert (AB : any v -> (exists k0, k = k0 ++ [v]) -> B (k ++ [v]) -> False).
    { intros A (k0 & ->) X. rewrite <- snoc2 in X. eauto. }
    assert (AD : v = anyc -> (exists k0, k = k0 ++ [queue]) -> B (k ++ [v]) -> False).
    { intros -> (k0 & ->) X. rewrite <- snoc2 in X. apply c3 in X as (X & _). apply X. now left. }
    assert (QA : any v -> qmark v -> False).
    { intros A Q. apply qmark_pos in Q. apply any_neg in A. lia. }
    assert (AE : B (k ++ [queue; v]) -> ~ any v /\ ~ qmark v) by (intros X; apply c3 in X; tauto).
    assert (DE : (exists k0, k = k0 ++ [queue]) -> B (k ++ [queue; v]) -> False).
    { intros (k0 & ->) X. rewrite (snoc2 (k0 ++ [queue]) queue v) in X. apply B_prefix in X. rewrite <- snoc2 in X. apply c3 in X. tauto. }
    assert (CC : any anyc) by now left.
    assert (K : link k v k1 -> link k v k2 -> B k1 -> B k2 -> k1 = k2); [|now apply K].
    clear H1 H2 B1 B2. intros H1 H2 B1 B2.
    destruct H1 as [[-> N1]|[(-> & A1 & E1)|[(-> & Q1)|[(-> & V1 & E1)|(-> & N1)]]]];
    destruct H2 as [[-> N2]|[(-> & A2 & E2)|[(-> & Q2)|[(-> & V2 & E2)|(-> & N2)]]]]; try reflexivity; exfalso;
    try (pose proof (AE B1)); try (pose proof (AE B2)); try subst v; eauto; try tauto; try exact (c2 _ _ B2 B1 Q2); try exact (c2 _ _ B1 B2 Q1); try (eapply c4; eassumption).
  Qed.

  Record trie (ks : list (list Z)) (t : transducer) : Prop := {
    tr_rows : rows t; tr_len : length ks = nstates t; tr_init : initial t = 0%nat;
    tr_root : nth_error ks 0 = Some []; tr_nodup : NoDup ks;
    tr_B : forall k, In k ks -> B k;
    tr_closed : forall k v, In (k ++ [v]) ks -> In k ks;
    tr_arcs : forall p kp v q, nth_error ks p = Some kp ->
      (In (v, (q, 0)) (arcs_of t p) <-> exists kq, nth_error ks q = Some kq /\ link kp v kq) }.
  Lemma trie_lt : forall ks t p k, trie ks t -> nth_error ks p = Some k -> (p < nstates t)%nat.
  Proof. intros ks t p k T H. rewrite <- (tr_len _ _ T). apply nth_error_Some. congruence. Qed.
  Lemma key_unique : forall ks t p q k, trie ks t -> nth_error ks p = Some k -> nth_error ks q = Some k -> p = q.
  Proof. intros ks t p q k T H1 H2. eapply NoDup_nth_error; [apply (tr_nodup _ _ T)|apply nth_error_Some; congruence|congruence]. Qed.
  Lemma arc_unique : forall ks t p kp v q q' w, trie ks t -> nth_error ks p = Some kp -> In (v, (q, 0)) (arcs_of t p) -> In (v, (q', w)) (arcs_of t p) -> q' = q.
  Proof.
    intros ks t p kp v q q' w T Hp H1 H2. destruct (tr_rows _ _ T p) as (_ & _ & R3). destruct (R3 _ _ _ H2) as [-> _].
    apply (tr_arcs _ _ T _ _ _ _ Hp) in H1 as (k1 & E1 & L1). apply (tr_arcs _ _ T _ _ _ _ Hp) in H2 as (k2 & E2 & L2).
    assert (k1 = k2). { eapply link_det; eauto; apply (tr_B _ _ T); eapply nth_error_In; eauto. }
    subst. eapply key_unique; eauto.
  Qed.
  (** adding nothing new *)
  Lemma trie_same : forall ks t t' L, trie ks t -> with_arc t t' (nstates t) L ->
    (forall p x, In (p, x) L -> In x (arcs_of t p)) -> trie ks t'.
  Proof.
    intros ks t t' L [T1 T2 T3 T4 T5 T6 T7 T8] (R & N & I & _ & M) HL. constructor; auto; try congruence.
    intros p kp v q Hp. rewrite M, <- (T8 _ _ _ _ Hp). split; [intros [K|K]; auto|auto].
  Qed.
  (** adding a key with all its arcs *)
  Lemma trie_grow : forall ks t t' kn L, trie ks t -> with_arc t t' (S (nstates t)) L ->
    B kn -> ~ In kn ks -> (exists k v, kn = k ++ [v] /\ In k ks) ->
    (forall p v q, In (p, (v, (q, 0))) L <-> q = nstates t /\ exists kp, nth_error (ks ++ [kn]) p = Some kp /\ link kp v kn) ->
    trie (ks ++ [kn]) t'.
  Proof.
    intros ks t t' kn L T (R & N & I & _ & M) Hb Hn (k & v0 & Ek & Hk) HL. pose proof T as [T1 T2 T3 T4 T5 T6 T7 T8]. constructor; auto.
    - rewrite app_length. cbn. lia.
    - congruence.
    - rewrite nth_error_app1; [exact T4|]. apply nth_error_Some. congruence.
    - now apply NoDup_snoc.
    - intros x Hx. apply in_app_or in Hx as [Hx|[<-|[]]]; auto.
    - intros x v Hx. apply in_app_or in Hx as [Hx|[Hx|[]]]; [apply in_or_app; left; eauto|]. subst kn. apply snoc_inj in Hx as [-> _]. apply in_or_app. now left.
    - assert (Hlen : forall x, nth_error (ks ++ [kn]) x = if (x =? nstates t)%nat then Some kn else nth_error ks x).
      { intros x. destruct (Nat.eqb_spec x (nstates t)) as [->|Hx].
        - rewrite nth_error_app2 by lia. rewrite T2, Nat.sub_diag. reflexivity.
        - destruct (Nat.lt_ge_cases x (nstates t)); [rewrite nth_error_app1 by lia; reflexivity|].
          rewrite (proj2 (nth_error_None ks x)) by lia. apply nth_error_None. rewrite app_length. cbn. lia. }
      assert (Hout : forall v kq, In kq ks -> link kn v kq -> False).
      { intros v kq Hkq [[-> _]|[(-> & _)|[(-> & _)|[(-> & _)|(-> & _)]]]]; auto.
        - apply T7 in Hkq. auto.
        - apply T7 in Hkq. auto.
        - rewrite snoc2 in Hkq. apply T7, T7 in Hkq. auto. }
      intros p kp v q Hp. rewrite M, HL. rewrite Hlen in Hp. destruct (Nat.eqb_spec p (nstates t)) as [->|Hpn].
      + injection Hp as <-. split.
        * intros [K|(-> & kp' & E & K)].
          -- exfalso. unfold arcs_of in K. rewrite nth_overflow in K; [destruct K|unfold nstates; lia].
          -- rewrite Hlen, Nat.eqb_refl in E. injection E as <-. exists kn. rewrite Hlen, Nat.eqb_refl. auto.
        * intros (kq & E & K). rewrite Hlen in E. destruct (Nat.eqb_spec q (nstates t)) as [->|Hkq].
          -- right. split; [reflexivity|]. exists kn. rewrite Hlen, Nat.eqb_refl. injection E as <-. auto.
          -- exfalso. exact (Hout v kq (nth_error_In _ _ E) K).
      + rewrite (T8 _ _ _ _ Hp). split.
        * intros [(kq & E & K)|(-> & kp' & E & K)].
          -- exists kq. split; [|exact K]. rewrite nth_error_app1; [exact E|]. apply nth_error_Some. congruence.
          -- exists kn. rewrite Hlen, Nat.eqb_refl. split; [reflexivity|]. rewrite Hlen in E. destruct (Nat.eqb_spec p (nstates t)); [lia|]. congruence.
        * intros (kq & E & K). rewrite Hlen in E. destruct (Nat.eqb_spec q (nstates t)) as [->|Hkq].
          -- right. split; [reflexivity|]. exists kp. injection E as <-. split; [|exact K]. rewrite Hlen. destruct (Nat.eqb_spec p (nstates t)); [lia|exact Hp].
          -- left. eauto.
  Qed.

  (** where prevstate is *)
  Definition prev_ok (ks : list (list Z)) (k : list Z) (prev : option nat) : Prop :=
    match prev with
    | Some p => exists k0, k = k0 ++ [queue] /\ nth_error ks p = Some k0
    | None => forall k0, k <> k0 ++ [queue]
    end.
  Definition extends_keys (ks ks' : list (list Z)) : Prop := exists x, ks' = ks ++ x.
  Lemma extends_nth : forall ks ks' p k, extends_keys ks ks' -> nth_error ks p = Some k -> nth_error ks' p = Some k.
  Proof. intros ks ks' p k (x & ->) H. rewrite nth_error_app1; [exact H|]. apply nth_error_Some. congruence. Qed.
  Lemma prev_extends : forall ks ks' k prev, extends_keys ks ks' -> prev_ok ks k prev -> prev_ok ks' k prev.
  Proof. intros ks ks' k [p|] E H; [|exact H]. destruct H as (k0 & -> & H). exists k0. split; [reflexivity|]. eapply extends_nth; eauto. Qed.
  (** one symbol, whose key is [kn] *)
  Definition stepped (ks : list (list Z)) (t : transducer) (kn : list Z) (o : outcome (transducer * nat * option nat)) : Prop :=
    exists ks' t' s' prev', o = Ok (t', s', prev') /\ trie ks' t' /\ extends_keys ks ks' /\ nth_error ks' s' = Some kn
      /\ prev_ok ks' kn prev' /\ finals t' = finals t /\ (forall x, In x ks' -> In x ks \/ x = kn).
  Lemma key_dec : forall (k : list Z) ks, In k ks \/ ~ In k ks.
  Proof. intros k ks. destruct (in_dec (list_eq_dec Z.eq_dec) k ks); auto. Qed.

  Lemma step_plain : forall ks t s k prev v, trie ks t -> nth_error ks s = Some k -> prev_ok ks k prev -> v <> queue -> B (k ++ [v]) ->
    stepped ks t (k ++ [v]) (build_symbol a v (t, s, prev)).
  Proof.
    intros ks t s k prev v T Hs Hp Hv HB.
    assert (NQ : forall k0, k ++ [v] <> k0 ++ [queue]) by (intros k0 E; apply snoc_inj in E as [_ E]; contradiction).
    pose proof (trie_lt _ _ _ _ T Hs) as Ls.
    (* what the three links do *)
    assert (G : forall t1 n m, insert_or_ub v s t = Ok (n, t1) -> with_arc t t1 m [(s, (v, (n, 0)))] -> m = nstates t1 -> (n < m)%nat -> (s < m)%nat -> (nstates t <= m)%nat ->
      exists t' L, with_arc t t' m L /\ build_symbol a v (t, s, prev) = Ok (t', n, None)
        /\ forall p v' q, In (p, (v', (q, 0))) L <-> v' = v /\ q = n /\ (p = s \/ prev = Some p \/ (any v /\ p = n))).
    { intros t1 n m E W -> Ln Ls1 Lm. unfold build_symbol. rewrite E. cbn [obind].
      assert (Lp : exists t2 L2, link_prev prev n v t1 = Ok t2 /\ with_arc t1 t2 (nstates t1) L2 /\ forall p x, In (p, x) L2 <-> x = (v, (n, 0)) /\ prev = Some p).
      { destruct prev as [p0|]; cbn [link_prev].
        - destruct Hp as (k0 & -> & Hp). pose proof (trie_lt _ _ _ _ T Hp).
          destruct (link_with t1 p0 v n (proj1 W)) as (t2 & E2 & W2); [lia|lia|]. exists t2, [(p0, (v, (n, 0)))]. split; [exact E2|]. split; [exact W2|].
          intros p x. cbn [In]. split; [intros [X|[]]; inversion X; auto|intros [-> X]; injection X as <-; now left].
        - exists t1, []. split; [reflexivity|]. split; [|cbn; intros p x; split; [intros []|intros [_ X]; discriminate X]].
          destruct W as (W1 & _). split; [exact W1|]. split; [reflexivity|]. split; [reflexivity|]. split; [reflexivity|]. cbn. tauto. }
      destruct Lp as (t2 & L2 & E2 & W2 & M2). rewrite E2. cbn [obind].
      pose proof (proj1 (proj2 W2)) as N2.
      assert (X0 : (queue =? v) = false) by (apply Z.eqb_neq; congruence). rewrite X0.
      destruct ((anyc =? v) || (anyt =? v)) eqn:Ea.
      - destruct (link_with t2 n v n (proj1 W2)) as (t3 & E3 & W3); [lia|lia|]. rewrite E3. cbn [obind].
        rewrite N2 in W3. exists t3, (([(s, (v, (n, 0)))] ++ L2) ++ [(n, (v, (n, 0)))]). split; [eapply with_trans; [eapply with_trans; eauto|exact W3]|]. split; [reflexivity|].
        assert (A : any v) by (apply orb_true_iff in Ea as [Ea|Ea]; apply Z.eqb_eq in Ea; [left|right]; congruence).
        intros p v' q. rewrite !in_app_iff, M2. cbn [In]. split.
        + intros [[[X|[]]|[X Y]]|[X|[]]]; injection X; intros; subst; auto 6.
        + intros (-> & -> & [-> |[-> |[_ ->]]]); auto 6.
      - exists t2, ([(s, (v, (n, 0)))] ++ L2). split; [eapply with_trans; eauto|]. split; [reflexivity|].
        assert (A : ~ any v).
        { intros [-> | ->]; rewrite Z.eqb_refl in Ea; [|rewrite orb_true_r in Ea]; discriminate. }
        intros p v' q. rewrite !in_app_iff, M2. cbn [In]. split.
        + intros [[X|[]]|[X Y]]; injection X; intros; subst; auto 6.
        + intros (-> & -> & [-> |[-> |[X ->]]]); auto 6. }
    destruct (key_dec (k ++ [v]) ks) as [Hin|Hn].
    - apply In_nth_error in Hin as [n Hk].
      assert (A : In (v, (n, 0)) (arcs_of t s)) by (apply (tr_arcs _ _ T _ _ _ _ Hs); exists (k ++ [v]); split; [exact Hk|left; auto]).
      assert (E : insert_or_ub v s t = Ok (n, t)).
      { apply insert_old; auto; [apply (tr_rows _ _ T)|]. intros q' w X. exact (arc_unique _ _ _ _ _ _ _ _ T Hs A X). }
      assert (W : with_arc t t (nstates t) [(s, (v, (n, 0)))]).
      { split; [apply (tr_rows _ _ T)|]. split; [reflexivity|]. split; [reflexivity|]. split; [reflexivity|]. intros p x. cbn. split; [auto|intros [X|[X|[]]]; [exact X|]]. injection X as <- <-. exact A. }
      destruct (G _ _ _ E W eq_refl (trie_lt _ _ _ _ T Hk) Ls (le_n _)) as (t' & L & W' & E' & M).
      exists ks, t', n, None. split; [exact E'|]. split; [|split; [exists []; now rewrite app_nil_r|split; [exact Hk|split; [exact NQ|split; [apply W'|auto]]]]].
      apply (trie_same ks t t' L T W'). intros p [v' [q w]] X.
      assert (w = 0 /\ (q < nstates t')%nat) as [-> _].
      { destruct W' as (R & _ & _ & _ & MM). destruct (R p) as (_ & _ & R3). eapply R3. apply MM. right. exact X. }
      apply M in X as (-> & -> & X). destruct X as [->|[->|[X ->]]]; [exact A| |].
      + destruct Hp as (k0 & -> & Hp). apply (tr_arcs _ _ T _ _ _ _ Hp). exists ((k0 ++ [queue]) ++ [v]). split; [exact Hk|]. rewrite <- snoc2. right; right; right; right. auto.
      + apply (tr_arcs _ _ T _ _ _ _ Hk). exists (k ++ [v]). split; [exact Hk|]. right; left. split; [reflexivity|]. split; [exact X|]. eauto.
    - destruct (insert_new t s v (tr_rows _ _ T) Ls) as (t1 & E & W).
      { intros q w X. destruct (tr_rows _ _ T s) as (_ & _ & R3). destruct (R3 _ _ _ X) as [-> _].
        apply (tr_arcs _ _ T _ _ _ _ Hs) in X as (kq & Eq & X). apply Hn. replace (k ++ [v]) with kq; [eapply nth_error_In; eauto|].
        apply (link_det k v kq (k ++ [v])); [apply (tr_B _ _ T); eapply nth_error_In; eauto|apply (tr_B _ _ T); eapply nth_error_In; eauto|exact HB|exact X|left; auto]. }
      destruct (G _ _ _ E W (eq_sym (proj1 (proj2 W)))) as (t' & L & W' & E' & M); try lia.
      assert (Hend : nth_error (ks ++ [k ++ [v]]) (nstates t) = Some (k ++ [v])) by (rewrite nth_error_app2, (tr_len _ _ T), Nat.sub_diag; [reflexivity|rewrite (tr_len _ _ T); lia]).
      assert (Ext : extends_keys ks (ks ++ [k ++ [v]])) by (eexists; reflexivity).
      assert (T' : trie (ks ++ [k ++ [v]]) t').
      { apply (trie_grow ks t t' _ L T W' HB Hn); [exists k, v; split; [reflexivity|eapply nth_error_In; eauto]|].
        assert (Hfind : forall p kp, nth_error (ks ++ [k ++ [v]]) p = Some kp -> (kp = k ++ [v] /\ p = nstates t) \/ nth_error ks p = Some kp).
        { intros p kp X. destruct (Nat.lt_ge_cases p (length ks)) as [Y|Y]; [rewrite nth_error_app1 in X by exact Y; auto|].
          rewrite nth_error_app2 in X by exact Y. destruct (p - length ks)%nat as [|m] eqn:Em; cbn in X; [|destruct m; discriminate X].
          left. injection X as <-. split; [reflexivity|]. rewrite <- (tr_len _ _ T). lia. }
        intros p v' q. rewrite M. split.
        - intros (-> & -> & X). split; [reflexivity|]. destruct X as [->|[->|[X ->]]].
          + exists k. split; [eapply extends_nth; eauto|left; auto].
          + destruct Hp as (k0 & -> & Hp). exists k0. split; [eapply extends_nth; eauto|]. rewrite <- snoc2. right; right; right; right. auto.
          + exists (k ++ [v]). split; [exact Hend|]. right; left. split; [reflexivity|]. split; [exact X|]. eauto.
        - intros (-> & kp & X & Y). assert (Y' := Y).
          destruct Y as [[Y N]|[(Y & Z1 & k0 & Z2)|[(Y & _)|[(Y & _ & k0 & Z2)|(Y & N)]]]].
          + apply snoc_inj in Y as [<- <-]. split; [reflexivity|]. split; [reflexivity|]. left. apply Hfind in X as [[X _]|X]; [symmetry in X; exfalso; revert X; apply snoc_neq; discriminate|]. eapply key_unique; eauto.
          + subst kp. apply snoc_inj in Z2 as [_ <-]. split; [reflexivity|]. split; [reflexivity|]. right; right. split; [exact Z1|].
            apply Hfind in X as [[_ X]|X]; [exact X|exfalso; apply Hn; eapply nth_error_In; eauto].
          + apply NQ in Y as [].
          + subst kp. apply NQ in Z2 as [].
          + rewrite snoc2 in Y. apply snoc_inj in Y as [-> <-]. split; [reflexivity|]. split; [reflexivity|]. right; left.
            destruct prev as [p0|]; [|exfalso; eapply Hp; reflexivity]. destruct Hp as (k0 & Ek & Hp). apply snoc_inj in Ek as [<- _]. f_equal.
            apply Hfind in X as [[X _]|X].
            * exfalso. apply (f_equal (@length Z)) in X. rewrite !app_length in X. cbn in X. lia.
            * eapply key_unique; eauto. }
      exists (ks ++ [k ++ [v]]), t', (nstates t), None. split; [exact E'|]. split; [exact T'|]. split; [exact Ext|]. split; [exact Hend|]. split; [exact NQ|]. split; [apply W'|].
      intros x X. apply in_app_or in X as [X|[<-|[]]]; auto.
  Qed.

  Lemma step_queue : forall ks t s k, trie ks t -> nth_error ks s = Some k -> prev_ok ks k None -> B (k ++ [queue]) ->
    stepped ks t (k ++ [queue]) (build_symbol a queue (t, s, None)).
  Proof.
    intros ks t s k T Hs Hp HB.
    pose proof (trie_lt _ _ _ _ T Hs) as Ls.
    assert (G : forall t1 n m, insert_or_ub 95 s t = Ok (n, t1) -> with_arc t t1 m [(s, (95, (n, 0)))] -> m = nstates t1 -> (n < m)%nat -> (s < m)%nat ->
      exists t' L, with_arc t t' m L /\ build_symbol a queue (t, s, None) = Ok (t', n, Some s)
        /\ forall p v' q, In (p, (v', (q, 0))) L <-> q = n /\ ((p = s /\ qmark v') \/ (p = n /\ v' = anyc))).
    { intros t1 n m E W -> Ln Ls1. unfold build_symbol. rewrite E. cbn [obind].
      assert (X1 : (anyc =? queue) || (anyt =? queue) = false) by (apply orb_false_iff; split; apply Z.eqb_neq; assumption).
      rewrite X1, Z.eqb_refl.
      destruct (link_with t1 s 32 n (proj1 W)) as (t2 & E2 & W2); [lia|lia|]. rewrite E2. cbn [obind]. pose proof (proj1 (proj2 W2)) as N2.
      destruct (link_with t2 s 35 n (proj1 W2)) as (t3 & E3 & W3); [lia|lia|]. rewrite E3. cbn [obind]. pose proof (proj1 (proj2 W3)) as N3.
      destruct (link_with t3 n anyc n (proj1 W3)) as (t4 & E4 & W4); [lia|lia|]. rewrite E4. cbn [obind]. pose proof (proj1 (proj2 W4)) as N4.
      exists t4, ((([(s, (95, (n, 0)))] ++ [(s, (32, (n, 0)))]) ++ [(s, (35, (n, 0)))]) ++ [(n, (anyc, (n, 0)))]).
      split; [rewrite <- N2, <- N3; eapply with_trans; [eapply with_trans; [eapply with_trans; [exact W|exact W2]|exact W3]|exact W4]|]. split; [reflexivity|].
      intros p v' q. cbn [app In]. unfold qmark. cbn [In]. split.
      - intros [X|[X|[X|[X|[]]]]]; injection X; intros; subst; auto 8.
      - intros (-> & [[-> [<-|[<-|[<-|[]]]]]|[-> ->]]); auto 8. }
    assert (Q95 : qmark 95) by now left.
    destruct (key_dec (k ++ [queue]) ks) as [Hin|Hn].
    - apply In_nth_error in Hin as [n Hk].
      assert (A : forall v, qmark v -> In (v, (n, 0)) (arcs_of t s)) by (intros v Hv; apply (tr_arcs _ _ T _ _ _ _ Hs); exists (k ++ [queue]); split; [exact Hk|right; right; left; auto]).
      assert (E : insert_or_ub 95 s t = Ok (n, t)).
      { apply insert_old; auto; [apply (tr_rows _ _ T)|]. intros q' w X. exact (arc_unique _ _ _ _ _ _ _ _ T Hs (A _ Q95) X). }
      assert (W : with_arc t t (nstates t) [(s, (95, (n, 0)))]).
      { split; [apply (tr_rows _ _ T)|]. split; [reflexivity|]. split; [reflexivity|]. split; [reflexivity|]. intros p x. cbn. split; [auto|intros [X|[X|[]]]; [exact X|]]. injection X as <- <-. apply A, Q95. }
      destruct (G _ _ _ E W eq_refl (trie_lt _ _ _ _ T Hk) Ls) as (t' & L & W' & E' & M).
      exists ks, t', n, (Some s). split; [exact E'|]. split; [|split; [exists []; now rewrite app_nil_r|split; [exact Hk|split; [exists k; auto|split; [apply W'|auto]]]]].
      apply (trie_same ks t t' L T W'). intros p [v' [q w]] X.
      assert (w = 0 /\ (q < nstates t')%nat) as [-> _].
      { destruct W' as (R & _ & _ & _ & MM). destruct (R p) as (_ & _ & R3). eapply R3. apply MM. right. exact X. }
      apply M in X as (-> & X). destruct X as [[-> X]|[-> ->]]; [now apply A|].
      apply (tr_arcs _ _ T _ _ _ _ Hk). exists (k ++ [queue]). split; [exact Hk|]. right; right; right; left. split; [reflexivity|]. split; [reflexivity|]. eauto.
    - destruct (insert_new t s 95 (tr_rows _ _ T) Ls) as (t1 & E & W).
      { intros q w X. destruct (tr_rows _ _ T s) as (_ & _ & R3). destruct (R3 _ _ _ X) as [-> _].
        apply (tr_arcs _ _ T _ _ _ _ Hs) in X as (kq & Eq & X). apply Hn. replace (k ++ [queue]) with kq; [eapply nth_error_In; eauto|].
        apply (link_det k 95 kq (k ++ [queue])); [apply (tr_B _ _ T); eapply nth_error_In; eauto|apply (tr_B _ _ T); eapply nth_error_In; eauto|exact HB|exact X|right; right; left; auto]. }
      destruct (G _ _ _ E W (eq_sym (proj1 (proj2 W)))) as (t' & L & W' & E' & M); try lia.
      assert (Hend : nth_error (ks ++ [k ++ [queue]]) (nstates t) = Some (k ++ [queue])) by (rewrite nth_error_app2, (tr_len _ _ T), Nat.sub_diag; [reflexivity|rewrite (tr_len _ _ T); lia]).
      assert (Ext : extends_keys ks (ks ++ [k ++ [queue]])) by (eexists; reflexivity).
      assert (T' : trie (ks ++ [k ++ [queue]]) t').
      { apply (trie_grow ks t t' _ L T W' HB Hn); [exists k, queue; split; [reflexivity|eapply nth_error_In; eauto]|].
        assert (Hfind : forall p kp, nth_error (ks ++ [k ++ [queue]]) p = Some kp -> (kp = k ++ [queue] /\ p = nstates t) \/ nth_error ks p = Some kp).
        { intros p kp X. destruct (Nat.lt_ge_cases p (length ks)) as [Y|Y]; [rewrite nth_error_app1 in X by exact Y; auto|].
          rewrite nth_error_app2 in X by exact Y. destruct (p - length ks)%nat as [|m] eqn:Em; cbn in X; [|destruct m; discriminate X].
          left. injection X as <-. split; [reflexivity|]. rewrite <- (tr_len _ _ T). lia. }
        intros p v' q. rewrite M. split.
        - intros (-> & X). split; [reflexivity|]. destruct X as [[-> X]|[-> ->]].
          + exists k. split; [eapply extends_nth; eauto|right; right; left; auto].
          + exists (k ++ [queue]). split; [exact Hend|]. right; right; right; left. split; [reflexivity|]. split; [reflexivity|]. eauto.
        - intros (-> & kp & X & Y). split; [reflexivity|].
          destruct Y as [[Y N]|[(Y & Z1 & k0 & Z2)|[(Y & Z1)|[(Y & -> & k0 & Z2)|(Y & N)]]]].
          + apply snoc_inj in Y as [_ Y]. congruence.
          + subst kp. apply snoc_inj in Z2 as [_ Z2]. apply any_neg in Z1. destruct Z1. congruence.
          + apply snoc_inj in Y as [<- _]. left. split; [|exact Z1]. apply Hfind in X as [[X _]|X]; [symmetry in X; exfalso; revert X; apply snoc_neq; discriminate|]. eapply key_unique; eauto.
          + right. split; [|reflexivity]. subst kp. apply Hfind in X as [[_ X]|X]; [exact X|exfalso; apply Hn; eapply nth_error_In; eauto].
          + rewrite snoc2 in Y. apply snoc_inj in Y as [_ Y]. congruence. }
      exists (ks ++ [k ++ [queue]]), t', (nstates t), (Some s). split; [exact E'|]. split; [exact T'|]. split; [exact Ext|]. split; [exact Hend|].
      split; [exists k; split; [reflexivity|eapply extends_nth; eauto]|]. split; [apply W'|].
      intros x X. apply in_app_or in X as [X|[<-|[]]]; auto.
  Qed.

  (** * A whole pattern *)
  (** A queue after a queue is passed over. *)
  Definition push (k : list Z) (v : Z) : list Z :=
    if (v =? queue) && (last k 0 =? queue) then k else k ++ [v].
  Definition key_of (l : list Z) : list Z := fold_left push l [].
  Lemma last_queue : forall k, last k 0 = queue <-> exists k0, k = k0 ++ [queue].
  Proof.
    intros k. split; [|intros (k0 & ->); apply last_last]. destruct k as [|x k] using rev_ind; [cbn; intros; lia|]. rewrite last_last. intros ->. eauto.
  Qed.
  Lemma push_cases : forall k v, (push k v = k /\ v = queue /\ exists k0, k = k0 ++ [queue]) \/ (push k v = k ++ [v] /\ (v = queue -> forall k0, k <> k0 ++ [queue])).
  Proof.
    intros k v. unfold push. destruct ((v =? queue) && (last k 0 =? queue)) eqn:E.
    - apply andb_true_iff in E as [E1 E2]. apply Z.eqb_eq in E1, E2. left. split; [reflexivity|]. split; [exact E1|now apply last_queue].
    - right. split; [reflexivity|]. intros -> k0 X. rewrite Z.eqb_refl in E. cbn [andb] in E. apply Z.eqb_neq in E. apply E, last_queue. eauto.
  Qed.
  Lemma build_symbols_ok : forall l ks t s k prev, trie ks t -> nth_error ks s = Some k -> prev_ok ks k prev -> B (fold_left push l k) ->
    exists ks' t' s' prev', build_symbols a l (t, s, prev) = Ok (t', s', prev') /\ trie ks' t' /\ extends_keys ks ks' /\ nth_error ks' s' = Some (fold_left push l k)
      /\ prev_ok ks' (fold_left push l k) prev' /\ finals t' = finals t
      /\ (forall x, In x ks' -> In x ks \/ exists y, y <> [] /\ fold_left push l k = x ++ y \/ x = fold_left push l k).
  Proof.
    assert (PP : forall l k, exists y, fold_left push l k = k ++ y).
    { induction l as [|v l IH]; intros k; cbn [fold_left]; [exists []; now rewrite app_nil_r|]. destruct (IH (push k v)) as (y & ->).
      destruct (push_cases k v) as [[-> _]|[-> _]]; [eauto|]. rewrite <- app_assoc. eauto. }
    assert (PB : forall y k, B (k ++ y) -> B k).
    { induction y as [|v y IH] using rev_ind; intros k H; [now rewrite app_nil_r in H|]. rewrite app_assoc in H. apply IH. eapply B_prefix; eauto. }
    induction l as [|v l IH]; intros ks t s k prev T Hs Hp HB; cbn [build_symbols fold_left].
    - exists ks, t, s, prev. split; [reflexivity|]. split; [exact T|]. split; [exists []; now rewrite app_nil_r|]. auto 6.
    - assert (Hstep : stepped ks t (push k v) (build_symbol a v (t, s, prev))).
      { cbn [fold_left] in HB. destruct (PP l (push k v)) as (y & Ey). rewrite Ey in HB. apply PB in HB.
        destruct (push_cases k v) as [(Ek & -> & k0 & E0)|[Ek N]]; rewrite Ek in *.
        - assert (E : build_symbol a queue (t, s, prev) = Ok (t, s, prev)).
          { unfold build_symbol. assert (X1 : (anyc =? queue) || (anyt =? queue) = false) by (apply orb_false_iff; split; apply Z.eqb_neq; assumption).
            rewrite X1, Z.eqb_refl. destruct prev; [reflexivity|]. exfalso. eapply Hp; eauto. }
          exists ks, t, s, prev. split; [exact E|]. split; [exact T|]. split; [exists []; now rewrite app_nil_r|]. auto 6.
        - destruct (Z.eq_dec v queue) as [->|Nv]; [|now apply step_plain].
          assert (prev = None) as -> by (destruct prev; [destruct Hp as (k0 & X & _); exfalso; eapply N; eauto|reflexivity]). now apply step_queue. }
      destruct Hstep as (ks1 & t1 & s1 & prev1 & E1 & T1 & X1 & H1 & P1 & F1 & I1). rewrite E1. cbn [obind].
      destruct (IH _ _ _ _ _ T1 H1 P1 HB) as (ks2 & t2 & s2 & prev2 & E2 & T2 & X2 & H2 & P2 & F2 & I2).
      exists ks2, t2, s2, prev2. split; [exact E2|]. split; [exact T2|]. split; [destruct X1 as (x1 & ->); destruct X2 as (x2 & ->); rewrite <- app_assoc; eexists; reflexivity|].
      split; [exact H2|]. split; [exact P2|]. split; [congruence|]. intros x Hx. apply I2 in Hx as [Hx|Hx]; [|auto]. apply I1 in Hx as [Hx| ->]; [auto|]. right.
      destruct (PP l (push k v)) as (y & Ey). rewrite Ey. destruct y as [|z y]; [exists []; right; now rewrite app_nil_r|]. exists (z :: y). left. split; [discriminate|reflexivity].
  Qed.

  (** * Final states *)
  (** A pattern ends at its key and, if that ends in a queue, before it. *)
  Definition marks (kp k : list Z) : bool :=
    if list_eq_dec Z.eq_dec kp k then true else if list_eq_dec Z.eq_dec kp (k ++ [queue]) then true else false.
  Lemma marks_spec : forall kp k, marks kp k = true <-> kp = k \/ kp = k ++ [queue].
  Proof.
    intros kp k. unfold marks. destruct (list_eq_dec _ _ _); [tauto|]. destruct (list_eq_dec _ _ _); [tauto|]. split; [discriminate|tauto].
  Qed.
  Fixpoint first_id (l : list (Z * list Z)) (k : list Z) : option Z :=
    match l with [] => None | (id, v) :: r => if marks (key_of v) k then Some id else first_id r k end.
  Lemma first_app : forall l id v k, first_id (l ++ [(id, v)]) k =
    match first_id l k with Some c => Some c | None => if marks (key_of v) k then Some id else None end.
  Proof. induction l as [|[i x] l IH]; intros id v k; cbn [app first_id]; [reflexivity|]. destruct (marks (key_of x) k); [reflexivity|apply IH]. Qed.
  Lemma class_type_set : forall l s c n, class_of n (type_set s c l) = if (n =? s)%nat then Some c else class_of n l.
  Proof.
    induction l as [|[s' c'] l IH]; intros s c n; cbn [type_set class_of].
    - rewrite Nat.eqb_sym. reflexivity.
    - destruct (Nat.eqb_spec s s') as [->|N]; cbn [class_of].
      + rewrite (Nat.eqb_sym n s'). destruct (s' =? n)%nat; reflexivity.
      + destruct (s <? s')%nat; cbn [class_of].
        * rewrite (Nat.eqb_sym n s). reflexivity.
        * rewrite IH. destruct (Nat.eqb_spec s' n) as [->|N']; [|reflexivity]. destruct (Nat.eqb_spec n s); congruence.
  Qed.
  Definition found (n : nat) (l : list (nat * Z)) : bool := match fin_find n l with Some _ => true | None => false end.
  Lemma find_insert : forall l s w n, found n (fin_insert s w l) = (n =? s)%nat || found n l.
  Proof.
    unfold found. induction l as [|[s' w'] l IH]; intros s w n; cbn [fin_insert fin_find].
    - destruct (n =? s)%nat; reflexivity.
    - destruct (s <? s')%nat eqn:E1; cbn [fin_find].
      + destruct (n =? s)%nat; reflexivity.
      + destruct (Nat.eqb_spec s s') as [->|N]; cbn [fin_find].
        * destruct (n =? s')%nat; reflexivity.
        * destruct (Nat.eqb_spec n s') as [->|N']; [now rewrite orb_true_r|apply IH].
  Qed.
  Definition agree (t : transducer) (ft : list (nat * Z)) : Prop :=
    forall q, isFinal t q = match class_of q ft with Some _ => true | None => false end.
  Lemma mark_ok : forall t ft s id t' ft', agree t ft -> mark_final s id (t, ft) = (t', ft') ->
    agree t' ft' /\ trans t' = trans t /\ initial t' = initial t
    /\ forall q, class_of q ft' = match class_of q ft with Some c => Some c | None => if (q =? s)%nat then Some id else None end.
  Proof.
    intros t ft s id t' ft' A E. unfold mark_final in E. pose proof (A s) as As. destruct (isFinal t s) eqn:F.
    - injection E as <- <-. split; [exact A|]. split; [reflexivity|]. split; [reflexivity|]. intros q. destruct (class_of q ft) eqn:Eq; [reflexivity|].
      destruct (Nat.eqb_spec q s) as [->|]; [|reflexivity]. rewrite Eq in As. discriminate.
    - injection E as <- <-. split; [|split; [reflexivity|split; [reflexivity|]]].
      + intros q. rewrite class_type_set. unfold isFinal, setFinal. cbn [finals]. fold (found q (fin_insert s 0 (finals t))). rewrite find_insert.
        destruct (q =? s)%nat; [reflexivity|]. apply A.
      + intros q. rewrite class_type_set. destruct (Nat.eqb_spec q s) as [->|]; [|destruct (class_of q ft); reflexivity].
        destruct (class_of s ft); [discriminate|reflexivity].
  Qed.
  Lemma trie_finals : forall ks t t', trie ks t -> trans t' = trans t -> initial t' = initial t -> trie ks t'.
  Proof.
    intros ks t t' [T1 T2 T3 T4 T5 T6 T7 T8] E I. assert (X : forall p, arcs_of t' p = arcs_of t p) by (intros p; unfold arcs_of; now rewrite E).
    assert (N : nstates t' = nstates t) by (unfold nstates; now rewrite E). constructor; auto; try congruence.
    - intros p. rewrite X, N. apply T1.
    - intros p kp v q Hp. rewrite X. now apply T8.
  Qed.
  Definition built (ks : list (list Z)) (pats : list (Z * list Z)) (t : transducer) (ft : list (nat * Z)) : Prop :=
    trie ks t /\ agree t ft /\ (forall id l, In (id, l) pats -> In (key_of l) ks)
    /\ (forall q k, nth_error ks q = Some k -> class_of q ft = first_id pats k)
    /\ (forall q, nth_error ks q = None -> class_of q ft = None).
  Lemma build_pattern_ok : forall ks pats t ft id l, built ks pats t ft -> B (key_of l) ->
    exists ks' t' ft', build_pattern a id l (t, ft) = Ok (t', ft') /\ built ks' (pats ++ [(id, l)]) t' ft'.
  Proof.
    intros ks pats t ft id l (T & A & P & C & C') HB.
    destruct (build_symbols_ok l ks t 0%nat [] None T (tr_root _ _ T)) as (ks' & t1 & s1 & prev & E & T1 & X & Hs & Hp & F & _).
    { intros k0 K. symmetry in K. apply app_eq_nil in K as [_ K]. discriminate. }
    { exact HB. }
    unfold build_pattern. rewrite (tr_init _ _ T), E. cbn [obind]. fold (key_of l) in Hs, Hp.
    assert (A1 : agree t1 ft) by (intros q; unfold isFinal; rewrite F; apply A).
    set (x := match prev with Some p => mark_final p id (t1, ft) | None => (t1, ft) end).
    assert (Hx : exists t2 ft2, x = (t2, ft2) /\ agree t2 ft2 /\ trans t2 = trans t1 /\ initial t2 = initial t1
      /\ forall q, class_of q ft2 = match class_of q ft with Some c => Some c | None => match prev with Some p => if (q =? p)%nat then Some id else None | None => None end end).
    { unfold x. destruct prev as [p|].
      - destruct (mark_final p id (t1, ft)) as [t2 ft2] eqn:Em. apply mark_ok in Em as (M1 & M2 & M3 & M4); [|exact A1]. exists t2, ft2. auto.
      - exists t1, ft. split; [reflexivity|]. split; [exact A1|]. split; [reflexivity|]. split; [reflexivity|]. intros q. destruct (class_of q ft); reflexivity. }
    destruct Hx as (t2 & ft2 & -> & A2 & Et2 & I2 & C2). destruct (mark_final s1 id (t2, ft2)) as [t3 ft3] eqn:Em.
    apply mark_ok in Em as (A3 & Et3 & I3 & C3); [|exact A2]. exists ks', t3, ft3. split; [reflexivity|].
    assert (T3 : trie ks' t3) by (apply (trie_finals ks' t1); auto; congruence).
    assert (Cq : forall q k, nth_error ks' q = Some k -> class_of q ft = first_id pats k).
    { intros q k H. destruct (nth_error ks q) as [k'|] eqn:Ek.
      - rewrite (extends_nth _ _ _ _ X Ek) in H. injection H as <-. now apply C.
      - rewrite (C' q Ek). symmetry. destruct (first_id pats k) eqn:Ef; [exfalso|reflexivity].
        assert (Hk : In k ks).
        { clear - Ef P T Hac Hat Hq Hcq Htq Hct c1 c2 c3 c4 B_prefix. induction pats as [|[i v] r IH]; [discriminate|]. cbn [first_id] in Ef. destruct (marks (key_of v) k) eqn:M.
          - apply marks_spec in M as [M|M]; pose proof (P i v (or_introl eq_refl)) as Pv; [congruence|]. rewrite M in Pv. now apply (tr_closed _ _ T) in Pv.
          - apply IH; auto. intros i' v' Hi. apply (P i'). now right. }
        apply In_nth_error in Hk as [q' Hk]. pose proof (extends_nth _ _ _ _ X Hk) as Hk'. assert (q = q') by (eapply (key_unique ks' t3); eauto). subst. congruence. }
    split; [exact T3|]. split; [exact A3|]. split; [|split].
    - intros i v Hi. apply in_app_or in Hi as [Hi|[Hi|[]]].
      + apply P in Hi. destruct X as (y & ->). apply in_or_app. now left.
      + injection Hi as <- <-. eapply nth_error_In; eauto.
    - intros q k H. rewrite C3, C2, first_app, (Cq q k H). destruct (first_id pats k); [reflexivity|].
      assert (M : marks (key_of l) k = true <-> q = s1 \/ prev = Some q).
      { rewrite marks_spec. split.
        - intros [M|M].
          + left. eapply (key_unique ks' t3); eauto. congruence.
          + right. destruct prev as [p|]; [|exfalso; eapply Hp; eauto]. destruct Hp as (k0 & K1 & K2). rewrite M in K1. apply snoc_inj in K1 as [<- _]. f_equal. eapply (key_unique ks' t3); eauto.
        - intros [->| ->]; [left; congruence|]. destruct Hp as (k0 & K1 & K2). right. congruence. }
      destruct (marks (key_of l) k).
      + destruct (proj1 M eq_refl) as [->| ->]; [rewrite Nat.eqb_refl; destruct prev; [destruct (_ =? _)%nat|]; reflexivity|rewrite Nat.eqb_refl; reflexivity].
      + destruct prev as [p|].
        * destruct (Nat.eqb_spec q p) as [->|]; [pose proof (proj2 M (or_intror eq_refl)); discriminate|]. destruct (Nat.eqb_spec q s1) as [->|]; [pose proof (proj2 M (or_introl eq_refl)); discriminate|reflexivity].
        * destruct (Nat.eqb_spec q s1) as [->|]; [pose proof (proj2 M (or_introl eq_refl)); discriminate|reflexivity].
    - intros q H. rewrite C3, C2. rewrite (C' q).
      + destruct prev as [p|].
        * destruct (Nat.eqb_spec q p) as [->|]; [destruct Hp as (k0 & _ & K2); congruence|]. destruct (Nat.eqb_spec q s1) as [->|]; [congruence|reflexivity].
        * destruct (Nat.eqb_spec q s1) as [->|]; [congruence|reflexivity].
      + destruct (nth_error ks q) eqn:Eq; [rewrite (extends_nth _ _ _ _ X Eq) in H; discriminate|reflexivity].
  Qed.
  Lemma build_patterns_ok : forall todo ks pats t ft, built ks pats t ft -> (forall id l, In (id, l) todo -> B (key_of l)) ->
    exists ks' t' ft', build_patterns a todo (t, ft) = Ok (t', ft') /\ built ks' (pats ++ todo) t' ft'.
  Proof.
    induction todo as [|[id l] todo IH]; intros ks pats t ft H HB; cbn [build_patterns].
    - exists ks, t, ft. rewrite app_nil_r. auto.
    - destruct (build_pattern_ok ks pats t ft id l H (HB _ _ (or_introl eq_refl))) as (ks1 & t1 & ft1 & E & H1). rewrite E. cbn [obind].
      destruct (IH _ _ _ _ H1) as (ks2 & t2 & ft2 & E2 & H2); [intros i v Hi; apply (HB i); now right|]. rewrite <- app_assoc in H2. eauto 6.
  Qed.
  Theorem build_ok : forall pats, B [] -> (forall id l, In (id, l) pats -> B (key_of l)) ->
    exists ks t ft, build_patterns a pats (new_transducer, []) = Ok (t, ft) /\ built ks pats t ft.
  Proof.
    intros pats B0 HB. destruct (build_patterns_ok pats [[]] [] new_transducer []) as (ks & t & ft & E & H); [|exact HB|eauto 6].
    split; [|split; [intros q; reflexivity|split; [intros id l []|split; [|reflexivity]]]].
    - constructor; try reflexivity.
      + intros p. assert (X : arcs_of new_transducer p = []) by (destruct p as [|[|p]]; reflexivity). rewrite X. split; [constructor|]. split; [constructor|intros ? ? ? []].
      + constructor; [intros []|constructor].
      + intros k [<-|[]]. exact B0.
      + intros k v [K|[]]. symmetry in K. apply app_eq_nil in K as [_ K]. discriminate.
      + intros p kp v q Hp. assert (X : arcs_of new_transducer p = []) by (destruct p as [|[|p]]; reflexivity). rewrite X. split; [intros []|].
        assert (kp = []) as -> by (destruct p as [|[|p]]; cbn in Hp; congruence).
        intros (kq & Eq & L). assert (kq = []) as -> by (destruct q as [|[|q]]; cbn in Eq; congruence).
        destruct L as [[L _]|[(_ & _ & k0 & L)|[(L & _)|[(_ & _ & k0 & L)|(L & _)]]]]; try discriminate; destruct k0; discriminate.
    - intros q k Hq0. destruct q as [|[|q]]; reflexivity.
  Qed.
End Build.
