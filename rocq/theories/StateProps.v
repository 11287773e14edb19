(** C35, C36, C38: stepping, alternatives and compound pruning. *)
From Verif Require Import Base StateModel StateSpec StateProofs StatePathProofs.

(** The calls of a history made on object [k]. *)
Definition calls_on {W} (k : nat) (ops : list (nat * @sop W)) : list (@sop W) :=
  map snd (filter (fun x => (fst x =? k)%nat) ops).

Lemma nth_put_same : forall {A} (l : list A) k x d, (k < length l)%nat -> nth k (put_nth k x l) d = x.
Proof. induction l; intros [|k] x d H; cbn in *; try lia; auto. apply IHl; lia. Qed.
Lemma nth_put_other : forall {A} (l : list A) k j x d, k <> j -> nth j (put_nth k x l) d = nth j l d.
Proof. induction l; intros [|k] [|j] x d H; cbn; auto; try congruence. Qed.
Lemma length_put : forall {A} (l : list A) k x, length (put_nth k x l) = length l.
Proof. induction l; intros [|k] x; cbn; auto. Qed.

Section History.
  Context {W : Type}.
  Context (find : nat -> Z -> list (Z * (nat * W))).
  Context (u_isupper : Z -> bool) (u_tolower : Z -> Z).
  Notation exec_all := (exec_all find u_isupper u_tolower).
  Notation v_exec_all := (v_exec_all find u_isupper u_tolower).
  Notation v_exec := (v_exec find u_isupper u_tolower).
  Notation choice_of := (choice_of find u_isupper u_tolower).

  Lemma exec_values : forall fuel m ops w, exec_all fuel (fresh_world m) ops = Ok w ->
    v_exec_all fuel (repeat [] m) ops = Ok (views w).
  Proof.
    intros fuel m ops w H.
    pose proof (exec_all_turns find u_isupper u_tolower fuel ops (fresh_world m) (fresh_sound m)) as T.
    rewrite fresh_views in T.
    destruct (v_exec_all fuel (repeat [] m) ops) as [vs| | | |]; try contradiction.
    - destruct T as (w' & E & _ & <-). rewrite H in E. now injection E as ->.
    - congruence.
  Qed.

  (** One call changes its object only. *)
  Lemma v_exec_other : forall fuel vs k op vs' j, v_exec fuel vs k op = Ok vs' -> k <> j ->
    nth j vs' [] = nth j vs [] /\ length vs' = length vs.
  Proof.
    intros fuel vs k op vs' j H Hne. unfold StateSpec.v_exec in H.
    destruct (negb (k <? length vs)%nat); [now injection H as <-|].
    destruct (match op with SInit n => _ | _ => _ end) as [st| | | |] in H; try discriminate.
    cbn [obind] in H. injection H as <-. now rewrite nth_put_other, length_put.
  Qed.
  Lemma v_exec_length : forall fuel vs k op vs', v_exec fuel vs k op = Ok vs' -> length vs' = length vs.
  Proof. intros fuel vs k op vs' H. apply (v_exec_other fuel vs k op vs' (S k) H). lia. Qed.

  Lemma v_exec_all_length : forall fuel ops vs vs', v_exec_all fuel vs ops = Ok vs' -> length vs' = length vs.
  Proof.
    induction ops as [|[k op] ops IH]; intros vs vs' H; cbn in H.
    - now injection H as <-.
    - destruct (v_exec fuel vs k op) as [v1| | | |] eqn:E; try discriminate. cbn in H.
      rewrite (IH _ _ H). eapply v_exec_length; eauto.
  Qed.

  Lemma v_exec_all_app : forall fuel a b vs vs', v_exec_all fuel vs (a ++ b) = Ok vs' ->
    exists v1, v_exec_all fuel vs a = Ok v1 /\ v_exec_all fuel v1 b = Ok vs'.
  Proof.
    induction a as [|[k op] a IH]; intros b vs vs' H; cbn in *; eauto.
    destruct (v_exec fuel vs k op); try discriminate. cbn in *. auto.
  Qed.

  (** A step call on the object. *)
  Lemma v_exec_step : forall fuel vs k op c vs', (k < length vs)%nat -> choice_of op = Some c ->
    v_exec fuel vs k op = Ok vs' ->
    v_closure find fuel 0 (v_choose find c (nth k vs [])) = Ok (nth k vs' []).
  Proof.
    intros fuel vs k op c vs' Hk Hc H. unfold StateSpec.v_exec in H.
    replace (k <? length vs)%nat with true in H by (symmetry; now apply Nat.ltb_lt). cbn [negb] in H.
    replace (match op with SInit n => _ | _ => _ end)
      with (v_closure find fuel 0 (v_choose find c (nth k vs []))) in H.
    - destruct (v_closure find fuel 0 (v_choose find c (nth k vs []))) as [st| | | |]; try discriminate.
      cbn in H. injection H as <-. now rewrite nth_put_same.
    - destruct op; try discriminate Hc; rewrite Hc; reflexivity.
  Qed.

  Lemma v_history : forall fuel n ops k vs vs' cs cs0, (k < length vs)%nat ->
    holds find n cs0 (nth k vs []) ->
    map choice_of (calls_on k ops) = map Some cs ->
    v_exec_all fuel vs ops = Ok vs' -> holds find n (cs0 ++ cs) (nth k vs' []).
  Proof.
    induction ops as [|[j op] ops IH]; intros k vs vs' cs cs0 Hk Hh Hc H; cbn in H.
    - injection H as <-. destruct cs; [|discriminate]. now rewrite app_nil_r.
    - destruct (v_exec fuel vs j op) as [v1| | | |] eqn:E; try discriminate. cbn in H.
      unfold calls_on in Hc. cbn [filter fst] in Hc. destruct (j =? k)%nat eqn:Ej.
      + apply Nat.eqb_eq in Ej. subst j. cbn [map snd] in Hc. destruct cs as [|c cs]; [discriminate|].
        cbn [map] in Hc. injection Hc as Hc1 Hc2.
        pose proof (v_exec_step _ _ _ _ _ _ Hk Hc1 E) as S1.
        replace (cs0 ++ c :: cs) with ((cs0 ++ [c]) ++ cs) by (now rewrite <- app_assoc).
        eapply IH; [| |exact Hc2|exact H].
        * rewrite (v_exec_length _ _ _ _ _ E). auto.
        * eapply step_holds; eauto.
      + apply Nat.eqb_neq in Ej. destruct (v_exec_other _ _ _ _ _ k E Ej) as [E1 E2].
        eapply IH; [| |exact Hc|exact H]; [lia|]. now rewrite E1.
  Qed.

  (** For every graph, every number of State objects and every history on them: after
      [init] at node [n] on object [k] and any further calls, those on [k] being steps,
      the live analyses of [k] are exactly the paths from [n] through the choices those
      steps offer.  What happened before, what other objects do in between and how the
      cells of the pool were used before makes no difference. *)
  Theorem C35_paths : forall fuel m before k n ops cs w, (k < m)%nat ->
    map choice_of (calls_on k ops) = map Some cs ->
    exec_all fuel (fresh_world m) (before ++ (k, SInit n) :: ops) = Ok w ->
    forall q s d, In (mkV q s d) (nth k (views w) []) <-> cpath find n cs s d q.
  Proof.
    intros fuel m before k n ops cs w Hk Hc H. apply exec_values in H.
    apply v_exec_all_app in H as (v0 & H0 & H). cbn [StateSpec.v_exec_all] in H.
    destruct (v_exec fuel v0 k (SInit n)) as [v1| | | |] eqn:E; try discriminate. cbn [obind] in H.
    assert (L0 : (k < length v0)%nat).
    { rewrite (v_exec_all_length _ _ _ _ H0), repeat_length. auto. }
    apply (v_history fuel n ops k v1 (views w) cs []); auto.
    - now rewrite (v_exec_length _ _ _ _ _ E).
    - unfold StateSpec.v_exec in E.
      replace (k <? length v0)%nat with true in E by (symmetry; now apply Nat.ltb_lt). cbn [negb] in E.
      destruct (v_closure find fuel 0 [mkV n [] false]) as [st| | | |] eqn:Ec; try discriminate.
      cbn [obind] in E. injection E as <-. rewrite nth_put_same by auto. eapply init_holds; eauto.
  Qed.

  (** In particular, plain steps read exactly their input. *)
  Theorem C35_steps : forall fuel m before k n ops l w, (k < m)%nat ->
    calls_on k ops = map SStep l ->
    exec_all fuel (fresh_world m) (before ++ (k, SInit n) :: ops) = Ok w ->
    forall q s d, In (mkV q s d) (nth k (views w) []) <-> d = false /\ rpath find n l s q.
  Proof.
    intros fuel m before k n ops l w Hk Hc H q s d.
    rewrite (C35_paths fuel m before k n ops (map one l) w Hk) by (auto; rewrite Hc, !map_map; reflexivity).
    apply cpath_rpath.
  Qed.

  (** No history reads or frees a released cell. *)
  Theorem C35_memory_safe : forall fuel m ops,
    (exists w, exec_all fuel (fresh_world m) ops = Ok w) \/ exec_all fuel (fresh_world m) ops = NoFuel.
  Proof.
    intros fuel m ops.
    pose proof (exec_all_turns find u_isupper u_tolower fuel ops (fresh_world m) (fresh_sound m)) as T.
    destruct (v_exec_all fuel (views (fresh_world m)) ops) as [vs| | | |]; try contradiction; auto.
    destruct T as (w & E & _). eauto.
  Qed.

  (** Without cycles of input-epsilon arcs every history finishes; a compound restart must
      not use the same symbol as separator and as requirement. *)
  Definition restart_ok (op : @sop W) : Prop :=
    match op with SRestart _ required _ sep _ => required <> sep | _ => True end.

  Lemma last_part_sep : forall required sep (w0 : W) s, required <> sep ->
    lastPartHasRequiredSymbol (s ++ [(sep, w0)]) required sep = false.
  Proof.
    intros required sep w0 s H. unfold lastPartHasRequiredSymbol. rewrite rev_app_distr. cbn.
    replace (sep =? required) with false by lia. now rewrite Z.eqb_refl.
  Qed.

  Lemma restart_once : forall required sep (w0 : W) fin rs s x, required <> sep ->
    In x (v_restart required sep w0 fin rs s) -> v_restart required sep w0 fin rs x = [].
  Proof.
    intros required sep w0 fin rs s x Hne Hin. unfold v_restart in *.
    destruct (fin (v_where s) && _); [|contradiction].
    apply in_map_iff in Hin as (r & <- & _). cbn [v_where v_seq].
    rewrite last_part_sep by auto. now rewrite andb_false_r.
  Qed.

  Lemma v_exec_terminates : eps_acyclic find -> forall k op vs, restart_ok op ->
    exists N vs', forall fuel, (N <= fuel)%nat -> v_exec fuel vs k op = Ok vs'.
  Proof.
    intros Ha k op vs Hr. unfold StateSpec.v_exec.
    destruct (negb (k <? length vs)%nat); [exists 0%nat; eauto|].
    assert (C : forall st, exists N r, forall fuel, (N <= fuel)%nat -> v_closure find fuel 0 st = Ok r).
    { intros st. destruct (closure_terminates find Ha st) as (N & HN).
      destruct (HN N (le_n N)) as (r & E). exists N, r. intros fuel Hf. eapply grow_mono; eauto. }
    assert (K : forall st c, exists N r, forall fuel, (N <= fuel)%nat ->
      (let! st := v_closure find fuel 0 (v_choose find c st) in Ok (put_nth k st vs)) = Ok r).
    { intros st c. destruct (C (v_choose find c st)) as (N & r & H). exists N. eexists.
      intros fuel Hf. rewrite (H fuel Hf). reflexivity. }
    destruct op; cbn iota; cbn [StateSpec.choice_of];
      try (apply K; fail); try (exists 0%nat; eexists; intros; reflexivity).
    - destruct (C [mkV n [] false]) as (N & r & H). exists N. eexists.
      intros fuel Hf. rewrite (H fuel Hf). reflexivity.
    - destruct (val =? 0); [exists 0%nat; eexists; intros; reflexivity|].
      destruct (C (flat_map (fun s => v_into find same val s false) (nth k vs []))) as (N & r & H).
      exists N. eexists. intros fuel Hf. rewrite (H fuel Hf). reflexivity.
    - destruct (negb (restart_state <? length vs)%nat || (restart_state =? k)%nat);
        [exists 0%nat; eexists; intros; reflexivity|].
      set (f := v_restart required sep w0 final (nth restart_state vs [])).
      destruct (fun sz H => grow_terminates f sz H (list_sum (map sz (nth k vs []))) 0 (nth k vs []) (le_n _))
        with (sz := fun s => S (length (f s))) as (r & E).
      { intros s. cbn. apply le_n_S.
        rewrite <- (Nat.mul_1_r (length (f s))).
        assert (Hone : forall l, (forall x, In x l -> f x = []) ->
          list_sum (map (fun s0 => S (length (f s0))) l) = (length l * 1)%nat).
        { induction l as [|y l IHl]; intros Hl; cbn; auto. rewrite (Hl y) by now left.
          cbn. f_equal. apply IHl. intros x Hx. apply Hl. now right. }
        rewrite Hone; [lia|]. intros x Hx. unfold f in *. eapply restart_once; eauto. }
      eexists. eexists. intros fuel Hf.
      rewrite (grow_mono _ _ _ _ _ E fuel Hf). reflexivity.
    - destruct (negb (other <? length vs)%nat || (other =? k)%nat);
        exists 0%nat; eexists; intros; reflexivity.
    - destruct (negb (other <? length vs)%nat || (other =? k)%nat);
        exists 0%nat; eexists; intros; reflexivity.
  Qed.

  Theorem C35_terminates : forall m ops, eps_acyclic find ->
    Forall (fun x => restart_ok (snd x)) ops ->
    exists N, forall fuel, (N <= fuel)%nat -> exists w, exec_all fuel (fresh_world m) ops = Ok w.
  Proof.
    intros m ops Ha Hr.
    assert (V : forall vs, exists N, forall fuel, (N <= fuel)%nat -> exists vs', v_exec_all fuel vs ops = Ok vs').
    { clear m. induction Hr as [|[k op] ops Hop _ IH]; intros vs.
      - exists 0%nat. intros. exists vs. reflexivity.
      - destruct (v_exec_terminates Ha k op vs Hop) as (N1 & v1 & H1).
        destruct (IH v1) as (N2 & H2). exists (N1 + N2)%nat. intros fuel Hf. cbn [StateSpec.v_exec_all].
        rewrite H1 by lia. cbn [obind]. apply H2. lia. }
    destruct (V (views (fresh_world m))) as (N & HN). exists N. intros fuel Hf.
    pose proof (exec_all_turns find u_isupper u_tolower fuel ops (fresh_world m) (fresh_sound m)) as T.
    destruct (HN fuel Hf) as (vs & E). rewrite E in T. destruct T as (w & Ew & _). eauto.
  Qed.

  (** With an input-epsilon cycle within reach by epsilon arcs, [init] never returns. *)
  Theorem C35_epsilon_cycle_refuted : forall (C : nat -> Prop) n fuel m k,
    (forall p, C p -> exists o q w, In (o, (q, w)) (find p 0) /\ C q) -> C n -> (k < m)%nat ->
    exec_all fuel (fresh_world m) [(k, SInit n)] = NoFuel.
  Proof.
    intros C n fuel m k HC Hn Hk.
    pose proof (exec_all_turns find u_isupper u_tolower fuel [(k, SInit n)] (fresh_world m) (fresh_sound m)) as T.
    rewrite fresh_views in T. cbn [StateSpec.v_exec_all] in T. unfold StateSpec.v_exec in T.
    rewrite repeat_length in T.
    replace (k <? m)%nat with true in T by (symmetry; now apply Nat.ltb_lt). cbn [negb] in T.
    rewrite (closure_endless find C fuel [mkV n [] false] (mkV n [] false)) in T; auto. now left.
  Qed.

  (** * C36 *)
  (** The symbol and the alternatives a step may read. *)
  Definition letters (op : @sop W) : option (Z * list Z) :=
    match op with
    | SStep i => Some (i, [])
    | SStep2 i a => Some (i, [a])
    | SStep3 i a b => Some (i, [a; b])
    | SStepSet i l => Some (i, l)
    | SCase v cs => Some (v, if u_isupper v && negb cs then [u_tolower v] else [])
    | SCase2 v v2 cs => Some (v, if u_isupper v && negb cs then [u_tolower v; v2] else [v2])
    | _ => None
    end.
  (** [taken ops l d]: at each position [l] has the step's symbol or one of its
      alternatives, none of these being the epsilon symbol; [d] tells whether an
      alternative different from the symbol was used somewhere. *)
  Inductive taken : list (@sop W) -> list Z -> bool -> Prop :=
  | tk_nil : taken [] [] false
  | tk_cons : forall op ops x l d i alts, letters op = Some (i, alts) ->
      ~ In 0 (i :: alts) -> In x (i :: alts) -> taken ops l d ->
      taken (op :: ops) (x :: l) (negb (x =? i) || d).

  (** The choice of such a step: same outputs, the same symbols at every node. *)
  Lemma letters_choice : forall op i alts, letters op = Some (i, alts) ->
    exists c, choice_of op = Some c /\
      (In 0 (i :: alts) -> c = None) /\
      (~ In 0 (i :: alts) -> exists l, c = Some (same, fun _ => l) /\
         forall x d, In (x, d) l <-> In x (i :: alts) /\ d = negb (x =? i)).
  Proof.
    assert (A1 : forall i, (0 = i -> one i = None) /\ (0 <> i -> one i = Some (same, fun _ => [(i, false)]))).
    { intros i. unfold one, alternatives. cbn [existsb fst]. rewrite orb_false_r.
      destruct (i =? 0) eqn:E; split; intros; auto; lia. }
    assert (A2 : forall i a, (0 = i \/ 0 = a -> two i a = None) /\
      (0 <> i -> 0 <> a -> two i a = Some (same, fun _ => (i, false) :: if i =? a then [] else [(a, true)]))).
    { intros i a. unfold two, alternatives. cbn [existsb fst].
      destruct (i =? a) eqn:Ea; cbn [existsb fst]; rewrite ?orb_false_r.
      - destruct (i =? 0) eqn:E; split; intros; auto; lia.
      - destruct ((i =? 0) || (a =? 0)) eqn:E; split; intros; auto; lia. }
    assert (A3 : forall i a b, (0 = i \/ 0 = a \/ 0 = b -> three i a b = None) /\
      (0 <> i -> 0 <> a -> 0 <> b -> exists l, three i a b = Some (same, fun _ => l) /\
        forall x d, In (x, d) l <-> In x [i; a; b] /\ d = negb (x =? i))).
    { intros i a b. unfold three.
      destruct ((a =? 0) || (b =? 0)) eqn:E0; [split; auto; intros; lia|].
      destruct (i =? a) eqn:E1; [|destruct (i =? b) eqn:E2].
      - destruct (A2 i b) as [N S]. split; [intros; apply N; lia|]. intros.
        rewrite S by auto. eexists. split; [reflexivity|]. intros x d.
        destruct (i =? b) eqn:E3; cbn; split.
        + intros [H2|[]]. injection H2 as <- <-. rewrite Z.eqb_refl. auto.
        + intros [H2 ->]. left. f_equal; lia.
        + intros [H2|[H2|[]]]; injection H2 as <- <-; split; auto; lia.
        + intros [H2 ->]. assert (x = i \/ x = b) as [-> | ->] by lia;
            [left; f_equal; lia|right; left; f_equal; lia].
      - destruct (A2 i a) as [N S]. split; [intros; apply N; lia|]. intros.
        rewrite S by auto. eexists. split; [reflexivity|]. intros x d. rewrite E1. cbn. split.
        + intros [H2|[H2|[]]]; injection H2 as <- <-; split; auto; lia.
        + intros [H2 ->]. assert (x = i \/ x = a) as [-> | ->] by lia;
            [left; f_equal; lia|right; left; f_equal; lia].
      - unfold alternatives. cbn [existsb fst]. split; [intros; replace (i =? 0) with true by lia; auto|].
        intros. replace (i =? 0) with false by lia. apply orb_false_elim in E0 as [-> ->]. cbn [orb].
        eexists. split; [reflexivity|]. intros x d. cbn. split.
        + intros [H2|[H2|[H2|[]]]]; injection H2 as <- <-; split; auto; lia.
        + intros [H2 ->]. assert (x = i \/ x = a \/ x = b) as [-> | [-> | ->]] by lia;
            [left; f_equal; lia|right; left; f_equal; lia|right; right; left; f_equal; lia]. }
    assert (B1 : forall i, (In 0 [i] -> one i = None) /\ (~ In 0 [i] -> exists l, one i = Some (same, fun _ => l) /\
         forall x d, In (x, d) l <-> In x [i] /\ d = negb (x =? i))).
    { intros i. destruct (A1 i) as [N S]. split.
      - intros [E|[]]. apply N. auto.
      - intros H. rewrite S by (intros E; apply H; now left). eexists. split; [reflexivity|].
        intros x d. cbn. split.
        + intros [E|[]]. injection E as <- <-. split; auto; lia.
        + intros [[<- | []] ->]. left. f_equal. lia. }
    assert (B2 : forall i a, (In 0 [i; a] -> two i a = None) /\ (~ In 0 [i; a] -> exists l, two i a = Some (same, fun _ => l) /\
         forall x d, In (x, d) l <-> In x [i; a] /\ d = negb (x =? i))).
    { intros i a. destruct (A2 i a) as [N S]. split.
      - cbn. intros H. apply N. lia.
      - cbn. intros H. rewrite S by lia. eexists. split; [reflexivity|].
        intros x d. destruct (i =? a) eqn:E; cbn; split.
        + intros [E1|[]]. injection E1 as <- <-. split; auto; lia.
        + intros [E1 ->]. left. f_equal; lia.
        + intros [H2|[H2|[]]]; injection H2 as <- <-; split; auto; lia.
        + intros [H2 ->]. assert (x = i \/ x = a) as [-> | ->] by lia;
            [left; f_equal; lia|right; left; f_equal; lia]. }
    assert (B3 : forall i a b, (In 0 [i; a; b] -> three i a b = None) /\ (~ In 0 [i; a; b] -> exists l, three i a b = Some (same, fun _ => l) /\
         forall x d, In (x, d) l <-> In x [i; a; b] /\ d = negb (x =? i))).
    { intros i a b. destruct (A3 i a b) as [N S]. split; cbn; intros H; [apply N|apply S]; lia. }
    intros op i alts H.
    destruct op; cbn [letters StateSpec.choice_of] in *; try discriminate; injection H as <- <-;
      eexists; (split; [reflexivity|]).
    - apply B1.
    - apply B2.
    - apply B3.
    - destruct (existsb (Z.eqb 0) alts0) eqn:E.
      + split; auto. intros Hn. exfalso. apply Hn. right.
        apply existsb_exists in E as (z & Hz & Ez). apply Z.eqb_eq in Ez. now subst.
      + assert (N0 : ~ In 0 alts0).
        { intros Hin. apply not_true_iff_false in E. apply E. apply existsb_exists. exists 0. auto. }
        unfold alternatives. cbn [existsb fst].
        replace (existsb _ (map _ _)) with false.
        2: { symmetry. apply not_true_is_false. intros Hx. apply existsb_exists in Hx as (x & Hx & Hz).
             apply in_map_iff in Hx as (a & <- & Ha). apply filter_In in Ha as [Ha _]. cbn in Hz.
             apply N0. now replace 0 with a by lia. }
        rewrite orb_false_r. split.
        * intros [E0|Hin]; [rewrite E0; reflexivity|contradiction].
        * intros Hn. replace (input =? 0) with false by (symmetry; apply Z.eqb_neq; intros ->; apply Hn; now left).
          eexists. split; [reflexivity|]. intros x d. cbn [In]. rewrite in_map_iff. split.
          -- intros [E1|(a & E1 & Ha)]; injection E1 as <- <-.
             ++ split; auto. now rewrite Z.eqb_refl.
             ++ apply filter_In in Ha as [Ha Hb]. rewrite Hb. auto.
          -- intros [[<- | Hin] ->].
             ++ left. now rewrite Z.eqb_refl.
             ++ destruct (x =? input) eqn:Ex; [left; f_equal; lia|]. right. exists x. split; auto.
                apply filter_In. rewrite Ex. auto.
    - destruct (u_isupper val && negb caseSensitive); [apply B2|apply B1].
    - destruct (u_isupper val && negb caseSensitive) eqn:E; cbn [andb]; [|apply B2].
      destruct (val =? u_tolower val) eqn:E1; cbn [negb]; [|apply B3].
      destruct (B2 val val2) as [N S]. apply Z.eqb_eq in E1. split.
      + intros H. apply N. cbn in *. rewrite <- E1 in H. tauto.
      + intros H. destruct S as (l & -> & S).
        { intros H1. apply H. cbn in *. rewrite <- E1. tauto. }
        exists l. split; auto. intros x d. rewrite S. cbn. rewrite <- E1. tauto.
  Qed.

  Lemma cpath_taken : forall ops cs, map choice_of ops = map Some cs ->
    Forall (fun op => letters op <> None) ops ->
    forall n s d q, cpath find n cs s d q <-> exists l, taken ops l d /\ rpath find n l s q.
  Proof.
    intros ops cs Hc HL n s d q. split.
    - intros P. revert ops Hc HL. induction P; intros ops Hc HL.
      + destruct ops; [|discriminate]. exists []. split; constructor.
      + destruct (IHP ops Hc HL) as (l0 & T & R). exists l0. split; auto. eapply rp_eps; eauto.
      + destruct ops as [|op ops]; [discriminate|]. cbn [map] in Hc. injection Hc as Hc1 Hc2.
        inversion HL as [|? ? HL1 HL2]; subst.
        destruct (letters op) as [[i0 alts]|] eqn:El; [|congruence].
        destruct (letters_choice op i0 alts El) as (c & Ec & N & S). rewrite Hc1 in Ec.
        injection Ec as <-.
        assert (Hz : ~ In 0 (i0 :: alts)) by (intros Hz; specialize (N Hz); discriminate).
        destruct (S Hz) as (l1 & E1 & S1). injection E1 as -> ->.
        apply S1 in H as [Hi ->]. destruct (IHP ops Hc2 HL2) as (l0 & T & R).
        exists (i :: l0). split; [eapply tk_cons; eauto|].
        assert (i <> 0) by (intros ->; contradiction).
        replace (i =? 0) with false by lia. cbn [app]. unfold same. eapply rp_sym; eauto.
    - intros (l & T & R). revert cs Hc HL. revert n s q R.
      induction T as [|op ops x l d i alts El Hz Hx T IH]; intros n s q R cs Hc HL.
      + destruct cs; [|discriminate]. clear - R. remember [] as l. induction R; try discriminate.
        * constructor.
        * eapply cp_eps; eauto.
      + destruct cs as [|c cs]; [discriminate|]. cbn [map] in Hc. injection Hc as Hc1 Hc2.
        inversion HL as [|? ? HL1 HL2]; subst.
        destruct (letters_choice op i alts El) as (c' & Ec & N & S). rewrite Hc1 in Ec.
        injection Ec as <-. destruct (S Hz) as (l1 & -> & S1).
        remember (x :: l) as xl. revert Heqxl. induction R; intros Exl; try discriminate.
        * eapply cp_eps; eauto.
        * injection Exl as -> ->.
          change ((o, w) :: s) with ([(same o, w)] ++ s).
          replace [(same o, w)] with (if x =? 0 then [] else [(same o, w)])
            by (replace (x =? 0) with false by lia; auto).
          eapply (cp_sym find p same (fun _ => l1) x (negb (x =? i))); eauto.
          apply S1. auto.
  Qed.

  (** Steps with alternatives explore exactly the paths that read, at each position, the
      symbol or one of its alternatives. *)
  Theorem C36_alternatives : forall fuel m before k n ops w, (k < m)%nat ->
    Forall (fun op => letters op <> None) (calls_on k ops) ->
    exec_all fuel (fresh_world m) (before ++ (k, SInit n) :: ops) = Ok w ->
    forall q s d, In (mkV q s d) (nth k (views w) []) <->
      exists l, taken (calls_on k ops) l d /\ rpath find n l s q.
  Proof.
    intros fuel m before k n ops w Hk HL H q s d.
    assert (E : exists cs, map choice_of (calls_on k ops) = map Some cs).
    { clear - HL. induction HL as [|op l Hop _ (cs & IH)]; [exists []; reflexivity|].
      destruct (letters op) as [[i alts]|] eqn:El; [|congruence].
      destruct (letters_choice op i alts El) as (c & Ec & _). exists (c :: cs). cbn. now rewrite Ec, IH. }
    destruct E as (cs & Hc).
    rewrite (C35_paths fuel m before k n ops cs w Hk Hc H). apply cpath_taken; auto.
  Qed.

  (** The careful variant: the alternative only at nodes where the symbol has no arc. *)
  Inductive careful_path : nat -> list (Z * Z) -> list (Z * W) -> bool -> nat -> Prop :=
  | cf_nil : forall p, careful_path p [] [] false p
  | cf_eps : forall p o q w l s d r, In (o, (q, w)) (find p 0) -> careful_path q l s d r ->
      careful_path p l ((if o =? 0 then [] else [(o, w)]) ++ s) d r
  | cf_symbol : forall p i a o q w l s d r, i <> 0 -> a <> 0 ->
      In (o, (q, w)) (find p i) -> careful_path q l s d r ->
      careful_path p ((i, a) :: l) ((o, w) :: s) d r
  | cf_alternative : forall p i a o q w l s d r, i <> 0 -> a <> 0 ->
      find p i = [] -> In (o, (q, w)) (find p a) -> careful_path q l s d r ->
      careful_path p ((i, a) :: l) ((o, w) :: s) true r.

  Theorem C36_careful : forall fuel m before k n ops l w, (k < m)%nat ->
    calls_on k ops = map (fun x => SStepCareful (fst x) (snd x)) l ->
    exec_all fuel (fresh_world m) (before ++ (k, SInit n) :: ops) = Ok w ->
    forall q s d, In (mkV q s d) (nth k (views w) []) <-> careful_path n l s d q.
  Proof.
    intros fuel m before k n ops l w Hk Hc H q s d.
    set (ch := fun x : Z * Z => if (fst x =? 0) || (snd x =? 0) then None
      else Some (same, fun p => match find p (fst x) with [] => [(snd x, true)] | _ => [(fst x, false)] end)).
    rewrite (C35_paths fuel m before k n ops (map ch l) w Hk); auto.
    2: { rewrite Hc, !map_map. apply map_ext. intros [i a]. reflexivity. }
    clear. split.
    - intros P. remember (map ch l) as cs. revert l Heqcs. induction P; intros l0 E.
      + destruct l0; [constructor|discriminate].
      + eapply cf_eps; eauto.
      + destruct l0 as [|[i0 a0] l0]; [discriminate|]. cbn in E. unfold ch in E at 1. cbn [fst snd] in E.
        destruct ((i0 =? 0) || (a0 =? 0)) eqn:Ez; [discriminate|].
        injection E as -> -> ->. destruct (find p i0) as [|x r0] eqn:Ef.
        * destruct H as [H|[]]. injection H as <- <-. replace (a0 =? 0) with false by lia.
          cbn [app orb]. eapply cf_alternative; eauto; lia.
        * destruct H as [H|[]]. injection H as <- <-. replace (i0 =? 0) with false by lia.
          cbn [app orb]. eapply cf_symbol; eauto; lia.
    - induction 1.
      + constructor.
      + eapply cp_eps; eauto.
      + cbn [map]. change ((o, w) :: s) with ([(same o, w)] ++ s).
        replace [(same o, w)] with (if i =? 0 then [] else [(same o, w)])
          by (replace (i =? 0) with false by lia; auto).
        change d with (false || d). unfold ch at 1. cbn [fst snd].
        replace ((i =? 0) || (a =? 0)) with false by lia.
        eapply cp_sym; eauto. destruct (find p i); [contradiction|]. now left.
      + cbn [map]. change ((o, w) :: s) with ([(same o, w)] ++ s).
        replace [(same o, w)] with (if a =? 0 then [] else [(same o, w)])
          by (replace (a =? 0) with false by lia; auto).
        change true with (true || d). unfold ch at 1. cbn [fst snd].
        replace ((i =? 0) || (a =? 0)) with false by lia.
        eapply cp_sym; eauto. rewrite H1. now left.
  Qed.
End History.

(** * C38 *)
(** The part after the last separator has the required symbol. *)
Definition carries {W} (required sep : Z) (s : list (Z * W)) : Prop :=
  exists a p, s = a ++ p /\ (forall x, In x p -> fst x <> sep) /\ In required (map fst p).
(** Number of separators; the compound has one part more. *)
Definition separators {W} (sep : Z) (s : list (Z * W)) : Z :=
  Z.of_nat (length (filter (fun x => fst x =? sep) s)).
Definition starts_with_separator {W} (sep : Z) (s : list (Z * W)) : Prop :=
  exists w r, s = (sep, w) :: r.

Lemma last_part_carries : forall {W} required sep (s : list (Z * W)), required <> sep ->
  lastPartHasRequiredSymbol s required sep = true <-> carries required sep s.
Proof.
  intros W required sep s Hne. unfold lastPartHasRequiredSymbol.
  induction s as [|[x w] s IH] using rev_ind.
  - cbn. split; [discriminate|]. intros (a & p & E & _ & H). symmetry in E.
    apply app_eq_nil in E as [-> ->]. destruct H.
  - rewrite rev_app_distr. cbn [rev app last_part_has].
    destruct (Z.eqb_spec x required) as [-> | Hx].
    + split; auto. intros _. exists s, [(required, w)]. split; auto. split.
      * intros y [<- | []]. cbn. auto.
      * now left.
    + destruct (Z.eqb_spec x sep) as [-> | Hs].
      * split; [discriminate|]. intros (a & p & E & Hp & H).
        destruct p as [|y p] using rev_ind; [destruct H|].
        rewrite app_assoc in E. apply app_inj_tail in E as [_ <-].
        exfalso. apply (Hp (sep, w)); [|reflexivity]. apply in_or_app. right. now left.
      * rewrite IH. split.
        -- intros (a & p & -> & Hp & H). exists a, (p ++ [(x, w)]). rewrite app_assoc. split; auto. split.
           ++ intros y Hy. apply in_app_or in Hy as [Hy|[<- | []]]; auto.
           ++ rewrite map_app. apply in_or_app. auto.
        -- intros (a & p & E & Hp & H).
           destruct p as [|y p _] using rev_ind; [destruct H|].
           rewrite app_assoc in E. apply app_inj_tail in E as [-> <-].
           exists a, p. split; auto. split; [intros y Hy; apply Hp, in_or_app; auto|].
           rewrite map_app in H. apply in_app_or in H as [H|[H|[]]]; auto. cbn in H. congruence.
Qed.

Lemma count_sep_all : forall {W} required sep (s : list (Z * W)), required <> sep ->
  carries required sep s -> ~ starts_with_separator sep s -> count_sep sep s = separators sep s.
Proof.
  intros W required sep s Hne (a & p & -> & Hp & H) Hs. unfold count_sep, separators. f_equal. f_equal.
  destruct p as [|y p _] using rev_ind; [destruct H|]. rewrite app_assoc. rewrite app_assoc in Hs.
  assert (Hy : (fst y =? sep) = false).
  { apply Z.eqb_neq, Hp, in_or_app. right. now left. }
  destruct (a ++ p) as [|z l] eqn:E; cbn [app tl filter].
  - cbn. now rewrite Hy.
  - rewrite removelast_last. assert (Hz : (fst z =? sep) = false).
    { apply Z.eqb_neq. intros Ez. apply Hs. destruct z as [z wz]. cbn in Ez. subst z.
      exists wz, (l ++ [y]). reflexivity. }
    rewrite Hz, filter_app. cbn. now rewrite Hy, app_nil_r.
Qed.

Lemma min_elements_spec : forall {W} required sep m (l : list (list (Z * W))),
  let r := min_elements required sep m l in
  r <= m /\ (forall s, In s l -> lastPartHasRequiredSymbol s required sep = true -> r <= count_sep sep s)
  /\ (r = m \/ exists s, In s l /\ lastPartHasRequiredSymbol s required sep = true /\ r = count_sep sep s).
Proof.
  intros W required sep m l. cbv zeta. unfold min_elements. revert m.
  induction l as [|x l IH]; intros m; cbn [fold_left].
  - split; [lia|]. split; [intros s []|auto].
  - destruct (lastPartHasRequiredSymbol x required sep) eqn:E.
    + destruct (IH (Z.min m (count_sep sep x))) as (A & B & C). split; [lia|]. split.
      * intros s [<- | Hs] Hl; [lia|]. apply B; auto.
      * destruct C as [C|(s & Hs & Hl & C)].
        -- destruct (Z.min_spec m (count_sep sep x)) as [[_ E1]|[_ E1]]; rewrite E1 in C at 2.
           ++ auto.
           ++ right. exists x. split; [now left|]. auto.
        -- right. exists s. split; [now right|]. auto.
    + destruct (IH m) as (A & B & C). split; [lia|]. split.
      * intros s [<- | Hs] Hl; [congruence|]. apply B; auto.
      * destruct C as [C|(s & Hs & Hl & C)]; auto. right. exists s. split; [now right|]. auto.
Qed.

Section Prune.
  Context {W : Type}.
  Context (find : nat -> Z -> list (Z * (nat * W))).
  Context (u_isupper : Z -> bool) (u_tolower : Z -> Z).
  Notation exec_all := (exec_all find u_isupper u_tolower).

  Lemma exec_last : forall fuel m ops k op w w', exec_all fuel (fresh_world m) ops = Ok w ->
    exec find u_isupper u_tolower fuel w k op = Ok w' ->
    v_exec find u_isupper u_tolower fuel (views w) k op = Ok (views w').
  Proof.
    intros fuel m ops k op w w' H H'.
    pose proof (exec_all_turns find u_isupper u_tolower fuel ops (fresh_world m) (fresh_sound m)) as T.
    destruct (v_exec_all find u_isupper u_tolower fuel (views (fresh_world m)) ops); try contradiction;
      [|congruence].
    destruct T as (w1 & E & S & _). rewrite H in E. injection E as <-.
    pose proof (exec_turns find u_isupper u_tolower fuel w k op S) as T.
    destruct (v_exec find u_isupper u_tolower fuel (views w) k op); try contradiction; [|congruence].
    destruct T as (w2 & E & _ & <-). congruence.
  Qed.

  (** In any reachable situation: pruning keeps, in their order, exactly the analyses whose
      last part carries the required symbol and which have at most the allowed and no more
      than any other such analysis' number of separators. *)
  Theorem C38_compounds : forall fuel m ops k required sep maxel w w', (k < m)%nat ->
    required <> sep -> maxel < 2 ^ 31 - 1 ->
    exec_all fuel (fresh_world m) ops = Ok w ->
    (forall x, In x (nth k (views w) []) -> ~ starts_with_separator sep (v_seq x)) ->
    exec find u_isupper u_tolower fuel w k (SPruneCompounds required sep maxel) = Ok w' ->
    exists keep, nth k (views w') [] = filter keep (nth k (views w) [])
    /\ forall x, In x (nth k (views w) []) ->
       (keep x = true <-> carries required sep (v_seq x) /\ separators sep (v_seq x) <= maxel
          /\ forall y, In y (nth k (views w) []) -> carries required sep (v_seq y) ->
               separators sep (v_seq x) <= separators sep (v_seq y)).
  Proof.
    intros fuel m ops k required sep maxel w w' Hk Hne Hmax H Hst H'.
    pose proof (exec_last _ _ _ _ _ _ _ H H') as V. apply exec_values, v_exec_all_length in H.
    rewrite repeat_length in H.
    unfold v_exec in V. replace (k <? length (views w))%nat with true in V
      by (symmetry; apply Nat.ltb_lt; lia).
    cbn [negb obind] in V. assert (E : views w' = put_nth k (v_prune_compounds required sep maxel (nth k (views w) [])) (views w)) by congruence.
    rewrite E, (nth_put_same (views w) k _ []) by (rewrite H; exact Hk). unfold v_prune_compounds. eexists. split; [reflexivity|].
    set (st := nth k (views w) []) in *. intros x Hx.
    destruct (min_elements_spec required sep maxel (map v_seq st)) as (A & B & C).
    set (mn := min_elements required sep maxel (map v_seq st)) in *.
    assert (Cnt : forall y, In y st -> carries required sep (v_seq y) ->
      count_sep sep (v_seq y) = separators sep (v_seq y)).
    { intros y Hy Hc. eapply count_sep_all; eauto. }
    unfold compound_elements.
    destruct (lastPartHasRequiredSymbol (v_seq x) required sep) eqn:El.
    - pose proof (proj1 (last_part_carries required sep (v_seq x) Hne) El) as Hc.
      rewrite (Cnt x Hx Hc). rewrite negb_true_iff, Z.ltb_ge. split.
      + intros Hle. split; auto. split; [lia|]. intros y Hy Hcy.
        rewrite <- (Cnt y Hy Hcy). specialize (B (v_seq y) (in_map _ _ _ Hy)).
        rewrite (last_part_carries required sep (v_seq y) Hne) in B. specialize (B Hcy). lia.
      + intros (_ & Hle & Hmin). destruct C as [-> | (s & Hs & Hl & ->)]; [auto|].
        apply in_map_iff in Hs as (y & <- & Hy).
        pose proof (proj1 (last_part_carries required sep (v_seq y) Hne) Hl) as Hcy.
        rewrite (Cnt y Hy Hcy). auto.
    - assert (Hc : ~ carries required sep (v_seq x)).
      { intros Hc. apply (last_part_carries required sep (v_seq x) Hne) in Hc. congruence. }
      unfold int_max. split.
      + intros Hk'. exfalso. rewrite negb_true_iff, Z.ltb_ge in Hk'. lia.
      + intros (Hc' & _). contradiction.
  Qed.

  (** The other pruning removes exactly the analyses with the symbol. *)
  Theorem C38_forbidden : forall fuel m ops k forbidden w w', (k < m)%nat ->
    exec_all fuel (fresh_world m) ops = Ok w ->
    exec find u_isupper u_tolower fuel w k (SPruneForbidden forbidden) = Ok w' ->
    exists keep, nth k (views w') [] = filter keep (nth k (views w) [])
    /\ forall x, keep x = true <-> ~ In forbidden (map fst (v_seq x)).
  Proof.
    intros fuel m ops k forbidden w w' Hk H H'.
    pose proof (exec_last _ _ _ _ _ _ _ H H') as V. apply exec_values, v_exec_all_length in H.
    rewrite repeat_length in H.
    unfold v_exec in V. replace (k <? length (views w))%nat with true in V
      by (symmetry; apply Nat.ltb_lt; lia).
    cbn [negb obind] in V. assert (E : views w' = put_nth k (v_prune_forbidden forbidden (nth k (views w) [])) (views w)) by congruence.
    rewrite E, (nth_put_same (views w) k _ []) by (rewrite H; exact Hk). unfold v_prune_forbidden. eexists. split; [reflexivity|].
    intros x. rewrite negb_true_iff, <- not_true_iff_false, existsb_exists, in_map_iff. split.
    - intros N (y & Ey & Hy). apply N. exists y. split; auto. lia.
    - intros N (y & Hy & Ey). apply N. exists y. split; auto. lia.
  Qed.
End Prune.

(** A separator as the very first symbol is not counted: with '+' = 43 and the required tag
    -1, the analysis "+ a" is taken to have no separator and suppresses nothing, but
    "a + b" with the same number is thrown away. *)
Theorem C38_first_separator_refuted :
  exists find ops w w' x, let kept := nth 0 (views w') [] in
    exec_all (W:=Z) find (fun _ => false) (fun c => c) 20 (fresh_world 1) ops = Ok w
    /\ exec find (fun _ => false) (fun c => c) 20 w 0 (SPruneCompounds (-1) 43 4) = Ok w'
    /\ In x (nth 0 (views w) []) /\ carries (-1) 43 (v_seq x)
    /\ (forall y, In y (nth 0 (views w) []) -> separators 43 (v_seq x) <= separators 43 (v_seq y))
    /\ separators 43 (v_seq x) <= 4 /\ ~ In x kept.
Proof.
  exists (fun p c => match p, c with
    | O, 97 => [(43, (1%nat, 0)); (97, (2%nat, 0))]
    | 1%nat, 98 => [(-1, (3%nat, 0))] | 2%nat, 98 => [(43, (4%nat, 0))]
    | 3%nat, 99 => [(99, (5%nat, 0))] | 4%nat, 99 => [(-1, (5%nat, 0))]
    | _, _ => [] end),
    [(0%nat, SInit 0); (0%nat, SStep 97); (0%nat, SStep 98); (0%nat, SStep 99)].
  do 2 eexists. exists (mkV 5 [(97, 0); (43, 0); (-1, 0)] false). cbv zeta.
  split; [vm_compute; reflexivity|]. split; [vm_compute; reflexivity|].
  split; [vm_compute; auto|]. split.
  - exists [(97, 0); (43, 0)], [(-1, 0)]. split; [reflexivity|]. split; [|now left].
    intros y [<- | []]. discriminate.
  - split; [|split; [vm_compute; discriminate|]].
    + intros y Hy. vm_compute in Hy. destruct Hy as [<- | [<- | []]]; vm_compute; discriminate.
    + vm_compute. intros [H|[]]. discriminate.
Qed.

(** * Concrete cases *)
(** a:x/2 ε:y/3 to node 2, a:z to node 3; b:ε from node 2; node 3 reads only 'B'. *)
Definition g35 (p : nat) (c : Z) : list (Z * (nat * Z)) :=
  match p, c with
  | O, 97 => [(120, (1%nat, 2)); (122, (3%nat, 0))]
  | 1%nat, 0 => [(121, (2%nat, 3))]
  | 2%nat, 98 => [(0, (4%nat, 0))]
  | 3%nat, 66 => [(98, (4%nat, 1))]
  | _, _ => []
  end.
Lemma g35_acyclic : eps_acyclic g35.
Proof.
  exists (fun p => match p with 1%nat => 1%nat | _ => 0%nat end).
  intros [|[|[|[|p]]]] o q w; cbn; try tauto. intros [H|[]]. injection H as <- <- <-. lia.
Qed.
Definition isup (c : Z) : bool := (65 <=? c) && (c <=? 90).
Definition low (c : Z) : Z := if isup c then c + 32 else c.
Definition run35 (ops : list (nat * sop)) : outcome (list (list vns)) :=
  let! w := exec_all g35 isup low 50 (fresh_world 2) ops in Ok (views w).

(** Object 1 works in between and object 0 is used before; the pool is reused. *)
Example C35_example :
  run35 [(0%nat, SInit 0); (0%nat, SStep 97); (0%nat, SStep 120);
         (1%nat, SInit 1); (0%nat, SInit 0); (1%nat, SStep 98); (0%nat, SStep 97);
         (1%nat, SAssign 0); (1%nat, SStep 66); (0%nat, SStep 98)]
  = Ok [[mkV 4 [(120, 2); (121, 3); (0, 0)] false]; [mkV 4 [(122, 0); (98, 1)] false]].
Proof. vm_compute. reflexivity. Qed.

(** 'B' may be read as 'b'; where both are possible both are taken, except carefully. *)
Example C36_example :
  run35 [(0%nat, SInit 0); (0%nat, SStep 97); (0%nat, SCase 66 false)]
  = Ok [[mkV 4 [(122, 0); (98, 1)] false; mkV 4 [(120, 2); (121, 3); (0, 0)] true]; []].
Proof. vm_compute. reflexivity. Qed.
Example C36_example_careful :
  run35 [(0%nat, SInit 0); (0%nat, SStepCareful 97 98); (0%nat, SStepCareful 66 98)]
  = Ok [[mkV 4 [(122, 0); (98, 1)] false; mkV 4 [(120, 2); (121, 3); (0, 0)] true]; []].
Proof. vm_compute. reflexivity. Qed.

(** Compounds: the graph [gc] reads "a" as one word or as a first part carrying the tag -2;
    '+' is 43 and the last part must carry -1. *)
Definition gc (p : nat) (c : Z) : list (Z * (nat * Z)) :=
  match p, c with
  | O, 97 => [(97, (1%nat, 0)); (-2, (2%nat, 0))]
  | O, 98 => [(-1, (3%nat, 0))]
  | 1%nat, 98 => [(-1, (3%nat, 0))]
  | _, _ => []
  end.
Definition compound_calls : list (nat * sop) :=
  [(1%nat, SInit 0); (0%nat, SAssign 1); (0%nat, SStep 97);
   (0%nat, SRestart (fun q => (2 <=? q)%nat) (-2) 1 43 0); (0%nat, SStep 98)].
Example C38_example :
  (let! w := exec_all gc isup low 50 (fresh_world 2) compound_calls in Ok (nth 0 (views w) []))
    = Ok [mkV 3 [(97, 0); (-1, 0)] false; mkV 3 [(-2, 0); (43, 0); (-1, 0)] false]
  /\ (let! w := exec_all gc isup low 50 (fresh_world 2)
        (compound_calls ++ [(0%nat, SPruneCompounds (-1) 43 4)]) in Ok (nth 0 (views w) []))
    = Ok [mkV 3 [(97, 0); (-1, 0)] false]
  /\ (let! w := exec_all gc isup low 50 (fresh_world 2)
        (compound_calls ++ [(0%nat, SPruneForbidden 97)]) in Ok (nth 0 (views w) []))
    = Ok [mkV 3 [(-2, 0); (43, 0); (-1, 0)] false].
Proof. repeat split; vm_compute; reflexivity. Qed.

(** The weight of an arc that neither reads nor writes is dropped: a path of weight 7 is
    held with no weight at all. *)
Theorem C35_weights_refuted :
  exists find ops w, exec_all (W:=Z) find isup low 10 (fresh_world 1) ops = Ok w
    /\ In (0, (1%nat, 7)) (find 0%nat 0)
    /\ nth 0 (views w) [] = [mkV 0 [] false; mkV 1 [] false].
Proof.
  exists (fun p c => match p, c with O, 0 => [(0, (1%nat, 7))] | _, _ => [] end), [(0%nat, SInit 0)].
  eexists. split; [vm_compute; reflexivity|]. split; [now left|]. vm_compute. reflexivity.
Qed.

(** The public member [copy], unlike assignment, must not be called on an object that has
    been stepped: it writes through released cells. *)
Theorem C35_copy_refuted :
  exists w, exec_all g35 isup low 50 (fresh_world 2)
              [(0%nat, SInit 0); (0%nat, SStep 120); (1%nat, SInit 0)] = Ok w
    /\ copy (w_heap w) (w_get w 0) (w_get w 1) = UB
    /\ exists r, assign (w_heap w) (w_get w 0) (w_get w 1) = Ok r.
Proof.
  eexists. split; [vm_compute; reflexivity|]. split; [vm_compute; reflexivity|].
  eexists. vm_compute. reflexivity.
Qed.

Print Assumptions C35_paths.
Print Assumptions C35_steps.
Print Assumptions C35_memory_safe.
Print Assumptions C35_terminates.
Print Assumptions C35_epsilon_cycle_refuted.
Print Assumptions C35_weights_refuted.
Print Assumptions C35_copy_refuted.
Print Assumptions C36_alternatives.
Print Assumptions C36_careful.
Print Assumptions C38_compounds.
Print Assumptions C38_forbidden.
Print Assumptions C38_first_separator_refuted.
