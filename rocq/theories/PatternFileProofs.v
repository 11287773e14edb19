(** Proofs for C79: what buildTransducer makes fits the file format, and comes back. *)
From Verif Require Import Base CompressionModel WeightCodecProofs StringCodecProofs AlphabetModel AlphabetProofs TransducerModel TransducerSpec TransducerProofs RegexpProofs FileModel FileProofs FileProps LoadModel
  MatchModel PatternModel PatternFileModel.

(** * Sizes and symbols *)
Section Sizes.
  Context (T : Z -> Prop).
  (** Not more than [n] states, and [m] arcs from each *)
  Record sized (n m : nat) (t : transducer) : Prop := {
    sz_wf : wf t; sz_states : (nstates t <= n)%nat; sz_rows : forall p, (length (arcs_of t p) <= m)%nat;
    sz_arcs : forall p c q w, has_arc t p c q w -> w = 0 /\ T c;
    sz_finals : forall p w, final_wt t p w -> w = 0 }.
  Lemma sized_more : forall n m n' m' t, sized n m t -> (n <= n')%nat -> (m <= m')%nat -> sized n' m' t.
  Proof. intros n m n' m' t [H1 H2 H3 H4 H5] Hn Hm. constructor; auto; [lia|]. intros p. specialize (H3 p). lia. Qed.
  Lemma mm_insert_length : forall b l, length (mm_insert b l) = S (length l).
  Proof. intros b l. induction l as [|x l IH]; [reflexivity|]. cbn [mm_insert]. destruct (_ <? _); cbn; auto. Qed.
  Lemma add_arc_row : forall s b t p, (length (arcs_of (add_arc s b t) p) <= S (length (arcs_of t p)))%nat.
  Proof.
    intros s b t p. unfold arcs_of, add_arc. cbn [trans]. destruct (Nat.lt_ge_cases s (length (trans t))) as [L|L].
    - rewrite nth_upd by exact L. destruct (p =? s)%nat; [rewrite mm_insert_length; lia|lia].
    - rewrite upd_out by exact L. lia.
  Qed.
  Lemma sized_add : forall n m t s c q, sized n m t -> T c -> (s < nstates t)%nat -> (q < nstates t)%nat -> sized n (S m) (add_arc s (c, (q, 0)) t).
  Proof.
    intros n m t s c q [H1 H2 H3 H4 H5] Hc Hs Hq. constructor.
    - now apply add_arc_wf.
    - now rewrite nstates_add_arc.
    - intros p. pose proof (add_arc_row s (c, (q, 0)) t p). specialize (H3 p). lia.
    - intros p c' q' w' H. apply has_arc_add in H as [H|[_ E]]; [eauto| |exact Hs]. injection E as -> -> ->. auto.
    - exact H5.
  Qed.
  Lemma sized_link : forall n m t p q c t', sized n m t -> T c -> linkStates p q c 0 t = Ok t' ->
    sized n (S m) t' /\ nstates t' = nstates t /\ finals t' = finals t /\ initial t' = initial t.
  Proof.
    intros n m t p q c t' H Hc E. unfold linkStates in E. destruct (_ && _) eqn:B; [|discriminate]. apply andb_prop in B as [B1 B2]. apply Nat.ltb_lt in B1, B2.
    destruct (existsb _ _); apply Ok_inj in E; subst t'.
    - split; [eapply sized_more; [exact H|lia|lia]|auto].
    - split; [now apply sized_add|]. split; [apply nstates_add_arc|auto].
  Qed.
  Lemma sized_insert : forall n m t c s e t', sized n m t -> T c -> insert_or_ub c s t = Ok (e, t') ->
    sized (S n) (S m) t' /\ (e < nstates t')%nat /\ (nstates t <= nstates t')%nat /\ finals t' = finals t /\ initial t' = initial t.
  Proof.
    intros n m t c s e t' H Hc E. unfold insert_or_ub, insertSingleTransduction in E. destruct (Nat.ltb_spec s (nstates t)) as [L|L]; [|discriminate].
    assert (R := equal_range_in c (arcs_of t s)).
    assert (Old : forall x, In x (equal_range c (arcs_of t s)) -> Ok (a_dst x, t) = Ok (e, t') ->
      sized (S n) (S m) t' /\ (e < nstates t')%nat /\ (nstates t <= nstates t')%nat /\ finals t' = finals t /\ initial t' = initial t).
    { intros [c' [q w]] Hx Ex. apply R in Hx as [Hx _]. injection Ex as <- <-. split; [eapply sized_more; [exact H|lia|lia]|]. split; [|auto]. exact (wf_arcs t (sz_wf _ _ _ H) _ _ _ _ Hx). }
    destruct (equal_range c (arcs_of t s)) as [|x [|y [|z l]]]; try discriminate.
    - destruct (newState_spec t) as (F & N & I & Fi & A). pose proof (newState_wf t (sz_wf _ _ _ H)) as W. destruct (newState t) as [q u]. cbn [fst snd] in *. injection E as <- <-. subst q.
      assert (Su : sized (S n) m u).
      { destruct H as [H1 H2 H3 H4 H5]. constructor; [exact W|lia|intros p; rewrite A; auto| |].
        - intros p c' q w Hp. unfold has_arc in Hp. rewrite A in Hp. eauto.
        - intros p w Hp. unfold final_wt in Hp. rewrite Fi in Hp. eauto. }
      split; [apply sized_add; auto; lia|]. rewrite nstates_add_arc. split; [lia|]. split; [lia|]. auto.
    - apply (Old x); [now left|exact E].
    - destruct (negb (a_dst x =? s)%nat); [apply (Old x); [now left|exact E]|]. destruct (negb (a_dst y =? s)%nat); [|discriminate]. apply (Old y); [right; now left|exact E].
  Qed.
End Sizes.

Section Build.
  Context (a : alphabet) (T : Z -> Prop).
  Notation anyc := (symbol_code ANY_CHAR a).
  Hypothesis Tc : T 95 /\ T 32 /\ T 35 /\ T anyc.
  (** [k] symbols are built. *)
  Notation big k t := (sized T (S k) (4 * k) t).
  Lemma link_prev_sized : forall n m t prev s c t', sized T n m t -> T c -> link_prev prev s c t = Ok t' ->
    sized T n (S m) t' /\ nstates t' = nstates t /\ finals t' = finals t /\ initial t' = initial t.
  Proof.
    intros n m t [p|] s c t' H Hc E; cbn [link_prev] in E; [now apply (sized_link T n m t p s c)|]. injection E as <-. split; [eapply sized_more; [exact H|lia|lia]|auto].
  Qed.
  Lemma build_symbol_sized : forall v k t s prev t' s' prev', big k t -> T v -> (s < nstates t)%nat ->
    (forall p, prev = Some p -> (p < nstates t)%nat) -> build_symbol a v (t, s, prev) = Ok (t', s', prev') ->
    big (S k) t' /\ (s' < nstates t')%nat /\ (forall p, prev' = Some p -> (p < nstates t')%nat) /\ finals t' = finals t /\ initial t' = initial t
    /\ (nstates t <= nstates t')%nat.
  Proof.
    intros v k t s prev t' s' prev' H Hv Hs Hp E. destruct Tc as (T1 & T2 & T3 & T4). unfold build_symbol in E. destruct (_ || _).
    - destruct (insert_or_ub v s t) as [[e t1]| | | |] eqn:E1; try discriminate. cbn [obind] in E.
      destruct (sized_insert T _ _ _ _ _ _ _ H Hv E1) as (A1 & A2 & A3 & A4 & A5).
      destruct (link_prev prev e v t1) as [t2| | | |] eqn:E2; try discriminate. cbn [obind] in E.
      destruct (link_prev_sized _ _ _ _ _ _ _ A1 Hv E2) as (B1 & B2 & B3 & B4).
      destruct (linkStates e e v 0 t2) as [t3| | | |] eqn:E3; try discriminate. cbn [obind] in E. injection E as <- <- <-.
      destruct (sized_link T _ _ _ _ _ _ _ B1 Hv E3) as (C1 & C2 & C3 & C4).
      split; [eapply sized_more; [exact C1|lia|lia]|]. split; [lia|]. split; [discriminate|]. split; [congruence|]. split; [congruence|lia].
    - destruct (_ =? v).
      + destruct prev as [p|].
        * injection E as <- <- <-. split; [eapply sized_more; [exact H|lia|lia]|]. auto 8.
        * destruct (insert_or_ub 95 s t) as [[e t1]| | | |] eqn:E1; try discriminate. cbn [obind] in E.
          destruct (sized_insert T _ _ _ _ _ _ _ H T1 E1) as (A1 & A2 & A3 & A4 & A5).
          destruct (linkStates s e 32 0 t1) as [t2| | | |] eqn:E2; try discriminate. cbn [obind] in E. destruct (sized_link T _ _ _ _ _ _ _ A1 T2 E2) as (B1 & B2 & B3 & B4).
          destruct (linkStates s e 35 0 t2) as [t3| | | |] eqn:E3; try discriminate. cbn [obind] in E. destruct (sized_link T _ _ _ _ _ _ _ B1 T3 E3) as (C1 & C2 & C3 & C4).
          destruct (linkStates e e anyc 0 t3) as [t4| | | |] eqn:E4; try discriminate. cbn [obind] in E. injection E as <- <- <-.
          destruct (sized_link T _ _ _ _ _ _ _ C1 T4 E4) as (D1 & D2 & D3 & D4).
          split; [eapply sized_more; [exact D1|lia|lia]|]. split; [lia|]. split; [intros p Ep; injection Ep as <-; lia|]. split; [congruence|]. split; [congruence|lia].
      + destruct (insert_or_ub v s t) as [[e t1]| | | |] eqn:E1; try discriminate. cbn [obind] in E.
        destruct (sized_insert T _ _ _ _ _ _ _ H Hv E1) as (A1 & A2 & A3 & A4 & A5).
        destruct (link_prev prev e v t1) as [t2| | | |] eqn:E2; try discriminate. cbn [obind] in E. injection E as <- <- <-.
        destruct (link_prev_sized _ _ _ _ _ _ _ A1 Hv E2) as (B1 & B2 & B3 & B4).
        split; [eapply sized_more; [exact B1|lia|lia]|]. split; [lia|]. split; [discriminate|]. split; [congruence|]. split; [congruence|lia].
  Qed.
  Lemma build_symbols_sized : forall l k t s prev t' s' prev', big k t -> Forall T l -> (s < nstates t)%nat ->
    (forall p, prev = Some p -> (p < nstates t)%nat) -> build_symbols a l (t, s, prev) = Ok (t', s', prev') ->
    big (length l + k) t' /\ (s' < nstates t')%nat /\ (forall p, prev' = Some p -> (p < nstates t')%nat) /\ finals t' = finals t /\ initial t' = initial t
    /\ (nstates t <= nstates t')%nat.
  Proof.
    induction l as [|v l IH]; intros k t s prev t' s' prev' H Hl Hs Hp E; cbn [build_symbols] in E.
    - injection E as <- <- <-. split; [exact H|]. auto 8.
    - inversion Hl as [|? ? Hv Hl']; subst. destruct (build_symbol a v (t, s, prev)) as [[[t1 s1] p1]| | | |] eqn:E1; try discriminate. cbn [obind] in E.
      destruct (build_symbol_sized v k t s prev t1 s1 p1 H Hv Hs Hp E1) as (A1 & A2 & A3 & A4 & A5 & A6).
      destruct (IH (S k) t1 s1 p1 t' s' prev' A1 Hl' A2 A3 E) as (B1 & B2 & B3 & B4 & B5 & B6).
      cbn [length]. replace (S (length l) + k)%nat with (length l + S k)%nat by lia. split; [exact B1|]. split; [exact B2|]. split; [exact B3|]. split; [congruence|]. split; [congruence|lia].
  Qed.

  (** The final types: in order, numbers of patterns *)
  Context (N : Z -> Prop).
  Definition key_lt (x y : nat * Z) : Prop := (fst x < fst y)%nat.
  Definition typed (n : nat) (ft : list (nat * Z)) : Prop :=
    StronglySorted key_lt ft /\ forall s c, In (s, c) ft -> (s < n)%nat /\ N c.
  Lemma type_set_in : forall s c l x, In x (type_set s c l) -> x = (s, c) \/ In x l.
  Proof.
    intros s c l x. induction l as [|[s' c'] l IH]; cbn [type_set]; [intros [<-|[]]; auto|].
    destruct (s =? s')%nat; [intros [<-|H]; [auto|right; now right]|]. destruct (s <? s')%nat; [intros [<-|H]; auto|].
    intros [<-|H]; [right; now left|]. destruct (IH H); [auto|right; now right].
  Qed.
  Lemma type_set_sorted : forall s c l, StronglySorted key_lt l -> StronglySorted key_lt (type_set s c l).
  Proof.
    intros s c l H. induction H as [|[s' c'] l Hl IH Hx]; cbn [type_set]; [constructor; constructor|].
    destruct (Nat.eqb_spec s s') as [->|Ns]; [now constructor|]. destruct (Nat.ltb_spec s s').
    - constructor; [now constructor|]. constructor; [exact H|]. revert Hx. apply Forall_impl. unfold key_lt. cbn. intros y Hy. lia.
    - constructor; [exact IH|]. apply Forall_forall. intros y Hy. apply type_set_in in Hy as [->|Hy]; [unfold key_lt; cbn; lia|]. rewrite Forall_forall in Hx. auto.
  Qed.
  Lemma typed_set : forall n s c ft, typed n ft -> (s < n)%nat -> N c -> typed n (type_set s c ft).
  Proof.
    intros n s c ft [H1 H2] Hs Hc. split; [now apply type_set_sorted|]. intros s' c' H. apply type_set_in in H as [H|H]; [injection H as -> ->; auto|auto].
  Qed.
  Lemma typed_more : forall n n' ft, typed n ft -> (n <= n')%nat -> typed n' ft.
  Proof. intros n n' ft [H1 H2] Hn. split; [exact H1|]. intros s c H. apply H2 in H as [H3 H4]. split; [lia|exact H4]. Qed.
  Lemma mark_sized : forall n m s id t ft t' ft', sized T n m t -> typed (nstates t) ft -> (s < nstates t)%nat -> N id ->
    mark_final s id (t, ft) = (t', ft') -> sized T n m t' /\ typed (nstates t') ft' /\ nstates t' = nstates t.
  Proof.
    intros n m s id t ft t' ft' [H1 H2 H3 H4 H5] Hf Hs Hi E. unfold mark_final in E. destruct (isFinal t s); injection E as <- <-; [split; [now constructor|auto]|].
    split; [|split; [|reflexivity]].
    - constructor; [now apply setFinal_wf|exact H2|exact H3|exact H4|].
      intros p w H. unfold final_wt, setFinal in H. cbn [finals] in H. apply fin_insert_in in H as [H|H]; [eauto|tauto|apply H1].
    - now apply typed_set.
  Qed.
  Lemma build_pattern_sized : forall id l k t ft t' ft', big k t -> typed (nstates t) ft -> Forall T l -> N id ->
    build_pattern a id l (t, ft) = Ok (t', ft') -> big (length l + k) t' /\ typed (nstates t') ft'.
  Proof.
    intros id l k t ft t' ft' H Hf Hl Hi E. unfold build_pattern in E.
    destruct (build_symbols a l (t, initial t, None)) as [[[t1 s1] p1]| | | |] eqn:E1; try discriminate. cbn [obind] in E.
    destruct (build_symbols_sized l k t _ None t1 s1 p1 H Hl (wf_initial t (sz_wf _ _ _ _ H)) ltac:(discriminate) E1) as (A1 & A2 & A3 & A4 & A5 & A6).
    pose proof (typed_more _ _ _ Hf A6) as F1. apply Ok_inj in E. destruct p1 as [p|].
    - destruct (mark_final p id (t1, ft)) as [t2 ft2] eqn:E2. destruct (mark_sized _ _ _ _ _ _ _ _ A1 F1 (A3 p eq_refl) Hi E2) as (B1 & B2 & B3).
      destruct (mark_sized _ _ _ _ _ _ _ _ B1 B2 ltac:(rewrite B3; exact A2) Hi E) as (C1 & C2 & _). auto.
    - destruct (mark_sized _ _ _ _ _ _ _ _ A1 F1 A2 Hi E) as (C1 & C2 & _). auto.
  Qed.
  Definition volume (l : list (Z * list Z)) : nat := length (flat_map snd l).
  Lemma build_patterns_sized : forall l k t ft t' ft', big k t -> typed (nstates t) ft -> (forall id v, In (id, v) l -> Forall T v /\ N id) ->
    build_patterns a l (t, ft) = Ok (t', ft') -> big (volume l + k) t' /\ typed (nstates t') ft'.
  Proof.
    induction l as [|[id v] l IH]; intros k t ft t' ft' H Hf Hl E; cbn [build_patterns] in E.
    - injection E as <- <-. auto.
    - destruct (build_pattern a id v (t, ft)) as [[t1 ft1]| | | |] eqn:E1; try discriminate. cbn [obind] in E. destruct (Hl id v (or_introl eq_refl)) as [L1 L2].
      destruct (build_pattern_sized id v k t ft t1 ft1 H Hf L1 L2 E1) as [A1 A2].
      destruct (IH _ t1 ft1 t' ft' A1 A2 ltac:(intros i w Hi; apply Hl; now right) E) as [B1 B2]. split; [|exact B2].
      unfold volume in *. cbn [flat_map snd]. rewrite app_length. replace (length v + length (flat_map snd l) + k)%nat with (length (flat_map snd l) + (length v + k))%nat by lia. exact B1.
  Qed.
  Lemma buildTransducer_sized : forall p t ft, pl_alpha p = a -> (forall id v, In (id, v) (pl_patterns p) -> Forall T v /\ N id) -> buildTransducer p = Ok (t, ft) ->
    big (volume (pl_patterns p)) t /\ typed (nstates t) ft.
  Proof.
    intros p t ft Ea Hl E. unfold buildTransducer in E. rewrite Ea in E.
    assert (H0 : big 0 new_transducer).
    { constructor; [apply new_transducer_wf|cbn; lia| | |].
      - intros q. unfold arcs_of. cbn. destruct q as [|[|]]; cbn; lia.
      - intros q c r w H. unfold has_arc, arcs_of in H. cbn in H. destruct q as [|[|]]; destruct H.
      - intros q w []. }
    assert (F0 : typed (nstates new_transducer) []) by (split; [constructor|intros s c []]).
    destruct (build_patterns_sized _ 0 _ _ _ _ H0 F0 Hl E) as [A B]. rewrite Nat.add_0_r in A. auto.
  Qed.
End Build.

(** * The file *)
Lemma sorted_map : forall {B D} (R : B -> B -> Prop) (S : D -> D -> Prop) (f : B -> D) l,
  (forall x y, R x y -> S (f x) (f y)) -> StronglySorted R l -> StronglySorted S (map f l).
Proof.
  intros B D R S f l H K. induction K as [|x l K IH Hx]; cbn [map]; constructor; [exact IH|]. apply Forall_forall. intros y Hy. apply in_map_iff in Hy as (z & <- & Hz).
  rewrite Forall_forall in Hx. auto.
Qed.
Lemma fins_of_length : forall t, wf t -> (length (finals t) <= nstates t)%nat.
Proof.
  intros t W. assert (K : forall (l : list (nat * Z)) b n, finals_sorted l -> (forall p w, In (p, w) l -> (b <= p < n)%nat) -> (length l <= n - b)%nat).
  { induction l as [|[p w] l IH]; intros b n So H; [cbn; lia|]. apply StronglySorted_inv in So as [So Hx]. pose proof (H p w (or_introl eq_refl)).
    specialize (IH (S p) n So). cbn [length]. enough (length l <= n - S p)%nat by lia. apply IH. intros q v Hq. rewrite Forall_forall in Hx. specialize (Hx _ Hq). cbn in Hx. pose proof (H q v (or_intror Hq)). lia. }
  pose proof (K (finals t) 0%nat (nstates t) (wf_finals_sorted t W)) as H. rewrite Nat.sub_0_r in H. apply H. intros p w Hp. pose proof (wf_finals t W p w Hp). lia.
Qed.
Definition symbol_fits (n : Z) (c : Z) : Prop := - n <= c /\ c + 2 * n < 2 ^ 30.
Section File.
  Context (a : alphabet) (to_file : Z -> weight) (t : transducer) (ft : list (nat * Z)) (n m : nat).
  Hypothesis H0 : to_file 0 = WFin 0 0.
  Hypothesis Sz : sized (symbol_fits (alphabet_size a)) n m t.
  Hypothesis Bn : Z.of_nat n < 2 ^ 30.
  Hypothesis Bm : Z.of_nat m < 2 ^ 30.
  Notation tf := (file_trans to_file t).
  Lemma frow : forall l, In l (f_trans tf) -> exists i, l = map (fun x : arc => (a_tag x, (a_dst x, to_file (a_wt x)))) (arcs_of t i).
  Proof.
    intros l Hl. cbn [file_trans f_trans] in Hl. apply in_map_iff in Hl as (r & <- & Hr). apply (In_nth _ _ []) in Hr as (i & _ & <-). now exists i.
  Qed.
  Lemma frow_zero : forall l c d w, In l (f_trans tf) -> In (c, (d, w)) l -> w = WFin 0 0 /\ symbol_fits (alphabet_size a) c /\ (d < nstates t)%nat.
  Proof.
    intros l c d w Hl H. destruct (frow l Hl) as (i & ->). apply in_map_iff in H as ([c' [d' w']] & E & H). unfold a_tag, a_dst, a_wt in E. cbn [fst snd] in E. injection E as -> -> E.
    destruct (sz_arcs _ _ _ _ Sz _ _ _ _ H) as [-> Hc]. rewrite H0 in E. subst w. split; [reflexivity|]. split; [exact Hc|]. exact (wf_arcs t (sz_wf _ _ _ _ Sz) _ _ _ _ H).
  Qed.
  Lemma ffin_zero : forall s w, In (s, w) (f_finals tf) -> w = WFin 0 0 /\ (s < nstates t)%nat.
  Proof.
    intros s w H. cbn [file_trans f_finals] in H. apply in_map_iff in H as ([q f] & E & H). cbn [fst snd] in E. pose proof (sz_finals _ _ _ _ Sz _ _ H) as ->. rewrite H0 in E. injection E as -> <-.
    split; [reflexivity|]. exact (wf_finals t (sz_wf _ _ _ _ Sz) _ _ H).
  Qed.
  Lemma built_file_ok : file_ok (alphabet_size a) tf.
  Proof.
    pose proof (sz_wf _ _ _ _ Sz) as W. pose proof (sz_states _ _ _ _ Sz) as Ns.
    assert (Ln : length (f_trans tf) = nstates t) by (cbn [file_trans f_trans]; apply map_length).
    assert (Wz : wt_ok (WFin 0 0)) by (cbn; unfold WeightCodecProofs.is_double; cbn; lia).
    constructor.
    - unfold alphabet_size. lia.
    - cbn [file_trans f_initial]. pose proof (wf_initial t W). lia.
    - intros E. pose proof (wf_initial t W). rewrite E in Ln. cbn in Ln. lia.
    - rewrite Ln. lia.
    - cbn [file_trans f_finals]. rewrite map_length. pose proof (fins_of_length t W). lia.
    - cbn [file_trans f_finals]. eapply sorted_map; [|exact (wf_finals_sorted t W)]. intros x y K. exact K.
    - intros s w H. destruct (ffin_zero s w H) as [-> Hs]. split; [lia|exact Wz].
    - intros l Hl. destruct (frow l Hl) as (i & E). split; [|split].
      + rewrite E. eapply sorted_map; [|exact (wf_sorted t W i)]. intros x y K. exact K.
      + rewrite E, map_length. pose proof (sz_rows _ _ _ _ Sz i). lia.
      + intros c d w H. destruct (frow_zero l c d w Hl H) as (-> & [C1 C2] & Hd). rewrite Ln. split; [exact C1|]. split; [exact C2|]. split; [lia|exact Wz].
  Qed.

  Hypothesis Ty : typed (fun c => 0 <= c < 2 ^ 30) (nstates t) ft.
  Lemma type_set_last : forall s c l, (forall s' c', In (s', c') l -> (s' < s)%nat) -> type_set s c l = l ++ [(s, c)].
  Proof.
    intros s c l. induction l as [|[s' c'] l IH]; intros H; [reflexivity|]. cbn [type_set app]. pose proof (H s' c' (or_introl eq_refl)).
    destruct (Nat.eqb_spec s s'); [lia|]. destruct (Nat.ltb_spec s s'); [lia|]. rewrite IH; [reflexivity|]. intros x y Hx. apply (H x y). now right.
  Qed.
  Lemma types_rt : forall l acc, StronglySorted key_lt l -> (forall s c, In (s, c) l -> (s < nstates t)%nat /\ 0 <= c < 2 ^ 30) ->
    (forall s c s' c', In (s, c) acc -> In (s', c') l -> (s < s')%nat) ->
    exists bs, write_types l = Ok bs /\ forall rest, read_types (length l) (bs ++ rest) acc = (acc ++ l, rest).
  Proof.
    intros l. induction l as [|[s c] l IH]; intros acc S H Ha.
    - exists []. split; [reflexivity|]. intros rest. cbn. now rewrite app_nil_r.
    - apply StronglySorted_inv in S as [S Hx]. destruct (H s c (or_introl eq_refl)) as [Hs Hc]. pose proof (sz_states _ _ _ _ Sz) as Ns.
      destruct (mb_rt (Z.of_nat s)) as (x & Ex & _ & Rx); [lia|]. destruct (mb_rt c Hc) as (y & Ey & _ & Ry).
      destruct (IH (acc ++ [(s, c)]) S) as (z & Ez & Rz).
      + intros s' c' H'. apply H. now right.
      + intros s1 c1 s2 c2 H1 H2. apply in_app_iff in H1 as [H1|[H1|[]]]; [apply (Ha s1 c1 s2 c2 H1); now right|]. injection H1 as <- <-. rewrite Forall_forall in Hx. exact (Hx _ H2).
      + exists (x ++ y ++ z). cbn [write_types]. rewrite Ex. cbn [obind]. rewrite Ey. cbn [obind]. rewrite Ez. split; [reflexivity|].
        intros rest. cbn [length read_types]. rewrite <- !app_assoc, Rx, Ry, Nat2Z.id, type_set_last; [rewrite Rz, <- app_assoc; reflexivity|].
        intros s' c' H'. apply (Ha s' c' s c H'). now left.
  Qed.
  Lemma types_few : (length ft <= nstates t)%nat.
  Proof.
    destruct Ty as [S H]. clear - S H. assert (K : forall (l : list (nat * Z)) b k, StronglySorted key_lt l -> (forall s c, In (s, c) l -> (b <= s < k)%nat) -> (length l <= k - b)%nat).
    { induction l as [|[s c] l IH]; intros b k S' H'; [cbn; lia|]. apply StronglySorted_inv in S' as [S' Hx]. pose proof (H' s c (or_introl eq_refl)).
      cbn [length]. enough (length l <= k - Datatypes.S s)%nat by lia. apply IH; [exact S'|]. intros q v Hq. rewrite Forall_forall in Hx. specialize (Hx _ Hq). unfold key_lt in Hx. cbn in Hx. pose proof (H' q v (or_intror Hq)). lia. }
    pose proof (K ft 0%nat (nstates t) S) as X. rewrite Nat.sub_0_r in X. apply X. intros s c Hs. destruct (H s c Hs). lia.
  Qed.
  Lemma plist_rt : alph_inv a -> alphabet_fits a -> exists bs, plist_write to_file a t ft = Ok bs
    /\ forall old rest, plist_read old (bs ++ rest) = Ok (a, tf, ft, rest).
  Proof.
    intros Ia Fa. destruct (alphabet_roundtrip a Ia (fits_ok a Fa)) as (b1 & E1 & R1).
    destruct (mb_rt 1 ltac:(lia)) as (b2 & E2 & _ & R2).
    destruct (string_roundtrip tagger_name) as (b3 & E3 & _ & R3); [unfold tagger_name; repeat (apply Forall_cons; [unfold is_unit; lia|]); apply Forall_nil|cbn; lia|].
    assert (Z1 : forall s w, In (s, w) (f_finals tf) -> w = WFin 0 0) by (intros s w H; apply (ffin_zero s w H)).
    assert (Z2 : forall l c d w, In l (f_trans tf) -> In (c, (d, w)) l -> w = WFin 0 0) by (intros l c d w Hl H; apply (frow_zero l c d w Hl H)).
    pose proof types_few as Tf. pose proof (sz_states _ _ _ _ Sz) as Ns.
    destruct (mb_rt (Z.of_nat (length ft))) as (b5 & E5 & _ & R5); [lia|]. destruct Ty as [T1 T2].
    destruct (types_rt ft [] T1 T2) as (b6 & E6 & R6); [intros ? ? ? ? []|].
    destruct (C11_unweighted (alphabet_size a) tf [] built_file_ok Z1 Z2) as (b4 & E4 & _).
    exists (b1 ++ b2 ++ b3 ++ b4 ++ b5 ++ b6). split.
    - unfold plist_write. rewrite E1. cbn [obind]. change (multibyte_write 1) with (multibyte_write (to_uint 1)). rewrite E2. cbn [obind]. rewrite E3. cbn [obind]. rewrite E4. cbn [obind]. rewrite E5. cbn [obind]. rewrite E6. reflexivity.
    - intros old rest. unfold plist_read. rewrite <- !app_assoc, R1, R2. change (1 =? 1) with true. cbv iota. rewrite R3.
      destruct (C11_unweighted (alphabet_size a) tf (b5 ++ b6 ++ rest) built_file_ok Z1 Z2) as (b4' & E4' & R4). assert (b4' = b4) by congruence. subst b4'. rewrite R4. cbn [obind].
      rewrite R5, Nat2Z.id, R6. reflexivity.
  Qed.
  Lemma exe_same : file_exe tf = match_exe t.
  Proof.
    unfold file_exe, match_exe. cbn [file_trans f_trans]. rewrite map_map. apply map_ext. intros l. rewrite map_map. reflexivity.
  Qed.
End File.
