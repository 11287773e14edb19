(** Determinisation: the loop builds the subset automaton. *)
From Verif Require Import Base SortedVectorModel SortedVectorProofs TransducerModel
  TransducerSpec TransducerProofs NatSets ClosureProofs.

Lemma NoDup_app_one : forall {A} (l : list A) x, NoDup l -> ~ In x l -> NoDup (l ++ [x]).
Proof.
  intros A l x H Hn. apply NoDup_Add with (a := x) (l := l); [|auto].
  rewrite <- (app_nil_r l) at 1. apply Add_app.
Qed.

(** ** Counting sets of states *)
Fixpoint sublists {A} (l : list A) : list (list A) :=
  match l with
  | [] => [[]]
  | x :: r => map (cons x) (sublists r) ++ sublists r
  end.

Lemma sublists_length : forall {A} (l : list A), length (sublists l) = (2 ^ length l)%nat.
Proof.
  induction l as [|x l IH]; [reflexivity|]. cbn [sublists length Nat.pow].
  rewrite app_length, map_length, IH. lia.
Qed.

Lemma filter_sublists : forall {A} (f : A -> bool) l, In (filter f l) (sublists l).
Proof.
  intros A f. induction l as [|x l IH]; cbn [filter sublists]; [now left|].
  apply in_or_app. destruct (f x); [left; now apply in_map|now right].
Qed.

Lemma seq_nset : forall n k, nset (seq k n).
Proof.
  induction n as [|n IH]; intros k; cbn [seq]; [apply nset_nil|]. constructor; [apply IH|].
  apply Forall_forall. intros x Hx. apply in_seq in Hx. unfold slt. apply Nat.ltb_lt. lia.
Qed.

Lemma filter_nset : forall f l, nset l -> nset (filter f l).
Proof.
  intros f. induction l as [|x l IH]; intros H; cbn [filter]; [apply nset_nil|].
  inversion H as [|? ? Sl Fl]; subst. destruct (f x); [|now apply IH]. constructor; [now apply IH|].
  apply Forall_forall. intros y Hy. apply filter_In in Hy as [Hy _]. rewrite Forall_forall in Fl. now apply Fl.
Qed.

Lemma nset_count : forall n (Q : list (list nat)), NoDup Q ->
  (forall s, In s Q -> nset s /\ forall x, In x s -> (x < n)%nat) -> (length Q <= 2 ^ n)%nat.
Proof.
  intros n Q H Hs. rewrite <- (seq_length n 0) at 1. rewrite <- sublists_length.
  apply NoDup_incl_length; [exact H|]. intros s Hin. apply Hs in Hin as [H1 H2].
  replace s with (filter (fun x => set_mem x s) (seq 0 n)); [apply filter_sublists|].
  apply nset_ext; [apply filter_nset, seq_nset|exact H1|]. intros x.
  rewrite filter_In, set_mem_spec, in_seq. split; [tauto|]. intros Hx. apply H2 in Hx as Hb.
  split; [lia|exact Hx].
Qed.

(** ** The successor sets *)
Lemma key_eqb_spec : forall a b, key_eqb a b = true <-> a = b.
Proof.
  intros [a1 a2] [b1 b2]. unfold key_eqb. cbn. rewrite andb_true_iff, !Z.eqb_eq.
  split; [intros [-> ->]; reflexivity|intros [= -> ->]; auto].
Qed.

Definition key_lt (a b : (Z * Z) * list nat) : Prop := key_ltb (fst a) (fst b) = true.
Definition keys_sorted (m : list ((Z * Z) * list nat)) : Prop := StronglySorted key_lt m.

Lemma key_ltb_trans : forall a b c, key_ltb a b = true -> key_ltb b c = true -> key_ltb a c = true.
Proof. intros [a1 a2] [b1 b2] [c1 c2]. unfold key_ltb. cbn [fst snd]. lia. Qed.
Lemma key_ltb_irrefl : forall a, key_ltb a a = false.
Proof. intros [a1 a2]. unfold key_ltb. cbn [fst snd]. lia. Qed.
Lemma key_ltb_total : forall a b, key_eqb a b = false -> key_ltb a b = false -> key_ltb b a = true.
Proof. intros [a1 a2] [b1 b2]. unfold key_ltb, key_eqb. cbn [fst snd]. lia. Qed.

Lemma keys_sorted_unique : forall m k s s', keys_sorted m -> In (k, s) m -> In (k, s') m -> s = s'.
Proof.
  induction m as [|[k0 s0] m IH]; intros k s s' H H1 H2; [destruct H1|].
  inversion H as [|? ? Sl Fl]; subst. rewrite Forall_forall in Fl.
  assert (X : forall s, In (k0, s) m -> False).
  { intros x Hx. apply Fl in Hx. unfold key_lt in Hx. cbn [fst] in Hx. rewrite key_ltb_irrefl in Hx. discriminate. }
  destruct H1 as [H1|H1], H2 as [H2|H2].
  - congruence.
  - injection H1 as -> ->. exfalso. eauto.
  - injection H2 as -> ->. exfalso. eauto.
  - eauto.
Qed.

(** Membership in a map of sets. *)
Definition mm_in (m : list ((Z * Z) * list nat)) (k : Z * Z) (x : nat) : Prop :=
  exists s, In (k, s) m /\ In x s.
Definition mm_key (m : list ((Z * Z) * list nat)) (k : Z * Z) : Prop := exists s, In (k, s) m.
Definition mm_sets (m : list ((Z * Z) * list nat)) : Prop := forall k s, In (k, s) m -> nset s.

Lemma mymap_insert_spec : forall k r m, keys_sorted m -> mm_sets m ->
  keys_sorted (mymap_insert k r m) /\ mm_sets (mymap_insert k r m)
  /\ (forall k' x, mm_in (mymap_insert k r m) k' x <-> mm_in m k' x \/ (k' = k /\ In x r))
  /\ (forall k', mm_key (mymap_insert k r m) k' <-> mm_key m k' \/ k' = k).
Proof.
  intros k r. induction m as [|[k0 s0] m IH]; intros Hs Hn; cbn [mymap_insert].
  - assert (N : nset (sv_union r [])) by apply nset_union, nset_nil.
    assert (I : forall x, In x (sv_union r []) <-> In x r).
    { intros x. rewrite in_nset_union by apply nset_nil. cbn. tauto. }
    split; [repeat constructor|]. split; [|split].
    + intros k' s [[= <- <-]|[]]. exact N.
    + intros k' x. split.
      * intros (s & [[= <- <-]|[]] & Hx). right. split; [reflexivity|]. now apply I.
      * intros [(s & [] & _)|[-> Hx]]. exists (sv_union r []). split; [now left|now apply I].
    + intros k'. split.
      * intros (s & [[= <- <-]|[]]). auto.
      * intros [(s & [])| ->]. eexists. now left.
  - inversion Hs as [|? ? Sl Fl]; subst. rewrite Forall_forall in Fl.
    assert (N0 : nset s0) by (apply (Hn k0); now left).
    destruct (key_eqb k k0) eqn:Ek; [|destruct (key_ltb k k0) eqn:El].
    + apply key_eqb_spec in Ek as <-.
      assert (I : forall x, In x (sv_union r s0) <-> In x s0 \/ In x r)
        by (intros x; now apply in_nset_union).
      split; [|split; [|split]].
      * constructor; [exact Sl|]. apply Forall_forall. intros [k1 s1] H1. apply Fl in H1. exact H1.
      * intros k' s [[= <- <-]|H1]; [now apply nset_union|]. apply (Hn k'). now right.
      * intros k' x. split.
        -- intros (s & [[= <- <-]|H1] & Hx).
           ++ apply I in Hx as [Hx|Hx]; [left; exists s0; split; [now left|exact Hx]|auto].
           ++ left. exists s. split; [now right|exact Hx].
        -- intros [(s & [[= <- <-]|H1] & Hx)|[-> Hx]].
           ++ exists (sv_union r s0). split; [now left|apply I; auto].
           ++ exists s. split; [now right|exact Hx].
           ++ exists (sv_union r s0). split; [now left|apply I; auto].
      * intros k'. split.
        -- intros (s & [[= <- <-]|H1]); [auto|left; exists s; now right].
        -- intros [(s & [[= <- <-]|H1])| ->]; [eexists; now left|exists s; now right|eexists; now left].
    + assert (N : nset (sv_union r [])) by apply nset_union, nset_nil.
      assert (I : forall x, In x (sv_union r []) <-> In x r).
      { intros x. rewrite in_nset_union by apply nset_nil. cbn. tauto. }
      split; [|split; [|split]].
      * constructor; [exact Hs|]. constructor; [exact El|]. apply Forall_forall. intros [k1 s1] H1.
        apply Fl in H1. unfold key_lt in *. cbn [fst] in *. eapply key_ltb_trans; eauto.
      * intros k' s [[= <- <-]|H1]; [exact N|]. now apply (Hn k').
      * intros k' x. split.
        -- intros (s & [[= <- <-]|H1] & Hx); [right; split; [reflexivity|now apply I]|].
           left. exists s. auto.
        -- intros [(s & H1 & Hx)|[-> Hx]]; [exists s; split; [now right|exact Hx]|].
           exists (sv_union r []). split; [now left|now apply I].
      * intros k'. split.
        -- intros (s & [[= <- <-]|H1]); [auto|left; exists s; auto].
        -- intros [(s & H1)| ->]; [exists s; now right|eexists; now left].
    + destruct IH as (H1 & H2 & H3 & H4); [exact Sl|intros k' s H; apply (Hn k'); now right|].
      split; [|split; [|split]].
      * constructor; [exact H1|]. apply Forall_forall. intros [k1 s1] Hin. unfold key_lt. cbn [fst].
        assert (K : mm_key m k1 \/ k1 = k) by (apply H4; eexists; exact Hin).
        destruct K as [(s & Hm)| ->].
        -- apply Fl in Hm. exact Hm.
        -- now apply key_ltb_total.
      * intros k' s [[= <- <-]|Hin]; [exact N0|]. now apply (H2 k').
      * intros k' x. split.
        -- intros (s & [[= <- <-]|Hin] & Hx); [left; exists s0; split; [now left|exact Hx]|].
           assert (K : mm_in m k' x \/ (k' = k /\ In x r)) by (apply H3; exists s; auto).
           destruct K as [(s' & Hs' & Hx')|K]; [left; exists s'; split; [now right|exact Hx']|auto].
        -- intros [(s & [[= <- <-]|Hin] & Hx)|K].
           ++ exists s0. split; [now left|exact Hx].
           ++ assert (K : mm_in (mymap_insert k r m) k' x) by (apply H3; left; exists s; auto).
              destruct K as (s' & Hs' & Hx'). exists s'. split; [now right|exact Hx'].
           ++ assert (K' : mm_in (mymap_insert k r m) k' x) by (apply H3; auto).
              destruct K' as (s' & Hs' & Hx'). exists s'. split; [now right|exact Hx'].
      * intros k'. split.
        -- intros (s & [[= <- <-]|Hin]); [left; eexists; now left|].
           assert (K : mm_key m k' \/ k' = k) by (apply H4; eexists; exact Hin).
           destruct K as [(s' & Hs')|K]; [left; exists s'; now right|auto].
        -- intros [(s & [[= <- <-]|Hin])|K]; [eexists; now left| |].
           ++ assert (K : mm_key (mymap_insert k r m) k') by (apply H4; left; eexists; exact Hin).
              destruct K as (s' & Hs'). exists s'. now right.
           ++ assert (K' : mm_key (mymap_insert k r m) k') by (apply H4; auto).
              destruct K' as (s' & Hs'). exists s'. now right.
Qed.

(** ** What determinisation builds: the automaton of reachable sets of states. *)
Record subset_automaton (t : transducer) (eps : Z) (Q : list (list nat)) (d : transducer) : Prop := {
  sa_size : length Q = nstates d;
  sa_distinct : NoDup Q;
  sa_sets : forall s, In s Q -> nset s /\ s <> [] /\ (forall x, In x s -> (x < nstates t)%nat)
    /\ forall x y, In x s -> eps_reach t eps x y -> In y s;
  sa_initial : initial d = 0%nat;
  sa_start : forall x, In x (nth 0 Q []) <-> eps_reach t eps (initial t) x;
  (** arcs lead from a set to the set of all successors under the same label ... *)
  sa_arc : forall i a j w, has_arc d i a j w ->
    (j < length Q)%nat /\ silent eps (a, w) = false
    /\ forall x, In x (nth j Q []) <->
         exists p r, In p (nth i Q []) /\ has_arc t p a r w /\ eps_reach t eps r x;
  (** ... and exist whenever a member has an arc with that label *)
  sa_complete : forall i p a r w, In p (nth i Q []) -> has_arc t p a r w ->
    silent eps (a, w) = false -> exists j, has_arc d i a j w;
  sa_final : forall i, (i < length Q)%nat ->
    (is_final d i <-> exists p, In p (nth i Q []) /\ is_final t p);
  sa_wf : wf d;
  sa_det : deterministic d eps;
  sa_acc : accessible d
}.

Section Det.
  Context (t : transducer) (eps : Z) (closures : list (list nat)) (fs : list nat).
  Hypothesis W : wf t.
  Let n := nstates t.
  Hypothesis cl_len : length closures = n.
  Hypothesis cl_set : forall i, nset (nth i closures []).
  Hypothesis cl_spec : forall i j, (i < n)%nat -> (In j (nth i closures []) <-> eps_reach t eps i j).
  Hypothesis fs_set : nset fs.
  Hypothesis fs_spec : forall p, In p fs <-> is_final t p.

  Notation moves := (det_moves t eps closures).

  Lemma det_moves_spec : forall q,
    keys_sorted (moves q) /\ mm_sets (moves q)
    /\ (forall a w x, mm_in (moves q) (a, w) x <->
          silent eps (a, w) = false /\ exists p r, In p q /\ has_arc t p a r w /\ eps_reach t eps r x)
    /\ (forall a w, mm_key (moves q) (a, w) <->
          silent eps (a, w) = false /\ exists p r, In p q /\ has_arc t p a r w).
  Proof.
    set (f := fun m a => if negb (a_tag a =? eps) || negb (a_wt a =? 0)
          then mymap_insert (a_tag a, a_wt a) (nth (a_dst a) closures []) m else m).
    assert (Inner : forall arcs m, (forall a, In a arcs -> (a_dst a < n)%nat) -> keys_sorted m -> mm_sets m ->
      keys_sorted (fold_left f arcs m) /\ mm_sets (fold_left f arcs m)
      /\ (forall a w x, mm_in (fold_left f arcs m) (a, w) x <-> mm_in m (a, w) x \/
            (silent eps (a, w) = false /\ exists r, In (a, (r, w)) arcs /\ eps_reach t eps r x))
      /\ (forall a w, mm_key (fold_left f arcs m) (a, w) <-> mm_key m (a, w) \/
            (silent eps (a, w) = false /\ exists r, In (a, (r, w)) arcs))).
    { induction arcs as [|[b [d v]] arcs IH]; intros m Hb Hk Hm; cbn [fold_left].
      - split; [exact Hk|]. split; [exact Hm|]. split.
        + intros. split; [auto|]. intros [H|(_ & r & [] & _)]. exact H.
        + intros. split; [auto|]. intros [H|(_ & r & [])]. exact H.
      - assert (Hd : (d < n)%nat) by (apply (Hb (b, (d, v))); now left).
        assert (Hb' : forall a, In a arcs -> (a_dst a < n)%nat) by (intros; apply Hb; now right).
        unfold f at 2 4 6 8. cbn [a_tag a_dst a_wt fst snd].
        assert (Es : negb (b =? eps) || negb (v =? 0) = negb (silent eps (b, v))).
        { unfold silent. cbn [fst snd]. now destruct (b =? eps), (v =? 0). }
        rewrite Es. destruct (silent eps (b, v)) eqn:S; cbn [negb].
        + destruct (IH m Hb' Hk Hm) as (H1 & H2 & H3 & H4). split; [exact H1|]. split; [exact H2|].
          split.
          * intros a w x. rewrite H3. split; (intros [H|(Hs & r & Hr & Hx)]; [auto|right; split; [exact Hs|]]).
            -- exists r. split; [now right|exact Hx].
            -- destruct Hr as [[= <- <- <-]|Hr]; [congruence|]. exists r. auto.
          * intros a w. rewrite H4. split; (intros [H|(Hs & r & Hr)]; [auto|right; split; [exact Hs|]]).
            -- exists r. now right.
            -- destruct Hr as [[= <- <- <-]|Hr]; [congruence|]. exists r. auto.
        + destruct (mymap_insert_spec (b, v) (nth d closures []) m Hk Hm) as (K1 & K2 & K3 & K4).
          destruct (IH _ Hb' K1 K2) as (H1 & H2 & H3 & H4). split; [exact H1|]. split; [exact H2|]. split.
          * intros a w x. rewrite H3, K3. rewrite (cl_spec d x Hd). split.
            -- intros [[H|[[= -> ->] Hx]]|(Hs & r & Hr & Hx)]; [auto| |].
               ++ right. split; [exact S|]. exists d. split; [now left|exact Hx].
               ++ right. split; [exact Hs|]. exists r. split; [now right|exact Hx].
            -- intros [H|(Hs & r & [[= <- <- <-]|Hr] & Hx)]; auto. right. split; [exact Hs|]. exists r. auto.
          * intros a w. rewrite H4, K4. split.
            -- intros [[H|[= -> ->]]|(Hs & r & Hr)]; [auto| |].
               ++ right. split; [exact S|]. exists d. now left.
               ++ right. split; [exact Hs|]. exists r. now right.
            -- intros [H|(Hs & r & [[= <- <- <-]|Hr])]; auto. right. split; [exact Hs|]. exists r. auto. }
    assert (Outer : forall q m, keys_sorted m -> mm_sets m ->
      let m' := fold_left (fun m s => fold_left f (arcs_of t s) m) q m in
      keys_sorted m' /\ mm_sets m'
      /\ (forall a w x, mm_in m' (a, w) x <-> mm_in m (a, w) x \/
            (silent eps (a, w) = false /\ exists p r, In p q /\ has_arc t p a r w /\ eps_reach t eps r x))
      /\ (forall a w, mm_key m' (a, w) <-> mm_key m (a, w) \/
            (silent eps (a, w) = false /\ exists p r, In p q /\ has_arc t p a r w))).
    { induction q as [|s q IH]; intros m Hk Hm; cbn [fold_left]; cbv zeta.
      - split; [exact Hk|]. split; [exact Hm|]. split.
        + intros. split; [auto|]. intros [H|(_ & p & r & [] & _)]. exact H.
        + intros. split; [auto|]. intros [H|(_ & p & r & [] & _)]. exact H.
      - destruct (Inner (arcs_of t s) m) as (H1 & H2 & H3 & H4); auto.
        { intros [a [d w]] H. exact (wf_arcs t W _ _ _ _ H). }
        destruct (IH _ H1 H2) as (K1 & K2 & K3 & K4). split; [exact K1|]. split; [exact K2|]. split.
        + intros a w x. rewrite K3, H3. split.
          * intros [[H|(Hs & r & Hr & Hx)]|(Hs & p & r & Hp & Hr & Hx)]; [auto| |].
            -- right. split; [exact Hs|]. exists s, r. split; [now left|auto].
            -- right. split; [exact Hs|]. exists p, r. split; [now right|auto].
          * intros [H|(Hs & p & r & [<-|Hp] & Hr & Hx)]; [auto| |].
            -- left. right. split; [exact Hs|]. exists r. auto.
            -- right. split; [exact Hs|]. exists p, r. auto.
        + intros a w. rewrite K4, H4. split.
          * intros [[H|(Hs & r & Hr)]|(Hs & p & r & Hp & Hr)]; [auto| |].
            -- right. split; [exact Hs|]. exists s, r. split; [now left|auto].
            -- right. split; [exact Hs|]. exists p, r. split; [now right|auto].
          * intros [H|(Hs & p & r & [<-|Hp] & Hr)]; [auto| |].
            -- left. right. split; [exact Hs|]. exists r. auto.
            -- right. split; [exact Hs|]. exists p, r. auto. }
    intros q. destruct (Outer q []) as (H1 & H2 & H3 & H4); [constructor|intros k s []|].
    split; [exact H1|]. split; [exact H2|]. split.
    - intros a w x. unfold det_moves. fold f. rewrite H3. split; [intros [(s & [] & _)|H]; exact H|auto].
    - intros a w. unfold det_moves. fold f. rewrite H4. split; [intros [(s & [])|H]; exact H|auto].
  Qed.

  (** The sets that can occur. *)
  Definition good_set (s : list nat) : Prop :=
    nset s /\ s <> [] /\ (forall x, In x s -> (x < n)%nat)
    /\ forall x y, In x s -> eps_reach t eps x y -> In y s.

  Lemma good_closure : forall i, (i < n)%nat -> good_set (nth i closures []).
  Proof.
    intros i Hi. split; [apply cl_set|]. split; [|split].
    - intros E. assert (H : In i (nth i closures [])) by (apply cl_spec; [exact Hi|constructor]).
      rewrite E in H. destruct H.
    - intros x Hx. apply cl_spec in Hx; [|exact Hi]. eapply eps_reach_lt; eauto.
    - intros x y Hx Hy. apply cl_spec; [exact Hi|]. apply cl_spec in Hx; [|exact Hi].
      eapply eps_reach_trans; eauto.
  Qed.

  Lemma good_move : forall q k s, In (k, s) (moves q) -> good_set s.
  Proof.
    intros q [a w] s H. destruct (det_moves_spec q) as (H1 & H2 & H3 & H4).
    assert (Hin : forall x, In x s <-> exists p r, In p q /\ has_arc t p a r w /\ eps_reach t eps r x).
    { intros x. split.
      - intros Hx. apply H3. exists s. auto.
      - intros Hx. assert (K : mm_in (moves q) (a, w) x).
        { apply H3. split; [|exact Hx]. apply (H4 a w). now exists s. }
        destruct K as (s' & Hs' & Hx'). now rewrite (keys_sorted_unique _ _ _ _ H1 H Hs'). }
    split; [now apply (H2 (a, w))|]. split; [|split].
    - assert (K : mm_key (moves q) (a, w)) by now exists s.
      apply H4 in K as (_ & p & r & Hp & Hr).
      assert (Hx : In r s) by (apply Hin; exists p, r; repeat split; auto; constructor).
      intros ->. destruct Hx.
    - intros x Hx. apply Hin in Hx as (p & r & Hp & Hr & Hx).
      eapply eps_reach_lt; [exact W|exact Hx|]. exact (wf_arcs t W _ _ _ _ Hr).
    - intros x y Hx Hy. apply Hin. apply Hin in Hx as (p & r & Hp & Hr & Hx).
      exists p, r. repeat split; auto. eapply eps_reach_trans; eauto.
  Qed.

  (** The automaton under construction. *)
  Definition aut (d : detst) : transducer := mkT 0 (d_finals d) (d_trans d).

  (** [proc i] is the part of the successor sets of state i already turned into arcs. *)
  Record dinv (d : detst) (proc : nat -> list ((Z * Z) * list nat)) : Prop := {
    di_len : length (d_trans d) = length (d_sets d);
    di_good : forall s, In s (d_sets d) -> good_set s;
    di_nodup : NoDup (d_sets d);
    di_zero : nth_error (d_sets d) 0 = Some (nth (initial t) closures []);
    di_arcs : forall i a j w, has_arc (aut d) i a j w <->
      exists s, In ((a, w), s) (proc i) /\ nth_error (d_sets d) j = Some s;
    di_proc : forall i e, In e (proc i) ->
      (i < length (d_sets d))%nat /\ In e (moves (nth i (d_sets d) [])) /\ In (snd e) (d_sets d);
    di_sorted : forall i, arcs_sorted (nth i (d_trans d) []);
    di_arcs_nodup : forall i, NoDup (nth i (d_trans d) []);
    di_acc : forall i, (i < length (d_sets d))%nat -> exists l, path (aut d) 0 l i;
    di_fin_sorted : finals_sorted (d_finals d);
    di_fin_sound : forall i f, In (i, f) (d_finals d) ->
      (i < length (d_sets d))%nat /\ exists p, In p (nth i (d_sets d) []) /\ is_final t p;
    di_next : nset (d_next d)
  }.

  Lemma find_set_some : forall q qs i, find_set q qs = Some i -> nth_error qs i = Some q.
  Proof.
    intros q. induction qs as [|x qs IH]; intros i H; cbn [find_set] in H; [discriminate|].
    destruct (list_eq_dec Nat.eq_dec q x) as [->|_]; [injection H as <-; reflexivity|].
    destruct (find_set q qs) as [k|]; [|discriminate]. injection H as <-. now apply IH.
  Qed.
  Lemma find_set_none : forall q qs, find_set q qs = None -> ~ In q qs.
  Proof.
    intros q. induction qs as [|x qs IH]; intros H; cbn [find_set] in H; [auto|].
    destruct (list_eq_dec Nat.eq_dec q x) as [->|E]; [discriminate|].
    destruct (find_set q qs) as [k|]; [discriminate|]. intros [<-|Hin]; [congruence|]. now apply IH.
  Qed.

  Lemma path_mono : forall d d' p l q, (forall i a j w, has_arc d i a j w -> has_arc d' i a j w) ->
    path d p l q -> path d' p l q.
  Proof. intros d d' p l q H Hp. induction Hp; [constructor|]. econstructor; eauto. Qed.

  Lemma NoDup_mm_insert : forall a l, NoDup l -> ~ In a l -> NoDup (mm_insert a l).
  Proof.
    induction l as [|b l IH]; intros H Hn; cbn [mm_insert]; [repeat constructor; auto|].
    inversion H as [|? ? Hb Hl]; subst. destruct (a_tag a <? a_tag b); [now constructor|].
    constructor; [|apply IH; [exact Hl|intros Hin; apply Hn; now right]].
    rewrite mm_insert_in. intros [->|Hin]; [apply Hn; now left|contradiction].
  Qed.

  Definition addp (it : nat) (e : (Z * Z) * list nat) (proc : nat -> list ((Z * Z) * list nat))
    : nat -> list ((Z * Z) * list nat) :=
    fun i => if (i =? it)%nat then proc i ++ [e] else proc i.

  Lemma det_succ_spec : forall it d proc e, dinv d proc -> (it < length (d_sets d))%nat ->
    In e (moves (nth it (d_sets d) [])) -> ~ In (fst e) (map fst (proc it)) ->
    let d' := det_succ it d e in
    dinv d' (addp it e proc)
    /\ (exists new, d_sets d' = d_sets d ++ new)
    /\ d_finals d' = d_finals d
    /\ (forall i, In i (d_next d') <->
          In i (d_next d) \/ (length (d_sets d) <= i < length (d_sets d'))%nat).
  Proof.
    intros it d proc [[a w] q] I Hit Hm Hk. cbv zeta. unfold det_succ. cbn [fst snd] in *.
    destruct I as [I1 I2 I3 I4 I5 I6 I7 I8 I9 I10 I11 I12].
    assert (Garc : forall n', ~ In (a, (n', w)) (nth it (d_trans d) [])).
    { intros n' Hin. apply Hk. assert (X : has_arc (aut d) it a n' w) by exact Hin.
      apply I5 in X as (s & Hs & _). change (a, w) with (fst ((a, w), s)). now apply in_map. }
    destruct (find_set q (d_sets d)) as [k|] eqn:F.
    - (* the set already has a number *)
      apply find_set_some in F. cbn [d_sets d_trans d_finals d_next].
      assert (Arc : forall i b j v, has_arc (mkT 0 (d_finals d) (upd it (mm_insert (a, (k, w))) (d_trans d))) i b j v
         <-> has_arc (aut d) i b j v \/ (i = it /\ (b, (j, v)) = (a, (k, w)))).
      { intros i b j v. change (has_arc (add_arc it (a, (k, w)) (aut d)) i b j v <->
          has_arc (aut d) i b j v \/ (i = it /\ (b, (j, v)) = (a, (k, w)))).
        rewrite has_arc_add by (unfold nstates; cbn; lia). intuition congruence. }
      split; [|split; [exists []; now rewrite app_nil_r|split; [reflexivity|]]].
      2: { intros i. cbn. split; [auto|intros [H|H]; [exact H|lia]]. }
      constructor; cbn [d_sets d_trans d_finals d_next]; auto.
      + now rewrite length_upd.
      + intros i b j v. unfold aut at 1. cbn [d_trans d_finals]. rewrite Arc, I5. unfold addp.
        destruct (Nat.eqb_spec i it) as [->|E].
        * split.
          -- intros [(s & Hs & Hj)|[_ [= -> -> ->]]]; [exists s; split; [apply in_or_app; now left|exact Hj]|].
             exists q. split; [apply in_or_app; right; now left|exact F].
          -- intros (s & Hs & Hj). apply in_app_or in Hs as [Hs|[[= -> -> ->]|[]]]; [left; exists s; auto|].
             right. split; [reflexivity|]. repeat f_equal.
             eapply NoDup_nth_error; [exact I3| |congruence]. apply nth_error_Some. congruence.
        * split; [intros [H|[-> _]]; [exact H|congruence]|auto].
      + intros i e. unfold addp. destruct (Nat.eqb_spec i it) as [->|E]; [|auto].
        intros Hin. apply in_app_or in Hin as [Hin|[<-|[]]]; [auto|]. split; [exact Hit|]. split; [exact Hm|].
        cbn [snd]. eapply nth_error_In; exact F.
      + intros i. rewrite nth_upd by lia. destruct (i =? it)%nat; [apply mm_insert_sorted|]; auto.
      + intros i. rewrite nth_upd by lia. destruct (Nat.eqb_spec i it) as [->|E]; [|auto].
        apply NoDup_mm_insert; auto.
      + intros i Hi. apply I9 in Hi as [l Hl]. exists l. eapply path_mono; [|exact Hl].
        intros i' b j v H. unfold aut. cbn [d_trans d_finals]. apply Arc. now left.
    - (* a new set *)
      apply find_set_none in F. cbn [d_sets d_trans d_finals d_next].
      set (k := length (d_sets d)).
      assert (Gq : good_set q) by (eapply good_move; exact Hm).
      assert (NE : forall j s, (j < k)%nat ->
                 (nth_error (d_sets d ++ [q]) j = Some s <-> nth_error (d_sets d) j = Some s)).
      { intros j s Hj. rewrite nth_error_app1 by exact Hj. reflexivity. }
      assert (NTH : forall i, nth i (d_trans d ++ [[]]) [] = nth i (d_trans d) []).
      { intros i. destruct (Nat.lt_ge_cases i (length (d_trans d))) as [L|L].
        - now rewrite app_nth1.
        - rewrite app_nth2 by lia. rewrite (nth_overflow (d_trans d)) by lia.
          destruct (i - length (d_trans d))%nat as [|[|]]; reflexivity. }
      assert (Arc : forall i b j v,
         has_arc (mkT 0 (d_finals d) (upd it (mm_insert (a, (k, w))) (d_trans d ++ [[]]))) i b j v
         <-> has_arc (aut d) i b j v \/ (i = it /\ (b, (j, v)) = (a, (k, w)))).
      { intros i b j v. unfold has_arc, arcs_of. cbn [trans aut].
        rewrite nth_upd by (rewrite app_length; cbn; lia). rewrite NTH.
        destruct (Nat.eqb_spec i it) as [->|E]; [rewrite mm_insert_in|]; intuition congruence. }
      split; [|split; [exists [q]; reflexivity|split; [reflexivity|]]].
      2: { intros i. cbn. rewrite in_nset_insert by exact I12. rewrite app_length. cbn [length].
           fold k. split; [intros [->|H]; [right; lia|auto]|intros [H|H]; [auto|left; lia]]. }
      assert (Hk1 : length (d_sets d ++ [q]) = S k) by (rewrite app_length; cbn; lia).
      constructor; cbn [d_sets d_trans d_finals d_next]; auto.
      + rewrite length_upd, !app_length. cbn. lia.
      + intros s Hs. apply in_app_or in Hs as [Hs|[<-|[]]]; auto.
      + apply NoDup_app_one; auto.
      + rewrite nth_error_app1; [exact I4|]. apply nth_error_Some. congruence.
      + intros i b j v. unfold aut at 1. cbn [d_trans d_finals]. rewrite Arc, I5. unfold addp.
        assert (Old : forall s, In ((b, v), s) (proc i) -> nth_error (d_sets d ++ [q]) j = Some s ->
                      nth_error (d_sets d) j = Some s).
        { intros s Hs Hj. destruct (Nat.lt_ge_cases j k) as [L|L]; [now apply NE|].
          rewrite nth_error_app2 in Hj by exact L. destruct (j - length (d_sets d))%nat as [|[|]]; cbn in Hj; try discriminate.
          injection Hj as <-. apply I6 in Hs as (_ & _ & Hs). contradiction. }
        assert (New : forall s, nth_error (d_sets d) j = Some s -> nth_error (d_sets d ++ [q]) j = Some s).
        { intros s Hj. rewrite nth_error_app1; [exact Hj|]. apply nth_error_Some. congruence. }
        destruct (Nat.eqb_spec i it) as [->|E].
        * split.
          -- intros [(s & Hs & Hj)|[_ [= -> -> ->]]]; [exists s; split; [apply in_or_app; now left|auto]|].
             exists q. split; [apply in_or_app; right; now left|].
             rewrite nth_error_app2 by (unfold k; lia). unfold k. now rewrite Nat.sub_diag.
          -- intros (s & Hs & Hj). apply in_app_or in Hs as [Hs|[[= -> -> ->]|[]]]; [left; exists s; auto|].
             right. split; [reflexivity|]. repeat f_equal.
             destruct (Nat.lt_ge_cases j k) as [L|L].
             ++ apply NE in Hj; [|exact L]. apply nth_error_In in Hj. contradiction.
             ++ assert (j < length (d_sets d ++ [s]))%nat by (apply nth_error_Some; congruence). lia.
        * split.
          -- intros [(s & Hs & Hj)|[-> _]]; [exists s; auto|congruence].
          -- intros (s & Hs & Hj). left. exists s. auto.
      + intros i e Hin. rewrite Hk1. unfold addp in Hin.
        assert (Hold : In e (proc i) -> (i < S k)%nat /\ In e (moves (nth i (d_sets d ++ [q]) [])) /\ In (snd e) (d_sets d ++ [q])).
        { intros Hp. apply I6 in Hp as (P1 & P2 & P3). split; [unfold k; lia|]. rewrite app_nth1 by exact P1.
          split; [exact P2|apply in_or_app; now left]. }
        destruct (Nat.eqb_spec i it) as [->|E]; [|auto].
        apply in_app_or in Hin as [Hin|[<-|[]]]; [auto|]. split; [unfold k; lia|]. rewrite app_nth1 by exact Hit.
        split; [exact Hm|]. cbn [snd]. apply in_or_app. right. now left.
      + intros i. rewrite nth_upd by (rewrite app_length; cbn; lia). rewrite NTH.
        destruct (i =? it)%nat; [apply mm_insert_sorted|]; auto.
      + intros i. rewrite nth_upd by (rewrite app_length; cbn; lia). rewrite NTH.
        destruct (Nat.eqb_spec i it) as [->|E]; [|auto]. apply NoDup_mm_insert; auto.
      + intros i Hi. rewrite Hk1 in Hi.
        assert (Mono : forall i' b j v, has_arc (aut d) i' b j v -> has_arc (aut
          (mkDet (d_sets d ++ [q]) (upd it (mm_insert (a, (k, w))) (d_trans d ++ [[]])) (d_finals d)
             (sv_insert Nat.ltb k (d_next d)))) i' b j v).
        { intros i' b j v H. unfold aut. cbn [d_trans d_finals]. apply Arc. now left. }
        destruct (Nat.lt_ge_cases i k) as [L|L].
        * apply I9 in L as [l Hl]. exists l. eapply path_mono; [exact Mono|exact Hl].
        * assert (i = k) as -> by lia. destruct (I9 it Hit) as [l Hl]. exists (l ++ [(a, w)]).
          eapply path_snoc; [eapply path_mono; [exact Mono|exact Hl]|].
          unfold aut. cbn [d_trans d_finals]. apply Arc. auto.
      + intros i f Hf. apply I11 in Hf as (Hi & p & Hp & Hfp). rewrite Hk1. split; [unfold k; lia|].
        exists p. rewrite app_nth1 by exact Hi. auto.
      + now apply nset_insert.
  Qed.

  Lemma dinv_ext : forall d proc proc', (forall i, proc i = proc' i) -> dinv d proc -> dinv d proc'.
  Proof.
    intros d proc proc' E I. destruct I. constructor; auto.
    - intros. rewrite <- E. auto.
    - intros i e. rewrite <- E. auto.
  Qed.

  Lemma proc_empty : forall d proc i, dinv d proc -> (length (d_sets d) <= i)%nat -> proc i = [].
  Proof.
    intros d proc i I Hi. destruct (proc i) as [|e l] eqn:E; [reflexivity|].
    destruct (di_proc _ _ I i e) as [H _]; [rewrite E; now left|]. lia.
  Qed.

  Lemma moves_keys_nodup : forall q, NoDup (map fst (moves q)).
  Proof.
    intros q. destruct (det_moves_spec q) as (H & _). revert H. generalize (moves q).
    induction l as [|[k s] l IH]; intros H; cbn; [constructor|].
    inversion H as [|? ? Sl Fl]; subst. constructor; [|now apply IH].
    intros Hin. apply in_map_iff in Hin as ([k' s'] & E & Hin). cbn in E. subst k'.
    rewrite Forall_forall in Fl. apply Fl in Hin. unfold key_lt in Hin. cbn [fst] in Hin.
    rewrite key_ltb_irrefl in Hin. discriminate.
  Qed.

  Lemma det_succs_spec : forall it es d proc pre, dinv d proc -> (it < length (d_sets d))%nat ->
    proc it = pre -> moves (nth it (d_sets d) []) = pre ++ es ->
    let d' := fold_left (det_succ it) es d in
    exists proc', dinv d' proc' /\ proc' it = pre ++ es /\ (forall i, i <> it -> proc' i = proc i)
    /\ (exists new, d_sets d' = d_sets d ++ new)
    /\ d_finals d' = d_finals d
    /\ (forall i, In i (d_next d') <->
          In i (d_next d) \/ (length (d_sets d) <= i < length (d_sets d'))%nat).
  Proof.
    intros it. induction es as [|e es IH]; intros d proc pre I Hit Hp Hm; cbn [fold_left]; cbv zeta.
    - exists proc. split; [exact I|]. split; [now rewrite app_nil_r|]. split; [auto|].
      split; [exists []; now rewrite app_nil_r|]. split; [auto|]. intros i. split; [auto|intros [H|H]; [exact H|lia]].
    - destruct (det_succ_spec it d proc e I Hit) as (H1 & (new & H2) & H3 & H4).
      { rewrite Hm. apply in_or_app. right. now left. }
      { rewrite Hp. assert (ND := moves_keys_nodup (nth it (d_sets d) [])). rewrite Hm, map_app in ND.
        cbn [map] in ND. apply NoDup_remove_2 in ND. intros Hin. apply ND. apply in_or_app. now left. }
      assert (Hn : nth it (d_sets (det_succ it d e)) [] = nth it (d_sets d) []).
      { rewrite H2. now apply app_nth1. }
      destruct (IH (det_succ it d e) (addp it e proc) (pre ++ [e])) as (proc' & K1 & K2 & K3 & (new' & K4) & K5 & K6).
      { exact H1. }
      { rewrite H2, app_length. lia. }
      { unfold addp. now rewrite Nat.eqb_refl, Hp. }
      { rewrite Hn, Hm, <- app_assoc. reflexivity. }
      exists proc'. split; [exact K1|]. split; [now rewrite K2, <- app_assoc|]. split.
      { intros i Hi. rewrite K3 by exact Hi. unfold addp. apply Nat.eqb_neq in Hi. now rewrite Hi. }
      split; [exists (new ++ new'); now rewrite K4, H2, app_assoc|]. split; [congruence|].
      intros i. rewrite K6, H4. apply (f_equal (@length _)) in H2, K4. rewrite app_length in H2, K4.
      intuition lia.
  Qed.

  (** State [i] is marked final if its set contains a final state. *)
  Definition fin_done (d : detst) (i : nat) : Prop :=
    (exists p, In p (nth i (d_sets d) []) /\ is_final t p) -> exists f, In (i, f) (d_finals d).
  Definition state_done (d : detst) (proc : nat -> list ((Z * Z) * list nat)) (i : nat) : Prop :=
    proc i = moves (nth i (d_sets d) []) /\ fin_done d i.

  Lemma det_visit_spec : forall it d proc, dinv d proc -> (it < length (d_sets d))%nat ->
    proc it = [] ->
    let d' := det_visit t eps closures fs d it in
    exists proc', dinv d' proc' /\ state_done d' proc' it
    /\ (forall i, i <> it -> proc' i = proc i)
    /\ (exists new, d_sets d' = d_sets d ++ new)
    /\ (forall i f, In (i, f) (d_finals d) -> In (i, f) (d_finals d'))
    /\ (forall i, In i (d_next d') <->
          In i (d_next d) \/ (length (d_sets d) <= i < length (d_sets d'))%nat).
  Proof.
    intros it d proc I Hit Hp. cbv zeta. unfold det_visit.
    set (q := nth it (d_sets d) []).
    set (wt := match fin_find it (finals t) with Some w => w | None => 0 end).
    set (fin := if sv_intersects Nat.ltb Nat.eqb q fs then fin_insert it wt (d_finals d) else d_finals d).
    assert (Gq : good_set q) by (apply (di_good _ _ I); now apply nth_In).
    assert (Hint : sv_intersects Nat.ltb Nat.eqb q fs = true <-> exists p, In p q /\ is_final t p).
    { rewrite (sv_intersects_spec _ _ nat_strict_total) by (exact fs_set || apply Gq).
      split; intros (p & Hp1 & Hp2); exists p; (split; [exact Hp1|now apply fs_spec]). }
    set (d1 := mkDet (d_sets d) (d_trans d) fin (d_next d)).
    assert (I1 : dinv d1 proc).
    { assert (Hfin : forall i f, In (i, f) fin -> In (i, f) (d_finals d) \/
         (i = it /\ exists p, In p q /\ is_final t p)).
      { intros i f Hf. unfold fin in Hf. destruct (sv_intersects Nat.ltb Nat.eqb q fs) eqn:E; [|auto].
        apply fin_insert_fst in Hf as [->|Hf]; [|auto]. right. split; [reflexivity|]. now apply Hint. }
      destruct I as [I1 I2 I3 I4 I5 I6 I7 I8 I9 I10 I11 I12].
      constructor; unfold d1; cbn [d_sets d_trans d_finals d_next]; auto.
      - intros i Hi. apply I9 in Hi as [l Hl]. exists l. eapply path_mono; [|exact Hl]. auto.
      - unfold fin. destruct (sv_intersects _ _ _ _); [now apply fin_insert_sorted|exact I10].
      - intros i f Hf. apply Hfin in Hf as [Hf|[-> Hf]]; [eauto|]. auto. }
    destruct (det_succs_spec it (moves q) d1 proc [] I1 Hit Hp eq_refl)
      as (proc' & K1 & K2 & K3 & (new & K4) & K5 & K6).
    fold (moves q). exists proc'. split; [exact K1|].
    assert (Hnth : nth it (d_sets (fold_left (det_succ it) (moves q) d1)) [] = q).
    { rewrite K4. unfold d1. cbn [d_sets]. now apply app_nth1. }
    split; [|split; [exact K3|split; [exists new; exact K4|split; [|exact K6]]]].
    - split; [now rewrite Hnth, K2|]. intros Hex. rewrite Hnth in Hex. rewrite K5. unfold d1. cbn [d_finals].
      apply Hint in Hex. unfold fin. rewrite Hex.
      assert (S := di_fin_sorted _ _ I).
      destruct (fin_find it (d_finals d)) as [f|] eqn:E.
      + exists f. apply fin_insert_in; [exact S|]. left. now apply fin_find_some.
      + exists wt. apply fin_insert_in; [exact S|]. right. split; [auto|]. split; [auto|].
        now apply fin_find_none.
    - intros i f Hf. rewrite K5. unfold d1, fin. cbn [d_finals].
      destruct (sv_intersects _ _ _ _); [|exact Hf]. apply fin_insert_in; [apply (di_fin_sorted _ _ I)|]. now left.
  Qed.

  Lemma det_round_spec : forall R d proc, dinv d proc -> NoDup R ->
    (forall i, In i R -> (i < length (d_sets d))%nat /\ proc i = []) ->
    (forall i, (i < length (d_sets d))%nat -> ~ In i R -> ~ In i (d_next d) -> state_done d proc i) ->
    (forall i, In i (d_next d) -> (i < length (d_sets d))%nat /\ proc i = [] /\ ~ In i R) ->
    let d' := fold_left (det_visit t eps closures fs) R d in
    exists proc', dinv d' proc'
    /\ (forall i, (i < length (d_sets d'))%nat -> ~ In i (d_next d') -> state_done d' proc' i)
    /\ (forall i, In i (d_next d') -> (i < length (d_sets d'))%nat /\ proc' i = [])
    /\ (forall i, In i (d_next d') -> In i (d_next d) \/ (length (d_sets d) <= i)%nat)
    /\ (length (d_sets d) <= length (d_sets d'))%nat.
  Proof.
    induction R as [|it R IH]; intros d proc I ND HR Hdone Hnext; cbn [fold_left]; cbv zeta.
    - exists proc. split; [exact I|]. split; [intros i Hi Hn; apply Hdone; auto|].
      split; [intros i Hi; apply Hnext in Hi; tauto|]. split; auto.
    - inversion ND as [|? ? Hit ND']; subst.
      destruct (HR it) as [Hlt Hp]; [now left|].
      destruct (det_visit_spec it d proc I Hlt Hp) as (proc1 & H1 & H2 & H3 & (new & H4) & H5 & H6).
      set (d1 := det_visit t eps closures fs d it) in *.
      assert (Hlen : (length (d_sets d) <= length (d_sets d1))%nat) by (rewrite H4, app_length; lia).
      assert (Hnew : forall i, (length (d_sets d) <= i)%nat -> proc1 i = []).
      { intros i Hi. rewrite H3 by lia. now apply (proc_empty d). }
      destruct (IH d1 proc1 H1 ND') as (proc' & K1 & K2 & K3 & K4 & K5).
      + intros i Hi. destruct (HR i) as [Hi1 Hi2]; [now right|]. split; [lia|].
        rewrite H3; [exact Hi2|]. intros ->. contradiction.
      + intros i Hi HnR Hnn. destruct (Nat.eq_dec i it) as [->|E]; [exact H2|].
        assert (Hn' : ~ In i (d_next d)) by (intros Hin; apply Hnn, H6; auto).
        assert (Hold : (i < length (d_sets d))%nat).
        { destruct (Nat.lt_ge_cases i (length (d_sets d))) as [L|L]; [exact L|].
          exfalso. apply Hnn, H6. auto. }
        destruct (Hdone i Hold) as [D1 D2]; [intros [->|Hin]; contradiction|exact Hn'|].
        assert (En : nth i (d_sets d1) [] = nth i (d_sets d) []) by (rewrite H4; now apply app_nth1).
        split; [rewrite H3 by exact E; now rewrite En|]. intros Hex. rewrite En in Hex.
        apply D2 in Hex as [f Hf]. exists f. auto.
      + intros i Hi. apply H6 in Hi as [Hi|Hi].
        * apply Hnext in Hi as (Hi1 & Hi2 & Hi3). split; [lia|]. split.
          -- rewrite H3; [exact Hi2|]. intros ->. apply Hi3. now left.
          -- intros Hin. apply Hi3. now right.
        * split; [lia|]. split; [apply Hnew; lia|]. intros Hin. destruct (HR i) as [Hi1 _]; [now right|]. lia.
      + exists proc'. split; [exact K1|]. split; [exact K2|]. split; [exact K3|]. split; [|lia].
        intros i Hi. apply K4 in Hi as [Hi|Hi]; [|lia]. apply H6 in Hi as [Hi|Hi]; [auto|lia].
  Qed.

  (** The loop of determinize. *)
  Definition loop_inv (st : nat * detst) : Prop :=
    exists proc, dinv (snd st) proc
    /\ (forall i, (i < length (d_sets (snd st)))%nat -> ~ In i (d_next (snd st)) -> state_done (snd st) proc i)
    /\ (forall i, In i (d_next (snd st)) ->
          (fst st <= i < length (d_sets (snd st)))%nat /\ proc i = [])
    /\ (fst st <= length (d_sets (snd st)))%nat.

  Lemma sets_bound : forall d proc, dinv d proc -> (length (d_sets d) <= 2 ^ n)%nat.
  Proof.
    intros d proc I. apply nset_count; [apply (di_nodup _ _ I)|]. intros s Hs.
    apply (di_good _ _ I) in Hs as (G1 & _ & G3 & _). auto.
  Qed.

  Lemma det_loop_step : forall st st', loop_inv st -> det_round t eps closures fs st = inl st' ->
    loop_inv st' /\ (2 ^ n + 1 - fst st' < 2 ^ n + 1 - fst st)%nat.
  Proof.
    intros [size d] [size' d'] (proc & I & Hd & Hn & Hs) H. unfold det_round in H. cbn [fst snd] in *.
    destruct (Nat.eqb_spec size (length (d_sets d))) as [E|E]; [discriminate|]. injection H as <- <-.
    assert (B := sets_bound d proc I).
    assert (I' : dinv (mkDet (d_sets d) (d_trans d) (d_finals d) []) proc).
    { destruct I. constructor; auto. apply nset_nil. }
    destruct (det_round_spec (d_next d) _ proc I') as (proc' & K1 & K2 & K3 & K4 & K5).
    - apply nset_NoDup, (di_next _ _ I).
    - cbn [d_sets]. intros i Hi. apply Hn in Hi. tauto.
    - cbn [d_sets d_next]. intros i Hi Hni _. now apply Hd.
    - cbn [d_next]. intros i [].
    - cbn [d_sets d_next] in *. split; [|lia]. exists proc'. cbn [fst snd]. split; [exact K1|].
      split; [exact K2|]. split; [|exact K5]. intros i Hi. assert (Hi' := Hi).
      apply K3 in Hi as [Hi1 Hi2]. apply K4 in Hi' as [[]|Hi']. split; [lia|exact Hi2].
  Qed.

  Lemma det_result : forall size d, loop_inv (size, d) -> det_round t eps closures fs (size, d) = inr d ->
    subset_automaton t eps (d_sets d) (aut d).
  Proof.
    intros size d (proc & I & Hd & Hn & Hs) H. unfold det_round in H. cbn [fst snd] in *.
    destruct (Nat.eqb_spec size (length (d_sets d))) as [E|E]; [|discriminate]. clear H.
    assert (Hnil : d_next d = []).
    { destruct (d_next d) as [|x l] eqn:En; [reflexivity|]. destruct (Hn x) as [Hx _]; [now left|]. lia. }
    assert (Done : forall i, (i < length (d_sets d))%nat -> state_done d proc i).
    { intros i Hi. apply Hd; [exact Hi|]. rewrite Hnil. intros []. }
    destruct I as [I1 I2 I3 I4 I5 I6 I7 I8 I9 I10 I11 I12].
    assert (Z : (0 < length (d_sets d))%nat) by (apply nth_error_Some; congruence).
    assert (Hj : forall j s, nth_error (d_sets d) j = Some s -> nth j (d_sets d) [] = s /\ (j < length (d_sets d))%nat).
    { intros j s Hj. split; [now apply nth_error_nth|]. apply nth_error_Some. congruence. }
    assert (Arc : forall i a j w, has_arc (aut d) i a j w -> exists s,
       (i < length (d_sets d))%nat /\ In ((a, w), s) (moves (nth i (d_sets d) []))
       /\ nth j (d_sets d) [] = s /\ (j < length (d_sets d))%nat).
    { intros i a j w H. apply I5 in H as (s & Hs' & Hn'). apply I6 in Hs' as (L1 & L2 & L3).
      apply Hj in Hn' as [N1 N2]. exists s. auto. }
    constructor.
    - unfold nstates. cbn. now rewrite I1.
    - exact I3.
    - exact I2.
    - reflexivity.
    - intros x. apply nth_error_nth with (d := []) in I4. rewrite I4. apply cl_spec. apply (wf_initial t W).
    - intros i a j w H. apply Arc in H as (s & Hi & Hs' & <- & Hl). split; [exact Hl|].
      destruct (det_moves_spec (nth i (d_sets d) [])) as (M1 & M2 & M3 & M4).
      assert (K : mm_key (moves (nth i (d_sets d) [])) (a, w)) by (eexists; exact Hs').
      apply M4 in K as (Hsil & K). split; [exact Hsil|]. intros x. split.
      + intros Hx. apply M3. exists (nth j (d_sets d) []). auto.
      + intros Hx. assert (X : mm_in (moves (nth i (d_sets d) [])) (a, w) x) by (apply M3; auto).
        destruct X as (s' & Hs'' & Hx'). now rewrite (keys_sorted_unique _ _ _ _ M1 Hs' Hs'').
    - intros i p a r w Hp Hr Hsil.
      destruct (Nat.lt_ge_cases i (length (d_sets d))) as [Hi|Hi];
        [|rewrite nth_overflow in Hp by exact Hi; destruct Hp].
      destruct (Done i Hi) as [D1 _].
      destruct (det_moves_spec (nth i (d_sets d) [])) as (M1 & M2 & M3 & M4).
      assert (K : mm_key (moves (nth i (d_sets d) [])) (a, w)) by (apply M4; split; [exact Hsil|exists p, r; auto]).
      destruct K as (s & Hs'). rewrite <- D1 in Hs'. destruct (I6 _ _ Hs') as (_ & _ & Hin).
      cbn [snd] in Hin. apply In_nth_error in Hin as (j & Hj'). exists j. apply I5. exists s. auto.
    - intros i Hi. split.
      + intros (f & Hf). apply I11 in Hf. tauto.
      + intros Hex. destruct (Done i Hi) as [_ D2]. apply D2 in Hex as [f Hf]. now exists f.
    - constructor.
      + cbn. unfold nstates. cbn. lia.
      + intros p f Hf. apply I11 in Hf as [Hf _]. unfold nstates. cbn. lia.
      + exact I10.
      + intros p a q w H. apply Arc in H as (s & _ & _ & _ & Hl). unfold nstates. cbn. lia.
      + exact I7.
    - split; [|split].
      + intros p a q w H. apply Arc in H as (s & Hi & Hs' & _ & _).
        destruct (det_moves_spec (nth p (d_sets d) [])) as (M1 & M2 & M3 & M4).
        apply (M4 a w). eexists; exact Hs'.
      + intros p a w q q' H H'. apply Arc in H as (s & Hi & Hs' & Hq & Hl).
        apply Arc in H' as (s' & _ & Hs'' & Hq' & Hl').
        destruct (det_moves_spec (nth p (d_sets d) [])) as (M1 & M2 & M3 & M4).
        assert (s = s') by (eapply keys_sorted_unique; eauto). subst s'.
        apply (proj1 (NoDup_nth (d_sets d) []) I3); auto. congruence.
      + exact I8.
    - intros p Hp. apply I9. unfold nstates in Hp. cbn in Hp. lia.
  Qed.
End Det.

Lemma pow2_lt : forall n, (1 <= n)%nat -> (2 ^ n + 1 < 2 ^ (n + 1))%nat.
Proof.
  intros n H. replace (n + 1)%nat with (S n) by lia. destruct n as [|n]; [lia|]. rewrite !Nat.pow_succ_r'.
  assert (2 ^ n <> 0)%nat by (apply Nat.pow_nonzero; lia).
  generalize dependent (2 ^ n)%nat. intros. lia.
Qed.

(** determinize terminates and builds the automaton of reachable sets. *)
Theorem determinize_subset : forall t eps, wf t ->
  exists Q d, determinize eps t = Ok d /\ subset_automaton t eps Q d.
Proof.
  intros t eps W. unfold determinize.
  destruct (closure_all_spec t eps W) as (cl & Hcl & Hlen & Hset & Hspec). rewrite Hcl. cbn [obind].
  set (fs := fold_left (fun l f => sv_insert Nat.ltb (fst f) l) (finals t) []).
  assert (Hfs : nset fs /\ forall p, In p fs <-> is_final t p).
  { assert (X : forall l acc, nset acc -> nset (fold_left (fun l (f : nat * Z) => sv_insert Nat.ltb (fst f) l) l acc)
      /\ forall p, In p (fold_left (fun l (f : nat * Z) => sv_insert Nat.ltb (fst f) l) l acc) <->
           In p acc \/ exists f, In (p, f) l).
    { induction l as [|[s w] l IH]; intros acc Ha; cbn [fold_left].
      - split; [exact Ha|]. intros p. split; [auto|]. intros [H|(f & [])]. exact H.
      - destruct (IH (sv_insert Nat.ltb s acc)) as [X1 X2]; [now apply nset_insert|]. cbn [fst].
        split; [exact X1|]. intros p. rewrite X2, in_nset_insert by exact Ha. cbn [In]. split.
        + intros [[->|H]|(f & H)]; [right; exists w; auto|auto|right; exists f; auto].
        + intros [H|(f & [[= -> ->]|H])]; [auto|auto|right; exists f; auto]. }
    destruct (X (finals t) []) as [X1 X2]; [apply nset_nil|]. split; [exact X1|].
    intros p. unfold fs. rewrite X2. cbn. unfold is_final, final_wt. intuition. }
  destruct Hfs as [Hfs1 Hfs2].
  set (fin0 := if isFinal t (initial t) then [(0%nat, 0)] else []).
  set (d0 := mkDet [nth (initial t) cl []] [[]] fin0 [0%nat]).
  assert (Wi := wf_initial t W).
  assert (I0 : loop_inv t eps cl (0%nat, d0)).
  { exists (fun _ => []). cbn [fst snd].
    assert (D : dinv t eps cl d0 (fun _ => [])).
    { constructor; unfold d0; cbn [d_sets d_trans d_finals d_next].
      - reflexivity.
      - intros s [<-|[]]. now apply good_closure.
      - repeat constructor. intros [].
      - reflexivity.
      - intros i a j w. split; [|intros (s & [] & _)]. intros H. unfold has_arc, arcs_of in H. cbn in H.
        destruct i as [|[|]]; destruct H.
      - intros i e [].
      - intros i. destruct i as [|[|]]; constructor.
      - intros i. destruct i as [|[|]]; constructor.
      - intros i Hi. cbn in Hi. assert (i = 0%nat) as -> by lia. exists []. constructor.
      - unfold fin0. destruct (isFinal t (initial t)); repeat constructor.
      - intros i f Hf. unfold fin0 in Hf. destruct (isFinal t (initial t)) eqn:E; [|destruct Hf].
        destruct Hf as [[= <- <-]|[]]. split; [cbn; lia|]. exists (initial t). cbn [nth]. split.
        + apply Hspec; [exact Wi|constructor].
        + unfold isFinal in E. destruct (fin_find (initial t) (finals t)) as [w|] eqn:Ef; [|discriminate].
          exists w. apply fin_find_some; [apply (wf_finals_sorted t W)|exact Ef].
      - repeat constructor. }
    split; [exact D|]. unfold d0. cbn [d_sets d_next]. split; [|split].
    - cbn. intros i Hi Hni. exfalso. apply Hni. left. lia.
    - cbn. intros i [<-|[]]. split; [lia|reflexivity].
    - cbn. lia. }
  destruct (iter2_inr (det_round t eps cl fs) (loop_inv t eps cl)
              (fun st => 2 ^ nstates t + 1 - fst st)%nat)
    with (n := (nstates t + 1)%nat) (s := (0%nat, d0)) as (r & [size d] & Hr & I & Hlast).
  - intros s s' Hi H. now apply (det_loop_step t eps cl fs).
  - exact I0.
  - cbn [fst]. rewrite Nat.sub_0_r. apply pow2_lt. lia.
  - rewrite Hr. exists (d_sets r), (aut r). split; [reflexivity|].
    assert (r = d) as ->.
    { unfold det_round in Hlast. destruct (size =? length (d_sets d))%nat; [|discriminate]. congruence. }
    now apply (det_result t eps cl fs) with (size := size).
Qed.
