(** The weights in a transducer stay within a set of weights containing 0. *)
From Verif Require Import Base SortedVectorModel AlphabetModel TransducerModel TransducerSpec RegexpModel CompilerModel.

Section Within.
  Variable P : Z -> Prop.
  Hypothesis P0 : P 0.

  Definition row_in (l : list arc) : Prop := Forall (fun a => P (a_wt a)) l.
  Definition rows_in (ts : list (list arc)) : Prop := Forall row_in ts.
  Definition fins_in (l : list (nat * Z)) : Prop := Forall (fun x => P (snd x)) l.
  Definition within (t : transducer) : Prop := rows_in (trans t) /\ fins_in (finals t).

  Lemma mm_insert_in : forall a l, P (a_wt a) -> row_in l -> row_in (mm_insert a l).
  Proof.
    intros a l Ha H. induction H as [|b l Hb Hl IH]; cbn; [constructor; [exact Ha|constructor]|].
    destruct (_ <? _); constructor; auto.
  Qed.
  Lemma upd_in : forall f i l, (forall x, row_in x -> row_in (f x)) -> rows_in l -> rows_in (upd i f l).
  Proof.
    intros f i l Hf H. revert i. induction H as [|x l Hx Hl IH]; intros i; destruct i; cbn; try constructor; auto.
    apply IH.
  Qed.
  Lemma nth_in : forall i l, rows_in l -> row_in (nth i l []).
  Proof.
    intros i l H. revert i. induction H as [|x l Hx Hl IH]; intros [|i]; cbn; try constructor; auto.
  Qed.
  Lemma empty_in : forall {A} (l : list A), rows_in (map (fun _ => []) l).
  Proof. intros A l. induction l; cbn; constructor; auto. constructor. Qed.
  Lemma rows_app : forall a b, rows_in a -> rows_in b -> rows_in (a ++ b).
  Proof. intros a b Ha Hb. apply Forall_app. auto. Qed.
  Lemma row_nil : rows_in [[]].
  Proof. constructor; constructor. Qed.

  Lemma fin_insert_in : forall s w l, P w -> fins_in l -> fins_in (fin_insert s w l).
  Proof.
    intros s w l Hw H. induction H as [|[s' w'] l Hx Hl IH]; cbn [fin_insert]; [constructor; [exact Hw|constructor]|].
    destruct (s <? s')%nat; [constructor; [exact Hw|constructor; assumption]|]. destruct (s =? s')%nat; constructor; auto.
  Qed.
  Lemma fin_find_in : forall s l w, fins_in l -> fin_find s l = Some w -> P w.
  Proof.
    intros s l w H. induction H as [|[s' w'] l Hx Hl IH]; cbn; [discriminate|]. destruct (s =? s')%nat; [|auto].
    intros E. assert (w' = w) by congruence. subst. exact Hx.
  Qed.
  Lemma filter_fin_in : forall f l, fins_in l -> fins_in (filter f l).
  Proof. intros f l H. unfold fins_in in *. rewrite Forall_forall in *. intros x Hx. apply filter_In in Hx as [Hx _]. auto. Qed.

  Lemma within_new : within new_transducer.
  Proof. split; [apply row_nil|constructor]. Qed.
  Lemma within_state : forall t, within t -> within (snd (newState t)).
  Proof. intros t [A B]. split; [apply rows_app; [exact A|apply row_nil]|exact B]. Qed.
  Lemma within_add : forall s a t, P (a_wt a) -> within t -> within (add_arc s a t).
  Proof. intros s a t Ha [A B]. split; [|exact B]. apply upd_in; [|exact A]. intros x. now apply mm_insert_in. Qed.
  Lemma within_single : forall tag s w t, P w -> within t -> within (snd (insertSingleTransduction tag s w t)).
  Proof.
    intros tag s w t Hw H. unfold insertSingleTransduction. destruct (_ <? _)%nat; [|exact H].
    destruct (equal_range _ _) as [|a [|b [|c l]]]; try exact H.
    - cbn. apply within_add; [exact Hw|]. exact (within_state t H).
    - destruct (negb _); [exact H|]. destruct (negb _); exact H.
  Qed.
  Lemma within_new_single : forall tag s w t, P w -> within t -> within (snd (insertNewSingleTransduction tag s w t)).
  Proof. intros tag s w t Hw H. cbn. apply within_add; [exact Hw|]. exact (within_state t H). Qed.
  Lemma within_link : forall p q tag w t t', P w -> within t -> linkStates p q tag w t = Ok t' -> within t'.
  Proof.
    intros p q tag w t t' Hw H. unfold linkStates. destruct (_ && _); [|discriminate]. destruct (existsb _ _); intros E.
    - assert (t = t') by congruence. now subst.
    - assert (X : add_arc p (tag, (q, w)) t = t') by congruence. subst. now apply within_add.
  Qed.
  Lemma within_final : forall s w v t, P w -> within t -> within (setFinal s w v t).
  Proof. intros s w v t Hw [A B]. split; [exact A|]. destruct v; [now apply fin_insert_in|now apply filter_fin_in]. Qed.
  Lemma within_link_finals : forall l s eps t t', fins_in l -> within t -> link_finals l s eps t = Ok t' -> within t'.
  Proof.
    intros l s eps t t' H. revert t. induction H as [|[p w] l Hx Hl IH]; intros t Ht; cbn [link_finals].
    - intros E. assert (t = t') by congruence. now subst.
    - destruct (linkStates p s eps w t) as [u| | | |] eqn:L; try discriminate. cbn. apply IH. exact (within_link _ _ _ _ _ _ Hx Ht L).
  Qed.
  Lemma fins_one : forall s, fins_in [(s, 0)].
  Proof. intros s. constructor; [exact P0|constructor]. Qed.
  Lemma within_join : forall eps t t', within t -> joinFinals eps t = Ok t' -> within t'.
  Proof.
    intros eps t t' H. unfold joinFinals. destruct (finals t) as [|x [|y l]] eqn:F; [discriminate| |].
    - intros E. assert (t = t') by congruence. now subst.
    - destruct (newState t) as [s u] eqn:N. assert (Hu : within u) by (pose proof (within_state t H) as X; now rewrite N in X).
      destruct (link_finals _ s eps u) as [v| | | |] eqn:L; try discriminate. cbn. intros E.
      assert (X : mkT (initial v) [(s, 0)] (trans v) = t') by congruence. subst.
      split; [|apply fins_one]. apply (within_link_finals _ _ _ _ _) in L; [apply L| |exact Hu]. rewrite <- F. apply H.
  Qed.
  Lemma within_fold_add : forall g h l u, row_in l -> within u ->
    within (fold_left (fun self a => add_arc g (a_tag a, (h a, a_wt a)) self) l u).
  Proof. intros g h l u H. revert u. induction H as [|a l Ha Hl IH]; intros u Hu; cbn; [exact Hu|]. apply IH. now apply within_add. Qed.
  Lemma within_copy : forall base ts i u, rows_in ts -> within u -> within (copy_arcs base i ts u).
  Proof.
    intros base ts i u H. revert i u. induction H as [|l ts Hl Hts IH]; intros i u Hu; cbn [copy_arcs]; [exact Hu|].
    apply IH. apply (within_fold_add _ (fun a => (base + a_dst a)%nat)); assumption.
  Qed.
  Lemma within_insert : forall s t eps self r self' t', within t -> within self ->
    insertTransducer s t eps self = Ok (r, self', t') -> within self' /\ within t'.
  Proof.
    intros s t eps self r self' t' Ht Hs. unfold insertTransducer. destruct (trans t) as [|l ts] eqn:T.
    - intros E. assert (self = self') by congruence. assert (t = t') by congruence. subst. auto.
    - destruct (joinFinals eps t) as [u| | | |] eqn:J; try discriminate. cbn [obind]. apply (within_join _ _ _ Ht) in J.
      destruct (finals u) as [|[f w] fs]; [discriminate|]. intros E.
      assert (u = t') by congruence. subst t'. split; [|exact J].
      match type of E with Ok (_, ?x, _) = _ => assert (Y : x = self') by congruence end. rewrite <- Y.
      apply within_add; [exact P0|]. apply within_copy; [apply J|]. split; [|apply Hs]. apply rows_app; [apply Hs|apply empty_in].
  Qed.

  (** The rational operations *)
  Ltac step_state t H := let s := fresh "s" in let u := fresh "u" in let N := fresh "N" in let X := fresh "W" in
    destruct (newState t) as [s u] eqn:N; assert (X : within u) by (pose proof (within_state t H) as X; now rewrite N in X); cbn zeta.
  Ltac step_link := match goal with |- context [linkStates ?p ?q ?a ?w ?t] =>
    let v := fresh "v" in let L := fresh "L" in destruct (linkStates p q a w t) as [v| | | |] eqn:L; try discriminate; cbn [obind] end.
  Lemma within_optional : forall eps t t', within t -> optional eps t = Ok t' -> within t'.
  Proof.
    intros eps t t' H. unfold optional. destruct (joinFinals eps t) as [u| | | |] eqn:J; try discriminate. cbn [obind].
    apply (within_join _ _ _ H) in J. step_state u J. step_link. apply (within_link _ _ _ _ _ _ P0 W) in L.
    assert (L' : within (mkT s (finals v) (trans v))) by exact L. step_state (mkT s (finals v) (trans v)) L'.
    destruct (finals u1) as [|[f w] fs] eqn:F; [discriminate|]. step_link.
    assert (Pw : P w) by (destruct W0 as [_ X]; rewrite F in X; now inversion X).
    apply (within_link _ _ _ _ _ _ Pw W0) in L0. intros E. apply (within_link _ _ _ _ _ _ P0) in E; [exact E|].
    split; [apply L0|apply fins_one].
  Qed.
  Lemma within_plus : forall eps t t', within t -> oneOrMore eps t = Ok t' -> within t'.
  Proof.
    intros eps t t' H. unfold oneOrMore. destruct (joinFinals eps t) as [u| | | |] eqn:J; try discriminate. cbn [obind].
    apply (within_join _ _ _ H) in J. step_state u J. step_link. apply (within_link _ _ _ _ _ _ P0 W) in L.
    assert (L' : within (mkT s (finals v) (trans v))) by exact L. step_state (mkT s (finals v) (trans v)) L'.
    destruct (finals u1) as [|[f w] fs] eqn:F; [discriminate|]. step_link.
    assert (Pw : P w) by (destruct W0 as [_ X]; rewrite F in X; now inversion X).
    apply (within_link _ _ _ _ _ _ Pw W0) in L0. intros E. apply (within_link _ _ _ _ _ _ P0) in E; [exact E|].
    split; [apply L0|apply fins_one].
  Qed.
  Lemma within_star : forall eps t t', within t -> zeroOrMore eps t = Ok t' -> within t'.
  Proof.
    intros eps t t' H. unfold zeroOrMore. destruct (oneOrMore eps t) as [u| | | |] eqn:J; try discriminate. cbn [obind].
    apply within_optional. exact (within_plus _ _ _ H J).
  Qed.

  (** Reversal *)
  Lemma within_rev_visit : forall st i, rows_in (fst st) -> rows_in (snd st) ->
    rows_in (fst (rev_visit st i)) /\ rows_in (snd (rev_visit st i)).
  Proof.
    intros [tr tmp] i A B. cbn [fst snd] in *. unfold rev_visit. cbn zeta.
    set (g := fun '(tr, tmp) a => _). assert (G : forall l st, row_in l -> rows_in (fst st) -> rows_in (snd st) ->
      rows_in (fst (fold_left g l st)) /\ rows_in (snd (fold_left g l st))).
    { intros l st H. revert st. induction H as [|a l Ha Hl IH]; intros [x y] X Y; cbn [fold_left]; [auto|]. cbn [fst snd] in X, Y.
      apply IH; unfold g; destruct (_ <=? _)%nat; cbn [fst snd]; try assumption; apply upd_in; try assumption;
        intros z; now apply mm_insert_in. }
    specialize (G (nth i tr []) (upd i (fun _ => []) tr, tmp)).
    destruct (fold_left g (nth i tr []) _) as [x y]. cbn [fst snd] in *. destruct G as [X Y]; [now apply nth_in| |exact B|].
    { apply upd_in; [|exact A]. intros. constructor. }
    split; apply upd_in; try assumption; [|intros; constructor].
    intros z Hz. pose proof (nth_in i y Y) as N. revert z Hz. induction N as [|a l Ha Hl IH]; intros z Hz; cbn; [exact Hz|].
    apply IH. now apply mm_insert_in.
  Qed.
  Lemma within_reverse : forall eps t t', within t -> reverse eps t = Ok t' -> within t'.
  Proof.
    intros eps t t' H. unfold reverse. destruct (joinFinals eps t) as [u| | | |] eqn:J; try discriminate. cbn [obind].
    apply (within_join _ _ _ H) in J.
    assert (G : forall l st, rows_in (fst st) -> rows_in (snd st) -> rows_in (fst (fold_left rev_visit l st))).
    { induction l as [|i l IH]; intros st A B; cbn [fold_left]; [exact A|]. destruct (within_rev_visit st i A B). now apply IH. }
    specialize (G (rev (seq 0 (nstates u))) (trans u, map (fun _ => []) (trans u)) (proj1 J) (empty_in _)).
    destruct (fold_left rev_visit _ _) as [tr tmp]. cbn [fst] in G. destruct (finals u) as [|[f w] fs]; [discriminate|]. intros E.
    assert (X : mkT f [(initial u, 0)] tr = t') by congruence. subst. split; [exact G|apply fins_one].
  Qed.

  (** Determinisation *)
  Definition moves_in (m : list ((Z * Z) * list nat)) : Prop := Forall (fun e => P (snd (fst e))) m.
  Definition det_in (d : detst) : Prop := rows_in (d_trans d) /\ fins_in (d_finals d).
  Lemma mymap_in : forall k r m, P (snd k) -> moves_in m -> moves_in (mymap_insert k r m).
  Proof.
    intros k r m Hk H. induction H as [|[k' s] m Hx Hm IH]; cbn [mymap_insert]; [constructor; [exact Hk|constructor]|].
    destruct (key_eqb k k'); [constructor; assumption|]. destruct (key_ltb k k'); constructor; try assumption. constructor; assumption.
  Qed.
  Lemma det_moves_in : forall t eps cl q, within t -> moves_in (det_moves t eps cl q).
  Proof.
    intros t eps cl q H. unfold det_moves. assert (M : moves_in []) by constructor. revert M. generalize (@nil ((Z * Z) * list nat)).
    induction q as [|s q IH]; intros m M; cbn [fold_left]; [exact M|]. apply IH.
    pose proof (nth_in s (trans t) (proj1 H)) as N. fold (arcs_of t s) in N. revert m M. induction N as [|a l Ha Hl IHl]; intros m M; cbn [fold_left]; [exact M|].
    apply IHl. destruct (_ || _); [|exact M]. apply mymap_in; [exact Ha|exact M].
  Qed.
  Lemma det_succ_in : forall it d e, P (snd (fst e)) -> det_in d -> det_in (det_succ it d e).
  Proof.
    intros it d [[tag w] q] He [A B]. unfold det_succ. cbn [fst snd] in *. destruct (find_set q (d_sets d)); split; cbn [d_trans d_finals]; try exact B.
    - apply upd_in; [|exact A]. intros x. now apply mm_insert_in.
    - apply upd_in; [intros x; now apply mm_insert_in|]. apply rows_app; [exact A|apply row_nil].
  Qed.
  Lemma det_visit_in : forall t eps cl fs d it, within t -> det_in d -> det_in (det_visit t eps cl fs d it).
  Proof.
    intros t eps cl fs d it H [A B]. unfold det_visit.
    match goal with |- det_in (fold_left _ ?m ?d0) => assert (D : det_in d0) end.
    { split; cbn [d_trans d_finals]; [exact A|]. destruct (sv_intersects _ _ _ _); [|exact B]. apply fin_insert_in; [|exact B].
      destruct (fin_find it (finals t)) eqn:F; [|exact P0]. exact (fin_find_in _ _ _ (proj2 H) F). }
    revert D. generalize (det_moves_in t eps cl (nth it (d_sets d) []) H).
    match goal with |- _ -> det_in ?d0 -> _ => generalize d0 end. intros d0 M. revert d0.
    induction M as [|e m He Hm IH]; intros d0 D; cbn [fold_left]; [exact D|]. apply IH. now apply det_succ_in.
  Qed.
  Lemma iter2_inv : forall {S R} (step : S -> S + R) (I : S -> Prop) (J : R -> Prop),
    (forall s, I s -> match step s with inl s' => I s' | inr r => J r end) ->
    forall n s, I s -> match iter2 step n s with inl s' => I s' | inr r => J r end.
  Proof.
    intros S R step I J H n. induction n as [|n IH]; intros s Hs; cbn [iter2]; [now apply H|].
    specialize (IH s Hs) as X. destruct (iter2 step n s); [|exact X]. now apply IH.
  Qed.
  Lemma within_determinize : forall eps t t', within t -> determinize eps t = Ok t' -> within t'.
  Proof.
    intros eps t t' H. unfold determinize. destruct (closure_all t eps) as [cl| | | |]; try discriminate. cbn [obind].
    set (fs := fold_left _ _ _). set (d0 := mkDet _ _ _ _).
    pose proof (iter2_inv (det_round t eps cl fs) (fun x => det_in (snd x)) det_in) as X.
    assert (D : det_in d0). { split; cbn; [apply row_nil|]. destruct (isFinal _ _); [apply fins_one|constructor]. }
    specialize (fun K => X K (nstates t + 1)%nat (0%nat, d0) D).
    destruct (iter2 _ _ _) as [|d]; [discriminate|]. intros E. assert (Y : mkT 0 (d_finals d) (d_trans d) = t') by congruence. subst t'.
    apply X. intros [n e] He. cbn [snd] in He. unfold det_round. destruct (_ =? _)%nat; [exact He|]. cbn [snd].
    assert (Q : det_in (mkDet (d_sets e) (d_trans e) (d_finals e) [])) by exact He. revert Q.
    generalize (mkDet (d_sets e) (d_trans e) (d_finals e) []). induction (d_next e) as [|i l IH]; intros d1 Q; cbn [fold_left]; [exact Q|].
    apply IH. now apply det_visit_in.
  Qed.
  Lemma within_minimize : forall eps t t', within t -> minimize eps t = Ok t' -> within t'.
  Proof.
    intros eps t t' H. unfold minimize. destruct (finals t); [intros E; assert (t = t') by congruence; now subst|].
    destruct (reverse eps t) as [u| | | |] eqn:R; try discriminate. cbn [obind]. apply (within_reverse _ _ _ H) in R.
    destruct (determinize eps u) as [v| | | |] eqn:D; try discriminate. cbn [obind]. apply (within_determinize _ _ _ R) in D.
    destruct (reverse eps v) as [w| | | |] eqn:R2; try discriminate. cbn [obind]. apply (within_reverse _ _ _ D) in R2.
    now apply within_determinize.
  Qed.

  (** Regular expressions *)
  Lemma within_postop : forall op t t', within t -> apply_postop op t = Ok t' -> within t'.
  Proof.
    intros op t t' H. unfold apply_postop. destruct (op =? 42); [now apply within_star|]. destruct (op =? 43); [now apply within_plus|].
    destruct (op =? 63); [now apply within_optional|]. intros E. assert (t = t') by congruence. now subst.
  Qed.
  Lemma within_insert_term : forall l a t self st s, within t -> within self -> insert_term l a t self st = Ok s -> within (rx_t s).
  Proof.
    intros l a t self st s Ht Hs. unfold insert_term. destruct (insertTransducer st t 0 self) as [[[e u] v]| | | |] eqn:I; try discriminate.
    cbn [obind]. intros E. assert (X : mkRx l a u e = s) by congruence. subst. apply (within_insert _ _ _ _ _ _ _ Ht Hs I).
  Qed.
  Lemma within_char : forall at_ c, within (snd at_) -> within (snd (add_char at_ c)).
  Proof.
    intros [a t] c H. cbn [snd] in H. unfold add_char.
    destruct (insertNewSingleTransduction 0 (initial t) 0 t) as [m u] eqn:E.
    assert (Hu : within u) by (pose proof (within_new_single 0 (initial t) 0 t P0 H) as X; now rewrite E in X).
    destruct (pair_code (c, c) a) as [tag a'].
    destruct (insertNewSingleTransduction tag m 0 u) as [m' v] eqn:E2.
    assert (Hv : within v) by (pose proof (within_new_single tag m 0 u P0 Hu) as X; now rewrite E2 in X).
    cbn [snd]. now apply within_final.
  Qed.
  Lemma within_chars : forall l at_, within (snd at_) -> within (snd (fold_left add_char l at_)).
  Proof. induction l as [|c l IH]; intros at_ H; cbn [fold_left]; [exact H|]. apply IH. now apply within_char. Qed.
  Lemma within_esp : forall s s', within (rx_t s) -> esp s = Ok s' -> within (rx_t s').
  Proof.
    intros s s' H. unfold esp. destruct (esp_class (rx_in s)) as [[[l op] cs]| | | |]; try discriminate. cbn [obind].
    pose proof (within_chars cs (rx_a s, new_transducer) within_new) as X. destruct (fold_left add_char cs _) as [a t]. cbn [snd] in X.
    destruct (joinFinals 0 t) as [u| | | |] eqn:J; try discriminate. cbn [obind]. apply (within_join _ _ _ X) in J.
    destruct (apply_postop op u) as [v| | | |] eqn:O; try discriminate. cbn [obind]. apply (within_postop _ _ _ J) in O.
    now apply within_insert_term.
  Qed.
  Definition keeps (f : rx -> outcome rx) : Prop := forall s s', within (rx_t s) -> f s = Ok s' -> within (rx_t s').
  Lemma within_rx : forall n, keeps (rS n) /\ keeps (rRExpr n) /\ keeps (rCola n) /\ keeps (rTerm n) /\ keeps (rRExprp n).
  Proof.
    induction n as [|n (HS & HE & HC & HT & HR)]; [split; [|split; [|split; [|split]]]; intros s s' _ E; discriminate E|].
    split; [|split; [|split; [|split]]]; intros s s' H; cbn [rS rRExpr rCola rTerm rRExprp].
    - destruct (starts _); [|discriminate]. destruct (rRExpr n s) as [u| | | |] eqn:E; try discriminate. cbn [obind].
      apply HC. exact (HE _ _ H E).
    - destruct (starts _); [|discriminate]. destruct (rTerm n s) as [u| | | |] eqn:E; try discriminate. cbn [obind].
      apply HR. exact (HT _ _ H E).
    - destruct (_ || _); [intros E; assert (s = s') by congruence; now subst|]. destruct (_ =? _); [|discriminate].
      destruct (consume 124 _) as [l| | | |]; try discriminate. cbn [obind].
      destruct (rRExpr n _) as [u| | | |] eqn:E1; try discriminate. cbn [obind]. apply HE in E1; [|exact H].
      destruct (rCola n u) as [v| | | |] eqn:E2; try discriminate. cbn [obind]. apply HC in E2; [|exact E1].
      destruct (insertNewSingleTransduction 0 (rx_st v) 0 (rx_t v)) as [st t] eqn:N.
      assert (Ht : within t) by (pose proof (within_new_single 0 (rx_st v) 0 (rx_t v) P0 E2) as X; now rewrite N in X).
      destruct (linkStates _ st 0 0 t) as [t2| | | |] eqn:L; try discriminate. cbn [obind]. apply (within_link _ _ _ _ _ _ P0 Ht) in L.
      intros E. assert (X : mkRx (rx_in v) (rx_a v) t2 st = s') by congruence. now subst.
    - destruct (_ || _); [|destruct (_ =? 40); [|destruct (_ =? 91); [|discriminate]]].
      + destruct (letra _) as [[c l]| | | |]; try discriminate. cbn [obind]. destruct (pair_code _ _) as [tag a].
        destruct (insertNewSingleTransduction tag _ 0 new_transducer) as [e t] eqn:N.
        assert (Ht : within t) by (pose proof (within_new_single tag (initial new_transducer) 0 new_transducer P0 within_new) as X; now rewrite N in X).
        destruct (postop l) as [[op l']| | | |]; try discriminate. cbn [obind].
        destruct (apply_postop op _) as [u| | | |] eqn:O; try discriminate. cbn [obind].
        apply within_postop in O; [|now apply within_final]. now apply within_insert_term.
      + destruct (consume 40 _) as [l| | | |]; try discriminate. cbn [obind].
        destruct (rS n _) as [u| | | |] eqn:E1; try discriminate. cbn [obind]. apply HS in E1; [|exact within_new].
        destruct (consume 41 _) as [l2| | | |]; try discriminate. cbn [obind].
        destruct (postop l2) as [[op l3]| | | |]; try discriminate. cbn [obind].
        destruct (apply_postop op _) as [v| | | |] eqn:O; try discriminate. cbn [obind].
        apply within_postop in O; [|now apply within_final]. now apply within_insert_term.
      + destruct (consume 91 _) as [l| | | |]; try discriminate. cbn [obind]. now apply within_esp.
    - destruct (starts _).
      + destruct (rTerm n s) as [u| | | |] eqn:E; try discriminate. cbn [obind]. apply HR. exact (HT _ _ H E).
      + destruct (_ || _); [|discriminate]. intros E. assert (s = s') by congruence. now subst.
  Qed.
  Lemma within_rx_compile : forall a er a' t, rx_compile a er = Ok (a', t) -> within t.
  Proof.
    intros a er a' t. unfold rx_compile. destruct er as [|x er]; [discriminate|]. destruct (rS _ _) as [s| | | |] eqn:E; try discriminate.
    cbn [obind]. intros X. assert (Y : setFinal (rx_st s) 0 true (rx_t s) = t) by congruence. subst t.
    apply within_final; [exact P0|]. apply (proj1 (within_rx _)) in E; [exact E|exact within_new].
  Qed.

  (** Entries *)
  Definition named_in (m : list (ustr * transducer)) : Prop := Forall (fun x => within (snd x)) m.
  Lemma named_find : forall k m t, named_in m -> name_find k m = Some t -> within t.
  Proof.
    intros k m t H. induction H as [|[k' v] m Hx Hm IH]; cbn; [discriminate|]. destruct (ustr_eq_dec k k'); [|auto].
    intros E. assert (v = t) by congruence. now subst.
  Qed.
  Lemma named_get : forall k m, named_in m -> within (name_get k new_transducer m).
  Proof. intros k m H. unfold name_get. destruct (name_find k m) eqn:E; [|exact within_new]. exact (named_find _ _ _ H E). Qed.
  Lemma named_set : forall k t m, within t -> named_in m -> named_in (name_set k t m).
  Proof.
    intros k t m Ht H. induction H as [|[k' v] m Hx Hm IH]; cbn; [constructor; [exact Ht|constructor]|].
    destruct (ustr_eq_dec k k'); constructor; auto.
  Qed.
  Definition work_in (w : work) : Prop := named_in (w_pars w) /\ within (w_t w).
  Lemma insert_paradigm_in : forall n w w', work_in w -> insert_paradigm n w = Ok w' -> work_in w'.
  Proof.
    intros n w w' [A B]. unfold insert_paradigm. destruct (insertTransducer _ _ _ _) as [[[e t] u]| | | |] eqn:I; try discriminate.
    cbn [obind]. intros E. assert (X : mkW (w_alph w) (name_set n u (w_pars w)) t e = w') by congruence. subst.
    apply within_insert in I as [I1 I2]; [|now apply named_get|exact B]. split; [now apply named_set|exact I1].
  Qed.
  Lemma insert_regexp_in : forall er w w', work_in w -> insert_regexp er w = Ok w' -> work_in w'.
  Proof.
    intros er w w' [A B]. unfold insert_regexp. destruct (rx_compile _ _) as [[a r]| | | |] eqn:R; try discriminate. cbn [obind].
    destruct (insertTransducer _ _ _ _) as [[[e t] u]| | | |] eqn:I; try discriminate.
    cbn [obind]. intros E. assert (X : mkW a (w_pars w) t e = w') by congruence. subst.
    apply within_insert in I as [I1 I2]; [|exact (within_rx_compile _ _ _ _ R)|exact B]. split; [exact A|exact I1].
  Qed.
  Lemma loop_back_in : forall s tag q a t a' t', within t -> loop_back s tag q a t = Ok (a', t') -> within t'.
  Proof.
    intros s tag q a t a' t' H. unfold loop_back. destruct (sep s) as [[x y]|]; [|intros E; assert (t = t') by congruence; now subst].
    destruct (tag_is _ tag a) as [b a1]. destruct b; [intros E; assert (t = t') by congruence; now subst|].
    destruct (tag_is _ tag a1) as [b a2]. destruct b; [|intros E; assert (t = t') by congruence; now subst].
    destruct (linkStates q q tag 0 t) as [u| | | |] eqn:L; try discriminate. cbn [obind]. intros E.
    assert (u = t') by congruence. subst. exact (within_link _ _ _ _ _ _ P0 H L).
  Qed.
  Lemma link_acx_in : forall cs r p q w a t a' t', P w -> within t -> link_acx cs r p q w a t = Ok (a', t') -> within t'.
  Proof.
    induction cs as [|c cs IH]; intros r p q w a t a' t' Hw H; cbn [link_acx].
    - intros E; assert (t = t') by congruence; now subst.
    - destruct (pair_code _ _) as [tag a1]. destruct (linkStates p q tag w t) as [u| | | |] eqn:L; try discriminate. cbn [obind].
      apply IH; [exact Hw|]. exact (within_link _ _ _ _ _ _ Hw H L).
  Qed.
  Lemma match_rounds_in : forall s rs w a e t a' e' t', P w -> within t -> match_rounds s rs w a e t = Ok (a', e', t') -> within t'.
  Proof.
    intros s. induction rs as [|[ol r] rs IH]; intros w a e t a' e' t' Hw H; cbn [match_rounds].
    - intros E. assert (t = t') by congruence. now subst.
    - destruct (pair_code _ _) as [tag a1].
      assert (Pv : P (match rs with [] => w | _ => 0 end)) by (destruct rs; assumption).
      revert Pv. generalize (match rs with [] => w | _ => 0 end). intros v Pv.
      pose proof (within_single tag e v t Pv H) as X. destruct (insertSingleTransduction tag e v t) as [[q|] u]; [|discriminate]. cbn [snd] in X.
      destruct (loop_back s tag q a1 u) as [[a2 u2]| | | |] eqn:L; try discriminate. cbn [obind]. apply (loop_back_in _ _ _ _ _ _ _ X) in L.
      destruct (link_acx _ r e q v a2 u2) as [[a3 u3]| | | |] eqn:K; try discriminate. cbn [obind]. apply (link_acx_in _ _ _ _ _ _ _ _ _ Pv L) in K.
      now apply IH.
  Qed.
  Lemma insert_single_in : forall s pi pd x w w', P x -> work_in w -> insert_single s pi pd x w = Ok w' -> work_in w'.
  Proof.
    intros s pi pd x w w' Hx [A B]. unfold insert_single. destruct (matchTransduction _ _ _ _ _ _ _) as [[[a e] t]| | | |] eqn:M; try discriminate.
    cbn [obind]. intros E. assert (X : mkW a (w_pars w) t e = w') by congruence. subst. split; [exact A|]. cbn [w_t].
    unfold matchTransduction in M. destruct (if lr s then _ else _) as [ls rs].
    assert (G : match_rounds s (rounds ls rs) x (w_alph w) (w_e w) (w_t w) = Ok (a, e, t) -> within t) by (now apply match_rounds_in).
    destruct pi as [|x0 pi]; [|now apply G]. destruct pd as [|y0 pd]; [|now apply G].
    pose proof (within_new_single 0 (w_e w) 0 (w_t w) P0 B) as Y. destruct (insertNewSingleTransduction 0 (w_e w) 0 (w_t w)) as [st u]. cbn [snd] in Y.
    assert (u = t) by congruence. now subst.
  Qed.

  Definition token_in (x : entry_token) : Prop := match x with Single _ _ w => P w | _ => True end.
  Lemma paradigm_tokens_in : forall s els w w', Forall token_in els -> work_in w -> paradigm_tokens s els w = Ok w' -> work_in w'.
  Proof.
    intros s els w w' H. revert w. induction H as [|x els Hx Hl IH]; intros w Hw; cbn [paradigm_tokens].
    - intros E. assert (w = w') by congruence. now subst.
    - destruct x as [pi pd c|n|er].
      + destruct (insert_single s pi pd c w) as [v| | | |] eqn:I; try discriminate. cbn [obind]. apply IH. exact (insert_single_in _ _ _ _ _ _ Hx Hw I).
      + destruct (insert_paradigm n w) as [v| | | |] eqn:I; try discriminate. cbn [obind]. apply IH. exact (insert_paradigm_in _ _ _ Hw I).
      + destruct (insert_regexp er w) as [v| | | |] eqn:I; try discriminate. cbn [obind]. apply IH. exact (insert_regexp_in _ _ _ Hw I).
  Qed.
  Lemma section_tokens_in : forall s els b w c w' c', Forall token_in els -> work_in w ->
    section_tokens s b els w c = Ok (w', c') -> work_in w'.
  Proof.
    intros s els b w c w' c' H. revert b w c. induction H as [|x els Hx Hl IH]; intros b w c Hw; cbn [section_tokens].
    - intros E. assert (w = w') by congruence. now subst.
    - destruct x as [pi pd k|n|er].
      + destruct (insert_single s pi pd k w) as [v| | | |] eqn:I; try discriminate. cbn [obind]. apply IH. exact (insert_single_in _ _ _ _ _ _ Hx Hw I).
      + destruct els as [|y els].
        * destruct (name_find n (suffix c)) as [q|].
          -- destruct (linkStates _ _ _ _ _) as [t| | | |] eqn:L; try discriminate. cbn [obind]. intros E.
             apply (f_equal (fun o => match o with Ok (x, _) => x | _ => w' end)) in E. subst w'. split; [apply Hw|].
             exact (within_link _ _ _ _ _ _ P0 (proj2 Hw) L).
          -- pose proof (within_new_single 0 (w_e w) 0 (w_t w) P0 (proj2 Hw)) as Y.
             destruct (insertNewSingleTransduction 0 (w_e w) 0 (w_t w)) as [e t]. cbn [snd] in Y.
             destruct (insert_paradigm n _) as [v| | | |] eqn:I; try discriminate. cbn [obind]. intros E. assert (v = w') by congruence. subst.
             apply (insert_paradigm_in n _ _) in I; [exact I|]. split; [apply Hw|exact Y].
        * destruct b; [destruct (name_find n (prefix c)) as [q|]|].
          -- apply IH. exact Hw.
          -- destruct (insert_paradigm n w) as [v| | | |] eqn:I; try discriminate. cbn [obind]. apply IH. exact (insert_paradigm_in _ _ _ Hw I).
          -- destruct (insert_paradigm n w) as [v| | | |] eqn:I; try discriminate. cbn [obind]. apply IH. exact (insert_paradigm_in _ _ _ Hw I).
      + destruct (insert_regexp er w) as [v| | | |] eqn:I; try discriminate. cbn [obind]. apply IH. exact (insert_regexp_in _ _ _ Hw I).
  Qed.

  Definition event_in (e : event) : Prop := match e with Entry els => Forall token_in els | _ => True end.
  Definition comp_in (c : compiler) : Prop := named_in (c_pars c) /\ named_in (c_secs c).
  Lemma entry_in : forall s els c c', Forall token_in els -> comp_in c -> insertEntryTokens s els c = Ok c' -> comp_in c'.
  Proof.
    intros s els c c' H [A B]. unfold insertEntryTokens. destruct (current_paradigm c) as [|x n] eqn:C.
    - destruct (section_tokens _ _ _ _ _) as [[w k]| | | |] eqn:E; try discriminate. cbn [obind]. intros X.
      apply (f_equal (fun o => match o with Ok x => x | _ => c' end)) in X. subst c'.
      apply section_tokens_in in E as [E1 E2]; [|exact H|split; [exact A|now apply named_get]].
      split; [exact E1|]. apply named_set; [|exact B]. now apply within_final.
    - destruct (paradigm_tokens _ _ _) as [w| | | |] eqn:E; try discriminate. cbn [obind]. intros X.
      apply (f_equal (fun o => match o with Ok x => x | _ => c' end)) in X. subst c'.
      apply paradigm_tokens_in in E as [E1 E2]; [|exact H|split; [exact A|now apply named_get]].
      split; [|exact B]. apply named_set; [|exact E1]. now apply within_final.
  Qed.
  Lemma proc_in : forall s e c c', event_in e -> comp_in c -> proc s e c = Ok c' -> comp_in c'.
  Proof.
    intros s e c c' He H. destruct e as [n| |n| |els]; cbn [proc];
      try (intros X; apply (f_equal (fun o => match o with Ok x => x | _ => c' end)) in X; subst c'; exact H).
    - pose proof (named_get (current_paradigm c) _ (proj1 H)) as Ht. destruct (isEmpty _).
      + intros X; apply (f_equal (fun o => match o with Ok x => x | _ => c' end)) in X; subst c'.
        split; [|apply H]. apply named_set; [exact Ht|apply H].
      + destruct (minimize 0 _) as [t| | | |] eqn:M; try discriminate. cbn [obind]. apply (within_minimize _ _ _ Ht) in M.
        destruct (joinFinals 0 t) as [u| | | |] eqn:J; try discriminate. cbn [obind]. apply (within_join _ _ _ M) in J.
        intros X; apply (f_equal (fun o => match o with Ok x => x | _ => c' end)) in X; subst c'.
        split; [|apply H]. apply named_set; [exact J|apply H].
    - destruct (scan_entry c els) as [k| | | |]; try discriminate. cbn [obind]. destruct k.
      + now apply entry_in.
      + intros X; assert (c = c') by congruence; now subst.
  Qed.
  Lemma procs_in : forall s evs c c', Forall event_in evs -> comp_in c -> procs s evs c = Ok c' -> comp_in c'.
  Proof.
    intros s evs c c' H. revert c. induction H as [|e evs He Hl IH]; intros c Hc; cbn [procs].
    - intros E. assert (c = c') by congruence. now subst.
    - destruct (proc s e c) as [u| | | |] eqn:E; try discriminate. cbn [obind]. apply IH. exact (proc_in _ _ _ _ He Hc E).
  Qed.
  Lemma minimize_all_in : forall m m', named_in m -> minimize_all m = Ok m' -> named_in m'.
  Proof.
    intros m m' H. revert m'. induction H as [|[k t] m Hx Hm IH]; intros m'; cbn [minimize_all].
    - intros E. assert ([] = m') by congruence. subst. constructor.
    - destruct (minimize 0 t) as [u| | | |] eqn:M; try discriminate. cbn [obind].
      destruct (minimize_all m) as [v| | | |]; try discriminate. cbn [obind]. intros E. assert (X : (k, u) :: v = m') by congruence. subst.
      constructor; [exact (within_minimize _ _ _ Hx M)|]. now apply IH.
  Qed.
  Lemma compile_in : forall s a evs a' m, Forall event_in evs -> compile s a evs = Ok (a', m) -> named_in m.
  Proof.
    intros s a evs a' m H. unfold compile. destruct (procs s evs (new_compiler a)) as [c| | | |] eqn:E; try discriminate. cbn [obind].
    apply procs_in in E as [_ E]; [|exact H|split; constructor].
    destruct (minimize_all (c_secs c)) as [m'| | | |] eqn:M; try discriminate. cbn [obind]. intros X. assert (m' = m) by congruence. subst.
    exact (minimize_all_in _ _ E M).
  Qed.

  Hypothesis Padd : forall x y, P x -> P y -> P (x + y).
  Lemma within_wlang : forall t eps u c, within t -> wlang t eps u c -> P c.
  Proof.
    intros t eps u c [A B] (l & f & (q & Hp & Hf) & _ & <-). apply Padd.
    - clear Hf. induction Hp as [p|p a w q l r Ha Hp IH]; cbn; [exact P0|]. apply Padd; [|exact IH].
      pose proof (nth_in p (trans t) A) as N. unfold row_in in N. rewrite Forall_forall in N. apply (N _ Ha).
    - unfold fins_in in B. rewrite Forall_forall in B. apply (B _ Hf).
  Qed.
End Within.
