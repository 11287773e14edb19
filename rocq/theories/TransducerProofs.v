(** Basic facts about the automaton model. *)
From Verif Require Import Base SortedVectorModel SortedVectorProofs TransducerModel TransducerSpec.

(** ** upd *)
Lemma length_upd : forall {A} i f (l : list A), length (upd i f l) = length l.
Proof.
  intros A i f l. revert i. induction l as [|x l IH]; intros [|i]; cbn; auto.
Qed.

Lemma nth_upd_eq : forall {A} i f (l : list A) d, (i < length l)%nat ->
  nth i (upd i f l) d = f (nth i l d).
Proof.
  intros A i f l d. revert i. induction l as [|x l IH]; intros [|i] H; cbn in *; auto; try lia.
  apply IH. lia.
Qed.

Lemma nth_upd_neq : forall {A} i j f (l : list A) d, i <> j -> nth i (upd j f l) d = nth i l d.
Proof.
  intros A i j f l d. revert i j. induction l as [|x l IH]; intros [|i] [|j] H; cbn; auto; try lia.
Qed.

Lemma nth_upd : forall {A} i j f (l : list A) d, (j < length l)%nat ->
  nth i (upd j f l) d = if (i =? j)%nat then f (nth i l d) else nth i l d.
Proof.
  intros A i j f l d H. destruct (Nat.eqb_spec i j) as [->|E].
  - now apply nth_upd_eq.
  - now apply nth_upd_neq.
Qed.

Lemma upd_out : forall {A} i f (l : list A), (length l <= i)%nat -> upd i f l = l.
Proof.
  intros A i f l. revert i. induction l as [|x l IH]; intros [|i] H; cbn in *; auto; try lia.
  f_equal. apply IH. lia.
Qed.

(** ** Multimaps *)
Lemma mm_insert_in : forall a l b, In b (mm_insert a l) <-> b = a \/ In b l.
Proof.
  induction l as [|c l IH]; intros b; cbn [mm_insert]; [cbn; intuition|].
  destruct (a_tag a <? a_tag c); cbn [In]; [intuition|]. rewrite IH. intuition.
Qed.

Lemma mm_insert_sorted : forall a l, arcs_sorted l -> arcs_sorted (mm_insert a l).
Proof.
  unfold arcs_sorted. induction l as [|c l IH]; intros H; cbn [mm_insert]; [repeat constructor|].
  inversion H as [|? ? Sl Fl]; subst. destruct (a_tag a <? a_tag c) eqn:E.
  - constructor; [exact H|]. constructor; [lia|]. revert Fl. apply Forall_impl. intros b Hb. lia.
  - constructor; [now apply IH|]. rewrite Forall_forall in Fl |- *. intros b Hb.
    apply mm_insert_in in Hb as [->|Hb]; [lia|]. now apply Fl.
Qed.

Lemma mm_insert_length : forall a l, length (mm_insert a l) = S (length l).
Proof.
  induction l as [|c l IH]; cbn [mm_insert]; [reflexivity|].
  destruct (a_tag a <? a_tag c); cbn; [reflexivity|now rewrite IH].
Qed.

Lemma mm_inserts_in : forall l acc b,
  In b (fold_left (fun acc b => mm_insert b acc) l acc) <-> In b acc \/ In b l.
Proof.
  induction l as [|a l IH]; intros acc b; cbn [fold_left In]; [tauto|].
  rewrite IH, mm_insert_in. intuition.
Qed.

Lemma mm_inserts_sorted : forall l acc, arcs_sorted acc ->
  arcs_sorted (fold_left (fun acc b => mm_insert b acc) l acc).
Proof.
  induction l as [|a l IH]; intros acc H; cbn [fold_left]; [exact H|].
  apply IH. now apply mm_insert_sorted.
Qed.

Lemma equal_range_in : forall tag l a, In a (equal_range tag l) <-> In a l /\ a_tag a = tag.
Proof. intros tag l a. unfold equal_range. rewrite filter_In. rewrite Z.eqb_eq. tauto. Qed.

(** ** Finals *)
Lemma fin_insert_in : forall s w l p f, finals_sorted l ->
  (In (p, f) (fin_insert s w l) <->
   In (p, f) l \/ (p = s /\ f = w /\ forall f', ~ In (s, f') l)).
Proof.
  unfold finals_sorted. induction l as [|[s' w'] l IH]; intros p f H; cbn [fin_insert].
  - cbn. intuition congruence.
  - inversion H as [|? ? Sl Fl]; subst. rewrite Forall_forall in Fl. destruct (s <? s')%nat eqn:E.
    + cbn [In]. split.
      * intros [Heq|Hin]; [|tauto]. injection Heq as -> ->. right. split; [auto|]. split; [auto|].
        intros f' [Heq|Hin]; [injection Heq; lia|]. apply Fl in Hin. cbn in Hin. lia.
      * intros [Hin|(-> & -> & _)]; auto.
    + destruct (s =? s')%nat eqn:E2.
      * apply Nat.eqb_eq in E2 as ->. split; [auto|]. intros [Hin|(-> & -> & Hn)]; [auto|].
        exfalso. apply (Hn w'). now left.
      * cbn [In]. rewrite IH by exact Sl. split.
        -- intros [Heq|[Hin|(-> & -> & Hn)]]; auto. right. split; [auto|]. split; [auto|].
           intros f' [Heq|Hin]; [injection Heq; lia|]. now apply (Hn f').
        -- intros [[Heq|Hin]|(-> & -> & Hn)]; auto. right. right. split; [auto|]. split; [auto|].
           intros f' Hin. apply (Hn f'). now right.
Qed.

Lemma fin_insert_fst : forall s w l p f, In (p, f) (fin_insert s w l) -> p = s \/ In (p, f) l.
Proof.
  induction l as [|[s' w'] l IH]; intros p f H; cbn [fin_insert] in H.
  - destruct H as [H|[]]. injection H as -> ->. auto.
  - destruct (s <? s')%nat; [|destruct (s =? s')%nat].
    + destruct H as [H|H]; [injection H as -> ->; auto|auto].
    + auto.
    + destruct H as [H|H]; [right; left; exact H|]. apply IH in H as [->|H]; auto. right. now right.
Qed.

Lemma fin_insert_sorted : forall s w l, finals_sorted l -> finals_sorted (fin_insert s w l).
Proof.
  unfold finals_sorted. induction l as [|[s' w'] l IH]; intros H; cbn [fin_insert].
  - repeat constructor.
  - inversion H as [|? ? Sl Fl]; subst. destruct (s <? s')%nat eqn:E.
    + constructor; [exact H|]. constructor; [cbn; lia|]. revert Fl. apply Forall_impl.
      intros b Hb. cbn [fst] in Hb |- *. lia.
    + destruct (s =? s')%nat eqn:E2; [exact H|]. constructor; [now apply IH|].
      rewrite Forall_forall in Fl |- *. intros [p f] Hb. cbn.
      apply fin_insert_fst in Hb as [->|Hb]; [lia|]. now apply Fl in Hb.
Qed.

Lemma fin_find_some : forall s l w, finals_sorted l -> (fin_find s l = Some w <-> In (s, w) l).
Proof.
  unfold finals_sorted. induction l as [|[s' w'] l IH]; intros w H; cbn [fin_find].
  - cbn. split; [discriminate|tauto].
  - inversion H as [|? ? Sl Fl]; subst. rewrite Forall_forall in Fl. cbn [In].
    destruct (Nat.eqb_spec s s') as [->|E].
    + split; [intros [= ->]; auto|]. intros [[= ->]|Hin]; [auto|]. apply Fl in Hin. cbn in Hin. lia.
    + rewrite IH by exact Sl. intuition congruence.
Qed.

Lemma fin_find_none : forall s l, fin_find s l = None <-> forall w, ~ In (s, w) l.
Proof.
  induction l as [|[s' w'] l IH]; cbn [fin_find].
  - cbn. tauto.
  - cbn [In]. destruct (Nat.eqb_spec s s') as [->|E].
    + split; [discriminate|]. intros H. exfalso. apply (H w'). auto.
    + rewrite IH. split; intros H w; [intros [[= ->]|Hin]; [congruence|now apply (H w)]|].
      intros Hin. apply (H w). auto.
Qed.

Lemma finals_unique : forall l p f g, finals_sorted l -> In (p, f) l -> In (p, g) l -> f = g.
Proof.
  intros l p f g H Hf Hg. apply (fin_find_some p l f H) in Hf. apply (fin_find_some p l g H) in Hg.
  congruence.
Qed.

(** ** Paths and labels *)
Lemma path_app : forall t p l q m r, path t p l q -> path t q m r -> path t p (l ++ m) r.
Proof. induction 1; intros; cbn; [assumption|]. econstructor; eauto. Qed.

Lemma path_snoc : forall t p l q a w r, path t p l q -> has_arc t q a r w ->
  path t p (l ++ [(a, w)]) r.
Proof. intros. eapply path_app; [eassumption|]. econstructor; [eassumption|constructor]. Qed.

Lemma path_app_inv : forall t l p m r, path t p (l ++ m) r ->
  exists q, path t p l q /\ path t q m r.
Proof.
  induction l as [|[a w] l IH]; intros p m r H; cbn in H.
  - exists p. split; [constructor|exact H].
  - inversion H as [|? ? ? q ? ? Ha Hp]; subst. apply IH in Hp as (q' & H1 & H2).
    exists q'. split; [econstructor; eauto|exact H2].
Qed.

Lemma visible_app : forall eps l m, visible eps (l ++ m) = visible eps l ++ visible eps m.
Proof. intros. apply filter_app. Qed.
Lemma word_app : forall eps l m, word_of eps (l ++ m) = word_of eps l ++ word_of eps m.
Proof. intros. unfold word_of. now rewrite filter_app, map_app. Qed.
Lemma cost_app : forall l m, cost_of (l ++ m) = cost_of l + cost_of m.
Proof.
  induction l as [|x l IH]; intros m; cbn [cost_of fold_right app]; [reflexivity|].
  fold (cost_of (l ++ m)) (cost_of l). rewrite IH. lia.
Qed.

Lemma word_visible : forall eps l, word_of eps (visible eps l) = word_of eps l.
Proof.
  intros eps. induction l as [|[a w] l IH]; [reflexivity|].
  cbn [visible filter]. fold (visible eps l). unfold silent. cbn [fst snd].
  destruct (Z.eqb_spec a eps) as [->|E]; cbn [andb negb].
  - destruct (w =? 0); cbn [negb]; unfold word_of in *; cbn [filter fst];
      rewrite Z.eqb_refl; cbn [negb]; exact IH.
  - unfold word_of in *. cbn [filter fst]. apply Z.eqb_neq in E. rewrite E. cbn [negb map]. now rewrite IH.
Qed.

Lemma cost_visible : forall eps l, cost_of (visible eps l) = cost_of l.
Proof.
  intros eps. induction l as [|[a w] l IH]; [reflexivity|].
  cbn [visible filter]. fold (visible eps l). unfold silent. cbn [fst snd].
  destruct (Z.eqb_spec a eps) as [->|E]; cbn [andb negb].
  - destruct (Z.eqb_spec w 0) as [->|]; cbn [negb]; cbn [cost_of fold_right snd];
      fold (cost_of (visible eps l)) (cost_of l); lia.
  - cbn [cost_of fold_right snd]. fold (cost_of (visible eps l)) (cost_of l); lia.
Qed.

(** Equal label languages give equal weighted languages when finals are unweighted. *)
Lemma label_wlang : forall t eps w c, finals_default t ->
  (wlang t eps w c <-> exists l, label_lang t eps l /\ word_of eps l = w /\ cost_of l = c).
Proof.
  intros t eps w c H. split.
  - intros (l & f & Hl & <- & <-). exists (visible eps l). split; [exists l, f; auto|].
    rewrite word_visible, cost_visible. split; [auto|]. destruct Hl as (q & _ & Hf).
    apply H in Hf. lia.
  - intros (l & (l' & f & Hl & <-) & <- & <-). exists l', f. split; [exact Hl|].
    rewrite word_visible, cost_visible. split; [auto|]. destruct Hl as (q & _ & Hf).
    apply H in Hf. lia.
Qed.

(** ** Arcs of updated transducers *)
Lemma has_arc_lt : forall t p a q w, has_arc t p a q w -> (p < nstates t)%nat.
Proof.
  intros t p a q w H. unfold has_arc, arcs_of in H. unfold nstates.
  destruct (Nat.lt_ge_cases p (length (trans t))) as [L|L]; [exact L|].
  rewrite nth_overflow in H by lia. destruct H.
Qed.

Lemma nstates_add_arc : forall s a t, nstates (add_arc s a t) = nstates t.
Proof. intros. unfold nstates, add_arc. cbn. apply length_upd. Qed.

Lemma has_arc_add : forall s b t p a q w, (s < nstates t)%nat ->
  (has_arc (add_arc s b t) p a q w <-> has_arc t p a q w \/ (p = s /\ b = (a, (q, w)))).
Proof.
  intros s b t p a q w H. unfold has_arc, arcs_of, add_arc. cbn [trans].
  rewrite nth_upd by exact H. destruct (Nat.eqb_spec p s) as [->|E].
  - rewrite mm_insert_in. intuition congruence.
  - tauto.
Qed.

Lemma arcs_sorted_add : forall s b t, (forall p, arcs_sorted (arcs_of t p)) ->
  forall p, arcs_sorted (arcs_of (add_arc s b t) p).
Proof.
  intros s b t H p. unfold arcs_of, add_arc. cbn [trans].
  destruct (Nat.lt_ge_cases s (length (trans t))) as [L|L].
  - rewrite nth_upd by exact L. destruct (p =? s)%nat; [apply mm_insert_sorted|]; apply H.
  - rewrite upd_out by exact L. apply H.
Qed.

Lemma newState_spec : forall t, fst (newState t) = nstates t
  /\ nstates (snd (newState t)) = S (nstates t)
  /\ initial (snd (newState t)) = initial t /\ finals (snd (newState t)) = finals t
  /\ forall p, arcs_of (snd (newState t)) p = arcs_of t p.
Proof.
  intros t. unfold newState. cbn [fst snd initial finals]. split; [reflexivity|]. split.
  - unfold nstates. cbn. rewrite app_length. cbn. lia.
  - split; [reflexivity|]. split; [reflexivity|]. intros p. unfold arcs_of. cbn [trans].
    destruct (Nat.lt_ge_cases p (length (trans t))) as [L|L].
    + now rewrite app_nth1.
    + rewrite app_nth2 by lia. rewrite (nth_overflow (trans t)) by lia.
      destruct (p - length (trans t))%nat as [|[|]]; reflexivity.
Qed.

Lemma add_arc_wf : forall s a q w t, wf t -> (s < nstates t)%nat -> (q < nstates t)%nat ->
  wf (add_arc s (a, (q, w)) t).
Proof.
  intros s a q w t W Hs Hq. destruct W. constructor; rewrite ?nstates_add_arc; cbn [add_arc initial finals]; auto.
  - intros p a' q' w' H. apply has_arc_add in H as [H|[_ [= <- <- <-]]]; eauto.
  - now apply arcs_sorted_add.
Qed.

Lemma newState_wf : forall t, wf t -> wf (snd (newState t)).
Proof.
  intros t W. destruct (newState_spec t) as (H1 & H2 & H3 & H4 & H5).
  destruct W as [W1 W2 W3 W4 W5]. constructor; rewrite ?H2, ?H3, ?H4; auto.
  - intros p f H. unfold final_wt in H. rewrite H4 in H. apply W2 in H. lia.
  - intros p a q w H. unfold has_arc in H. rewrite H5 in H. apply W4 in H. lia.
  - intros p. rewrite H5. apply W5.
Qed.

Lemma new_transducer_wf : wf new_transducer.
Proof.
  constructor; [cbn; lia| | | |].
  - intros p f [].
  - constructor.
  - intros p a q w H. unfold has_arc, arcs_of in H. cbn in H. destruct p as [|[|]]; destruct H.
  - intros p. unfold arcs_of. cbn. destruct p as [|[|]]; constructor.
Qed.

(** ** linkStates *)
Lemma linkStates_spec : forall s q tag w t, wf t -> (s < nstates t)%nat -> (q < nstates t)%nat ->
  exists t', linkStates s q tag w t = Ok t' /\ wf t' /\ nstates t' = nstates t
    /\ initial t' = initial t /\ finals t' = finals t
    /\ ((t' = t /\ exists w', has_arc t s tag q w')
        \/ ((forall w', ~ has_arc t s tag q w') /\
            forall p a r v, has_arc t' p a r v <->
              has_arc t p a r v \/ (p = s /\ a = tag /\ r = q /\ v = w))).
Proof.
  intros s q tag w t W Hs Hq. unfold linkStates.
  assert (E : ((s <? nstates t) && (q <? nstates t))%nat = true)
    by (apply andb_true_intro; split; apply Nat.ltb_lt; assumption).
  rewrite E. destruct (existsb _ _) eqn:Ex.
  - exists t. repeat (split; [first [reflexivity|assumption]|]). left. split; [reflexivity|].
    apply existsb_exists in Ex as ([a [r v]] & Hin & Hb). apply equal_range_in in Hin as [Hin Ht].
    apply andb_prop in Hb as [_ Hb]. apply Nat.eqb_eq in Hb. cbn in Ht, Hb. subst.
    exists v. exact Hin.
  - eexists. split; [reflexivity|]. split; [now apply add_arc_wf|].
    split; [apply nstates_add_arc|]. split; [reflexivity|]. split; [reflexivity|]. right. split.
    + intros w' H. assert (X : existsb (fun a => (a_tag a =? tag) && (a_dst a =? q)%nat)
        (equal_range tag (arcs_of t s)) = true); [|congruence].
      apply existsb_exists. exists (tag, (q, w')). split.
      * apply equal_range_in. split; [exact H|reflexivity].
      * cbn. now rewrite Z.eqb_refl, Nat.eqb_refl.
    + intros p a r v. rewrite has_arc_add by exact Hs. intuition congruence.
Qed.

(** When nothing links the two states yet, the link is added. *)
Lemma linkStates_new : forall s q tag w t, wf t -> (s < nstates t)%nat -> (q < nstates t)%nat ->
  (forall w', ~ has_arc t s tag q w') ->
  exists t', linkStates s q tag w t = Ok t' /\ wf t' /\ nstates t' = nstates t
    /\ initial t' = initial t /\ finals t' = finals t
    /\ forall p a r v, has_arc t' p a r v <->
              has_arc t p a r v \/ (p = s /\ a = tag /\ r = q /\ v = w).
Proof.
  intros s q tag w t W Hs Hq Hn.
  destruct (linkStates_spec s q tag w t W Hs Hq) as (t' & H1 & H2 & H3 & H4 & H5 & [[_ [w' H]]|[_ H]]).
  - now apply Hn in H.
  - exists t'. auto 10.
Qed.

(** ** The loop combinator *)
Section IterProofs.
  Context {S R : Type} (step : S -> S + R) (inv : S -> Prop) (m : S -> nat).
  Hypothesis step_inv : forall s s', inv s -> step s = inl s' -> inv s' /\ (m s' < m s)%nat.

  Lemma iter2_inl : forall n s s', inv s -> iter2 step n s = inl s' ->
    inv s' /\ (m s' + 2 ^ n <= m s)%nat.
  Proof.
    induction n as [|n IH]; intros s s' Hi H; cbn [iter2] in H.
    - apply step_inv in H as [H1 H2]; [|exact Hi]. split; [exact H1|]. cbn. lia.
    - destruct (iter2 step n s) as [s1|] eqn:E; [|discriminate].
      apply IH in E as [H1 H2]; [|exact Hi]. apply IH in H as [H3 H4]; [|exact H1].
      split; [exact H3|]. cbn [Nat.pow]. lia.
  Qed.

  (** The loop ends within the fuel, in a result that the last step produced from a
      state satisfying the invariant. *)
  Lemma iter2_inr : forall n s, inv s -> (m s < 2 ^ n)%nat ->
    exists r s', iter2 step n s = inr r /\ inv s' /\ step s' = inr r.
  Proof.
    assert (X : forall n s r, inv s -> iter2 step n s = inr r -> exists s', inv s' /\ step s' = inr r).
    { induction n as [|n IH]; intros s r Hi H; cbn [iter2] in H; [eauto|].
      destruct (iter2 step n s) as [s1|] eqn:E.
      - apply iter2_inl in E as [H1 _]; [|exact Hi]. eauto.
      - injection H as ->. eauto. }
    intros n s Hi Hm. destruct (iter2 step n s) as [s'|r] eqn:E.
    - apply iter2_inl in E as [_ H]; [|exact Hi]. lia.
    - destruct (X _ _ _ Hi E) as (s' & H1 & H2). exists r, s'. auto.
  Qed.
End IterProofs.
