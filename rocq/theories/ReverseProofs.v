(** joinFinals and reverse. *)
From Verif Require Import Base SortedVectorModel SortedVectorProofs TransducerModel
  TransducerSpec TransducerProofs NatSets DeterminizeProofs.

(** ** joinFinals *)
Lemma link_finals_spec : forall l state eps t, wf t -> (state < nstates t)%nat ->
  (forall p f, In (p, f) l -> (p < nstates t)%nat) -> finals_sorted l ->
  (forall p f w, In (p, f) l -> ~ has_arc t p eps state w) ->
  exists t', link_finals l state eps t = Ok t' /\ wf t' /\ nstates t' = nstates t
    /\ initial t' = initial t /\ finals t' = finals t
    /\ forall p a q w, has_arc t' p a q w <->
         has_arc t p a q w \/ (a = eps /\ q = state /\ In (p, w) l).
Proof.
  induction l as [|[s f] l IH]; intros state eps t W Hst Hb Hs Hn; cbn [link_finals].
  - exists t. split; [reflexivity|]. do 4 (split; [auto|]). intros. cbn [In]. tauto.
  - inversion Hs as [|? ? Sl Fl]; subst. rewrite Forall_forall in Fl.
    destruct (linkStates_new s state eps f t) as (t1 & H1 & H2 & H3 & H4 & H5 & H6); auto.
    { apply (Hb s f). now left. }
    { intros w'. apply (Hn s f). now left. }
    rewrite H1. cbn [obind].
    destruct (IH state eps t1) as (t2 & K1 & K2 & K3 & K4 & K5 & K6); auto.
    { lia. }
    { intros p g Hp. rewrite H3. apply (Hb p g). now right. }
    { intros p g w Hp Ha. apply H6 in Ha as [Ha|(-> & _ & _ & _)].
      - apply (Hn p g w); [now right|exact Ha].
      - apply Fl in Hp. cbn in Hp. lia. }
    exists t2. split; [exact K1|]. split; [exact K2|]. split; [lia|]. split; [congruence|]. split; [congruence|].
    intros p a q w. rewrite K6, H6. cbn [In]. intuition congruence.
Qed.

(** The two cases of joinFinals. *)
Inductive joined (eps : Z) (t : transducer) : transducer -> Prop :=
| joined_one p f : finals t = [(p, f)] -> joined eps t t
| joined_many j : (2 <= length (finals t))%nat -> wf j -> nstates j = S (nstates t) ->
    initial j = initial t -> finals j = [(nstates t, 0)] ->
    (forall p a q w, has_arc j p a q w <->
       has_arc t p a q w \/ (a = eps /\ q = nstates t /\ final_wt t p w)) ->
    joined eps t j.

Lemma joinFinals_spec : forall eps t, wf t -> finals t <> [] ->
  exists j, joinFinals eps t = Ok j /\ wf j /\ joined eps t j.
Proof.
  intros eps t W Hne. unfold joinFinals. destruct (finals t) as [|x [|y l]] eqn:E; [contradiction| |].
  - exists t. split; [reflexivity|]. split; [exact W|]. destruct x as [p f]. now apply (joined_one _ _ p f).
  - rewrite <- E in *. destruct (newState t) as [state t1] eqn:En.
    destruct (newState_spec t) as (S1 & S2 & S3 & S4 & S5). assert (W1 := newState_wf t W).
    rewrite En in *. cbn [fst snd] in *. subst state.
    destruct (link_finals_spec (finals t) (nstates t) eps t1) as (j & H1 & H2 & H3 & H4 & H5 & H6).
    + exact W1.
    + lia.
    + intros p f Hp. rewrite S2. apply (wf_finals t W) in Hp. lia.
    + apply (wf_finals_sorted t W).
    + intros p f w Hp Ha. unfold has_arc in Ha. rewrite S5 in Ha. apply (wf_arcs t W) in Ha. lia.
    + rewrite H1. cbn [obind]. eexists. split; [reflexivity|].
      assert (Wj : wf (mkT (initial j) [(nstates t, 0)] (trans j))).
      { destruct H2 as [J1 J2 J3 J4 J5]. constructor; auto.
        - intros p f [[= <- <-]|[]]. change (nstates t < nstates j)%nat. lia.
        - repeat constructor. }
      split; [exact Wj|]. apply joined_many.
      * rewrite E. cbn. lia.
      * exact Wj.
      * change (nstates j = S (nstates t)). lia.
      * cbn. congruence.
      * reflexivity.
      * intros p a q w. change (has_arc j p a q w <->
          has_arc t p a q w \/ (a = eps /\ q = nstates t /\ final_wt t p w)).
        rewrite H6. unfold has_arc at 1. rewrite S5. reflexivity.
Qed.

(** One final state after joining. *)
Lemma joined_single : forall eps t j, joined eps t j -> exists f, finals j = [f].
Proof. intros eps t j [p f H|j' _ _ _ _ H _]; [exists (p, f); exact H|]. eexists. exact H. Qed.

Lemma joined_initial : forall eps t j, joined eps t j -> initial j = initial t.
Proof. intros eps t j [p f H|j' _ _ _ H _ _]; auto. Qed.

(** Paths of a joined transducer (several finals). *)
Section JoinedMany.
  Context (eps : Z) (t j : transducer).
  Hypothesis W : wf t.
  Hypothesis Harc : forall p a q w, has_arc j p a q w <->
       has_arc t p a q w \/ (a = eps /\ q = nstates t /\ final_wt t p w).

  Lemma join_dead : forall a q w, ~ has_arc j (nstates t) a q w.
  Proof.
    intros a q w H. apply Harc in H as [H|(_ & _ & H)].
    - apply has_arc_lt in H. lia.
    - apply (wf_finals t W) in H. lia.
  Qed.

  Lemma join_path_old : forall p l q, path t p l q -> path j p l q.
  Proof. intros p l q H. induction H; [constructor|]. econstructor; [|eassumption]. apply Harc. now left. Qed.

  Lemma join_path_inv : forall p l q, path j p l q -> (p < nstates t)%nat ->
    (path t p l q /\ (q < nstates t)%nat)
    \/ (q = nstates t /\ exists l' f, l = l' ++ [(eps, f)] /\ accepts_from t p l' f).
  Proof.
    intros p l q H. induction H as [p|p a w q l r Ha Hp IH]; intros Hlt.
    - left. split; [constructor|exact Hlt].
    - apply Harc in Ha as [Ha|(-> & -> & Hf)].
      + destruct (IH (wf_arcs t W _ _ _ _ Ha)) as [[H1 H2]|(-> & l' & f & -> & r' & H1 & H2)].
        * left. split; [econstructor; eauto|exact H2].
        * right. split; [reflexivity|]. exists ((a, w) :: l'), f. split; [reflexivity|].
          exists r'. split; [econstructor; eauto|exact H2].
      + right. inversion Hp as [|? b v q' ? ? Hb Hp']; subst.
        * split; [reflexivity|]. exists [], w. split; [reflexivity|]. exists p. split; [constructor|exact Hf].
        * now apply join_dead in Hb.
  Qed.

  Lemma join_path_end : forall p l f, accepts_from t p l f -> path j p (l ++ [(eps, f)]) (nstates t).
  Proof.
    intros p l f (q & Hp & Hf). eapply path_snoc; [apply join_path_old; exact Hp|]. apply Harc. auto.
  Qed.
End JoinedMany.

(** Joining does not change the weighted language. *)
Lemma joined_wlang : forall eps t j w c, wf t -> joined eps t j ->
  (wlang j eps w c <-> wlang t eps w c).
Proof.
  intros eps t j w c W [p f H|j' _ Wj Hn Hi Hf Harc]; [reflexivity|]. unfold wlang. rewrite Hi. split.
  - intros (l & f & (q & Hp & Hq) & <- & <-). unfold final_wt in Hq. rewrite Hf in Hq.
    destruct Hq as [[= <- <-]|[]].
    apply (join_path_inv eps t j' W Harc) in Hp as [[_ H]|(_ & l' & f & -> & Ha)]; [lia| |apply (wf_initial t W)].
    exists l', f. split; [exact Ha|]. rewrite word_app, cost_app. split.
    + unfold word_of at 3. cbn [filter fst]. rewrite Z.eqb_refl. cbn. now rewrite app_nil_r.
    + cbn [cost_of fold_right snd]. lia.
  - intros (l & f & Ha & <- & <-). exists (l ++ [(eps, f)]), 0. split.
    + exists (nstates t). split; [apply (join_path_end eps t j' Harc); exact Ha|]. unfold final_wt. rewrite Hf. now left.
    + rewrite word_app, cost_app. split.
      * unfold word_of at 2. cbn [filter fst]. rewrite Z.eqb_refl. cbn. now rewrite app_nil_r.
      * cbn [cost_of fold_right snd]. lia.
Qed.

Lemma visible_silent : forall eps, visible eps [(eps, 0)] = [].
Proof. intros eps. cbn. unfold silent. cbn. rewrite Z.eqb_refl. reflexivity. Qed.

(** With unweighted finals, nor the label language. *)
Lemma joined_label : forall eps t j l, wf t -> finals_default t -> joined eps t j ->
  (label_lang j eps l <-> label_lang t eps l).
Proof.
  intros eps t j l W D [p f H|j' _ Wj Hn Hi Hf Harc]; [reflexivity|]. unfold label_lang. rewrite Hi. split.
  - intros (l1 & f & (q & Hp & Hq) & <-). unfold final_wt in Hq. rewrite Hf in Hq.
    destruct Hq as [[= <- <-]|[]].
    apply (join_path_inv eps t j' W Harc) in Hp as [[_ H]|(_ & l' & f & -> & Ha)]; [lia| |apply (wf_initial t W)].
    exists l', f. split; [exact Ha|]. destruct Ha as (q & _ & Hf'). apply D in Hf' as ->.
    now rewrite visible_app, visible_silent, app_nil_r.
  - intros (l1 & f & Ha & <-). exists (l1 ++ [(eps, f)]), 0. split.
    + exists (nstates t). split; [apply (join_path_end eps t j' Harc); exact Ha|]. unfold final_wt. rewrite Hf. now left.
    + destruct Ha as (q & _ & Hf'). apply D in Hf' as ->.
      now rewrite visible_app, visible_silent, app_nil_r.
Qed.

(** ** The loop of reverse *)
Section Rev.
  Context (t : transducer).
  Hypothesis W : wf t.
  Let n := nstates t.

  Record rev_inv (k : nat) (tr tmp : list (list arc)) : Prop := {
    ri_tr : length tr = n;
    ri_tmp : length tmp = n;
    ri_done : forall q a p w, (k <= q)%nat ->
      (In (a, (p, w)) (nth q tr []) <-> (k <= p)%nat /\ has_arc t p a q w);
    ri_old : forall q, (q < k)%nat -> nth q tr [] = arcs_of t q;
    ri_wait : forall q a p w, (q < k)%nat ->
      (In (a, (p, w)) (nth q tmp []) <-> (k <= p)%nat /\ has_arc t p a q w);
    ri_sorted : forall q, arcs_sorted (nth q tr [])
  }.

  Lemma rev_arcs_spec : forall i arcs tr tmp, length tr = n -> length tmp = n -> (i < n)%nat ->
    (forall a, In a arcs -> (a_dst a < n)%nat) ->
    forall tr' tmp',
    fold_left (fun '(tr, tmp) a =>
        let b := (a_tag a, (i, a_wt a)) in
        if (i <=? a_dst a)%nat then (upd (a_dst a) (mm_insert b) tr, tmp)
        else (tr, upd (a_dst a) (mm_insert b) tmp)) arcs (tr, tmp) = (tr', tmp') ->
    length tr' = n /\ length tmp' = n
    /\ (forall q, (q < i)%nat -> nth q tr' [] = nth q tr [])
    /\ (forall q a p w, (i <= q)%nat -> (In (a, (p, w)) (nth q tr' []) <->
          In (a, (p, w)) (nth q tr []) \/ (p = i /\ In (a, (q, w)) arcs)))
    /\ (forall q a p w, (q < i)%nat -> (In (a, (p, w)) (nth q tmp' []) <->
          In (a, (p, w)) (nth q tmp []) \/ (p = i /\ In (a, (q, w)) arcs)))
    /\ (forall q, (i <= q)%nat -> nth q tmp' [] = nth q tmp [])
    /\ ((forall q, arcs_sorted (nth q tr [])) -> forall q, arcs_sorted (nth q tr' [])).
  Proof.
    intros i. induction arcs as [|[b [d v]] arcs IH]; intros tr tmp L1 L2 Hi Hb tr' tmp' H; cbn [fold_left] in H.
    - injection H as <- <-. do 3 (split; [auto; fail|]).
      split; [intros; cbn; tauto|]. split; [intros; cbn; tauto|]. auto.
    - cbn [a_tag a_dst a_wt fst snd] in H.
      assert (Hd : (d < n)%nat) by (apply (Hb (b, (d, v))); now left).
      assert (Hb' : forall a, In a arcs -> (a_dst a < n)%nat) by (intros; apply Hb; now right).
      destruct (i <=? d)%nat eqn:E.
      + apply Nat.leb_le in E. apply IH in H as (H1 & H2 & H3 & H4 & H5 & H6 & H7); auto; [|now rewrite length_upd].
        split; [exact H1|]. split; [exact H2|]. split; [|split; [|split; [|split]]].
        * intros q Hq. rewrite H3 by exact Hq. apply nth_upd_neq. lia.
        * intros q a p w Hq. rewrite H4 by exact Hq. rewrite nth_upd by lia. cbn [In].
          destruct (Nat.eqb_spec q d) as [->|Eq].
          -- rewrite mm_insert_in. intuition congruence.
          -- intuition congruence.
        * intros q a p w Hq. rewrite H5 by exact Hq. cbn [In]. split; [intuition|].
          intros [H|[-> [H|H]]]; [auto| |auto]. injection H; lia.
        * exact H6.
        * intros S q. apply H7. intros q'. rewrite nth_upd by lia.
          destruct (q' =? d)%nat; [apply mm_insert_sorted|]; auto.
      + apply Nat.leb_gt in E. apply IH in H as (H1 & H2 & H3 & H4 & H5 & H6 & H7); auto; [|now rewrite length_upd].
        split; [exact H1|]. split; [exact H2|]. split; [|split; [|split; [|split]]].
        * exact H3.
        * intros q a p w Hq. rewrite H4 by exact Hq. cbn [In]. split; [intuition|].
          intros [H|[-> [H|H]]]; [auto| |auto]. injection H; lia.
        * intros q a p w Hq. rewrite H5 by exact Hq. rewrite nth_upd by lia. cbn [In].
          destruct (Nat.eqb_spec q d) as [->|Eq].
          -- rewrite mm_insert_in. intuition congruence.
          -- intuition congruence.
        * intros q Hq. rewrite H6 by exact Hq. apply nth_upd_neq. lia.
        * exact H7.
  Qed.

  Lemma rev_visit_spec : forall i tr tmp, (i < n)%nat -> rev_inv (S i) tr tmp ->
    forall tr' tmp', rev_visit (tr, tmp) i = (tr', tmp') -> rev_inv i tr' tmp'.
  Proof.
    intros i tr tmp Hi [L1 L2 R1 R2 R3 R4] tr' tmp' H. unfold rev_visit in H.
    assert (Haux : nth i tr [] = arcs_of t i) by (apply R2; lia). rewrite Haux in H.
    destruct (fold_left _ (arcs_of t i) _) as [tr1 tmp1] eqn:E in H.
    apply rev_arcs_spec in E as (H1 & H2 & H3 & H4 & H5 & H6 & H7); auto;
      [|now rewrite length_upd|intros [a [q w]] Ha; exact (wf_arcs t W _ _ _ _ Ha)].
    injection H as <- <-.
    assert (S1 : forall q, arcs_sorted (nth q tr1 [])).
    { apply H7. intros q. rewrite nth_upd by lia. destruct (q =? i)%nat; [constructor|apply R4]. }
    constructor.
    - now rewrite length_upd.
    - now rewrite length_upd.
    - intros q a p w Hq. rewrite nth_upd by lia. destruct (Nat.eqb_spec q i) as [->|Eq].
      + rewrite mm_inserts_in, H4 by lia. rewrite H6 by lia. rewrite nth_upd, Nat.eqb_refl by lia.
        rewrite R3 by lia. cbn [In]. unfold has_arc. split.
        * intros [[[]|[-> Hin]]|[Hp Hin]]; (split; [lia|exact Hin]).
        * intros [Hp Hin]. destruct (Nat.eq_dec p i) as [->|Np]; [left; right; auto|right; split; [lia|exact Hin]].
      + rewrite H4 by lia. rewrite nth_upd_neq by lia. rewrite R1 by lia. unfold has_arc. split.
        * intros [[Hp Hin]|[-> Hin]]; (split; [lia|exact Hin]).
        * intros [Hp Hin]. destruct (Nat.eq_dec p i) as [->|Np]; [right; auto|left; split; [lia|exact Hin]].
    - intros q Hq. rewrite nth_upd_neq by lia. rewrite H3 by lia. rewrite nth_upd_neq by lia. apply R2. lia.
    - intros q a p w Hq. rewrite nth_upd_neq by lia. rewrite H5 by lia. rewrite R3 by lia. unfold has_arc. split.
      + intros [[Hp Hin]|[-> Hin]]; (split; [lia|exact Hin]).
      + intros [Hp Hin]. destruct (Nat.eq_dec p i) as [->|Np]; [right; auto|left; split; [lia|exact Hin]].
    - intros q. rewrite nth_upd by lia. destruct (q =? i)%nat; [apply mm_inserts_sorted|]; apply S1.
  Qed.

  Lemma rev_loop_spec : exists tr tmp, fold_left rev_visit (rev (seq 0 n)) (trans t, map (fun _ => []) (trans t)) = (tr, tmp)
    /\ rev_inv 0 tr tmp.
  Proof.
    assert (Start : rev_inv n (trans t) (map (fun _ => []) (trans t))).
    { constructor.
      - reflexivity.
      - now rewrite map_length.
      - intros q a p w Hq. rewrite nth_overflow by exact Hq. split; [intros []|]. intros [Hp Ha].
        apply has_arc_lt in Ha. unfold n in Hp. lia.
      - reflexivity.
      - intros q a p w Hq. split.
        + intros H. exfalso. assert (X : nth q (map (fun _ : list arc => @nil arc) (trans t)) [] = []).
          { destruct (nth_in_or_default q (map (fun _ : list arc => @nil arc) (trans t)) []) as [X|X]; [|exact X].
            apply in_map_iff in X as (? & X & _). now rewrite <- X. }
          rewrite X in H. destruct H.
        + intros [Hp Ha]. apply has_arc_lt in Ha. unfold n in Hp. lia.
      - apply (wf_sorted t W). }
    assert (Loop : forall k st, (k <= n)%nat -> rev_inv k (fst st) (snd st) ->
      rev_inv 0 (fst (fold_left rev_visit (rev (seq 0 k)) st)) (snd (fold_left rev_visit (rev (seq 0 k)) st))).
    { induction k as [|k IH]; intros [tr tmp] Hk I; cbn [fst snd] in *; [exact I|].
      rewrite seq_S, rev_app_distr. cbn [rev app fold_left plus].
      destruct (rev_visit (tr, tmp) k) as [tr1 tmp1] eqn:E. apply IH; [lia|]. cbn [fst snd].
      eapply rev_visit_spec; [|exact I|exact E]. lia. }
    destruct (fold_left rev_visit (rev (seq 0 n)) (trans t, map (fun _ => []) (trans t))) as [tr tmp] eqn:E.
    exists tr, tmp. split; [reflexivity|].
    specialize (Loop n (trans t, map (fun _ => []) (trans t)) (le_n n) Start). rewrite E in Loop. exact Loop.
  Qed.
End Rev.

(** What reverse builds from the joined transducer. *)
Record reversed (j r : transducer) : Prop := {
  re_wf : wf r;
  re_size : nstates r = nstates j;
  re_arcs : forall p a q w, has_arc r p a q w <-> has_arc j q a p w;
  re_final : finals r = [(initial j, 0)];
  re_initial : exists f, finals j = [(initial r, f)]
}.

Lemma reverse_spec : forall eps t, wf t -> finals t <> [] ->
  exists j r, reverse eps t = Ok r /\ wf j /\ joined eps t j /\ reversed j r.
Proof.
  intros eps t W Hne. unfold reverse.
  destruct (joinFinals_spec eps t W Hne) as (j & Hj & Wj & J). rewrite Hj. cbn [obind].
  destruct (joined_single _ _ _ J) as ([p f] & Hf).
  destruct (rev_loop_spec j Wj) as (tr & tmp & H & [L1 L2 R1 R2 R3 R4]).
  change (nstates j) with (nstates j) in H. rewrite H, Hf.
  exists j. eexists. split; [reflexivity|]. split; [exact Wj|]. split; [exact J|].
  assert (A : forall p' a q w, has_arc (mkT p [(initial j, 0)] tr) p' a q w <-> has_arc j q a p' w).
  { intros p' a q w. unfold has_arc at 1, arcs_of. cbn [trans]. rewrite R1 by lia. intuition lia. }
  assert (N : nstates (mkT p [(initial j, 0)] tr) = nstates j) by exact L1.
  constructor; auto.
  - constructor; rewrite ?N.
    + cbn. apply (wf_finals j Wj p f). unfold final_wt. rewrite Hf. now left.
    + intros q g [[= <- <-]|[]]. apply (wf_initial j Wj).
    + repeat constructor.
    + intros p' a q w Ha. apply A in Ha. now apply has_arc_lt in Ha.
    + exact R4.
  - exists f. exact Hf.
Qed.

Lemma reverse_exits : forall eps t, finals t = [] -> reverse eps t = Exit.
Proof. intros eps t H. unfold reverse, joinFinals. now rewrite H. Qed.

(** ** Paths of a reversed transducer *)
Lemma reversed_path : forall j r p l q, reversed j r -> (path r p l q <-> path j q (rev l) p).
Proof.
  intros j r p l q R. split.
  - intros H. induction H as [p|p a w q l s Ha Hp IH]; [constructor|]. cbn [rev].
    eapply path_snoc; [exact IH|]. now apply (re_arcs j r R).
  - rewrite <- (rev_involutive l) at 2. generalize (rev l) as m. clear l. intros m H.
    induction H as [p'|p' a w q' l s Ha Hp IH]; [constructor|]. cbn [rev].
    eapply path_snoc; [exact IH|]. now apply (re_arcs j r R).
Qed.

Lemma visible_rev : forall eps l, visible eps (rev l) = rev (visible eps l).
Proof.
  intros eps. induction l as [|x l IH]; [reflexivity|]. cbn [rev]. rewrite visible_app, IH.
  cbn [visible filter]. destruct (negb (silent eps x)); cbn; [reflexivity|now rewrite app_nil_r].
Qed.
Lemma word_rev : forall eps l, word_of eps (rev l) = rev (word_of eps l).
Proof.
  intros eps. induction l as [|x l IH]; [reflexivity|]. cbn [rev]. rewrite word_app, IH.
  unfold word_of. cbn [filter]. destruct (negb (fst x =? eps)); cbn; [reflexivity|now rewrite app_nil_r].
Qed.
Lemma cost_rev : forall l, cost_of (rev l) = cost_of l.
Proof.
  induction l as [|x l IH]; [reflexivity|]. cbn [rev]. rewrite cost_app, IH. cbn [cost_of fold_right].
  fold (cost_of l). lia.
Qed.

Lemma reversed_accepts : forall j r l, reversed j r ->
  (accepts_from r (initial r) l 0 <-> exists f, accepts_from j (initial j) (rev l) f).
Proof.
  intros j r l R. destruct (re_initial j r R) as (f & Hf). unfold accepts_from, final_wt.
  rewrite Hf, (re_final j r R). split.
  - intros (q & Hp & [[= <-]|[]]). exists f, (initial r). split; [now apply (reversed_path j r)|now left].
  - intros (g & q & Hp & [[= <- <-]|[]]). exists (initial j). split; [now apply (reversed_path j r)|now left].
Qed.

Lemma reversed_default : forall j r, reversed j r -> finals_default r.
Proof.
  intros j r R p f H. unfold final_wt in H. rewrite (re_final j r R) in H. destruct H as [[= <- <-]|[]]. reflexivity.
Qed.

Lemma reversed_label : forall j r eps l, reversed j r ->
  (label_lang r eps l <-> label_lang j eps (rev l)).
Proof.
  intros j r eps l R. unfold label_lang. split.
  - intros (l' & f & Ha & <-). assert (f = 0) as ->.
    { destruct Ha as (q & _ & Hf). now apply (reversed_default j r R) in Hf. }
    apply (reversed_accepts j r) in Ha as (f & Ha); [|exact R]. exists (rev l'), f. split; [exact Ha|].
    apply visible_rev.
  - intros (l' & f & Ha & H). exists (rev l'), 0. split.
    + apply (reversed_accepts j r); [exact R|]. exists f. now rewrite rev_involutive.
    + rewrite visible_rev, H. apply rev_involutive.
Qed.

(** The weighted language is mirrored, except that the weight of a lone final state is lost. *)
Lemma reversed_wlang : forall j r eps w c, reversed j r ->
  (wlang r eps w c <-> exists f, finals j = [(initial r, f)] /\ wlang j eps (rev w) (c + f)).
Proof.
  intros j r eps w c R. destruct (re_initial j r R) as (f & Hf). split.
  - intros (l & g & Ha & <- & <-). assert (g = 0) as ->.
    { destruct Ha as (q & _ & Hg). now apply (reversed_default j r R) in Hg. }
    exists f. split; [exact Hf|]. apply (reversed_accepts j r) in Ha as (f' & Ha); [|exact R].
    exists (rev l), f'. split; [exact Ha|]. rewrite word_rev, cost_rev. split; [reflexivity|].
    destruct Ha as (q & _ & Hq). unfold final_wt in Hq. rewrite Hf in Hq. destruct Hq as [[= _ <-]|[]]. lia.
  - intros (f' & Hf' & l & g & Ha & Hw & Hc). exists (rev l), 0. split.
    + apply (reversed_accepts j r); [exact R|]. exists g. now rewrite rev_involutive.
    + rewrite word_rev, cost_rev, Hw. split; [apply rev_involutive|].
      destruct Ha as (q & _ & Hq). unfold final_wt in Hq. rewrite Hf' in Hq. destruct Hq as [[= _ <-]|[]]. lia.
Qed.
