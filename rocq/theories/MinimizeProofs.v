(** Languages of determinised and minimised transducers; minimality. *)
From Verif Require Import Base SortedVectorModel SortedVectorProofs TransducerModel
  TransducerSpec TransducerProofs NatSets ClosureProofs DeterminizeProofs ReverseProofs.

(** ** The subset automaton has the same label language *)
Lemma eps_reach_path : forall t eps p q, eps_reach t eps p q ->
  exists l, path t p l q /\ visible eps l = [].
Proof.
  intros t eps p q H. induction H as [p|p q r Ha H (l & Hl & Hv)].
  - exists []. split; [constructor|reflexivity].
  - exists ((eps, 0) :: l). split; [econstructor; eauto|]. cbn. unfold silent. cbn.
    rewrite Z.eqb_refl. exact Hv.
Qed.

Lemma deterministic_visible : forall d eps p l q, deterministic d eps -> path d p l q ->
  visible eps l = l.
Proof.
  intros d eps p l q (D1 & _ & _) H. induction H as [p|p a w q l r Ha Hp IH]; [reflexivity|].
  cbn [visible filter]. rewrite (D1 _ _ _ _ Ha). cbn [negb]. fold (visible eps l). now rewrite IH.
Qed.

Lemma deterministic_path : forall d eps p l q q', deterministic d eps -> path d p l q -> path d p l q' -> q = q'.
Proof.
  intros d eps p l q q' (_ & D2 & _) H. revert q'. induction H as [p|p a w q l r Ha Hp IH]; intros q' H'.
  - now inversion H'.
  - inversion H' as [|? ? ? s ? ? Hb Hs]; subst. apply IH. now rewrite (D2 _ _ _ _ _ Ha Hb).
Qed.

Section Subset.
  Context (t : transducer) (eps : Z) (Q : list (list nat)) (d : transducer).
  Hypothesis SA : subset_automaton t eps Q d.

  Lemma subset_forward : forall p l q i, path t p l q -> In p (nth i Q []) ->
    exists j, path d i (visible eps l) j /\ In q (nth j Q []).
  Proof.
    intros p l q i H. revert i. induction H as [p|p a w q l r Ha Hp IH]; intros i Hi.
    - exists i. split; [constructor|exact Hi].
    - cbn [visible filter]. fold (visible eps l). destruct (silent eps (a, w)) eqn:S; cbn [negb].
      + apply IH. unfold silent in S. cbn in S. apply andb_prop in S as [S1 S2].
        apply Z.eqb_eq in S1, S2. subst a w.
        destruct (Nat.lt_ge_cases i (length Q)) as [L|L]; [|rewrite nth_overflow in Hi by exact L; destruct Hi].
        destruct (sa_sets _ _ _ _ SA (nth i Q [])) as (_ & _ & _ & C); [now apply nth_In|].
        apply (C p q Hi). econstructor; [exact Ha|constructor].
      + destruct (sa_complete _ _ _ _ SA i p a q w Hi Ha S) as (k & Hk).
        destruct (sa_arc _ _ _ _ SA i a k w Hk) as (_ & _ & M).
        assert (Hq : In q (nth k Q [])) by (apply M; exists p, q; repeat split; auto; constructor).
        apply IH in Hq as (j & Hj & Hr). exists j. split; [econstructor; eauto|exact Hr].
  Qed.

  Lemma subset_backward : forall i l j q, path d i l j -> In q (nth j Q []) ->
    exists p l', In p (nth i Q []) /\ path t p l' q /\ visible eps l' = l.
  Proof.
    intros i l j q H. induction H as [i|i a w k l j Ha Hp IH]; intros Hq.
    - exists q, []. repeat split; [exact Hq|constructor].
    - destruct (IH Hq) as (p' & l' & Hp' & Hl' & Hv). destruct (sa_arc _ _ _ _ SA i a k w Ha) as (_ & S & M).
      apply M in Hp' as (p & r & Hpi & Hr & He). apply eps_reach_path in He as (le & Hle & Hve).
      exists p, ((a, w) :: le ++ l'). split; [exact Hpi|]. split.
      + econstructor; [exact Hr|]. eapply path_app; eauto.
      + cbn [visible filter]. rewrite S. cbn [negb]. fold (visible eps (le ++ l')).
        now rewrite visible_app, Hve, Hv.
  Qed.

  (** What a state accepts is what the members of its set accept. *)
  Lemma subset_residual : forall i l, (i < length Q)%nat ->
    ((exists f, accepts_from d i l f) <->
     exists p l' f, In p (nth i Q []) /\ accepts_from t p l' f /\ visible eps l' = l).
  Proof.
    intros i l Hi. split.
    - intros (f & j & Hp & Hf).
      assert (Hj : (j < length Q)%nat) by (rewrite (sa_size _ _ _ _ SA); exact (wf_finals d (sa_wf _ _ _ _ SA) j f Hf)).
      assert (Fj : is_final d j) by (exists f; exact Hf).
      apply (sa_final _ _ _ _ SA j Hj) in Fj as (q & Hq & g & Hg).
      destruct (subset_backward i l j q Hp Hq) as (p & l' & H1 & H2 & H3).
      exists p, l', g. split; [exact H1|]. split; [exists q; auto|exact H3].
    - intros (p & l' & f & Hp & (q & Hl & Hf) & <-).
      destruct (subset_forward p l' q i Hl Hp) as (j & Hj & Hq).
      assert (Lj : (j < length Q)%nat).
      { destruct (Nat.lt_ge_cases j (length Q)) as [L|L]; [exact L|]. rewrite nth_overflow in Hq by exact L. destruct Hq. }
      assert (Fj : is_final d j) by (apply (sa_final _ _ _ _ SA j Lj); exists q; split; [exact Hq|exists f; exact Hf]).
      destruct Fj as (g & Hg). exists g, j. auto.
  Qed.

  Lemma Q_nonempty : (0 < length Q)%nat.
  Proof.
    rewrite (sa_size _ _ _ _ SA). assert (H := wf_initial d (sa_wf _ _ _ _ SA)).
    rewrite (sa_initial _ _ _ _ SA) in H. exact H.
  Qed.

  Lemma subset_label : forall l, label_lang d eps l <-> label_lang t eps l.
  Proof.
    intros l. unfold label_lang. rewrite (sa_initial _ _ _ _ SA). split.
    - intros (l' & f & Ha & <-). assert (Hv : visible eps l' = l').
      { destruct Ha as (q & Hp & _). eapply deterministic_visible; [apply (sa_det _ _ _ _ SA)|exact Hp]. }
      rewrite Hv. destruct (proj1 (subset_residual 0 l' Q_nonempty)) as (p & l1 & g & Hp & (q & Hl & Hg) & H1); [eauto|].
      apply (sa_start _ _ _ _ SA) in Hp. apply eps_reach_path in Hp as (le & Hle & Hve).
      exists (le ++ l1), g. split; [exists q; split; [eapply path_app; eauto|exact Hg]|].
      now rewrite visible_app, Hve, H1.
    - intros (l' & f & Ha & <-).
      destruct (proj2 (subset_residual 0 (visible eps l') Q_nonempty)) as (g & Hg).
      + exists (initial t), l', f. split; [apply (sa_start _ _ _ _ SA); constructor|auto].
      + exists (visible eps l'), g. split; [exact Hg|].
        destruct Hg as (q & Hp & _). eapply deterministic_visible; [apply (sa_det _ _ _ _ SA)|exact Hp].
  Qed.
End Subset.

(** ** Final weights after determinisation *)
Lemma iter2_post : forall {S R} (step : S -> S + R) (inv : S -> Prop) (post : R -> Prop),
  (forall s s', inv s -> step s = inl s' -> inv s') -> (forall s r, inv s -> step s = inr r -> post r) ->
  forall n s, inv s -> match iter2 step n s with inl s' => inv s' | inr r => post r end.
Proof.
  intros S R step inv post H1 H2. induction n as [|n IH]; intros s Hs; cbn [iter2].
  - destruct (step s) eqn:E; eauto.
  - specialize (IH s Hs) as IH1. destruct (iter2 step n s) as [s1|r]; [now apply IH|exact IH1].
Qed.

Lemma determinize_weights : forall t eps d, determinize eps t = Ok d ->
  forall i f, final_wt d i f -> f = 0 \/ fin_find i (finals t) = Some f.
Proof.
  intros t eps d H. unfold determinize in H. destruct (closure_all t eps) as [cl| | | |]; try discriminate.
  cbn [obind] in H. set (fs := fold_left _ (finals t) []) in *.
  set (P := fun d : detst => forall i f, In (i, f) (d_finals d) -> f = 0 \/ fin_find i (finals t) = Some f).
  assert (V : forall d it, P d -> P (det_visit t eps cl fs d it)).
  { intros d0 it Hd. unfold det_visit. set (d1 := mkDet _ _ _ _).
    assert (H1 : P d1).
    { intros i f Hin. unfold d1 in Hin. cbn [d_finals] in Hin.
      destruct (sv_intersects _ _ _ _); [|now apply Hd].
      revert Hin. generalize (d_finals d0) (Hd : forall i f, In (i, f) (d_finals d0) -> _).
      induction l as [|[s' w'] l IH]; intros Hl Hin; cbn [fin_insert] in Hin.
      - destruct Hin as [[= <- <-]|[]]. destruct (fin_find it (finals t)); auto.
      - assert (New : (i, f) = (it, match fin_find it (finals t) with Some w => w | None => 0 end) ->
            f = 0 \/ fin_find i (finals t) = Some f).
        { intros [= -> ->]. destruct (fin_find it (finals t)); auto. }
        destruct (it <? s')%nat; [|destruct (it =? s')%nat].
        + destruct Hin as [E|Hin]; [apply New; now symmetry|now apply Hl].
        + now apply Hl.
        + destruct Hin as [E|Hin]; [apply Hl; now left|]. apply IH; [|exact Hin]. intros; apply Hl; now right. }
    revert H1. generalize d1. clear. generalize (det_moves t eps cl (nth it (d_sets d0) [])).
    induction l as [|e l IH]; intros d1 H1; cbn [fold_left]; [exact H1|]. apply IH.
    unfold det_succ. destruct (find_set (snd e) (d_sets d1)); exact H1. }
  assert (R : forall l d, P d -> P (fold_left (det_visit t eps cl fs) l d)).
  { induction l as [|x l IH]; intros d0 Hd; cbn [fold_left]; [exact Hd|]. apply IH, V, Hd. }
  assert (X := iter2_post (det_round t eps cl fs) (fun st => P (snd st)) P).
  specialize (X ltac:(intros [s d0] [s' d0'] Hd H0; unfold det_round in H0;
    destruct (s =? length (d_sets d0))%nat; [discriminate|]; injection H0 as <- <-; apply R; exact Hd)).
  specialize (X ltac:(intros [s d0] r Hd H0; unfold det_round in H0;
    destruct (s =? length (d_sets d0))%nat; [|discriminate]; injection H0 as <-; exact Hd)).
  set (d0 := mkDet _ _ _ _) in H. specialize (X (nstates t + 1)%nat (0%nat, d0)).
  destruct (iter2 _ _ _) as [s|r]; [discriminate|]. injection H as <-. intros i f Hf. apply X; [|exact Hf].
  intros i' f' Hin. unfold d0 in Hin. cbn in Hin.
  destruct (isFinal t (initial t)); [|destruct Hin]. destruct Hin as [[= <- <-]|[]]. auto.
Qed.

Lemma determinize_default : forall t eps d, wf t -> finals_default t -> determinize eps t = Ok d ->
  finals_default d.
Proof.
  intros t eps d W D H i f Hf. destruct (determinize_weights t eps d H i f Hf) as [->|Hf']; [reflexivity|].
  apply fin_find_some in Hf'; [|apply (wf_finals_sorted t W)]. exact (D _ _ Hf').
Qed.

(** ** minimize *)
Definition nonempty_label (t : transducer) (eps : Z) : Prop := exists l, label_lang t eps l.

Lemma empty_finals_label : forall t eps l, finals t = [] -> ~ label_lang t eps l.
Proof. intros t eps l H (l' & f & (q & _ & Hf) & _). unfold final_wt in Hf. rewrite H in Hf. destruct Hf. Qed.

Lemma accessible_final_label : forall t eps, wf t -> accessible t -> finals t <> [] -> nonempty_label t eps.
Proof.
  intros t eps W A H. destruct (finals t) as [|[p f] r] eqn:E; [contradiction|].
  assert (Hf : final_wt t p f) by (unfold final_wt; rewrite E; now left).
  destruct (A p (wf_finals t W _ _ Hf)) as (l & Hl). exists (visible eps l), l, f. split; [exists p; auto|reflexivity].
Qed.

(** The four stages, when the transducer accepts something. *)
Record minimized (eps : Z) (t m : transducer) : Prop := mkMin {
  mz_all : exists j1 t1 Q2 t2 j3 t3 Q4,
    joined eps t j1 /\ reversed j1 t1 /\ subset_automaton t1 eps Q2 t2 /\ finals_default t2
    /\ joined eps t2 j3 /\ reversed j3 t3 /\ subset_automaton t3 eps Q4 m
    /\ finals_default m
    /\ reverse eps t = Ok t1 /\ determinize eps t1 = Ok t2
}.

Lemma joined_nonempty : forall eps t j, wf t -> joined eps t j ->
  (nonempty_label j eps <-> nonempty_label t eps).
Proof.
  intros eps t j W [p f H|j' _ Wj Hn Hi Hf Harc]; [reflexivity|]. unfold nonempty_label, label_lang. rewrite Hi. split.
  - intros (l0 & l & f & (q & Hp & Hq) & Hv). unfold final_wt in Hq. rewrite Hf in Hq.
    destruct Hq as [[= <- <-]|[]].
    apply (join_path_inv eps t j' W Harc) in Hp as [[_ H]|(_ & l' & f & _ & Ha)]; [lia| |apply (wf_initial t W)].
    exists (visible eps l'), l', f. auto.
  - intros (l0 & l & f & Ha & _). exists (visible eps (l ++ [(eps, f)])), (l ++ [(eps, f)]), 0. split; [|reflexivity].
    exists (nstates t). split; [apply (join_path_end eps t j' Harc); exact Ha|]. unfold final_wt. rewrite Hf. now left.
Qed.

Lemma reversed_nonempty : forall j r eps, reversed j r -> (nonempty_label r eps <-> nonempty_label j eps).
Proof.
  intros j r eps R. split; intros (l & H).
  - exists (rev l). now apply (reversed_label j r).
  - exists (rev l). apply (reversed_label j r); [exact R|]. now rewrite rev_involutive.
Qed.

Lemma minimize_spec : forall t eps, wf t -> nonempty_label t eps ->
  exists m, minimize eps t = Ok m /\ minimized eps t m.
Proof.
  intros t eps W Ne.
  assert (Hf : finals t <> []). { intros E. destruct Ne as (l & Hl). now apply (empty_finals_label t eps l) in E. }
  destruct (reverse_spec eps t W Hf) as (j1 & t1 & E1 & W1 & J1 & R1).
  assert (Wt1 := re_wf _ _ R1).
  destruct (determinize_subset t1 eps Wt1) as (Q2 & t2 & E2 & S2).
  assert (Wt2 := sa_wf _ _ _ _ S2).
  assert (D2 : finals_default t2) by (eapply determinize_default; [exact Wt1|eapply reversed_default; exact R1|exact E2]).
  assert (Ne2 : nonempty_label t2 eps).
  { apply (joined_nonempty eps t j1 W J1) in Ne. apply (reversed_nonempty j1 t1 eps R1) in Ne.
    destruct Ne as (l & Hl). exists l. now apply (subset_label t1 eps Q2 t2 S2). }
  assert (Hf2 : finals t2 <> []). { intros E. destruct Ne2 as (l & Hl). now apply (empty_finals_label t2 eps l) in E. }
  destruct (reverse_spec eps t2 Wt2 Hf2) as (j3 & t3 & E3 & W3 & J3 & R3).
  assert (Wt3 := re_wf _ _ R3).
  destruct (determinize_subset t3 eps Wt3) as (Q4 & t4 & E4 & S4).
  exists t4. split.
  - unfold minimize. destruct (finals t) as [|x r] eqn:E; [contradiction|].
    rewrite E1. cbn [obind]. rewrite E2. cbn [obind]. rewrite E3. cbn [obind]. exact E4.
  - constructor. exists j1, t1, Q2, t2, j3, t3, Q4.
    repeat (split; [assumption|]). split; [|auto].
    eapply determinize_default; [exact Wt3|eapply reversed_default; exact R3|exact E4].
Qed.

(** Final states but no accepted sequence: the second reversal ends the process. *)
Lemma minimize_exit : forall t eps, wf t -> finals t <> [] -> ~ nonempty_label t eps ->
  minimize eps t = Exit.
Proof.
  intros t eps W Hf Ne.
  destruct (reverse_spec eps t W Hf) as (j1 & t1 & E1 & W1 & J1 & R1).
  assert (Wt1 := re_wf _ _ R1).
  destruct (determinize_subset t1 eps Wt1) as (Q2 & t2 & E2 & S2).
  unfold minimize. destruct (finals t) as [|x r] eqn:E; [contradiction|].
  rewrite E1. cbn [obind]. rewrite E2. cbn [obind].
  destruct (finals t2) as [|y l] eqn:Ef; [now rewrite (reverse_exits eps t2 Ef)|].
  exfalso. apply Ne. apply (joined_nonempty eps t j1 W J1), (reversed_nonempty j1 t1 eps R1).
  destruct (accessible_final_label t2 eps) as (l' & Hl').
  - apply (sa_wf _ _ _ _ S2).
  - apply (sa_acc _ _ _ _ S2).
  - congruence.
  - exists l'. now apply (subset_label t1 eps Q2 t2 S2).
Qed.

Lemma joined_wf : forall eps t j, wf t -> joined eps t j -> wf j.
Proof. intros eps t j W [p f H|j' _ Wj _ _ _ _]; assumption. Qed.

(** The result has the label language of the joined transducer. *)
Lemma minimized_label : forall eps t m, wf t -> minimized eps t m ->
  exists j, joined eps t j /\ forall l, label_lang m eps l <-> label_lang j eps l.
Proof.
  intros eps t m W [(j1 & t1 & Q2 & t2 & j3 & t3 & Q4 & J1 & R1 & S2 & D2 & J3 & R3 & S4 & _)].
  exists j1. split; [exact J1|]. intros l.
  rewrite (subset_label _ _ _ _ S4). rewrite (reversed_label j3 t3 eps l R3).
  rewrite (joined_label eps t2 j3 _ (sa_wf _ _ _ _ S2) D2 J3). rewrite (subset_label _ _ _ _ S2).
  rewrite (reversed_label j1 t1 eps _ R1). now rewrite rev_involutive.
Qed.

Lemma minimized_wlang : forall eps t m w c, wf t -> minimized eps t m ->
  (length (finals t) <> 1%nat \/ finals_default t) -> (wlang m eps w c <-> wlang t eps w c).
Proof.
  intros eps t m w c W M Hw. destruct (minimized_label eps t m W M) as (j & J & L).
  rewrite <- (joined_wlang eps t j w c W J).
  assert (Dm : finals_default m) by (destruct M as [(? & ? & ? & ? & ? & ? & ? & H)]; tauto).
  assert (Dj : finals_default j).
  { destruct J as [p f H|j' _ _ _ _ Hf _].
    - destruct Hw as [Hw|Hw]; [rewrite H in Hw; cbn in Hw; lia|exact Hw].
    - intros p f H. unfold final_wt in H. rewrite Hf in H. destruct H as [[= <- <-]|[]]. reflexivity. }
  rewrite (label_wlang m eps w c Dm), (label_wlang j eps w c Dj).
  split; intros (l & H1 & H2); exists l; (split; [now apply L|exact H2]).
Qed.

(** In every case the plain language is kept. *)
Lemma minimized_lang : forall eps t m w, wf t -> minimized eps t m -> (lang m eps w <-> lang t eps w).
Proof.
  intros eps t m w W M. destruct (minimized_label eps t m W M) as (j & J & L).
  assert (Lab : forall x, lang x eps w <-> exists l, label_lang x eps l /\ word_of eps l = w).
  { intros x. split.
    - intros (c & l & f & Ha & Hw & _). exists (visible eps l). split; [exists l, f; auto|]. now rewrite word_visible.
    - intros (l & (l' & f & Ha & <-) & Hw). exists (cost_of l' + f), l', f. split; [exact Ha|].
      rewrite word_visible in Hw. auto. }
  assert (Jl : lang j eps w <-> lang t eps w).
  { split; intros (c & H); exists c; now apply (joined_wlang eps t j w c W J). }
  rewrite <- Jl, !Lab. split; intros (l & H1 & H2); exists l; (split; [now apply L|exact H2]).
Qed.

(** ** Minimality (Brzozowski) *)

(** Injection counting: distinct elements related to distinct numbers below [n]. *)
Lemma pigeonhole : forall {A} (R : A -> nat -> Prop) n (l : list A), NoDup l ->
  (forall x, In x l -> exists y, (y < n)%nat /\ R x y) ->
  (forall x x' y, In x l -> In x' l -> R x y -> R x' y -> x = x') ->
  (length l <= n)%nat.
Proof.
  intros A R n l ND Hex Hinj.
  assert (X : exists ys, length ys = length l /\ NoDup ys /\ (forall y, In y ys -> (y < n)%nat /\ exists x, In x l /\ R x y)).
  { induction l as [|x l IH].
    - exists []. split; [reflexivity|]. split; [constructor|intros y []].
    - inversion ND as [|? ? Hx ND']; subst.
      destruct IH as (ys & H1 & H2 & H3); auto.
      { intros; apply Hex; now right. }
      { intros x1 x2 y Hx1 Hx2. apply Hinj; now right. }
      destruct (Hex x) as (y & Hy & Hr); [now left|].
      exists (y :: ys). split; [cbn; lia|]. split.
      + constructor; [|exact H2]. intros Hin. apply H3 in Hin as (_ & x' & Hx' & Hr').
        apply Hx. rewrite (Hinj x x' y); auto; [now left|now right].
      + intros y' [<-|Hy']; [split; [exact Hy|exists x; split; [now left|exact Hr]]|].
        apply H3 in Hy' as (H5 & x' & H6 & H7). split; [exact H5|]. exists x'. split; [now right|exact H7]. }
  destruct X as (ys & H1 & H2 & H3). rewrite <- H1, <- (seq_length n 0).
  apply NoDup_incl_length; [exact H2|]. intros y Hy. apply in_seq. apply H3 in Hy as [Hy _]. lia.
Qed.

(** States of [m] that accept pairwise different sets of sequences are at most as many
    as the states of any deterministic automaton for the same language. *)
Lemma residuals_bound : forall m D eps (l : list nat),
  wf m -> deterministic m eps -> wf D -> deterministic D eps ->
  (forall w, label_lang m eps w <-> label_lang D eps w) ->
  NoDup l ->
  (forall i, In i l -> (exists u, path m (initial m) u i) /\ exists v f, accepts_from m i v f) ->
  (forall i k, In i l -> In k l ->
     (forall v, (exists f, accepts_from m i v f) <-> exists f, accepts_from m k v f) -> i = k) ->
  (length l <= nstates D)%nat.
Proof.
  intros m D eps l Wm Dm WD DD L ND Hacc Hres.
  assert (Acc : forall x v, deterministic x eps ->
     (label_lang x eps v <-> exists f, accepts_from x (initial x) v f)).
  { intros x v Dx. split.
    - intros (l' & f & Ha & <-). exists f. destruct Ha as (q & Hp & Hf).
      rewrite (deterministic_visible x eps _ _ _ Dx Hp). exists q. auto.
    - intros (f & q & Hp & Hf). exists v, f. split; [exists q; auto|].
      eapply deterministic_visible; eauto. }
  (* [i] and [d] are reached by a common sequence *)
  apply (pigeonhole (fun i d => exists u, path m (initial m) u i /\ path D (initial D) u d)); [exact ND| |].
  - intros i Hi. destruct (Hacc i Hi) as ((u & Hu) & v & f & q & Hv & Hf).
    assert (X : label_lang m eps (u ++ v)).
    { apply Acc; [exact Dm|]. exists f, q. split; [eapply path_app; eauto|exact Hf]. }
    apply L in X. apply Acc in X as (g & q' & Hp & Hg); [|exact DD].
    apply path_app_inv in Hp as (d & Hd & Hd'). exists d. split; [|exists u; auto].
    destruct u as [|[a w] u] using rev_ind.
    + inversion Hd; subst. apply (wf_initial D WD).
    + clear IHu. apply path_app_inv in Hd as (e & _ & He). inversion He as [|? ? ? e' ? ? Ha Hb]; subst.
      inversion Hb; subst. exact (wf_arcs D WD _ _ _ _ Ha).
  - intros i k d Hi Hk (u & Hu & Hd) (u' & Hu' & Hd'). apply Hres; auto.
    assert (Key : forall i u v, path m (initial m) u i -> path D (initial D) u d ->
       ((exists f, accepts_from m i v f) <-> exists f, accepts_from D d v f)).
    { clear i k u u' Hi Hk Hu Hd Hu' Hd'. intros i u v Hu Hd. split.
      - intros (f & q & Hp & Hf). assert (X : label_lang m eps (u ++ v)).
        { apply Acc; [exact Dm|]. exists f, q. split; [eapply path_app; eauto|exact Hf]. }
        apply L in X. apply Acc in X as (g & q' & Hq & Hg); [|exact DD].
        apply path_app_inv in Hq as (d' & H1 & H2).
        rewrite <- (deterministic_path D eps _ _ _ _ DD Hd H1) in H2. exists g, q'. auto.
      - intros (f & q & Hp & Hf). assert (X : label_lang D eps (u ++ v)).
        { apply Acc; [exact DD|]. exists f, q. split; [eapply path_app; eauto|exact Hf]. }
        apply L in X. apply Acc in X as (g & q' & Hq & Hg); [|exact Dm].
        apply path_app_inv in Hq as (i' & H1 & H2).
        rewrite <- (deterministic_path m eps _ _ _ _ Dm Hu H1) in H2. exists g, q'. auto. }
    intros v. rewrite (Key i u v Hu Hd), (Key k u' v Hu' Hd'). reflexivity.
Qed.

Section Brzozowski.
  Context (eps : Z) (t2 j3 t3 m : transducer) (Q : list (list nat)).
  Hypothesis W2 : wf t2.
  Hypothesis Det2 : deterministic t2 eps.
  Hypothesis Acc2 : accessible t2.
  Hypothesis J : joined eps t2 j3.
  Hypothesis R : reversed j3 t3.
  Hypothesis SA : subset_automaton t3 eps Q m.
  Let n2 := nstates t2.

  (** A set without the joining state accepts v exactly if t2 leads from its initial
      state by the mirror image of v into the set. *)
  Lemma bz_residual : forall i v, (i < length Q)%nat -> (forall p, In p (nth i Q []) -> (p < n2)%nat) ->
    ((exists f, accepts_from m i v f) <-> exists p, In p (nth i Q []) /\ path t2 (initial t2) (rev v) p).
  Proof.
    intros i v Hi Hb. rewrite (subset_residual t3 eps Q m SA i v Hi).
    assert (Ij : initial j3 = initial t2) by now apply joined_initial in J.
    assert (P : forall p l, (p < n2)%nat -> (path j3 (initial t2) l p <-> path t2 (initial t2) l p)).
    { intros p l Hp. destruct J as [? ? ?|j' _ _ Hn _ _ Harc]; [reflexivity|]. split.
      - intros H. apply (join_path_inv eps t2 j' W2 Harc) in H as [[H _]|[-> _]];
          [exact H|unfold n2 in Hp; lia|apply (wf_initial t2 W2)].
      - apply (join_path_old eps t2 j' Harc). }
    split.
    - intros (p & l' & f & Hp & (q & Hl & Hq) & <-). exists p. split; [exact Hp|].
      unfold final_wt in Hq. rewrite (re_final _ _ R) in Hq. destruct Hq as [[= <- <-]|[]].
      apply (reversed_path j3 t3) in Hl; [|exact R]. rewrite Ij in Hl. apply P in Hl; [|now apply Hb].
      rewrite <- visible_rev. now rewrite (deterministic_visible t2 eps _ _ _ Det2 Hl).
    - intros (p & Hp & Hl). exists p, v, 0. split; [exact Hp|]. split.
      + exists (initial j3). split; [|unfold final_wt; rewrite (re_final _ _ R); now left].
        apply (reversed_path j3 t3); [exact R|]. rewrite Ij. apply P; [now apply Hb|exact Hl].
      + assert (H := deterministic_visible t2 eps _ _ _ Det2 Hl). rewrite visible_rev in H.
        apply (f_equal (@rev label)) in H. now rewrite !rev_involutive in H.
  Qed.

  (** Distinct such sets accept different sequences. *)
  Lemma bz_distinct : forall i k, (i < length Q)%nat -> (k < length Q)%nat ->
    (forall p, In p (nth i Q []) -> (p < n2)%nat) -> (forall p, In p (nth k Q []) -> (p < n2)%nat) ->
    (forall v, (exists f, accepts_from m i v f) <-> exists f, accepts_from m k v f) -> i = k.
  Proof.
    intros i k Hi Hk Bi Bk H.
    assert (Sub : forall i k, (i < length Q)%nat -> (k < length Q)%nat ->
      (forall p, In p (nth i Q []) -> (p < n2)%nat) -> (forall p, In p (nth k Q []) -> (p < n2)%nat) ->
      (forall v, (exists f, accepts_from m i v f) <-> exists f, accepts_from m k v f) ->
      forall p, In p (nth i Q []) -> In p (nth k Q [])).
    { clear i k Hi Hk Bi Bk H. intros i k Hi Hk Bi Bk H p Hp. destruct (Acc2 p (Bi p Hp)) as (u & Hu).
      assert (X : exists f, accepts_from m i (rev u) f).
      { apply (bz_residual i (rev u) Hi Bi). exists p. split; [exact Hp|]. now rewrite rev_involutive. }
      apply H in X. apply (bz_residual k (rev u) Hk Bk) in X as (p' & Hp' & Hu'). rewrite rev_involutive in Hu'.
      now rewrite (deterministic_path t2 eps _ _ _ _ Det2 Hu Hu'). }
    apply (proj1 (NoDup_nth Q []) (sa_distinct _ _ _ _ SA)); auto.
    destruct (sa_sets _ _ _ _ SA (nth i Q [])) as (Ni & _); [now apply nth_In|].
    destruct (sa_sets _ _ _ _ SA (nth k Q [])) as (Nk & _); [now apply nth_In|].
    apply nset_ext; auto. intros p. split; apply Sub; auto. intros v. symmetry. apply H.
  Qed.

  (** Only the initial set can contain the joining state. *)
  Lemma bz_bound : forall i, (i < length Q)%nat -> i <> 0%nat \/ (length (finals t2) = 1)%nat ->
    forall p, In p (nth i Q []) -> (p < n2)%nat.
  Proof.
    intros i Hi Hor p Hp.
    destruct (sa_sets _ _ _ _ SA (nth i Q [])) as (_ & _ & B & _); [now apply nth_In|].
    apply B in Hp as Hlt. rewrite (re_size _ _ R) in Hlt.
    destruct J as [q f Hf|j' H2 Wj Hn _ _ Harc]; [exact Hlt|].
    destruct Hor as [Hor|Hor]; [|lia].
    destruct (Nat.eq_dec p n2) as [->|E]; [|unfold n2 in *; lia]. exfalso.
    destruct (sa_acc _ _ _ _ SA i) as (l & Hl); [now rewrite <- (sa_size _ _ _ _ SA)|].
    rewrite (sa_initial _ _ _ _ SA) in Hl. destruct l as [|[a w] l] using rev_ind.
    - inversion Hl; subst. contradiction.
    - clear IHl. apply path_app_inv in Hl as (e & _ & He). inversion He as [|? ? ? e' ? ? Ha Hb]; subst.
      inversion Hb; subst. apply (sa_arc _ _ _ _ SA) in Ha as (_ & _ & M).
      apply M in Hp as (x & r & _ & Hr & Hx).
      assert (NoIn : forall x a w, ~ has_arc t3 x a n2 w).
      { intros x' a' w' Hin. apply (re_arcs _ _ R) in Hin. now apply (join_dead eps t2 j' W2 Harc) in Hin. }
      assert (Hlast : forall x y, eps_reach t3 eps x y -> y = n2 -> x = n2).
      { intros x' y' He'. induction He' as [|p' q' r' Ha' He'' IH]; intros Ey; [exact Ey|].
        rewrite (IH Ey) in Ha'. now apply NoIn in Ha'. }
      rewrite (Hlast _ _ Hx eq_refl) in Hr. now apply NoIn in Hr.
  Qed.

  Lemma bz_live : forall i, (i < length Q)%nat -> (forall p, In p (nth i Q []) -> (p < n2)%nat) ->
    (exists u, path m (initial m) u i) /\ exists v f, accepts_from m i v f.
  Proof.
    intros i Hi B. split; [apply (sa_acc _ _ _ _ SA); now rewrite <- (sa_size _ _ _ _ SA)|].
    destruct (sa_sets _ _ _ _ SA (nth i Q [])) as (_ & Ne & _); [now apply nth_In|].
    destruct (nth i Q []) as [|p r] eqn:E; [contradiction|].
    destruct (Acc2 p) as (u & Hu); [apply B; now left|].
    exists (rev u). apply (bz_residual i (rev u) Hi); [rewrite E; exact B|]. exists p. rewrite E.
    split; [now left|]. now rewrite rev_involutive.
  Qed.

  Lemma bz_minimal : forall D, wf D -> deterministic D eps ->
    (forall w, label_lang m eps w <-> label_lang D eps w) ->
    (nstates m <= nstates D + 1)%nat
    /\ (length (finals t2) = 1%nat -> (nstates m <= nstates D)%nat).
  Proof.
    intros D WD DD L. rewrite <- (sa_size _ _ _ _ SA).
    assert (Wm := sa_wf _ _ _ _ SA). assert (Dm := sa_det _ _ _ _ SA). split.
    - assert (X : (length (seq 1 (length Q - 1)) <= nstates D)%nat).
      { assert (In1 : forall i, In i (seq 1 (length Q - 1)) -> (i < length Q)%nat /\ i <> 0%nat)
          by (intros i Hi; apply in_seq in Hi; lia).
        apply (residuals_bound m D eps); auto.
        - apply seq_NoDup.
        - intros i Hi. apply In1 in Hi as [Hi Hz]. apply bz_live; [exact Hi|]. apply bz_bound; auto.
        - intros i k Hi Hk. apply In1 in Hi as [Hi Hz], Hk as [Hk Hz']. apply bz_distinct; auto; apply bz_bound; auto. }
      rewrite seq_length in X. lia.
    - intros H1. rewrite <- (seq_length (length Q) 0).
      assert (In1 : forall i, In i (seq 0 (length Q)) -> (i < length Q)%nat)
        by (intros i Hi; apply in_seq in Hi; lia).
      apply (residuals_bound m D eps); auto.
      + apply seq_NoDup.
      + intros i Hi. apply In1 in Hi. apply bz_live; [exact Hi|]. apply bz_bound; auto.
      + intros i k Hi Hk. apply In1 in Hi, Hk. apply bz_distinct; auto; apply bz_bound; auto.
  Qed.
End Brzozowski.

Lemma minimized_minimal : forall eps t m, minimized eps t m ->
  wf m /\ deterministic m eps /\ accessible m /\
  forall D, wf D -> deterministic D eps ->
    (forall w, label_lang m eps w <-> label_lang D eps w) -> (nstates m <= nstates D + 1)%nat.
Proof.
  intros eps t m [(j1 & t1 & Q2 & t2 & j3 & t3 & Q4 & J1 & R1 & S2 & D2 & J3 & R3 & S4 & _)].
  split; [apply (sa_wf _ _ _ _ S4)|]. split; [apply (sa_det _ _ _ _ S4)|]. split; [apply (sa_acc _ _ _ _ S4)|].
  intros D WD DD L. eapply bz_minimal; [exact (sa_wf _ _ _ _ S2)|exact (sa_det _ _ _ _ S2)|exact (sa_acc _ _ _ _ S2)|exact J3|exact R3|exact S4|exact WD|exact DD|exact L].
Qed.

Lemma minimized_exact : forall eps t m, minimized eps t m ->
  (exists t1 t2, reverse eps t = Ok t1 /\ determinize eps t1 = Ok t2 /\ length (finals t2) = 1%nat) ->
  forall D, wf D -> deterministic D eps ->
    (forall w, label_lang m eps w <-> label_lang D eps w) -> (nstates m <= nstates D)%nat.
Proof.
  intros eps t m [(j1 & t1 & Q2 & t2 & j3 & t3 & Q4 & J1 & R1 & S2 & D2 & J3 & R3 & S4 & _ & E1 & E2)].
  intros (t1' & t2' & E1' & E2' & H1) D WD DD L.
  assert (t1' = t1) by congruence. subst. assert (t2' = t2) by congruence. subst.
  eapply bz_minimal; [exact (sa_wf _ _ _ _ S2)|exact (sa_det _ _ _ _ S2)|exact (sa_acc _ _ _ _ S2)|exact J3|exact R3|exact S4|exact WD|exact DD|exact L|exact H1].
Qed.
