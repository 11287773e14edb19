(** Proofs about loaded dictionaries: runs of the graph and words of the dictionary. *)
From Coq Require Import Permutation Sorted.
From Verif Require Import Base CompressionModel AlphabetModel AlphabetProofs TransducerModel TransducerSpec TransducerProofs
  MinimizeProofs TrieProofs WeightSetProofs FileModel FileProofs FileProps StateModel StateSpec FinalsModel CompilerModel CompilerSpec CompilerProofs
  ValidProps ProcessorModel ProcessorProofs BilingualModel LoadModel LoadProofs.

Definition nonzero (p : Z * Z) : Prop := p <> (0, 0).
(** What a run writes: one entry for every pair, with its weight *)
Definition entries (w : list (Z * Z)) : list (Z * Z) := map (fun p => (snd p, 0)) w.
(** The pairs that read nothing *)
Definition unread (w : list (Z * Z)) : nat := length (filter (fun p => fst p =? 0) w).

Lemma unread_app : forall u v, unread (u ++ v) = (unread u + unread v)%nat.
Proof. intros. unfold unread. now rewrite filter_app, app_length. Qed.

Lemma reads_fun : forall a u v w, reads a u v -> reads a u w -> v = w.
Proof. intros a u v w H. revert w. induction H as [|x y u v Hx H IH]; intros w K; inversion K; subst; [reflexivity|]. f_equal; [congruence|auto]. Qed.

(** * Sections *)
Section One.
  Context (a : alphabet) (X : pset) (t : transducer).
  Record compiled : Prop := {
    cm_wf : wf t;
    cm_cov : cov a X;
    cm_lang : forall u, lang t 0 u <-> Tg a X u;
    cm_min : exists t0, minimized 0 t0 t;
    cm_some : exists w, X w;
    cm_zero : within (fun w => w = 0) t
  }.
  Context (Ha : alph_inv0 a) (C : compiled).

  Lemma arc_zero : forall p tag q w, has_arc t p tag q w -> w = 0.
  Proof.
    intros p tag q w H. destruct (cm_zero C) as [Z1 _]. pose proof (nth_in _ p _ Z1) as N. unfold row_in in N.
    rewrite Forall_forall in N. exact (N _ H).
  Qed.
  Lemma final_zero : forall p f, final_wt t p f -> f = 0.
  Proof. intros p f H. destruct (cm_zero C) as [_ Z1]. unfold fins_in in Z1. rewrite Forall_forall in Z1. exact (Z1 _ H). Qed.
  Lemma arc_tag : forall p tag q w, has_arc t p tag q w -> tag <> 0.
  Proof.
    intros p tag q w H ->. pose proof (arc_zero _ _ _ _ H) as ->. destruct (cm_min C) as (t0 & M).
    destruct (minimized_minimal 0 t0 t M) as (_ & (D & _) & _). apply D in H. discriminate.
  Qed.
  Lemma path_tags : forall p l q, path t p l q -> word_of 0 l = map fst l.
  Proof.
    intros p l q H. induction H as [p|p c w q l r Hc H IH]; [reflexivity|]. unfold word_of in *. cbn [filter fst].
    apply arc_tag in Hc. destruct (Z.eqb_spec c 0); [contradiction|]. cbn [negb map fst]. now rewrite IH.
  Qed.
  Lemma path_start : forall p l q, path t p l q -> (q < nstates t)%nat -> (p < nstates t)%nat.
  Proof.
    intros p l q H L. destruct H as [|p c w q l r Hc H]; [exact L|]. unfold has_arc, arcs_of in Hc.
    destruct (Nat.lt_ge_cases p (nstates t)) as [|G]; [assumption|]. rewrite nth_overflow in Hc by exact G. destruct Hc.
  Qed.
  Lemma path_end : forall p l q, path t p l q -> (p < nstates t)%nat -> (q < nstates t)%nat.
  Proof. intros p l q H. induction H as [|p c w q l r Hc H IH]; [auto|]. intros _. apply IH. exact (wf_arcs t (cm_wf C) _ _ _ _ Hc). Qed.
  Lemma between : forall p l q, path t p l q -> (p < nstates t)%nat ->
    exists l1 l2 r, path t (initial t) l1 p /\ path t q l2 r /\ is_final t r.
  Proof.
    intros p l q H L. destruct (cm_min C) as (t0 & M). destruct (minimized_minimal 0 t0 t M) as (_ & _ & A & _).
    destruct (A p L) as (l1 & P1). destruct (minimized_coaccessible 0 t0 t q M (path_end _ _ _ H L)) as (l2 & f & r & P2 & F).
    exists l1, l2, r. split; [exact P1|]. split; [exact P2|]. now exists f.
  Qed.
  Lemma path_decodes : forall p l q, path t p l q -> (p < nstates t)%nat ->
    exists u v w, X (u ++ v ++ w) /\ reads a (map fst l) v
      /\ forall l1 l2 r, path t (initial t) l1 p -> path t q l2 r -> is_final t r ->
           exists u' w', X (u' ++ v ++ w') /\ reads a (map fst l1) u'.
  Proof.
    intros p l q H L.
    assert (K : forall l1 l2 r, path t (initial t) l1 p -> path t q l2 r -> is_final t r ->
      exists u v w, X (u ++ v ++ w) /\ reads a (map fst l1) u /\ reads a (map fst l) v).
    { intros l1 l2 r P1 P2 F. destruct (accepted_word a t X (cm_lang C) (l1 ++ l ++ l2) r) as (w & Hw & R).
      - eapply path_app; [exact P1|]. eapply path_app; eauto.
      - exact F.
      - assert (Pa : path t (initial t) (l1 ++ l ++ l2) r) by (eapply path_app; [exact P1|]; eapply path_app; eauto).
        rewrite (path_tags _ _ _ Pa), !map_app in R. apply ValidProps.reads_app in R as (u & w1 & -> & R1 & R2).
        apply ValidProps.reads_app in R2 as (v & w2 & -> & R2 & R3). exists u, v, w2. auto. }
    destruct (between p l q H L) as (l1 & l2 & r & P1 & P2 & F). destruct (K l1 l2 r P1 P2 F) as (u & v & w & Hw & R1 & R2).
    exists u, v, w. split; [exact Hw|]. split; [exact R2|]. intros m1 m2 r' Q1 Q2 F'. destruct (K m1 m2 r' Q1 Q2 F') as (u' & v' & w' & Hw' & R1' & R2').
    rewrite (reads_fun _ _ _ _ R2' R2) in Hw'.
    exists u', w'. auto.
  Qed.
  Lemma arc_pair : forall p tag q w, has_arc t p tag q w -> exists x, decode tag a = Ok x /\ nonzero x /\ In x (spairinv a).
  Proof.
    intros p tag q w H. assert (P1 : path t p [(tag, w)] q) by (econstructor; [exact H|constructor]).
    assert (L : (p < nstates t)%nat).
    { apply (path_start p [(tag, w)] q P1). exact (wf_arcs t (cm_wf C) _ _ _ _ H). }
    destruct (path_decodes _ _ _ P1 L) as (u & v & v' & Hv & R & _). cbn [map fst] in R. inversion R as [|? x ? l Hx R']; subst.
    exists x. split; [exact Hx|]. apply (cm_cov C _ _ Hv). apply in_or_app. right. apply in_or_app. left. now left.
  Qed.

  (** Walks by pairs *)
  Inductive walk : nat -> list (Z * Z) -> nat -> Prop :=
  | wk_nil p : walk p [] p
  | wk_cons p tag q x v r : has_arc t p tag q 0 -> decode tag a = Ok x -> walk q v r -> walk p (x :: v) r.
  Lemma walk_app : forall p u q v r, walk p u q -> walk q v r -> walk p (u ++ v) r.
  Proof. intros p u q v r H. induction H; [auto|]. intros K. cbn [app]. econstructor; eauto. Qed.
  Lemma walk_app_inv : forall u p v r, walk p (u ++ v) r -> exists q, walk p u q /\ walk q v r.
  Proof.
    induction u as [|x u IH]; intros p v r H; cbn [app] in H; [exists p; split; [constructor|exact H]|].
    inversion H as [|? tag q ? ? ? Hc Hx Hw]; subst. destruct (IH _ _ _ Hw) as (q' & H1 & H2). exists q'. split; [econstructor; eauto|exact H2].
  Qed.
  Lemma walk_path : forall p v q, walk p v q -> exists l, path t p l q /\ reads a (map fst l) v.
  Proof.
    intros p v q H. induction H as [p|p tag q x v r Hc Hx H (l & P1 & R)]; [exists []; split; constructor|].
    exists ((tag, 0) :: l). split; [econstructor; eauto|constructor; auto].
  Qed.
  Lemma path_walk : forall p l q v, path t p l q -> reads a (map fst l) v -> walk p v q.
  Proof.
    intros p l q v H. revert v. induction H as [p|p c w q l r Hc H IH]; intros v R; cbn [map fst] in R; inversion R; subst; [constructor|].
    pose proof (arc_zero _ _ _ _ Hc) as ->. econstructor; eauto.
  Qed.
  Lemma walk_end : forall p v q, walk p v q -> (p < nstates t)%nat -> (q < nstates t)%nat.
  Proof. intros p v q H L. destruct (walk_path _ _ _ H) as (l & P1 & _). exact (path_end _ _ _ P1 L). Qed.
  Lemma walk_nonzero : forall p v q, walk p v q -> Forall nonzero v.
  Proof.
    intros p v q H. induction H as [p|p tag q x v r Hc Hx H IH]; constructor; [|exact IH].
    destruct (arc_pair _ _ _ _ Hc) as (y & Hy & N & _). congruence.
  Qed.
  Lemma walk_word : forall v, (exists q, walk (initial t) v q /\ is_final t q) <-> X v.
  Proof.
    intros v. split.
    - intros (q & H & F). destruct (walk_path _ _ _ H) as (l & P1 & R). destruct (accepted_word a t X (cm_lang C) l q P1 F) as (w & Hw & R').
      rewrite (path_tags _ _ _ P1) in R'. now rewrite (reads_fun _ _ _ _ R' R) in Hw.
    - intros Hv. destruct (word_accepted a t X (cm_lang C) (cm_cov C) v Hv) as (l & q & P1 & F & R). rewrite (path_tags _ _ _ P1) in R.
      exists q. split; [exact (path_walk _ _ _ _ P1 R)|exact F].
  Qed.
  Lemma walk_prefix : forall v, (exists q, walk (initial t) v q) <-> exists v', X (v ++ v').
  Proof.
    intros v. split.
    - intros (q & H). destruct (walk_path _ _ _ H) as (l & P1 & R).
      assert (L := wf_initial t (cm_wf C)). destruct (cm_min C) as (t0 & M).
      destruct (minimized_coaccessible 0 t0 t q M (walk_end _ _ _ H L)) as (l2 & f & r & P2 & F).
      destruct (accepted_word a t X (cm_lang C) (l ++ l2) r) as (w & Hw & R').
      + eapply path_app; eauto.
      + now exists f.
      + rewrite (path_tags (initial t) (l ++ l2) r), map_app in R' by (eapply path_app; eauto).
        apply ValidProps.reads_app in R' as (w1 & w2 & -> & R1 & _). exists w2. now rewrite (reads_fun _ _ _ _ R1 R) in Hw.
    - intros (v' & Hv). apply walk_word in Hv as (q & H & _). apply walk_app_inv in H as (q' & H & _). eauto.
  Qed.
  (** Any walk lies within a word. *)
  Lemma walk_within : forall p v q, walk p v q -> (p < nstates t)%nat -> exists u w, X (u ++ v ++ w).
  Proof.
    intros p v q H L. destruct (walk_path _ _ _ H) as (l & P1 & R). destruct (path_decodes _ _ _ P1 L) as (u & v' & w & Hw & R' & _).
    rewrite (reads_fun _ _ _ _ R' R) in Hw.
    eauto.
  Qed.

  (** ** In the file *)
  Context (to_file : Z -> weight) (H0 : to_file 0 = WFin 0 0) (A : alphabet_fits a) (Size : Z.of_nat (nstates t) < 2 ^ 30).
  Lemma tag_bounds : forall tag x, decode tag a = Ok x -> 0 <= tag < Z.of_nat (length (spairinv a)).
  Proof.
    intros tag x H. unfold decode in H. destruct (Z.ltb_spec tag 0); [discriminate|].
    destruct (nth_error (spairinv a) (Z.to_nat tag)) eqn:E; [|discriminate]. assert (nth_error (spairinv a) (Z.to_nat tag) <> None) by congruence.
    apply nth_error_Some in H2. lia.
  Qed.
  Lemma sorted_map : forall {B D} (R : B -> B -> Prop) (S : D -> D -> Prop) (f : B -> D) l,
    (forall x y, R x y -> S (f x) (f y)) -> StronglySorted R l -> StronglySorted S (map f l).
  Proof.
    intros B D R S f l K H. induction H as [|x l H IH F]; cbn [map]; constructor; [exact IH|].
    rewrite Forall_map. eapply Forall_impl; [|exact F]. cbn. auto.
  Qed.
  Lemma finals_few : (length (finals t) <= nstates t)%nat.
  Proof.
    rewrite <- (map_length fst (finals t)), <- (seq_length (nstates t) 0). apply NoDup_incl_length.
    - pose proof (wf_finals_sorted t (cm_wf C)) as S. unfold finals_sorted in S. induction S as [|x l S IH F]; cbn [map]; constructor; [|exact IH].
      intros K. apply in_map_iff in K as (y & E & K). rewrite Forall_forall in F. apply F in K. lia.
    - intros q Hq. apply in_map_iff in Hq as ([q' f] & <- & Hq). apply in_seq. pose proof (wf_finals t (cm_wf C) q' f Hq). cbn [fst]. lia.
  Qed.
  Lemma row_few : forall i, (length (arcs_of t i) <= length (spairinv a))%nat.
  Proof.
    intros i. destruct (cm_min C) as (t0 & M). destruct (minimized_minimal 0 t0 t M) as (_ & (_ & D1 & D2) & _).
    rewrite <- (map_length a_tag (arcs_of t i)), <- (seq_length (length (spairinv a)) 0), <- (map_length Z.of_nat (seq _ _)). apply NoDup_incl_length.
    - assert (K : forall l, NoDup l -> incl l (arcs_of t i) -> NoDup (map a_tag l)).
      { induction l as [|[c [q w]] l IH]; intros N I; cbn [map]; constructor; inversion N as [|? ? N1 N2]; subst; [|apply IH; [exact N2|]; intros y Hy; apply I; now right].
        intros K. apply in_map_iff in K as ([c' [q' w']] & E & K). cbn [a_tag fst] in E. subst c'.
        assert (h1 : has_arc t i c q w) by (apply I; now left). assert (h2 : has_arc t i c q' w') by (apply I; now right).
        pose proof (arc_zero _ _ _ _ h1) as ->. pose proof (arc_zero _ _ _ _ h2) as ->. rewrite (D1 _ _ _ _ _ h1 h2) in N1. contradiction. }
      apply K; [apply D2|apply incl_refl].
    - intros c Hc. apply in_map_iff in Hc as ([c' [q w]] & <- & Hc). destruct (arc_pair i c' q w Hc) as (x & Hx & _).
      apply tag_bounds in Hx. apply in_map_iff. exists (Z.to_nat c'). split; [unfold a_tag; cbn [fst]; lia|]. apply in_seq. lia.
  Qed.
  Lemma row_nth : forall i, nth i (f_trans (file_trans to_file t)) []
    = map (fun x : arc => (a_tag x, (a_dst x, to_file (a_wt x)))) (arcs_of t i).
  Proof.
    intros i. unfold file_trans, arcs_of. cbn [f_trans].
    exact (map_nth (map (fun x : arc => (a_tag x, (a_dst x, to_file (a_wt x))))) (trans t) [] i).
  Qed.
  Lemma row_arcs : forall i tag d w, In (tag, (d, w)) (nth i (f_trans (file_trans to_file t)) []) <->
    has_arc t i tag d 0 /\ w = WFin 0 0.
  Proof.
    intros i tag d w. rewrite row_nth, in_map_iff. split.
    - intros ([c [q v]] & E & H). pose proof (arc_zero _ _ _ _ H) as ->. unfold a_tag, a_dst, a_wt in E. cbn [fst snd] in E.
      rewrite H0 in E. injection E as <- <- <-. auto.
    - intros [H ->]. exists (tag, (d, 0)). split; [unfold a_tag, a_dst, a_wt; cbn [fst snd]; now rewrite H0|exact H].
  Qed.
  Lemma in_rows : forall l, In l (f_trans (file_trans to_file t)) -> exists i, l = nth i (f_trans (file_trans to_file t)) [] /\ length l = length (arcs_of t i)
    /\ StronglySorted arc_le l.
  Proof.
    intros l Hl. apply (In_nth _ _ []) in Hl as (i & Hi & E). exists i. split; [now symmetry|]. rewrite <- E.
    rewrite row_nth, map_length. split; [reflexivity|].
    eapply sorted_map; [|exact (wf_sorted t (cm_wf C) i)]. intros x y K. exact K.
  Qed.
  Lemma file_fits : file_ok 0 (file_trans to_file t) /\ runnable a (file_trans to_file t) /\ file_out (file_trans to_file t) = file_trans to_file t.
  Proof.
    destruct A as (_ & A2 & _).
    assert (Ln : length (f_trans (file_trans to_file t)) = nstates t) by (cbn [file_trans f_trans]; apply map_length).
    assert (F0 : forall s w, In (s, w) (f_finals (file_trans to_file t)) -> w = WFin 0 0 /\ final_wt t s 0).
    { intros s w H. cbn [file_trans f_finals] in H. apply in_map_iff in H as ([q f] & E & H). pose proof (final_zero _ _ H) as ->.
      cbn [fst snd] in E. rewrite H0 in E. injection E as <- <-. auto. }
    assert (Wz : wt_ok (WFin 0 0)) by (cbn; unfold WeightCodecProofs.is_double; cbn; lia).
    split; [|split].
    - constructor; try lia.
      + cbn [file_trans f_initial]. pose proof (wf_initial t (cm_wf C)). lia.
      + pose proof (wf_initial t (cm_wf C)). intros E. rewrite E in Ln. cbn in Ln. lia.
      + cbn [file_trans f_finals]. rewrite map_length. pose proof finals_few. lia.
      + cbn [file_trans f_finals]. eapply sorted_map; [|exact (wf_finals_sorted t (cm_wf C))]. intros x y K. exact K.
      + intros s w H. destruct (F0 s w H) as [-> K]. split; [|exact Wz]. pose proof (wf_finals t (cm_wf C) _ _ K). lia.
      + intros l Hl. destruct (in_rows l Hl) as (i & -> & L & S). split; [exact S|]. split; [rewrite L; pose proof (row_few i); lia|].
        intros tag d w H. apply row_arcs in H as [H ->]. destruct (arc_pair _ _ _ _ H) as (x & Hx & _). apply tag_bounds in Hx.
        split; [lia|]. split; [lia|]. split; [|exact Wz]. pose proof (wf_arcs t (cm_wf C) _ _ _ _ H). lia.
    - split.
      + intros s w H. destruct (F0 s w H) as [_ K]. rewrite Ln. exact (wf_finals t (cm_wf C) _ _ K).
      + intros l tag [d w] Hl H. destruct (in_rows l Hl) as (i & -> & _). apply row_arcs in H as [H _]. destruct (arc_pair _ _ _ _ H) as (x & Hx & _). exact (tag_bounds _ _ Hx).
    - assert (Wt : weighted (file_trans to_file t) = false).
      { apply weighted_false. split.
        - intros s w H. exists 0. now apply F0 in H.
        - intros l tag d w Hl H. exists 0. destruct (in_rows l Hl) as (i & -> & _). now apply row_arcs in H. }
      unfold file_out. rewrite Wt. remember (file_trans to_file t) as T eqn:ET. destruct T as [ini f ts]. cbn [f_initial f_finals f_trans] in *. f_equal.
      + unfold fins_out. rewrite <- (map_id f) at 2. apply map_ext_in. intros [s w] Hin. cbn. destruct (F0 s w Hin) as [-> _]. reflexivity.
      + rewrite <- (map_id ts) at 2. apply map_ext_in. intros l Hl. unfold arcs_out. rewrite <- (map_id l) at 2. apply map_ext_in.
        intros [tag [d w]] Hin. destruct (in_rows l) as (i & El & _); [rewrite <- ET; exact Hl|].
        rewrite El, <- ET in Hin. rewrite ET in Hin. apply row_arcs in Hin as [_ ->]. reflexivity.
  Qed.
End One.

(** * The graph *)
Section Whole.
  Context (a : alphabet) (X : ustr -> pset) (m : list (ustr * transducer)) (tes : list (ustr * texe))
    (to_file : Z -> weight) (zw : weight -> Z).
  Context (Ha : alph_inv0 a) (H0 : to_file 0 = WFin 0 0) (Hz : zw (WFin 0 0) = 0).
  Context (Hm : forall name t, In (name, t) m -> compiled a (X name) t)
    (Hx : forall name w, X name w -> exists t, In (name, t) m)
    (R1 : forall name te, In (name, te) tes -> exists t, In (name, t) m /\ same_graph a (file_trans to_file t) te)
    (R2 : forall name t, In (name, t) m -> exists te, In (name, te) tes /\ same_graph a (file_trans to_file t) te).
  Notation find := (graph_find zw tes).

  (** The transducer [t] named [name] is at [b]. *)
  Record sits (b : nat) (name : ustr) (t : transducer) : Prop := {
    st_in : In (name, t) m;
    st_above : (1 <= b)%nat;
    st_te : exists te, placed 1 tes b name te /\ te_initial te = initial t /\ length (te_nodes te) = nstates t
      /\ te_finals te = f_finals (file_trans to_file t)
      /\ forall i c, node_find c (nth i (te_nodes te) []) = arcs_with a c (nth i (f_trans (file_trans to_file t)) [])
  }.
  Lemma finals_some : forall name t, In (name, t) m -> finals t <> [].
  Proof.
    intros name t Hin. pose proof (Hm _ _ Hin) as C. destruct (cm_some _ _ _ C) as (w & Hw). apply (walk_word a (X name) t C) in Hw as (q & _ & (f & F)).
    unfold final_wt in F. destruct (finals t); [destruct F|discriminate].
  Qed.
  Lemma same_sits : forall b name te t, placed 1 tes b name te -> In (name, t) m -> same_graph a (file_trans to_file t) te -> sits b name t.
  Proof.
    intros b name te t P1 Hin (S1 & S2 & S3 & S4). constructor; [exact Hin|apply (placed_from _ _ _ _ _ P1)|].
    exists te. split; [exact P1|]. split; [exact S1|]. split; [|split; [exact S2|exact S3]].
    destruct S4 as [S4|[S4 S5]]; [rewrite S4; cbn [file_trans f_trans]; apply map_length|]. exfalso.
    rewrite S5 in S2. cbn [file_trans f_finals] in S2. apply (finals_some name t Hin). now destruct (finals t).
  Qed.
  Lemma sits_placed : forall b name te, placed 1 tes b name te -> exists t, sits b name t.
  Proof.
    intros b name te P1. destruct (placed_from _ _ _ _ _ P1) as [Hin _]. destruct (R1 _ _ Hin) as (t & Ht & S). exists t. exact (same_sits _ _ _ _ P1 Ht S).
  Qed.
  Lemma sits_in : forall name t, In (name, t) m -> exists b, sits b name t.
  Proof.
    intros name t Hin. destruct (R2 _ _ Hin) as (te & Hte & S). destruct (placed_in tes 1 name te Hte) as (b & P1).
    exists b. exact (same_sits _ _ _ _ P1 Hin S).
  Qed.

  Lemma arcs_with_in : forall c l o d w, In (o, (d, w)) (arcs_with a c l) <-> exists tag, In (tag, (d, w)) l /\ decode tag a = Ok (c, o).
  Proof.
    intros c l o d w. unfold arcs_with. rewrite in_flat_map. split.
    - intros ([tag [d' w']] & Hin & K). cbn [fst snd] in K. exists tag. destruct (decode tag a) as [[i o']| | | |]; try destruct K.
      destruct (Z.eqb_spec i c); [|destruct K]. destruct K as [K|[]]. injection K as -> -> ->. subst i. auto.
    - intros (tag & Hin & D). exists (tag, (d, w)). split; [exact Hin|]. cbn [fst snd]. rewrite D, Z.eqb_refl. now left.
  Qed.
  Lemma sits_arcs : forall b name t i c o q w, sits b name t -> (i < nstates t)%nat ->
    (In (o, (q, w)) (find (b + i) c) <->
     exists tag d, has_arc t i tag d 0 /\ decode tag a = Ok (c, o) /\ q = (b + d)%nat /\ w = 0).
  Proof.
    clear Hx R1 R2.
    intros b name t i c o q w [Hin _ (te & P1 & _ & Ln & _ & Nf)] Hi. pose proof (Hm _ _ Hin) as C.
    rewrite (find_placed zw tes b name te i c P1) by lia. rewrite Nf, in_map_iff. unfold moved. split.
    - intros ([o' [d w']] & E & K). cbn [fst snd] in E. injection E as -> <- <-. apply arcs_with_in in K as (tag & K & D).
      apply (row_arcs a (X name) t C to_file H0) in K as [K ->]. exists tag, d. auto.
    - intros (tag & d & K & D & -> & ->). exists (o, (d, WFin 0 0)). cbn [fst snd]. rewrite Hz. split; [reflexivity|].
      apply arcs_with_in. exists tag. split; [|exact D]. apply (row_arcs a (X name) t C to_file H0). auto.
  Qed.
  Lemma sits_final : forall sel q w, final_at zw sel 1 tes q w <->
    exists b name t i, sits b name t /\ sel name /\ final_wt t i 0 /\ q = (b + i)%nat /\ w = 0.
  Proof.
    intros sel q w. split.
    - intros (b & name & te & f & fw & P1 & S & F & -> & ->). destruct (sits_placed _ _ _ P1) as (t & St). exists b, name, t, f.
      split; [exact St|]. split; [exact S|]. destruct St as [Hin _ (te' & P2 & _ & L2 & F2 & _)]. pose proof (Hm _ _ Hin) as C.
      destruct (R1 name te (proj1 (placed_from _ _ _ _ _ P1))) as (t1 & Hin1 & S1).
      assert (Sits1 := same_sits _ _ _ _ P1 Hin1 S1).
      assert (te' = te) as ->.
      { destruct Sits1 as [_ _ (te1 & P3 & _ & L3 & _)].
        pose proof (wf_initial t (cm_wf _ _ _ C)) as B1. pose proof (wf_initial t1 (cm_wf _ _ _ (Hm _ _ Hin1))) as B2.
        pose proof (proj2 (proj2 (proj2 S1))) as S4.
        assert (L4 : (0 < length (te_nodes te))%nat).
        { destruct S4 as [S4|[_ S5]]; [rewrite S4; cbn [file_trans f_trans]; rewrite map_length; unfold nstates in B2; lia|].
          exfalso. destruct S1 as (_ & S1 & _). rewrite S5 in S1. cbn [file_trans f_finals] in S1. apply (finals_some name t1 Hin1). now destruct (finals t1). }
        destruct (placed_unique tes 1 b name te' 0 b name te 0 P2 P1) as (_ & _ & E & _); auto; [rewrite L2; lia]. }
      rewrite F2 in F. cbn [file_trans f_finals] in F. apply in_map_iff in F as ([g gw] & E & F). cbn [fst snd] in E.
      pose proof (final_zero a (X name) t C _ _ F) as ->. rewrite H0 in E. injection E as <- <-. auto.
    - intros (b & name & t & i & [Hin _ (te & P1 & _ & _ & F & _)] & S & K & -> & ->).
      exists b, name, te, i, (WFin 0 0). split; [exact P1|]. split; [exact S|]. split; [|auto].
      rewrite F. cbn [file_trans f_finals]. apply in_map_iff. exists (i, 0). cbn [fst snd]. rewrite H0. auto.
  Qed.

  (** ** Runs *)
  Lemma input_cons : forall x v, input (x :: v) = (if fst x =? 0 then [] else [fst x]) ++ input v.
  Proof. intros [i o] v. unfold input. cbn [map fst filter]. destruct (i =? 0); reflexivity. Qed.
  Lemma run_walk : forall b name t, sits b name t -> forall n l s q, rpath find n l s q -> forall i, n = (b + i)%nat -> (i < nstates t)%nat ->
    exists v j, walk a t i v j /\ q = (b + j)%nat /\ l = input v /\ s = entries v.
  Proof.
    intros b name t St n l s q H. pose proof (Hm _ _ (st_in _ _ _ St)) as C.
    induction H as [p|p o q w l s r Hin H IH|p c o q w l s r Hc Hin H IH]; intros i -> Hi.
    - exists [], i. split; [constructor|]. auto.
    - apply (sits_arcs _ _ _ _ _ _ _ _ St Hi) in Hin as (tag & d & K & D & -> & ->).
      destruct (IH d eq_refl (wf_arcs t (cm_wf _ _ _ C) _ _ _ _ K)) as (v & j & W & -> & -> & ->).
      exists ((0, o) :: v), j. split; [econstructor; eauto|]. split; [reflexivity|]. split; [reflexivity|].
      destruct (arc_pair a (X name) t C _ _ _ _ K) as (x & D' & N & _). assert (x = (0, o)) by congruence. subst x.
      destruct (Z.eqb_spec o 0); [subst o; exfalso; now apply N|]. reflexivity.
    - apply (sits_arcs _ _ _ _ _ _ _ _ St Hi) in Hin as (tag & d & K & D & -> & ->).
      destruct (IH d eq_refl (wf_arcs t (cm_wf _ _ _ C) _ _ _ _ K)) as (v & j & W & -> & -> & ->).
      exists ((c, o) :: v), j. split; [econstructor; eauto|]. split; [reflexivity|]. split; [|reflexivity].
      rewrite input_cons. cbn [fst]. destruct (Z.eqb_spec c 0); [contradiction|reflexivity].
  Qed.
  Lemma walk_run : forall b name t, sits b name t -> forall i v j, walk a t i v j -> (i < nstates t)%nat ->
    rpath find (b + i) (input v) (entries v) (b + j).
  Proof.
    intros b name t St i v j H. pose proof (Hm _ _ (st_in _ _ _ St)) as C.
    induction H as [p|p tag q [c o] v r K D H IH]; intros Hi; [constructor|].
    pose proof (wf_arcs t (cm_wf _ _ _ C) _ _ _ _ K) as Hq. specialize (IH Hq).
    assert (Hin : In (o, ((b + q)%nat, 0)) (find (b + p) c)) by (apply (sits_arcs _ _ _ _ _ _ _ _ St Hi); exists tag, q; auto).
    destruct (arc_pair a (X name) t C _ _ _ _ K) as (x & D' & N & _). assert (x = (c, o)) by congruence. subst x.
    rewrite input_cons. cbn [fst]. destruct (Z.eqb_spec c 0) as [->|Hc].
    - replace (entries ((0, o) :: v)) with ((if o =? 0 then [] else [(o, 0)]) ++ entries v).
      + eapply rp_eps; eauto.
      + destruct (Z.eqb_spec o 0); [subst o; exfalso; now apply N|reflexivity].
    - eapply rp_sym; eauto.
  Qed.
  Lemma root_run : forall l s q, rpath find 0 l s q <-> (l = [] /\ s = [] /\ q = 0%nat)
    \/ exists b name t v j, sits b name t /\ walk a t (initial t) v j /\ q = (b + j)%nat /\ l = input v /\ s = entries v.
  Proof.
    intros l s q. split.
    - intros H. inversion H as [|? o q' w l' s' r Hin K|? c o q' w l' s' r Hc Hin K]; subst; [left; auto| |].
      + right. rewrite find_root in Hin. cbn [Z.eqb] in Hin. apply root_arcs_in in Hin as (b & name & te & P1 & E). injection E as -> -> ->.
        destruct (R1 name te (proj1 (placed_from _ _ _ _ _ P1))) as (t & Hin & S). assert (St := same_sits _ _ _ _ P1 Hin S).
        destruct S as (S1 & _). rewrite S1 in K. cbn [file_trans f_initial] in K.
        destruct (run_walk _ _ _ St _ _ _ _ K (initial t) eq_refl) as (v & j & W & -> & -> & ->); [apply (wf_initial t), (Hm _ _ Hin)|].
        exists b, name, t, v, j. cbn [Z.eqb app]. auto.
      + rewrite find_root in Hin. destruct (Z.eqb_spec c 0); [contradiction|destruct Hin].
    - intros [(-> & -> & ->)|(b & name & t & v & j & St & W & -> & -> & ->)]; [constructor|].
      pose proof St as [Hin _ (te & P1 & E & _)].
      change (entries v) with ((if 0 =? 0 then [] else [(0, 0)]) ++ entries v). eapply rp_eps.
      + rewrite find_root. cbn [Z.eqb]. apply root_arcs_in. exists b, name, te. split; [exact P1|reflexivity].
      + rewrite E. apply (walk_run _ _ _ St _ _ _ W). apply (wf_initial t), (Hm _ _ Hin).
  Qed.
  (** What is read up to a final node is a word. *)
  Lemma run_word : forall sel fins l s, (forall q w, In (q, w) fins <-> final_at zw sel 1 tes q w) ->
    ((exists q, rpath find 0 l s q /\ In (q, 0) fins) <-> exists name v, sel name /\ X name v /\ l = input v /\ s = entries v).
  Proof.
    intros sel fins l s Hf. split.
    - intros (q & H & F). apply Hf, sits_final in F as (b & name & t & i & St & S & F & -> & _).
      apply root_run in H as [(_ & _ & H)|(b' & name' & t' & v & j & St' & W & E & -> & ->)]; [destruct St as [_ B _]; lia|].
      pose proof (Hm _ _ (st_in _ _ _ St)) as C. pose proof (Hm _ _ (st_in _ _ _ St')) as C'.
      assert (Bi := wf_finals t (cm_wf _ _ _ C) _ _ F). assert (Bj := walk_end a (X name') t' C' _ _ _ W (wf_initial t' (cm_wf _ _ _ C'))).
      pose proof St as [Hin _ (te & P1 & _ & L1 & F1 & _)]. pose proof St' as [Hin' _ (te' & P1' & _ & L1' & F1' & _)].
      destruct (placed_unique tes 1 b name te i b' name' te' j P1 P1') as (E1 & E2 & E3 & E4); [lia|lia|exact E|]. subst b' name' te' j.
      exists name, v. split; [exact S|]. split; [|auto]. apply (walk_word a (X name) t' C'). exists i. split; [exact W|].
      rewrite F1 in F1'. assert (K : In (i, WFin 0 0) (f_finals (file_trans to_file t'))).
      { rewrite <- F1'. cbn [file_trans f_finals]. apply in_map_iff. exists (i, 0). cbn [fst snd]. rewrite H0. auto. }
      cbn [file_trans f_finals] in K. apply in_map_iff in K as ([g gw] & Eg & K). cbn [fst snd] in Eg. injection Eg as -> _. now exists gw.
    - intros (name & v & S & Hv & -> & ->). destruct (Hx _ _ Hv) as (t & Hin). pose proof (Hm _ _ Hin) as C. destruct (sits_in _ _ Hin) as (b & St).
      destruct (proj2 (walk_word a (X name) t C v) Hv) as (j & W & (f & F)). pose proof (final_zero a (X name) t C _ _ F) as ->. exists (b + j)%nat. split.
      + apply root_run. right. exists b, name, t, v, j. auto.
      + apply Hf, sits_final. exists b, name, t, j. auto.
  Qed.
  Lemma run_prefix : forall l s, (exists q, rpath find 0 l s q) <->
    (l = [] /\ s = []) \/ exists name v v', X name (v ++ v') /\ l = input v /\ s = entries v.
  Proof.
    intros l s. split.
    - intros (q & H). apply root_run in H as [(-> & -> & _)|(b & name & t & v & j & St & W & _ & -> & ->)]; [now left|right].
      pose proof (Hm _ _ (st_in _ _ _ St)) as C. destruct (proj1 (walk_prefix a (X name) t C v) (ex_intro _ j W)) as (v' & Hv). exists name, v, v'. auto.
    - intros [(-> & ->)|(name & v & v' & Hv & -> & ->)]; [exists 0%nat; constructor|].
      destruct (Hx _ _ Hv) as (t & Hin). pose proof (Hm _ _ Hin) as C. destruct (sits_in _ _ Hin) as (b & St).
      destruct (proj2 (walk_prefix a (X name) t C v) (ex_intro _ v' Hv)) as (j & W). exists (b + j)%nat. apply root_run. right. exists b, name, t, v, j. auto.
  Qed.
End Whole.

(** * Cycles *)
Section Depth.
  Context (find : nat -> Z -> list (Z * (nat * Z))).
  Fixpoint depth (n p : nat) : nat :=
    match n with
    | O => O
    | S n => fold_right (fun x k => Nat.max (S (depth n (fst (snd x)))) k) 0%nat (find p 0)
    end.
  Inductive silent_path : nat -> nat -> Prop :=
  | sp_nil p : silent_path p 0
  | sp_cons p o q w k : In (o, (q, w)) (find p 0) -> silent_path q k -> silent_path p (S k).
  Lemma max_in : forall (f : Z * (nat * Z) -> nat) l x, In x l -> (S (f x) <= fold_right (fun x k => Nat.max (S (f x)) k) 0 l)%nat.
  Proof. intros f l x. induction l as [|y l IH]; intros H; [destruct H|]. cbn [fold_right]. destruct H as [->|H]; [lia|apply IH in H; lia]. Qed.
  Lemma max_or : forall (f : Z * (nat * Z) -> nat) l, let k := fold_right (fun x k => Nat.max (S (f x)) k) 0%nat l in
    (k = 0 \/ exists x, In x l /\ k = S (f x))%nat.
  Proof.
    intros f l. induction l as [|y l IH]; cbn [fold_right]; [now left|]. right. destruct IH as [->|(x & Hx & ->)].
    - exists y. split; [now left|lia].
    - destruct (Nat.max_spec (S (f y)) (S (f x))) as [[_ ->]|[_ ->]]; [exists x|exists y]; split; try reflexivity; [now right|now left].
  Qed.
  Lemma depth_path : forall n p, silent_path p (depth n p).
  Proof.
    induction n as [|n IH]; intros p; [constructor|]. cbn [depth]. destruct (max_or (fun x => depth n (fst (snd x))) (find p 0)) as [->|([o [q w]] & Hx & ->)]; [constructor|].
    cbn [fst snd]. econstructor; [exact Hx|apply IH].
  Qed.
  Lemma depth_steady : forall n p, (depth n p < n)%nat -> depth (S n) p = depth n p.
  Proof.
    induction n as [|n IH]; intros p H; [lia|]. change (depth (S (S n)) p) with (fold_right (fun x k => Nat.max (S (depth (S n) (fst (snd x)))) k) 0%nat (find p 0)).
    cbn [depth] in H |- *. assert (K : forall x, In x (find p 0) -> (depth n (fst (snd x)) < n)%nat).
    { intros x Hx. apply (max_in (fun x => depth n (fst (snd x)))) in Hx. lia. }
    clear H. fold (depth (S n)). induction (find p 0) as [|x l IHl]; [reflexivity|]. cbn [fold_right]. rewrite IHl by (intros y Hy; apply K; now right).
    f_equal. f_equal. apply (IH (fst (snd x))). apply K. now left.
  Qed.
  Lemma bounded_acyclic : forall N, (forall p k, silent_path p k -> (k <= N)%nat) -> eps_acyclic find.
  Proof.
    intros N H. exists (depth (S N)). intros p o q w Hin. rewrite <- (depth_steady (S N) p) by (pose proof (H _ _ (depth_path (S N) p)); lia).
    apply (max_in (fun x => depth (S N) (fst (snd x)))) in Hin. cbn [fst snd] in Hin. exact Hin.
  Qed.
End Depth.

(** * Words have a bounded number of pairs that read nothing *)
Definition few (X : pset) : Prop := exists N, forall w, X w -> (unread w <= N)%nat.
Lemma unread_length : forall w, (unread w <= length w)%nat.
Proof. intros w. unfold unread. induction w as [|x w IH]; cbn [filter length]; [lia|]. destruct (fst x =? 0); cbn [length]; lia. Qed.
Lemma element_few : forall b env el, (forall n, few (env n)) -> few (element_set b env el).
Proof.
  intros b env [l r w|n|er] He; cbn [element_set]; [| apply He |].
  - exists (length (if b then align l r else align r l)). intros v ->. apply unread_length.
  - exists 0%nat. intros v (r & cs & _ & _ & _ & ->). unfold unread, same_pairs.
    induction cs as [|c cs IH]; [cbn; lia|]. cbn [filter]. destruct (Z.eqb_spec c 0); cbn [negb]; [exact IH|].
    cbn [map filter fst]. destruct (Z.eqb_spec c 0); [contradiction|exact IH].
Qed.
Lemma entry_few : forall b env els, (forall n, few (env n)) -> few (entry_set b env els).
Proof.
  intros b env els He. induction els as [|el els (N & IH)]; cbn [entry_set].
  - exists 0%nat. intros w ->. cbn. lia.
  - destruct (element_few b env el He) as (M & HM). exists (M + N)%nat. intros w (u & v & -> & Hu & Hv). rewrite unread_app.
    apply HM in Hu. apply IH in Hv. lia.
Qed.
Lemma entries_few : forall b env es, (forall n, few (env n)) -> few (entries_set b env es).
Proof.
  intros b env es He. induction es as [|els es (N & IH)].
  - exists 0%nat. intros w (els & [] & _).
  - destruct (entry_few b env els He) as (M & HM). exists (Nat.max M N). intros w (els' & [<-|Hin] & Hw).
    + apply HM in Hw. lia.
    + assert (unread w <= N)%nat; [apply IH; exists els'; auto|lia].
Qed.
Lemma sections_few : forall b items env, (forall n, few (env n)) ->
  exists N, forall name w, section_set b env items name w -> (unread w <= N)%nat.
Proof.
  intros b items. induction items as [|[n es|n es] items IH]; intros env He; cbn [section_set].
  - exists 0%nat. intros name w [].
  - apply IH. intros k. unfold define. destruct (ustr_eq_dec k n); [now apply entries_few|apply He].
  - destruct (IH env He) as (N & HN). destruct (entries_few b env es He) as (M & HM). exists (Nat.max M N). intros name w [[_ H]|H].
    + apply HM in H. lia.
    + apply HN in H. lia.
Qed.
Lemma no_words_few : few no_words.
Proof. exists 0%nat. intros w []. Qed.

Section Ends.
  Context (a : alphabet) (X : ustr -> pset) (m : list (ustr * transducer)) (tes : list (ustr * texe))
    (to_file : Z -> weight) (zw : weight -> Z).
  Context (H0 : to_file 0 = WFin 0 0) (Hz : zw (WFin 0 0) = 0).
  Context (Hm : forall name t, In (name, t) m -> compiled a (X name) t)
    (R1 : forall name te, In (name, te) tes -> exists t, In (name, t) m /\ same_graph a (file_trans to_file t) te)
    (Few : exists N, forall name w, X name w -> (unread w <= N)%nat).
  Notation find := (graph_find zw tes).
  Lemma node_sits : forall n c x, In x (find n c) -> n <> 0%nat -> exists b name t i, sits a m tes to_file b name t /\ (i < nstates t)%nat /\ n = (b + i)%nat.
  Proof.
    intros n c x H N. destruct (find_where zw tes n c _ H) as [->|(b & name & te & i & P1 & Hi & ->)]; [contradiction|].
    destruct (R1 name te (proj1 (placed_from _ _ _ _ _ P1))) as (t & Hin & S). assert (St := same_sits a X m tes to_file Hm _ _ _ _ P1 Hin S).
    exists b, name, t, i. split; [exact St|]. split; [|reflexivity].
    destruct S as (_ & S2 & _ & [S4|[S4 S5]]); [rewrite S4 in Hi; cbn [file_trans f_trans] in Hi; rewrite map_length in Hi; exact Hi|].
    rewrite S4 in Hi. cbn in Hi. lia.
  Qed.
  Lemma silent_walk : forall b name t, sits a m tes to_file b name t -> forall n k, silent_path find n k -> forall i, n = (b + i)%nat -> (i < nstates t)%nat ->
    exists v j, walk a t i v j /\ unread v = k.
  Proof.
    intros b name t St n k H. pose proof (Hm _ _ (st_in _ _ _ _ _ _ _ St)) as C.
    induction H as [p|p o q w k Hin H IH]; intros i -> Hi; [exists [], i; split; [constructor|reflexivity]|].
    apply (sits_arcs a X m tes to_file zw H0 Hz Hm b name t _ _ _ _ _ St Hi) in Hin as (tag & d & K & D & -> & ->).
    destruct (IH d eq_refl (wf_arcs t (cm_wf _ _ _ C) _ _ _ _ K)) as (v & j & W & <-). exists ((0, o) :: v), j. split; [econstructor; eauto|reflexivity].
  Qed.
  Lemma graph_acyclic : eps_acyclic find.
  Proof.
    destruct Few as (N & HN). apply (bounded_acyclic find (S N)).
    assert (Inner : forall p k, silent_path find p k -> p <> 0%nat -> (k <= N)%nat).
    { intros p k H Np. destruct H as [p|p o q w k Hin H]; [lia|]. destruct (node_sits _ _ _ Hin Np) as (b & name & t & i & St & Hi & ->).
      destruct (silent_walk _ _ _ St (b + i)%nat (S k)) with (i := i) as (v & j & W & E); [econstructor; eauto|reflexivity|exact Hi|].
      pose proof (Hm _ _ (st_in _ _ _ _ _ _ _ St)) as C. destruct (walk_within a (X name) t C _ _ _ W Hi) as (u & w' & Hw). apply HN in Hw.
      rewrite !unread_app in Hw. lia. }
    intros p k H. destruct H as [p|p o q w k Hin H]; [lia|]. destruct (Nat.eq_dec p 0) as [->|Np].
    - assert (q <> 0%nat); [|apply Inner in H; [lia|assumption]]. rewrite find_root in Hin. cbn [Z.eqb] in Hin.
      apply root_arcs_in in Hin as (b & name & te & P1 & E). injection E as -> -> ->. apply placed_from in P1 as [_ B]. lia.
    - assert (S k <= N)%nat; [|lia]. apply (Inner p); [econstructor; eauto|exact Np].
  Qed.
  (** Every arc lies in a word. *)
  Lemma graph_arcs : forall n c o q w, In (o, (q, w)) (find n c) -> w = 0 /\
    ((n = 0%nat /\ c = 0 /\ o = 0) \/ exists name v, X name v /\ In (c, o) v).
  Proof.
    intros n c o q w H. destruct (Nat.eq_dec n 0) as [->|Nn].
    - rewrite find_root in H. destruct (Z.eqb_spec c 0); [|destruct H]. apply root_arcs_in in H as (b & name & te & _ & E). injection E as -> -> ->. auto.
    - destruct (node_sits _ _ _ H Nn) as (b & name & t & i & St & Hi & ->). pose proof (Hm _ _ (st_in _ _ _ _ _ _ _ St)) as C.
      apply (sits_arcs a X m tes to_file zw H0 Hz Hm b name t _ _ _ _ _ St Hi) in H as (tag & d & K & D & _ & ->). split; [reflexivity|]. right.
      destruct (walk_within a (X name) t C i [(c, o)] d) as (u & v & Hw); [econstructor; [exact K|exact D|constructor]|exact Hi|].
      exists name, (u ++ [(c, o)] ++ v). split; [exact Hw|]. apply in_or_app. right. now left.
  Qed.
End Ends.

(** * Writing and loading *)
(** What the file format can hold *)
Definition dict_fits (letters : ustr) (a : alphabet) (m : list (ustr * transducer)) : Prop :=
  alphabet_fits a /\ name_ok letters /\ Z.of_nat (length m) < 2 ^ 30
  /\ forall name t, In (name, t) m -> name_ok name /\ Z.of_nat (nstates t) < 2 ^ 30.
Lemma Forall2_in_l : forall {B D} (R : B -> D -> Prop) l l' x, Forall2 R l l' -> In x l -> exists y, In y l' /\ R x y.
Proof. intros B D R l l' x F. induction F as [|u v l l' Huv F IH]; intros H; [destruct H|]. destruct H as [->|H]; [exists v; split; [now left|exact Huv]|]. destruct (IH H) as (y & Hy & K). exists y. split; [now right|exact K]. Qed.
Lemma Forall2_in_r : forall {B D} (R : B -> D -> Prop) l l' y, Forall2 R l l' -> In y l' -> exists x, In x l /\ R x y.
Proof. intros B D R l l' y F. induction F as [|u v l l' Huv F IH]; intros H; [destruct H|]. destruct H as [->|H]; [exists u; split; [now left|exact Huv]|]. destruct (IH H) as (x & Hx & K). exists x. split; [now right|exact K]. Qed.

Lemma write_load : forall a (X : ustr -> pset) m to_file letters, alph_inv0 a -> to_file 0 = WFin 0 0 ->
  (forall name t, In (name, t) m -> compiled a (X name) t) -> NoDup (map fst m) -> dict_fits letters a m ->
  exists bs, compiler_write to_file letters a m = Ok bs /\ forall rest, bytes rest ->
    exists tes, load (bs ++ rest) = Ok (insert_all (ustring_to_vec32 letters) [], includeSymbol ANY_CHAR a, tes)
      /\ (forall name te, In (name, te) tes -> exists t, In (name, t) m /\ same_graph a (file_trans to_file t) te)
      /\ (forall name t, In (name, t) m -> exists te, In (name, te) tes /\ same_graph a (file_trans to_file t) te).
Proof.
  intros a X m to_file letters Ha H0 Hm ND (A & Hl & Ln & Fit). set (l := map (fun x : ustr * transducer => (fst x, file_trans to_file (snd x))) (by_name m)).
  assert (Ok_ : forall name t, In (name, t) l -> exists t0, In (name, t0) m /\ t = file_trans to_file t0).
  { intros name t H. unfold l in H. apply in_map_iff in H as ([n t0] & E & H). cbn [fst snd] in E. injection E as -> <-.
    exists t0. split; [now apply (proj1 (by_name_in _ _))|reflexivity]. }
  destruct (dict_exe_rt letters a l) as (bs & E & R).
  - exact Hl.
  - apply Ha.
  - now apply fits_ok.
  - unfold l. rewrite map_map. cbn [fst]. now apply (by_name_nodup m).
  - unfold l. rewrite map_length, by_name_length. exact Ln.
  - intros name t H. destruct (Ok_ name t H) as (t0 & Hin & ->). destruct (Fit name t0 Hin) as [F1 F2].
    destruct (file_fits a (X name) t0 (Hm _ _ Hin) to_file H0 A F2) as (G1 & G2 & _). auto.
  - exists bs. split; [exact E|]. intros rest Hr. destruct (R rest Hr) as (tes & Et & Ag). exists (by_name tes). unfold load. rewrite Et. cbn [obind].
    split; [reflexivity|].
    assert (So : sections_out l = l).
    { unfold sections_out. rewrite <- (map_id l) at 2. apply map_ext_in. intros [name t] H. cbn [fst snd]. destruct (Ok_ name t H) as (t0 & Hin & ->).
      destruct (Fit name t0 Hin) as [F1 F2]. destruct (file_fits a (X name) t0 (Hm _ _ Hin) to_file H0 A F2) as (_ & _ & G3). now rewrite G3. }
    rewrite So in Ag. unfold sections_agree in Ag. split.
    + intros name te H. apply (proj1 (by_name_in _ _)) in H. destruct (Forall2_in_r _ _ _ _ Ag H) as ([n t] & Hx & E1 & E2). cbn [fst snd] in E1, E2. subst n.
      destruct (Ok_ name t Hx) as (t0 & Hin & ->). eauto.
    + intros name t H. assert (K : In (name, file_trans to_file t) l).
      { unfold l. apply in_map_iff. exists (name, t). split; [reflexivity|]. now apply (proj2 (by_name_in _ _)). }
      destruct (Forall2_in_l _ _ _ _ Ag K) as ([n te] & Hy & E1 & E2). cbn [fst snd] in E1, E2. subst n. exists te. split; [now apply (proj2 (by_name_in _ _))|exact E2].
Qed.
