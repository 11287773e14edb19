(** Properties C15-C24: closures, determinisation, reversal, minimisation, rational
    operations and insertion.  [eps] is the tag of the epsilon pair (0 in the code). *)
From Verif Require Import Base SortedVectorModel SortedVectorProofs TransducerModel
  TransducerSpec TransducerProofs NatSets ClosureProofs DeterminizeProofs ReverseProofs
  MinimizeProofs RationalSpec RationalProofs.

(** ** Well-formedness can be checked, for the examples *)
Definition arcs_sortedb (l : list arc) : bool :=
  (fix go l := match l with
   | [] => true
   | a :: r => forallb (fun b => a_tag a <=? a_tag b) r && go r
   end) l.
Definition finals_sortedb (l : list (nat * Z)) : bool :=
  (fix go l := match l with
   | [] => true
   | a :: r => forallb (fun b => (fst a <? fst b)%nat) r && go r
   end) l.
Definition wfb (t : transducer) : bool :=
  (initial t <? nstates t)%nat
  && forallb (fun f => (fst f <? nstates t)%nat) (finals t)
  && finals_sortedb (finals t)
  && forallb (fun l => arcs_sortedb l && forallb (fun a => (a_dst a <? nstates t)%nat) l) (trans t).

Lemma wfb_wf : forall t, wfb t = true -> wf t.
Proof.
  intros t H. unfold wfb in H. apply andb_true_iff in H as [H H4]. apply andb_true_iff in H as [H H3].
  apply andb_true_iff in H as [H1 H2]. rewrite forallb_forall in H2, H4.
  assert (A : forall p, arcs_sortedb (arcs_of t p) = true /\ forall a, In a (arcs_of t p) -> (a_dst a < nstates t)%nat).
  { intros p. unfold arcs_of. destruct (nth_in_or_default p (trans t) []) as [Hin|E].
    - apply H4 in Hin. apply andb_true_iff in Hin as [Hs Ha]. split; [exact Hs|]. rewrite forallb_forall in Ha.
      intros a Hin. now apply Nat.ltb_lt, Ha.
    - rewrite E. split; [reflexivity|intros a []]. }
  constructor.
  - now apply Nat.ltb_lt.
  - intros p f Hf. apply H2 in Hf. now apply Nat.ltb_lt.
  - clear - H3. unfold finals_sorted. induction (finals t) as [|a l IH]; [constructor|].
    cbn in H3. apply andb_true_iff in H3 as [Ha Hl]. constructor; [now apply IH|]. apply Forall_forall. intros b Hb.
    rewrite forallb_forall in Ha. now apply Nat.ltb_lt, Ha.
  - intros p a q w Ha. now apply (proj2 (A p) (a, (q, w))).
  - intros p. destruct (A p) as [S _]. revert S. unfold arcs_sorted. generalize (arcs_of t p).
    induction l as [|a l IH]; [constructor|]. cbn. intros S. apply andb_true_iff in S as [Ha Hl].
    constructor; [now apply IH|]. apply Forall_forall. intros b Hb. rewrite forallb_forall in Ha. now apply Z.leb_le, Ha.
Qed.

(** So can paths. *)
Fixpoint run (t : transducer) (p : nat) (l : list label) : list nat :=
  match l with
  | [] => [p]
  | (a, w) :: r =>
      flat_map (fun x => if (a_tag x =? a) && (a_wt x =? w) then run t (a_dst x) r else [])
        (arcs_of t p)
  end.
Lemma run_path : forall t l p q, In q (run t p l) <-> path t p l q.
Proof.
  intros t. induction l as [|[a w] l IH]; intros p q; cbn [run].
  - split; [intros [<-|[]]; constructor|]. intros H. inversion H. now left.
  - rewrite in_flat_map. split.
    + intros ([b [r v]] & Hin & H). unfold a_tag, a_wt, a_dst in H. cbn [fst snd] in H.
      destruct (Z.eqb_spec b a) as [->|]; [|contradiction]. destruct (Z.eqb_spec v w) as [->|]; [|contradiction].
      econstructor; [exact Hin|]. now apply IH.
    + intros H. inversion H as [|? ? ? r ? ? Ha Hp]; subst. exists (a, (r, w)). split; [exact Ha|].
      unfold a_tag, a_wt, a_dst. cbn [fst snd]. rewrite !Z.eqb_refl. now apply IH.
Qed.
Ltac run := apply run_path; vm_compute; tauto.

(** Case analysis on the paths of a concrete transducer. *)
Ltac path_cases :=
  repeat match goal with
  | H : In _ [] |- _ => destruct H
  | H : In _ _ |- _ => progress cbn in H
  | H : _ \/ _ |- _ => destruct H
  | H : False |- _ => destruct H
  | H : (_, _) = (_, _) |- _ => injection H; clear H; intros; subst
  | H : has_arc _ _ _ _ _ |- _ => unfold has_arc, arcs_of in H
  | H : path ?t ?p ?l ?q |- _ => is_ground p; inversion H; clear H; subst
  end.


(** A transducer for the examples: 0 -1-> 1, an epsilon cycle between 1 and 2, a
    weighted epsilon from 2 to 3, and two arcs from 2 with tag 5. *)
Definition tA : transducer :=
  mkT 0 [(1%nat, 0); (3%nat, 2)]
    [[(1, (1%nat, 0))]; [(0, (2%nat, 0))]; [(0, (1%nat, 0)); (0, (3%nat, 4)); (5, (0%nat, 1)); (5, (3%nat, 1))]; []].
Lemma tA_wf : wf tA. Proof. apply wfb_wf. reflexivity. Qed.

(** * C15 *)
Theorem C15_closure : forall t s tags, wf t -> (s < nstates t)%nat ->
  exists r, closure t s tags = Ok r /\ NoDup r
    /\ forall q, In q r <-> tag_reach t tags s q.
Proof.
  intros t s tags W Hs. destruct (closure_spec t tags s W Hs) as (r & H1 & H2 & H3).
  exists r. split; [exact H1|]. split; [now apply nset_NoDup|exact H3].
Qed.

Theorem C15_closure_all : forall t eps, wf t ->
  exists r, closure_all t eps = Ok r /\ length r = nstates t
    /\ (forall i, NoDup (nth i r []))
    /\ forall i j, (i < nstates t)%nat -> (In j (nth i r []) <-> eps_reach t eps i j).
Proof.
  intros t eps W. destruct (closure_all_spec t eps W) as (r & H1 & H2 & H3 & H4).
  exists r. split; [exact H1|]. split; [exact H2|]. split; [|exact H4].
  intros i. now apply nset_NoDup.
Qed.

(** Where every epsilon arc is unweighted the two agree. *)
Theorem C15_agree : forall t eps r i c, wf t -> (i < nstates t)%nat ->
  (forall p q w, has_arc t p eps q w -> w = 0) ->
  closure_all t eps = Ok r -> closure t i [eps] = Ok c -> nth i r [] = c.
Proof.
  intros t eps r i c W Hi Hz H1 H2.
  destruct (closure_all_spec t eps W) as (r' & H1' & _ & N & H3). rewrite H1 in H1'. injection H1' as <-.
  destruct (closure_spec t [eps] i W Hi) as (c' & H2' & Nc & H4). rewrite H2 in H2'. injection H2' as <-.
  apply nset_ext; [apply N|exact Nc|]. intros x. rewrite H3 by exact Hi. rewrite H4. split.
  - intros H. clear - H. induction H as [|p q r' Ha H IH]; [constructor|]. eapply tr_step; [now left|exact Ha|exact IH].
  - intros H. clear - H Hz. induction H as [|p q r' a w [<-|[]] Ha H IH]; [constructor|]. econstructor; [|eauto].
    now rewrite (Hz _ _ _ Ha) in Ha.
Qed.

Example C15_example : closure tA 1 [0] = Ok [1; 2; 3]%nat /\ closure tA 1 [0; 5] = Ok [0; 1; 2; 3]%nat
  /\ closure_all tA 0 = Ok [[0]; [1; 2]; [1; 2]; [3]]%nat.
Proof. repeat split. Qed.

(** * C16 *)
Theorem C16_determinize : forall t eps, wf t ->
  exists d, determinize eps t = Ok d /\ forall l, label_lang d eps l <-> label_lang t eps l.
Proof.
  intros t eps W. destruct (determinize_subset t eps W) as (Q & d & H & SA).
  exists d. split; [exact H|]. apply (subset_label t eps Q d SA).
Qed.

Example C16_example : exists d, determinize 0 tA = Ok d
  /\ nstates d = 4%nat /\ label_lang d 0 [(1, 0); (5, 1); (1, 0); (0, 4)].
Proof.
  destruct (C16_determinize tA 0 tA_wf) as (d & E & L). exists d. split; [exact E|]. split.
  - assert (X : determinize 0 tA = determinize 0 tA) by reflexivity. rewrite E in X at 1.
    vm_compute in X. injection X as ->. reflexivity.
  - apply L. exists [(1, 0); (0, 0); (5, 1); (1, 0); (0, 0); (0, 4)], 2. split; [|reflexivity].
    exists 3%nat. split; [run|cbn; auto].
Qed.

(** * C17 *)
Theorem C17_deterministic : forall t eps d, wf t -> determinize eps t = Ok d ->
  wf d /\ deterministic d eps /\ accessible d /\ initial d = 0%nat.
Proof.
  intros t eps d W H. destruct (determinize_subset t eps W) as (Q & d' & H' & SA). rewrite H in H'. injection H' as <-.
  split; [apply (sa_wf _ _ _ _ SA)|]. split; [apply (sa_det _ _ _ _ SA)|].
  split; [apply (sa_acc _ _ _ _ SA)|apply (sa_initial _ _ _ _ SA)].
Qed.

Example C17_example : determinize 0 tA = Ok (mkT 0 [(1%nat, 0); (2%nat, 0); (3%nat, 2)]
  [[(1, (1%nat, 0))]; [(0, (2%nat, 4)); (5, (3%nat, 1))]; []; [(1, (1%nat, 0))]]).
Proof. vm_compute. reflexivity. Qed.

(** * C18.  False of the code: the final weight is looked up under the number of the new
    state.  The example swaps the weights of two words. *)
Definition t18 : transducer :=
  mkT 0 [(1%nat, 7); (2%nat, 5)] [[(1, (2%nat, 0)); (2, (1%nat, 0))]; []; []].
Theorem C18_refuted : exists t d w c, wf t /\ determinize 0 t = Ok d
  /\ wlang t 0 w c /\ ~ wlang d 0 w c.
Proof.
  exists t18. eexists. exists [1], 5. split; [apply wfb_wf; reflexivity|]. split; [vm_compute; reflexivity|]. split.
  - exists [(1, 0)], 5. split; [|auto]. exists 2%nat. split; [run|cbn; auto].
  - intros (l & f & (q & Hp & Hf) & Hw & Hc). unfold final_wt in Hf. cbn in Hp.
    path_cases; cbn in *; try discriminate; try lia.
Qed.

(** Reversal loses the weight of a lone final state. *)
Theorem C18_reverse_refuted : exists t r w c, wf t /\ reverse 0 t = Ok r
  /\ wlang t 0 w c /\ ~ wlang r 0 (rev w) c.
Proof.
  exists (mkT 0 [(1%nat, 5)] [[(1, (1%nat, 0))]; []]). eexists. exists [1], 5.
  split; [apply wfb_wf; reflexivity|]. split; [vm_compute; reflexivity|]. split.
  - exists [(1, 0)], 5. split; [|auto]. exists 1%nat. split; [run|cbn; auto].
  - intros (l & f & (q & Hp & Hf) & Hw & Hc). unfold final_wt in Hf. cbn in Hp.
    path_cases; cbn in *; try discriminate; try lia.
Qed.

(** What is true: with default final weights determinisation keeps every weight. *)
Theorem C18_default_partial : forall t eps d, wf t -> finals_default t -> determinize eps t = Ok d ->
  forall w c, wlang d eps w c <-> wlang t eps w c.
Proof.
  intros t eps d W D H w c. destruct (C16_determinize t eps W) as (d' & H' & L). rewrite H in H'. injection H' as <-.
  rewrite (label_wlang t eps w c D), (label_wlang d eps w c (determinize_default t eps d W D H)).
  split; intros (l & H1 & H2); exists l; (split; [now apply L|exact H2]).
Qed.

(** In general a final state of the result carries the default weight or the weight of
    the old state that happens to have the same number. *)
Theorem C18_where_from : forall t eps d i f, wf t -> determinize eps t = Ok d -> final_wt d i f ->
  f = 0 \/ final_wt t i f.
Proof.
  intros t eps d i f W H Hf. destruct (determinize_weights t eps d H i f Hf) as [->|E]; [auto|].
  right. now apply fin_find_some in E; [|apply (wf_finals_sorted t W)].
Qed.

Example C18_example : exists d, determinize 0 t18 = Ok d /\ finals d = [(1%nat, 7); (2%nat, 5)]
  /\ trans d = [[(1, (1%nat, 0)); (2, (2%nat, 0))]; []; []].
Proof. eexists. split; [vm_compute; reflexivity|]. split; reflexivity. Qed.

(** * C19 *)
Theorem C19_joinFinals : forall t eps, wf t -> finals t <> [] ->
  exists j, joinFinals eps t = Ok j /\ wf j /\ length (finals j) = 1%nat
    /\ forall w c, wlang j eps w c <-> wlang t eps w c.
Proof.
  intros t eps W H. destruct (joinFinals_spec eps t W H) as (j & H1 & H2 & J).
  exists j. split; [exact H1|]. split; [exact H2|]. split; [|intros; now apply joined_wlang].
  destruct (joined_single _ _ _ J) as (f & ->). reflexivity.
Qed.

Theorem C19_no_finals : forall t eps, finals t = [] -> joinFinals eps t = Exit.
Proof. intros t eps H. unfold joinFinals. now rewrite H. Qed.

Example C19_example : exists j, joinFinals 0 tA = Ok j /\ finals j = [(4%nat, 0)] /\ wlang j 0 [1] 6.
Proof.
  destruct (C19_joinFinals tA 0 tA_wf ltac:(discriminate)) as (j & E & _ & _ & L). exists j.
  split; [exact E|]. split; [vm_compute in E; injection E as <-; reflexivity|]. apply L.
  exists [(1, 0); (0, 0); (0, 4)], 2. split; [|auto]. exists 3%nat. split; [run|cbn; auto].
Qed.

(** * C20 *)
(** The labels are mirrored when no final state carries a weight. *)
Theorem C20_reverse_labels : forall t eps, wf t -> finals t <> [] -> finals_default t ->
  exists r, reverse eps t = Ok r /\ wf r /\ forall l, label_lang r eps l <-> label_lang t eps (rev l).
Proof.
  intros t eps W H D. destruct (reverse_spec eps t W H) as (j & r & H1 & Wj & J & R). exists r.
  split; [exact H1|]. split; [apply (re_wf _ _ R)|]. intros l.
  rewrite (reversed_label j r eps l R). now apply joined_label.
Qed.

(** The weighted words are mirrored, unless there was just one final state and it
    carried a weight: then that weight is missing. *)
Theorem C20_reverse : forall t eps, wf t -> finals t <> [] ->
  exists r lost, reverse eps t = Ok r /\ wf r
    /\ (length (finals t) <> 1%nat -> lost = 0) /\ (forall p f, finals t = [(p, f)] -> lost = f)
    /\ forall w c, wlang r eps w c <-> wlang t eps (rev w) (c + lost).
Proof.
  intros t eps W H. destruct (reverse_spec eps t W H) as (j & r & H1 & Wj & J & R).
  destruct (re_initial _ _ R) as (lost & Hl). exists r, lost.
  split; [exact H1|]. split; [apply (re_wf _ _ R)|]. split; [|split].
  - intros Hn. destruct J as [p f E|j _ _ _ _ E _]; [rewrite E in Hn; cbn in Hn; lia|]. congruence.
  - intros p f E. destruct J as [p' f' E'|j L _ _ _ _ _]; [congruence|]. rewrite E in L. cbn in L. lia.
  - intros w c. rewrite (reversed_wlang j r eps w c R). rewrite <- (joined_wlang eps t j _ _ W J). split.
    + intros (f & E & X). assert (f = lost) as -> by congruence. exact X.
    + intros X. exists lost. auto.
Qed.

Theorem C20_twice : forall t eps, wf t -> finals t <> [] -> finals_default t ->
  exists r r2, reverse eps t = Ok r /\ reverse eps r = Ok r2
    /\ (forall l, label_lang r2 eps l <-> label_lang t eps l)
    /\ forall w c, wlang r2 eps w c <-> wlang t eps w c.
Proof.
  intros t eps W H D. destruct (reverse_spec eps t W H) as (j & r & H1 & Wj & J & R).
  destruct (C20_reverse_labels t eps W H D) as (r' & H1' & Wr & L1). rewrite H1 in H1'. injection H1' as <-.
  assert (Dr := reversed_default j r R).
  assert (Nr : finals r <> []) by (rewrite (re_final _ _ R); discriminate).
  destruct (reverse_spec eps r Wr Nr) as (j2 & r2 & H2 & Wj2 & J2 & R2).
  destruct (C20_reverse_labels r eps Wr Nr Dr) as (r2' & H2' & Wr2 & L2). rewrite H2 in H2'. injection H2' as <-.
  exists r, r2. split; [exact H1|]. split; [exact H2|].
  assert (L : forall l, label_lang r2 eps l <-> label_lang t eps l).
  { intros l. rewrite L2, L1. now rewrite rev_involutive. }
  split; [exact L|]. intros w c. rewrite (label_wlang t eps w c D), (label_wlang r2 eps w c (reversed_default j2 r2 R2)).
  split; intros (l & X & Y); exists l; (split; [now apply L|exact Y]).
Qed.

Example C20_example : exists r, reverse 0 tA = Ok r /\ initial r = 4%nat /\ wlang r 0 [1; 5; 1] 1.
Proof.
  destruct (C20_reverse tA 0 tA_wf ltac:(discriminate)) as (r & lost & E & _ & Hl & _ & L).
  rewrite Hl in L by discriminate. exists r. split; [exact E|].
  split; [vm_compute in E; injection E as <-; reflexivity|]. apply L.
  exists [(1, 0); (0, 0); (5, 1); (1, 0)], 0. split; [|auto]. exists 1%nat. split; [run|cbn; auto].
Qed.

(** * C21 *)
Theorem C21_minimize : forall t eps, wf t -> (exists w, lang t eps w) ->
  exists m, minimize eps t = Ok m /\ wf m /\ (forall w, lang m eps w <-> lang t eps w)
    /\ ((length (finals t) <> 1%nat \/ finals_default t) ->
        forall w c, wlang m eps w c <-> wlang t eps w c).
Proof.
  intros t eps W (w & c & l & f & Ha & _). destruct (minimize_spec t eps W) as (m & H & M).
  { exists (visible eps l), l, f. auto. }
  exists m. split; [exact H|]. split; [apply (minimized_minimal eps t m M)|]. split.
  - intros w'. now apply minimized_lang.
  - intros Hw w' c'. now apply minimized_wlang.
Qed.

Theorem C21_no_finals : forall t eps, finals t = [] -> minimize eps t = Ok t.
Proof. intros t eps H. unfold minimize. now rewrite H. Qed.

(** A transducer with final states none of which can be reached: the process exits. *)
Theorem C21_empty_language_exits : forall t eps, wf t -> finals t <> [] -> (forall w, ~ lang t eps w) ->
  minimize eps t = Exit.
Proof.
  intros t eps W H N. apply minimize_exit; auto. intros (l & l' & f & Ha & _).
  apply (N (word_of eps l')). exists (cost_of l' + f), l', f. auto.
Qed.

Theorem C21_lone_weight_refuted : exists t m w c, wf t /\ minimize 0 t = Ok m
  /\ wlang t 0 w c /\ ~ wlang m 0 w c.
Proof.
  exists (mkT 0 [(1%nat, 5)] [[(1, (1%nat, 0))]; []]). eexists. exists [1], 5.
  split; [apply wfb_wf; reflexivity|]. split; [vm_compute; reflexivity|]. split.
  - exists [(1, 0)], 5. split; [|auto]. exists 1%nat. split; [run|cbn; auto].
  - intros (l & f & (q & Hp & Hf) & Hw & Hc). unfold final_wt in Hf. cbn in Hp.
    path_cases; cbn in *; try discriminate; try lia.
Qed.

Example C21_example : exists m, minimize 0 tA = Ok m /\ wlang m 0 [1] 6.
Proof.
  destruct (C21_minimize tA 0 tA_wf) as (m & E & _ & _ & L).
  - exists [1], 0, [(1, 0)], 0. split; [|auto]. exists 1%nat. split; [run|cbn; auto].
  - exists m. split; [exact E|]. apply L; [left; discriminate|].
    exists [(1, 0); (0, 0); (0, 4)], 2. split; [|auto]. exists 3%nat. split; [run|cbn; auto].
Qed.

Example C21_exit_example : minimize 0 (mkT 0 [(1%nat, 0)] [[(1, (0%nat, 0))]; []]) = Exit.
Proof. vm_compute. reflexivity. Qed.

(** * C22.  False of the code by one state: the final states of the intermediate
    automaton are joined by a new state, which can end up in the initial set only. *)
Definition t22 : transducer :=
  mkT 0 [(1%nat, 0)] [[(0, (1%nat, 0)); (5, (0%nat, 0))]; [(5, (2%nat, 0))]; [(5, (1%nat, 0))]].
Definition d22 : transducer := mkT 0 [(0%nat, 0)] [[(5, (0%nat, 0))]].

Definition fives (l : list label) : Prop := Forall (fun x => x = (5, 0)) l.
Lemma d22_fives : forall l, label_lang d22 0 l <-> fives l.
Proof.
  intros l. split.
  - intros (l' & f & (q & Hp & _) & <-). cbn [initial d22] in Hp.
    assert (H : fives l').
    { clear - Hp. remember 0%nat as p eqn:E. revert E. induction Hp as [|p a w q l r Ha Hp IH]; intros ->; [constructor|].
      unfold has_arc in Ha. cbn in Ha. destruct Ha as [[= <- <- <-]|[]]. constructor; [reflexivity|exact (IH eq_refl)]. }
    clear Hp. induction H as [|x l -> H IH]; [constructor|]. cbn. constructor; [reflexivity|exact IH].
  - intros H. exists l, 0. split.
    + exists 0%nat. split; [|now left]. cbn. induction H as [|x l -> H IH]; [constructor|].
      econstructor; [|exact IH]. now left.
    + induction H as [|x l -> H IH]; [reflexivity|]. cbn. f_equal. exact IH.
Qed.
Lemma t22_fives : forall l, label_lang t22 0 l <-> fives l.
Proof.
  assert (Inv : forall p l q, path t22 p l q -> fives (visible 0 l)).
  { intros p l q H. induction H as [|p a w q l r Ha Hp IH]; [constructor|].
    assert ((a, w) = (0, 0) \/ (a, w) = (5, 0)) as [[= -> ->]|[= -> ->]].
    { unfold has_arc, arcs_of in Ha. destruct p as [|[|[|p]]]; cbn in Ha.
      - destruct Ha as [[= <- <- <-]|[[= <- <- <-]|[]]]; auto.
      - destruct Ha as [[= <- <- <-]|[]]; auto.
      - destruct Ha as [[= <- <- <-]|[]]; auto.
      - destruct p; contradiction. }
    - exact IH.
    - cbn. constructor; [reflexivity|exact IH]. }
  intros l. split.
  - intros (l' & f & (q & Hp & _) & <-). eapply Inv, Hp.
  - intros H. exists (l ++ [(0, 0)]), 0. split.
    + exists 1%nat. split; [|now left]. eapply (path_snoc t22 0 l 0 0 0 1); [|unfold has_arc; now left]. cbn.
      induction H as [|x l -> H IH]; [constructor|]. econstructor; [|exact IH]. right. now left.
    + unfold visible. rewrite filter_app. cbn. rewrite app_nil_r.
      induction H as [|x l -> H IH]; [reflexivity|]. cbn. f_equal. exact IH.
Qed.

Theorem C22_refuted : exists t m D, wf t /\ minimize 0 t = Ok m /\ wf D /\ deterministic D 0
  /\ (forall l, label_lang D 0 l <-> label_lang t 0 l) /\ (nstates D < nstates m)%nat.
Proof.
  exists t22. eexists. exists d22. split; [apply wfb_wf; reflexivity|]. split; [vm_compute; reflexivity|].
  split; [apply wfb_wf; reflexivity|]. split; [|split].
  - unfold deterministic, has_arc, arcs_of. split; [|split].
    + intros [|[|p]] a q w; cbn; intros H; [|contradiction|contradiction]. destruct H as [[= <- <- <-]|[]]. reflexivity.
    + intros [|[|p]] a w q q'; cbn; intros H H'; [|contradiction|contradiction].
      destruct H as [[= <- <- <-]|[]]. destruct H' as [[= <-]|[]]. reflexivity.
    + intros [|[|p]]; cbn; repeat constructor; auto.
  - intros l. now rewrite d22_fives, t22_fives.
  - cbn. lia.
Qed.

(** What is true: at most one state more than any deterministic competitor ... *)
Theorem C22_within_one : forall t eps m, wf t -> (exists w, lang t eps w) -> minimize eps t = Ok m ->
  deterministic m eps /\ accessible m /\
  forall D, wf D -> deterministic D eps ->
    (forall l, label_lang m eps l <-> label_lang D eps l) -> (nstates m <= nstates D + 1)%nat.
Proof.
  intros t eps m W (w & c & l & f & Ha & _) H. destruct (minimize_spec t eps W) as (m' & H' & M).
  { exists (visible eps l), l, f. auto. }
  rewrite H in H'. injection H' as <-. destruct (minimized_minimal eps t m M) as (_ & H1 & H2 & H3). auto.
Qed.

(** ... and smallest whenever the determinised reversal has a single final state. *)
Theorem C22_smallest_partial : forall t eps m, wf t -> (exists w, lang t eps w) -> minimize eps t = Ok m ->
  (exists t1 t2, reverse eps t = Ok t1 /\ determinize eps t1 = Ok t2 /\ length (finals t2) = 1%nat) ->
  forall D, wf D -> deterministic D eps ->
    (forall l, label_lang m eps l <-> label_lang D eps l) -> (nstates m <= nstates D)%nat.
Proof.
  intros t eps m W (w & c & l & f & Ha & _) H. destruct (minimize_spec t eps W) as (m' & H' & M).
  { exists (visible eps l), l, f. auto. }
  rewrite H in H'. injection H' as <-. exact (minimized_exact eps t m M).
Qed.

(** "ab" and "cb" share their end: three states, and the hypothesis of the exact case
    holds. *)
Definition t22b : transducer :=
  mkT 0 [(2%nat, 0); (4%nat, 0)]
    [[(1, (1%nat, 0)); (3, (3%nat, 0))]; [(2, (2%nat, 0))]; []; [(2, (4%nat, 0))]; []].
Example C22_example : minimize 0 t22b = Ok (mkT 0 [(2%nat, 0)]
    [[(1, (1%nat, 0)); (3, (1%nat, 0))]; [(2, (2%nat, 0))]; []])
  /\ exists t1 t2, reverse 0 t22b = Ok t1 /\ determinize 0 t1 = Ok t2 /\ length (finals t2) = 1%nat.
Proof.
  split; [vm_compute; reflexivity|]. eexists. eexists. split; [vm_compute; reflexivity|].
  split; [vm_compute; reflexivity|reflexivity].
Qed.

(** * C23 *)
Theorem C23_optional : forall t eps, wf t -> finals t <> [] ->
  exists o, optional eps t = Ok o /\ wf o /\ forall w c, wlang o eps w c <-> wopt (wlang t eps) w c.
Proof. intros t eps W H. destruct (optional_lang eps t W H) as (o & H1 & H2 & _ & H3). eauto. Qed.
Theorem C23_oneOrMore : forall t eps, wf t -> finals t <> [] ->
  exists o, oneOrMore eps t = Ok o /\ wf o /\ forall w c, wlang o eps w c <-> wplus (wlang t eps) w c.
Proof. intros t eps W H. destruct (oneOrMore_lang eps t W H) as (o & H1 & H2 & _ & H3). eauto. Qed.
Theorem C23_zeroOrMore : forall t eps, wf t -> finals t <> [] ->
  exists o, zeroOrMore eps t = Ok o /\ wf o /\ forall w c, wlang o eps w c <-> wstar (wlang t eps) w c.
Proof. intros t eps W H. destruct (zeroOrMore_lang eps t W H) as (o & H1 & H2 & _ & H3). eauto. Qed.

(** Twice "1 5 1" with weights: the word of [tA] of weight 1, then 6 for "1". *)
Example C23_example : exists o, zeroOrMore 0 tA = Ok o /\ wlang o 0 [1; 5; 1; 1] 7 /\ wlang o 0 [] 0.
Proof.
  destruct (C23_zeroOrMore tA 0 tA_wf ltac:(discriminate)) as (o & E & _ & L). exists o. split; [exact E|].
  rewrite !L. split; [|constructor].
  change [1; 5; 1; 1] with ([1; 5; 1] ++ [1] ++ []). change 7 with (1 + (6 + 0)).
  apply wstar_more; [|apply wstar_more; [|constructor]].
  - exists [(1, 0); (0, 0); (5, 1); (1, 0)], 0. split; [|auto]. exists 1%nat. split; [run|cbn; auto].
  - exists [(1, 0); (0, 0); (0, 4)], 2. split; [|auto]. exists 3%nat. split; [run|cbn; auto].
Qed.

(** * C24 *)
(** Words and weights of the paths between two states. *)
Definition between (t : transducer) (eps : Z) (p q : nat) : wset :=
  fun w c => exists l, path t p l q /\ word_of eps l = w /\ cost_of l = c.

(** [lost]: the weight of a lone final state is not transferred to the caller, who gets
    only the state. *)
Definition lone_weight (t : transducer) : Z :=
  match finals t with [(_, f)] => f | _ => 0 end.

Lemma joined_lost : forall eps t u f fw, joined eps t u -> finals u = [(f, fw)] -> lone_weight t = fw.
Proof.
  intros eps t u f fw J H. unfold lone_weight. destruct J as [p g E|j L _ _ _ E _].
  - rewrite H. reflexivity.
  - rewrite E in H. injection H as _ <-. destruct (finals t) as [|[? ?] [|? ?]]; auto. cbn in L. lia.
Qed.

Theorem C24_insert : forall self t eps source, wf self -> wf t -> finals t <> [] -> (source < nstates self)%nat ->
  exists r self' t', insertTransducer source t eps self = Ok (r, self', t')
    /\ wf self' /\ initial self' = initial self /\ finals self' = finals self
    /\ (nstates self <= r < nstates self')%nat
    /\ (forall p l q, (p < nstates self)%nat -> (q < nstates self)%nat -> (path self' p l q <-> path self p l q))
    /\ forall p w c, (p < nstates self)%nat ->
         (between self' eps p r w c <->
          wcat (between self eps p source) (fun w c => wlang t eps w (c + lone_weight t)) w c).
Proof.
  intros self t eps source Ws W H Hs.
  destruct (insertTransducer_spec eps source t self W H Ws Hs) as (u & s' & f & fw & E & Wu & J & Hf & I).
  assert (Hfu : (f < nstates u)%nat) by (apply (wf_finals u Wu f fw); unfold final_wt; rewrite Hf; now left).
  exists (nstates self + f)%nat, s', u. split; [exact E|]. split; [apply (in_wf _ _ _ _ _ I)|].
  split; [apply (in_initial _ _ _ _ _ I)|]. split; [apply (in_finals _ _ _ _ _ I)|].
  split; [rewrite (in_size _ _ _ _ _ I); lia|]. split.
  - intros p l q Hp Hq. rewrite (ins_paths eps source self u s' Ws Hs I p l q Hp). split; [|auto].
    intros [X|(l1 & l2 & q' & _ & _ & _ & ->)]; [exact X|lia].
  - rewrite (joined_lost eps t u f fw J Hf). intros p w c Hp. split.
    + intros (l & Hl & <- & <-). apply (ins_paths eps source self u s' Ws Hs I p l _ Hp) in Hl as [Hl|(l1 & l2 & q' & -> & H1 & H2 & Hq)].
      * exfalso. assert (X : forall p l q, path self p l q -> (p < nstates self)%nat -> (q < nstates self)%nat).
        { clear - Ws. intros p l q H. induction H as [|p a w q l r Ha Hp IH]; intros; auto. apply IH. exact (wf_arcs self Ws _ _ _ _ Ha). }
        apply X in Hl; [|exact Hp]. lia.
      * assert (q' = f) as -> by lia. rewrite word_app, word_eps, cost_app, cost_cons, Z.add_0_l.
        apply wcat_both; [exists l1; auto|]. apply (joined_wlang eps t u _ _ W J). exists l2, fw.
        split; [|auto]. exists f. split; [exact H2|]. unfold final_wt. rewrite Hf. now left.
    + intros [w1 c1 w2 c2 (l1 & H1 & <- & <-) H2]. apply (joined_wlang eps t u _ _ W J) in H2 as (l2 & g & (q & H2 & Hg) & <- & Hc).
      unfold final_wt in Hg. rewrite Hf in Hg. destruct Hg as [[= <- <-]|[]].
      exists (l1 ++ (eps, 0) :: l2). split; [|rewrite word_app, word_eps, cost_app, cost_cons; split; [reflexivity|lia]].
      apply (ins_paths eps source self u s' Ws Hs I p _ _ Hp). right. exists l1, l2, f. auto.
Qed.

(** What union really accepts: the second transducer can be entered again after any loop
    through the initial state of the first. *)
Theorem C24_union : forall self t eps, wf self -> wf t -> finals t <> [] ->
  exists self' t', unionWith t eps self = Ok (self', t') /\ wf self'
    /\ forall w c, wlang self' eps w c <-> wunion (wlang self eps)
         (wcat (between self eps (initial self) (initial self)) (fun w c => wlang t eps w (c + lone_weight t))) w c.
Proof.
  intros self t eps Ws W H. destruct (unionWith_spec eps t self W H Ws) as (u & s' & f & fw & E & Wu & J & Hf & Ws' & L).
  exists s', u. split; [exact E|]. split; [exact Ws'|]. intros w c. rewrite L. unfold wunion.
  rewrite (joined_lost eps t u f fw J Hf).
  split; (intros [X|X]; [auto|right]); destruct X as [w1 c1 w2 c2 H1 H2]; (apply wcat_both; [exact H1|]);
    apply (joined_wlang eps t u _ _ W J); exact H2.
Qed.

Theorem C24_union_exact_partial : forall self t eps self' t', wf self -> wf t -> finals t <> [] ->
  unionWith t eps self = Ok (self', t') ->
  (forall p a w, ~ has_arc self p a (initial self) w) -> lone_weight t = 0 ->
  forall w c, wlang self' eps w c <-> wlang self eps w c \/ wlang t eps w c.
Proof.
  intros self t eps self' t' Ws W H E Hi Hl w c.
  destruct (C24_union self t eps Ws W H) as (s' & u & E' & _ & L). rewrite E in E'. injection E' as <- <-.
  rewrite L, Hl. unfold wunion.
  assert (B : forall w c, between self eps (initial self) (initial self) w c <-> w = [] /\ c = 0).
  { intros w' c'. split.
    - intros (l & Hp & <- & <-). destruct l as [|x l]; [auto|]. exfalso.
      destruct (exists_last (l := x :: l) ltac:(discriminate)) as (l' & y & E'). rewrite E' in Hp.
      apply path_app_inv in Hp as (q & _ & Hy). inversion Hy as [|? a v r ? ? Ha Hn]; subst.
      inversion Hn; subst. now apply Hi in Ha.
    - intros [-> ->]. exists []. split; [constructor|auto]. }
  split; (intros [X|X]; [auto|right]).
  - destruct X as [w1 c1 w2 c2 H1 H2]. apply B in H1 as [-> ->]. cbn. now rewrite Z.add_0_r in H2.
  - change w with ([] ++ w). change c with (0 + c). apply wcat_both; [now apply B|]. now rewrite Z.add_0_r.
Qed.

(** "x*" united with "y" accepts "xy". *)
Theorem C24_union_words_refuted : exists self t self' t' w, wf self /\ wf t
  /\ unionWith t 0 self = Ok (self', t') /\ lang self' 0 w /\ ~ lang self 0 w /\ ~ lang t 0 w.
Proof.
  exists d22, (mkT 0 [(1%nat, 0)] [[(6, (1%nat, 0))]; []]). eexists. eexists. exists [5; 6].
  split; [apply wfb_wf; reflexivity|]. split; [apply wfb_wf; reflexivity|]. split; [vm_compute; reflexivity|]. split; [|split].
  - exists 0, [(5, 0); (0, 0); (6, 0)], 0. split; [|auto]. exists 2%nat. split; [run|cbn; auto].
  - intros (c & l & f & Ha & Hw & _). assert (X : fives (visible 0 l)) by (apply d22_fives; exists l, f; auto).
    rewrite <- word_visible in Hw. destruct X as [|x m -> X]; [discriminate|]. cbn in Hw.
    destruct X as [|x m' -> X]; cbn in Hw; discriminate.
  - intros (c & l & f & (q & Hp & Hf) & Hw & _). cbn in Hp. path_cases; cbn in *; discriminate.
Qed.

(** The weight of a lone final state is dropped. *)
Theorem C24_union_weight_refuted : exists self t self' t' w c, wf self /\ wf t
  /\ unionWith t 0 self = Ok (self', t') /\ wlang t 0 w c /\ ~ wlang self' 0 w c.
Proof.
  exists new_transducer, (mkT 0 [(1%nat, 3)] [[(6, (1%nat, 0))]; []]). eexists. eexists. exists [6], 3.
  split; [apply wfb_wf; reflexivity|]. split; [apply wfb_wf; reflexivity|]. split; [vm_compute; reflexivity|]. split.
  - exists [(6, 0)], 3. split; [|auto]. exists 1%nat. split; [run|cbn; auto].
  - intros (l & f & (q & Hp & Hf) & Hw & Hc). unfold final_wt in Hf. cbn in Hp. path_cases; cbn in *; try discriminate; try lia.
Qed.

Example C24_example : exists self' t', unionWith tA 0 t22b = Ok (self', t') /\ wlang self' 0 [1] 6 /\ wlang self' 0 [3; 2] 0.
Proof.
  destruct (C24_union t22b tA 0) as (s' & t' & E & _ & L); [apply wfb_wf; reflexivity|exact tA_wf|discriminate|].
  exists s', t'. split; [exact E|].
  assert (N : forall p a w, ~ has_arc t22b p a (initial t22b) w).
  { intros p a w. unfold has_arc, arcs_of. destruct p as [|[|[|[|[|p]]]]]; cbn; try tauto.
    - intros [[= ]|[[= ]|[]]].
    - intros [[= ]|[]].
    - intros [[= ]|[]].
    - destruct p; cbn; tauto. }
  assert (X := C24_union_exact_partial t22b tA 0 s' t' (wfb_wf t22b eq_refl) tA_wf ltac:(discriminate) E N eq_refl).
  rewrite !X. split; [right|left].
  - exists [(1, 0); (0, 0); (0, 4)], 2. split; [|auto]. exists 3%nat. split; [run|cbn; auto].
  - exists [(3, 0); (2, 0)], 0. split; [|auto]. exists 4%nat. split; [run|cbn; auto].
Qed.

Print Assumptions C15_closure.
Print Assumptions C15_closure_all.
Print Assumptions C15_agree.
Print Assumptions C16_determinize.
Print Assumptions C17_deterministic.
Print Assumptions C18_refuted.
Print Assumptions C18_reverse_refuted.
Print Assumptions C18_default_partial.
Print Assumptions C18_where_from.
Print Assumptions C19_joinFinals.
Print Assumptions C19_no_finals.
Print Assumptions C20_reverse_labels.
Print Assumptions C20_reverse.
Print Assumptions C20_twice.
Print Assumptions C21_minimize.
Print Assumptions C21_no_finals.
Print Assumptions C21_empty_language_exits.
Print Assumptions C21_lone_weight_refuted.
Print Assumptions C22_refuted.
Print Assumptions C22_within_one.
Print Assumptions C22_smallest_partial.
Print Assumptions C23_optional.
Print Assumptions C23_oneOrMore.
Print Assumptions C23_zeroOrMore.
Print Assumptions C24_insert.
Print Assumptions C24_union.
Print Assumptions C24_union_exact_partial.
Print Assumptions C24_union_words_refuted.
Print Assumptions C24_union_weight_refuted.
