(** Proofs about the tag-rewriting operations. *)
From Verif Require Import Base CompressionModel SerialiserModel SortedVectorModel SortedVectorProofs
  AlphabetModel AlphabetProofs TransducerModel TransducerSpec TransducerProofs NatSets ClosureProofs
  RelabelModel RelabelSpec.

Lemma Forall2_len : forall {A B} (P : A -> B -> Prop) l m, Forall2 P l m -> length l = length m.
Proof. intros A B P l m H. induction H; cbn; congruence. Qed.

(** ** Stable insertion *)
Definition mm_all (bs acc : list arc) : list arc := fold_left (fun l b => mm_insert b l) bs acc.

Lemma equal_range_insert_other : forall k b l, a_tag b <> k -> equal_range k (mm_insert b l) = equal_range k l.
Proof.
  intros k b l H. unfold equal_range. induction l as [|c l IH]; cbn [mm_insert filter].
  - destruct (Z.eqb_spec (a_tag b) k); [contradiction|reflexivity].
  - destruct (a_tag b <? a_tag c); cbn [filter].
    + destruct (Z.eqb_spec (a_tag b) k); [contradiction|reflexivity].
    + now rewrite IH.
Qed.
Lemma equal_range_above : forall k l, Forall (fun c => k < a_tag c) l -> equal_range k l = [].
Proof.
  intros k l H. unfold equal_range. induction H as [|c l Hc _ IH]; [reflexivity|]. cbn [filter].
  destruct (Z.eqb_spec (a_tag c) k); [lia|exact IH].
Qed.
Lemma equal_range_insert : forall b l, arcs_sorted l ->
  equal_range (a_tag b) (mm_insert b l) = equal_range (a_tag b) l ++ [b].
Proof.
  intros b l S. induction S as [|c l S IH H]; cbn [mm_insert].
  - unfold equal_range. cbn [filter]. now rewrite Z.eqb_refl.
  - destruct (Z.ltb_spec (a_tag b) (a_tag c)).
    + rewrite (equal_range_above (a_tag b) (c :: l)).
      * unfold equal_range. cbn [filter app]. rewrite Z.eqb_refl. f_equal.
        apply (equal_range_above (a_tag b) (c :: l)). constructor; [assumption|].
        eapply Forall_impl; [|exact H]. cbn. intros. lia.
      * constructor; [assumption|]. eapply Forall_impl; [|exact H]. cbn. intros. lia.
    + unfold equal_range in *. cbn [filter]. destruct (a_tag c =? a_tag b); cbn [app]; now rewrite IH.
Qed.
Lemma equal_range_all : forall k bs acc, arcs_sorted acc ->
  equal_range k (mm_all bs acc) = equal_range k acc ++ equal_range k bs.
Proof.
  intros k. unfold mm_all. induction bs as [|b bs IH]; intros acc S; cbn [fold_left].
  - unfold equal_range. cbn. now rewrite app_nil_r.
  - rewrite IH by now apply mm_insert_sorted.
    destruct (Z.eq_dec (a_tag b) k) as [<-|Hn].
    + rewrite equal_range_insert by exact S. rewrite <- app_assoc. f_equal.
      unfold equal_range. cbn [filter]. now rewrite Z.eqb_refl.
    + rewrite equal_range_insert_other by exact Hn. f_equal. unfold equal_range. cbn [filter].
      destruct (Z.eqb_spec (a_tag b) k); [contradiction|reflexivity].
Qed.

Lemma in_equal_range : forall a l, In a l <-> In a (equal_range (a_tag a) l).
Proof. intros a l. rewrite equal_range_in. tauto. Qed.

Lemma arcs_sorted_ext : forall l m, arcs_sorted l -> arcs_sorted m ->
  (forall k, equal_range k l = equal_range k m) -> l = m.
Proof.
  induction l as [|a l IH]; intros m Sl Sm H.
  - destruct m as [|b m]; [reflexivity|]. exfalso. specialize (H (a_tag b)). unfold equal_range in H. cbn [filter] in H.
    rewrite Z.eqb_refl in H. discriminate.
  - destruct m as [|b m].
    { exfalso. specialize (H (a_tag a)). unfold equal_range in H. cbn [filter] in H. rewrite Z.eqb_refl in H. discriminate. }
    inversion Sl as [|? ? Sl' Ha]; subst. inversion Sm as [|? ? Sm' Hb]; subst.
    assert (E : a_tag a = a_tag b).
    { assert (H1 : In a (b :: m)) by (apply (proj2 (in_equal_range _ _)); rewrite <- H; apply (proj1 (in_equal_range _ _)); now left).
      assert (H2 : In b (a :: l)) by (apply (proj2 (in_equal_range _ _)); rewrite H; apply (proj1 (in_equal_range _ _)); now left).
      rewrite Forall_forall in Ha, Hb. destruct H1 as [->|H1]; [reflexivity|]. destruct H2 as [->|H2]; [reflexivity|].
      apply Hb in H1. apply Ha in H2. lia. }
    assert (K := H (a_tag a)). unfold equal_range in K. cbn [filter] in K. rewrite Z.eqb_refl in K.
    rewrite <- E, Z.eqb_refl in K. injection K as -> _. f_equal. apply IH; auto.
    intros k. specialize (H k). unfold equal_range in *. cbn [filter] in H. destruct (a_tag b =? k); [now injection H|exact H].
Qed.

(** ** Relabelling one state *)
Definition relabelled (R : Z -> Z -> Prop) (arcs bs : list arc) : Prop :=
  Forall2 (fun a b => R (a_tag a) (a_tag b) /\ snd a = snd b) arcs bs.

Lemma relabelled_in : forall R arcs bs tag x, relabelled R arcs bs ->
  (In (tag, x) bs -> exists a, In (a, x) arcs /\ R a tag)
  /\ (In (tag, x) arcs -> exists b, In (b, x) bs /\ R tag b).
Proof.
  intros R arcs bs tag x H. induction H as [|[a y] [b z] arcs bs [H1 H2] _ IH]; [split; intros []|].
  cbn in H1, H2. subst z. split; intros [E|Hin].
  - injection E as <- <-. exists a. split; [now left|exact H1].
  - destruct (proj1 IH Hin) as (a' & ? & ?). exists a'. split; [now right|assumption].
  - injection E as <- <-. exists b. split; [now left|exact H1].
  - destruct (proj2 IH Hin) as (a' & ? & ?). exists a'. split; [now right|assumption].
Qed.

Lemma relabelled_weaken : forall (R S : Z -> Z -> Prop) arcs bs, (forall a b, R a b -> S a b) ->
  relabelled R arcs bs -> relabelled S arcs bs.
Proof.
  intros R S arcs bs H F. induction F as [|a b arcs bs [H1 H2] _ IH]; constructor; auto.
Qed.

Lemma relabelled_range : forall R arcs bs k k', relabelled R arcs bs ->
  (forall a b, R a b -> (a = k <-> b = k')) ->
  relabelled R (equal_range k arcs) (equal_range k' bs).
Proof.
  intros R arcs bs k k' H E. unfold equal_range. induction H as [|a b arcs bs [H1 H2] _ IH]; [constructor|].
  cbn [filter]. specialize (E _ _ H1). destruct (Z.eqb_spec (a_tag a) k), (Z.eqb_spec (a_tag b) k'); try tauto.
  constructor; auto.
Qed.

Lemma mm_all_in : forall bs acc a, In a (mm_all bs acc) <-> In a bs \/ In a acc.
Proof. intros. unfold mm_all. rewrite mm_inserts_in. tauto. Qed.
Lemma mm_all_sorted : forall bs acc, arcs_sorted acc -> arcs_sorted (mm_all bs acc).
Proof. intros. unfold mm_all. now apply mm_inserts_sorted. Qed.

(** ** Alphabets that grow *)
Lemma decode_extends : forall a b tag p, extends a b -> decode tag a = Ok p -> decode tag b = Ok p.
Proof.
  intros a b tag p E H. unfold decode in *. destruct (tag <? 0); [discriminate|].
  destruct (nth_error (spairinv a) (Z.to_nat tag)) eqn:En; [|discriminate].
  rewrite (proj2 (extends_nth a b E) _ _ En). exact H.
Qed.
Lemma getSymbol_extends : forall a b s n, extends a b -> getSymbol s a = Ok n -> getSymbol s b = Ok n.
Proof.
  intros a b s n E H. unfold getSymbol in *. destruct (s =? 0); [exact H|]. destruct (s <? 0); [|exact H].
  destruct (nth_error (slexicinv a) _) eqn:En; [|discriminate]. now rewrite (proj1 (extends_nth a b E) _ _ En).
Qed.
Lemma pair_code_decode : forall p a, alph_inv a -> decode (fst (pair_code p a)) (snd (pair_code p a)) = Ok p.
Proof.
  intros p a H. assert (Hi := pair_in p a H). apply In_nth_error in Hi as (i & Hi).
  rewrite (pair_code_fst a p i H Hi). apply (pair_code_nth _ p i (pair_inv p a H) Hi).
Qed.
Lemma decode_nth : forall a tag p, decode tag a = Ok p -> 0 <= tag /\ nth_error (spairinv a) (Z.to_nat tag) = Some p.
Proof.
  intros a tag p H. unfold decode in H. destruct (Z.ltb_spec tag 0); [discriminate|].
  destruct (nth_error _ _) eqn:E; [|discriminate]. injection H as ->. auto.
Qed.
Lemma decode_cases : forall tag a, (exists p, decode tag a = Ok p) \/ decode tag a = UB.
Proof. intros tag a. unfold decode. destruct (tag <? 0); [auto|]. destruct (nth_error _ _); eauto. Qed.
Lemma decode_inj : forall a x y p, alph_inv a -> decode x a = Ok p -> decode y a = Ok p -> x = y.
Proof.
  intros a x y p (_ & _ & _ & ND) Hx Hy. apply decode_nth in Hx as [Hx Ex]. apply decode_nth in Hy as [Hy Ey].
  assert (Z.to_nat x = Z.to_nat y); [|lia].
  apply (proj1 (NoDup_nth_error (spairinv a)) ND); [apply nth_error_Some; congruence|congruence].
Qed.

(** ** The frame and traces of a rewritten transducer *)
Lemma nth_map_nil : forall (f : list arc -> list arc) ts p, f [] = [] -> nth p (map f ts) [] = f (nth p ts []).
Proof. intros f ts p H. rewrite <- H at 1. apply map_nth. Qed.

Section Simulation.
  Context {X Y : Type} (D : Z -> X -> Prop) (D' : Z -> Y -> Prop) (M : X -> Y -> Prop).
  Context (t t' : transducer).
  Hypothesis frame : same_frame t t'.
  Hypothesis arcs_sim : forall p y q w,
    (exists b, has_arc t' p b q w /\ D' b y) <-> (exists a x, has_arc t p a q w /\ D a x /\ M x y).

  Lemma trace_sim : forall p tr' q, trace D' t' p tr' q <->
    exists tr, trace D t p tr q /\ Forall2 (fun u v => M (fst u) (fst v) /\ snd u = snd v) tr tr'.
  Proof.
    intros p tr' q. split.
    - induction 1 as [p|p b y w q tr r Ha Hd _ (tr0 & H1 & H2)].
      + exists []. split; constructor.
      + destruct (proj1 (arcs_sim p y q w)) as (a & x & Ha' & Hx & Hm); [eauto|].
        exists ((x, w) :: tr0). split; [econstructor; eauto|constructor; auto].
    - intros (tr & H & F). revert tr' F. induction H as [p|p a x w q tr r Ha Hd _ IH]; intros tr' F.
      + inversion F. constructor.
      + inversion F as [|? [y w'] ? tr0 [Hm Hw] F']; subst. cbn in Hm, Hw. subst w'.
        destruct (proj2 (arcs_sim p y q w)) as (b & Hb & Hy); [eauto|]. econstructor; eauto.
  Qed.

  Lemma accepts_sim : forall tr' f, accepts_trace D' t' tr' f <->
    exists tr, accepts_trace D t tr f /\ Forall2 (fun u v => M (fst u) (fst v) /\ snd u = snd v) tr tr'.
  Proof.
    intros tr' f. destruct frame as (F1 & F2 & _). unfold accepts_trace, final_wt. rewrite F1, F2. split.
    - intros (q & H & Hf). apply trace_sim in H as (tr & H & F). eauto.
    - intros (tr & (q & H & Hf) & F). exists q. split; [|exact Hf]. apply trace_sim. eauto.
  Qed.
End Simulation.

(** ** invert *)
Definition swap {A} (p : A * A) : A * A := (snd p, fst p).
Definition swapped (a : alphabet) (x y : Z) : Prop :=
  exists p, decode x a = Ok p /\ decode y a = Ok (swap p).

Lemma swapped_extends : forall a b x y, extends a b -> swapped a x y -> swapped b x y.
Proof. intros a b x y E (p & H1 & H2). exists p. split; eapply decode_extends; eauto. Qed.

Lemma invert_arcs_spec : forall arcs alpha acc, alph_inv alpha ->
  (forall a, In a arcs -> exists p, decode (a_tag a) alpha = Ok p) ->
  exists bs alpha', invert_arcs arcs alpha acc = Ok (mm_all bs acc, alpha')
    /\ alph_inv alpha' /\ extends alpha alpha' /\ relabelled (swapped alpha') arcs bs.
Proof.
  induction arcs as [|[tag x] arcs IH]; intros alpha acc I H; cbn [invert_arcs].
  - exists [], alpha. split; [reflexivity|]. split; [exact I|]. split; [apply extends_refl|constructor].
  - destruct (H (tag, x) (or_introl eq_refl)) as (p & Hp). cbn [a_tag fst] in Hp. rewrite Hp. cbn [obind].
    change (snd p, fst p) with (swap p).
    assert (I1 := pair_inv (swap p) alpha I). assert (E1 := pair_extends (swap p) alpha I).
    assert (C1 := pair_code_decode (swap p) alpha I).
    destruct (pair_code (swap p) alpha) as [c a1]. cbn [fst snd] in *.
    destruct (IH a1 (mm_insert (c, x) acc) I1) as (bs & a2 & -> & I2 & E2 & R).
    { intros b Hb. destruct (H b (or_intror Hb)) as (pb & Hpb). exists pb. eapply decode_extends; eauto. }
    exists ((c, x) :: bs), a2. split; [reflexivity|]. split; [exact I2|]. split; [eapply extends_trans; eauto|].
    constructor; [|exact R]. split; [|reflexivity]. exists p. cbn [a_tag fst].
    split; [eapply decode_extends; [|exact Hp]; eapply extends_trans; eauto|eapply decode_extends; eauto].
Qed.

Lemma invert_states_spec : forall ts alpha, alph_inv alpha ->
  (forall l a, In l ts -> In a l -> exists p, decode (a_tag a) alpha = Ok p) ->
  exists ts' alpha', invert_states ts alpha = Ok (ts', alpha')
    /\ alph_inv alpha' /\ extends alpha alpha'
    /\ Forall2 (fun l l' => exists bs, l' = mm_all bs [] /\ relabelled (swapped alpha') l bs) ts ts'.
Proof.
  induction ts as [|l ts IH]; intros alpha I H; cbn [invert_states].
  - exists [], alpha. split; [reflexivity|]. split; [exact I|]. split; [apply extends_refl|constructor].
  - destruct (invert_arcs_spec l alpha [] I) as (bs & a1 & -> & I1 & E1 & R1); [intros a Ha; apply (H l); [now left|exact Ha]|].
    cbn [obind]. destruct (IH a1 I1) as (ts' & a2 & -> & I2 & E2 & R2).
    { intros m a Hm Ha. destruct (H m a (or_intror Hm) Ha) as (p & Hp). exists p. eapply decode_extends; eauto. }
    cbn [obind]. exists (mm_all bs [] :: ts'), a2. split; [reflexivity|]. split; [exact I2|]. split; [eapply extends_trans; eauto|].
    constructor; [|exact R2]. exists bs. split; [reflexivity|].
    eapply relabelled_weaken; [|exact R1]. intros a b. now apply swapped_extends.
Qed.

Lemma Forall2_nth_nil : forall {A B} (P : list A -> list B -> Prop) ts ts' p, Forall2 P ts ts' -> P [] [] ->
  P (nth p ts []) (nth p ts' []).
Proof.
  intros A B P ts ts' p H Hn. revert p. induction H as [|l l' ts ts' Hl _ IH]; intros [|p]; cbn [nth]; auto.
Qed.

Lemma invert_spec : forall t alpha, alph_inv alpha -> tags_in t alpha ->
  exists t' alpha', invert t alpha = Ok (t', alpha') /\ alph_inv alpha' /\ extends alpha alpha'
    /\ same_frame t t'
    /\ forall p, exists bs, arcs_of t' p = mm_all bs [] /\ relabelled (swapped alpha') (arcs_of t p) bs.
Proof.
  intros t alpha I H. unfold invert.
  destruct (invert_states_spec (trans t) alpha I) as (ts' & a' & -> & I' & E & F).
  { intros l [tag [q w]] Hl Ha. apply In_nth with (d := []) in Hl as (p & Hp & <-). exact (H p tag q w Ha). }
  cbn [obind]. eexists. exists a'. split; [reflexivity|]. split; [exact I'|]. split; [exact E|]. split.
  - split; [reflexivity|]. split; [reflexivity|]. unfold nstates. cbn. symmetry. eapply Forall2_len; eauto.
  - intros p. unfold arcs_of. cbn [trans].
    apply (Forall2_nth_nil (fun l l' => exists bs, l' = mm_all bs [] /\ relabelled (swapped a') l bs) (trans t) ts' p F).
    exists []. split; [reflexivity|constructor].
Qed.

Lemma invert_arcs_iff : forall t alpha t' alpha', alph_inv alpha' -> extends alpha alpha' -> tags_in t alpha ->
  (forall p, exists bs, arcs_of t' p = mm_all bs [] /\ relabelled (swapped alpha') (arcs_of t p) bs) ->
  forall p y q w, (exists b, has_arc t' p b q w /\ as_pair alpha' b y)
    <-> (exists a x, has_arc t p a q w /\ as_pair alpha a x /\ y = swap x).
Proof.
  intros t alpha t' alpha' I E T H p y q w. destruct (H p) as (bs & Hb & R). unfold has_arc, as_pair. rewrite Hb. split.
  - intros (b & Hin & Hy). apply mm_all_in in Hin as [Hin|[]].
    destruct (proj1 (relabelled_in _ _ _ b (q, w) R) Hin) as (a & Ha & x & Hx & Hx').
    destruct (T p a q w Ha) as (x' & Hd). assert (x' = x) by (apply (decode_extends _ _ _ _ E) in Hd; congruence). subst x'.
    exists a, x. split; [exact Ha|]. split; [exact Hd|]. congruence.
  - intros (a & x & Ha & Hd & ->). destruct (proj2 (relabelled_in _ _ _ a (q, w) R) Ha) as (b & Hb' & x' & Hx & Hx').
    exists b. split; [apply mm_all_in; now left|]. apply (decode_extends _ _ _ _ E) in Hd. congruence.
Qed.

(** Inverting twice. *)
Lemma swapped_back : forall a x y z, alph_inv a -> swapped a x y -> swapped a y z -> x = z.
Proof.
  intros a x y z I (p & H1 & H2) (p' & H3 & H4). rewrite H2 in H3. injection H3 as <-.
  unfold swap in H4. cbn in H4. destruct p as [u v]. cbn in *. eapply decode_inj; eauto.
Qed.
Lemma swapped_fun : forall a x y z, alph_inv a -> swapped a x y -> swapped a x z -> y = z.
Proof.
  intros a x y z I (p & H1 & H2) (p' & H3 & H4). rewrite H1 in H3. injection H3 as <-. eapply decode_inj; eauto.
Qed.
Lemma swapped_sym : forall a x y, swapped a x y -> swapped a y x.
Proof. intros a x y ([u v] & H1 & H2). exists (v, u). split; [exact H2|exact H1]. Qed.

Lemma relabelled_id : forall R k l m, relabelled R l m -> Forall (fun a => a_tag a = k) l -> Forall (fun a => a_tag a = k) m -> l = m.
Proof.
  intros R k l m H. induction H as [|[a x] [b y] l m [_ H2] _ IH]; intros Fl Fm; [reflexivity|].
  inversion Fl; subst. inversion Fm; subst. cbn in *. subst. f_equal. auto.
Qed.
Lemma equal_range_tags : forall k l, Forall (fun a => a_tag a = k) (equal_range k l).
Proof. intros k l. apply Forall_forall. intros a H. now apply equal_range_in in H. Qed.

Lemma relabelled_compose : forall R S l m n, relabelled R l m -> relabelled S m n ->
  relabelled (fun a c => exists b, R a b /\ S b c) l n.
Proof.
  intros R S l m n H. revert n. induction H as [|a b l m [H1 H2] _ IH]; intros n Hn; inversion Hn as [|? c ? n' [H3 H4] Hn']; subst; constructor.
  - split; [eauto|congruence].
  - now apply IH.
Qed.

Lemma invert_twice_arcs : forall a l bs cs, alph_inv a -> arcs_sorted l ->
  relabelled (swapped a) l bs -> relabelled (swapped a) (mm_all bs []) cs -> mm_all cs [] = l.
Proof.
  intros a l bs cs I S R1 R2. assert (N : arcs_sorted []) by constructor.
  apply arcs_sorted_ext; [now apply mm_all_sorted|exact S|].
  intros k. rewrite equal_range_all by exact N. unfold equal_range at 1. cbn [filter app].
  destruct (decode_cases k a) as [[p Ek]|Ek].
  - destruct (in_dec pair_eq_dec (swap p) (spairinv a)) as [Hin|Hnot].
    + apply In_nth_error in Hin as (i & Hi). set (k' := Z.of_nat i).
      assert (Ek' : decode k' a = Ok (swap p)) by now apply (pair_code_nth a).
      assert (S1 : swapped a k k') by (exists p; auto). assert (S2 := swapped_sym _ _ _ S1).
      assert (A1 : relabelled (swapped a) (equal_range k l) (equal_range k' bs)).
      { apply relabelled_range; [exact R1|]. intros x y Hxy. split; intros ->.
        - eapply swapped_fun; eauto.
        - apply swapped_sym in Hxy. eapply swapped_fun; eauto. }
      assert (A2 : relabelled (swapped a) (equal_range k' (mm_all bs [])) (equal_range k cs)).
      { apply relabelled_range; [exact R2|]. intros x y Hxy. split; intros ->.
        - eapply swapped_fun; eauto.
        - apply swapped_sym in Hxy. eapply swapped_fun; eauto. }
      rewrite equal_range_all in A2 by exact N. unfold equal_range at 1 in A2. cbn [filter app] in A2.
      symmetry. eapply relabelled_id; [exact (relabelled_compose _ _ _ _ _ A1 A2)| |]; apply equal_range_tags.
    + assert (X1 : equal_range k l = []).
      { destruct (equal_range k l) as [|x r] eqn:E; [reflexivity|]. exfalso. assert (Hx : In x (equal_range k l)) by (rewrite E; now left).
        apply equal_range_in in Hx as [Hx Ht]. destruct x as [tx xx]. cbn in Ht. subst tx.
        destruct (proj2 (relabelled_in _ _ _ k xx R1) Hx) as (b & _ & p' & H1 & H2). rewrite Ek in H1. injection H1 as <-.
        apply Hnot. apply decode_nth in H2 as [_ H2]. eapply nth_error_In; eauto. }
      assert (X2 : equal_range k cs = []).
      { destruct (equal_range k cs) as [|x r] eqn:E; [reflexivity|]. exfalso. assert (Hx : In x (equal_range k cs)) by (rewrite E; now left).
        apply equal_range_in in Hx as [Hx Ht]. destruct x as [tx xx]. cbn in Ht. subst tx.
        destruct (proj1 (relabelled_in _ _ _ k xx R2) Hx) as (b & _ & Hs). apply swapped_sym in Hs as (p' & H1 & H2).
        rewrite Ek in H1. injection H1 as <-. apply Hnot. apply decode_nth in H2 as [_ H2]. eapply nth_error_In; eauto. }
      now rewrite X1, X2.
  - assert (X1 : equal_range k l = []).
    { destruct (equal_range k l) as [|x r] eqn:E; [reflexivity|]. exfalso. assert (Hx : In x (equal_range k l)) by (rewrite E; now left).
      apply equal_range_in in Hx as [Hx Ht]. destruct x as [tx xx]. cbn in Ht. subst tx.
      destruct (proj2 (relabelled_in _ _ _ k xx R1) Hx) as (b & _ & p' & H1 & H2). congruence. }
    assert (X2 : equal_range k cs = []).
    { destruct (equal_range k cs) as [|x r] eqn:E; [reflexivity|]. exfalso. assert (Hx : In x (equal_range k cs)) by (rewrite E; now left).
      apply equal_range_in in Hx as [Hx Ht]. destruct x as [tx xx]. cbn in Ht. subst tx.
      destruct (proj1 (relabelled_in _ _ _ k xx R2) Hx) as (b & _ & Hs). apply swapped_sym in Hs as (p' & H1 & H2). congruence. }
    now rewrite X1, X2.
Qed.

(** ** updateAlphabet *)
Definition iset (l : list Z) : Prop := ssorted Z.ltb l.
Lemma iset_insert_in : forall x l y, iset l -> (In y (iset_insert x l) <-> y = x \/ In y l).
Proof. intros. now apply (sv_insert_in _ _ Z_strict_total). Qed.
Lemma iset_insert_iset : forall x l, iset l -> iset (iset_insert x l).
Proof. intros. now apply (sv_insert_sorted _ _ Z_strict_total). Qed.

Lemma map_find_set : forall {K} (dec : forall a b : K, {a = b} + {a <> b}) m k k' v,
  map_find dec k (map_set dec k' v m) = if dec k k' then Some v else map_find dec k m.
Proof.
  intros K dec. induction m as [|[k0 v0] m IH]; intros k k' v; cbn [map_set map_find].
  - reflexivity.
  - destruct (dec k' k0) as [->|Hn]; cbn [map_find].
    + destruct (dec k k0); reflexivity.
    + destruct (dec k k0) as [->|]; [|apply IH]. destruct (dec k0 k'); [congruence|reflexivity].
Qed.

Lemma as_symbol_extends : forall a b s x, extends a b -> as_symbol a s x -> as_symbol b s x.
Proof. intros a b s [n|c] E H; [|exact H]. destruct H as [H1 H2]. split; [exact H1|]. eapply getSymbol_extends; eauto. Qed.
Lemma as_symbols_extends : forall a b s x, extends a b -> as_symbols a s x -> as_symbols b s x.
Proof.
  intros a b s x E (l & r & H1 & H2 & H3). exists l, r.
  split; [eapply decode_extends; eauto|]. split; eapply as_symbol_extends; eauto.
Qed.
Lemma as_symbol_fun : forall a s x y, as_symbol a s x -> as_symbol a s y -> x = y.
Proof.
  intros a s [n|c] [m|d] H1 H2; cbn in *; destruct H1 as [H1 H1'], H2 as [H2 H2']; try lia; try congruence.
Qed.
Lemma as_symbols_fun : forall a s x y, as_symbols a s x -> as_symbols a s y -> x = y.
Proof.
  intros a s [x1 x2] [y1 y2] (l & r & H1 & H2 & H3) (l' & r' & H4 & H5 & H6).
  rewrite H1 in H4. injection H4 as <- <-. cbn in *. f_equal; eapply as_symbol_fun; eauto.
Qed.

(** The tags collected. *)
Definition single_ok (old : alphabet) (tag : Z) : Prop := exists x, as_symbol old tag x.
Definition ua_ok (old : alphabet) (has_pairs : bool) (tag : Z) : Prop :=
  if negb has_pairs && (tag <? 0) then single_ok old tag else exists x, as_symbols old tag x.
Definition needs (old : alphabet) (has_pairs : bool) (tag s : Z) : Prop :=
  if negb has_pairs && (tag <? 0) then s = tag
  else exists l r, decode tag old = Ok (l, r) /\ s < 0 /\ (s = l \/ s = r).

Lemma ua_collect_spec : forall old hp tags pairs symbols, iset pairs -> iset symbols ->
  Forall (ua_ok old hp) tags ->
  Forall (ua_ok old hp) pairs -> Forall (fun s => s < 0 /\ single_ok old s) symbols ->
  exists pairs' symbols', ua_collect old hp tags (pairs, symbols) = Ok (pairs', symbols')
    /\ Forall (ua_ok old hp) pairs' /\ Forall (fun s => s < 0 /\ single_ok old s) symbols'
    /\ incl pairs pairs' /\ incl symbols symbols'
    /\ (forall tag s, In tag tags -> needs old hp tag s -> In s symbols')
    /\ (forall tag, In tag tags -> negb hp && (tag <? 0) = false -> In tag pairs')
    /\ (forall tag, In tag pairs' -> In tag pairs \/ In tag tags).
Proof.
  intros old hp. induction tags as [|tag tags IH]; intros pairs symbols Sp Ss F Fp Fs; cbn [ua_collect].
  - exists pairs, symbols. split; [reflexivity|]. do 2 (split; [assumption|]). do 2 (split; [apply incl_refl|]). split; [intros ? ? []|]. split; [intros ? []|]. auto.
  - inversion F as [|? ? Ht F']; subst. unfold ua_ok in Ht. unfold ua_arc.
    assert (Sole : forall s, s < 0 -> (exists x, as_symbol old s x) -> forall l, iset l -> Forall (fun s => s < 0 /\ single_ok old s) l ->
      Forall (fun s => s < 0 /\ single_ok old s) (iset_insert s l)).
    { intros s Hs Hx l Il Fl. apply Forall_forall. intros y Hy. apply (iset_insert_in s l y Il) in Hy. destruct Hy as [->|Hy].
      - split; [exact Hs|exact Hx].
      - rewrite Forall_forall in Fl. auto. }
    destruct (negb hp && (tag <? 0)) eqn:Eb; cbn [obind].
    + assert (Hneg : tag < 0) by lia.
      destruct (IH pairs (iset_insert tag symbols)) as (p' & s' & -> & H1 & H2 & H3 & H4 & H5 & H6 & H7); auto using iset_insert_iset.
      exists p', s'. split; [reflexivity|]. split; [exact H1|]. split; [exact H2|]. split; [exact H3|].
      split; [intros y Hy; apply H4; apply iset_insert_in; auto|].
      split; [|split].
      * intros tag' s [<-|Hin] Hn; [|eauto]. unfold needs in Hn. rewrite Eb in Hn. subst s. apply H4. apply iset_insert_in; auto.
      * intros tag' [<-|Hin] Hn; [congruence|eauto].
      * intros tag' Hin. cbn [In]. destruct (H7 _ Hin); auto.
    + destruct Ht as ([x y] & l & r & Hd & Hl & Hr). cbn [fst snd] in Hl, Hr. rewrite Hd. cbn [obind].
      set (s1 := if l <? 0 then iset_insert l symbols else symbols).
      set (s2 := if r <? 0 then iset_insert r s1 else s1).
      assert (A1 : iset s1 /\ Forall (fun s => s < 0 /\ single_ok old s) s1 /\ incl symbols s1 /\ (l < 0 -> In l s1)).
      { unfold s1. destruct (Z.ltb_spec l 0).
        - split; [now apply iset_insert_iset|]. split; [eapply Sole; eauto|].
          split; [intros z Hz; apply iset_insert_in; auto|intros _; apply iset_insert_in; auto].
        - split; [exact Ss|]. split; [exact Fs|]. split; [apply incl_refl|lia]. }
      destruct A1 as (B1 & B2 & B3 & B4).
      assert (A2 : iset s2 /\ Forall (fun s => s < 0 /\ single_ok old s) s2 /\ incl s1 s2 /\ (r < 0 -> In r s2)).
      { unfold s2. destruct (Z.ltb_spec r 0).
        - split; [now apply iset_insert_iset|]. split; [eapply Sole; eauto|].
          split; [intros z Hz; apply iset_insert_in; auto|intros _; apply iset_insert_in; auto].
        - split; [exact B1|]. split; [exact B2|]. split; [apply incl_refl|lia]. }
      destruct A2 as (C1 & C2 & C3 & C4).
      destruct (IH (iset_insert tag pairs) s2) as (p' & s' & -> & H1 & H2 & H3 & H4 & H5 & H6 & H7); auto using iset_insert_iset.
      { apply Forall_forall. intros z Hz. apply (iset_insert_in tag pairs z Sp) in Hz. destruct Hz as [->|Hz]; [|rewrite Forall_forall in Fp; auto].
        inversion F; assumption. }
      exists p', s'. split; [reflexivity|]. split; [exact H1|]. split; [exact H2|].
      split; [intros z Hz; apply H3; apply iset_insert_in; auto|]. split; [intros z Hz; auto|]. split; [|split].
      * intros tag' s [<-|Hin] Hn; [|eauto]. unfold needs in Hn. rewrite Eb in Hn.
        destruct Hn as (l' & r' & Hd' & Hs & Hlr). rewrite Hd in Hd'. injection Hd' as <- <-. destruct Hlr as [->| ->]; auto.
      * intros tag' [<-|Hin] Hn; [|eauto]. apply H3. apply iset_insert_in; auto.
      * intros tag' Hin. cbn [In]. destruct (H7 _ Hin) as [K|K]; auto. apply (iset_insert_in tag pairs _ Sp) in K. destruct K as [->|K]; auto.
Qed.

(** The update maps. *)
Definition upd_ok (R : alphabet -> Z -> Z -> Prop) (update : list (Z * Z)) (a : alphabet) : Prop :=
  forall k v, map_find Z.eq_dec k update = Some v -> R a k v.
Definition sym_same (old new : alphabet) (s s' : Z) : Prop :=
  s < 0 /\ exists x, as_symbol old s x /\ as_symbol new s' x.

Lemma include_code : forall s a, alph_inv a ->
  symbol_code s (includeSymbol s a) < 0 /\ getSymbol (symbol_code s (includeSymbol s a)) (includeSymbol s a) = Ok s.
Proof.
  intros s a I. assert (H := include_in s a I). apply In_nth_error in H as (i & Hi).
  destruct (symbol_code_nth _ s i (include_inv s a I) Hi) as (-> & _ & ->). split; [unfold tag_of; lia|reflexivity].
Qed.

Lemma ua_symbols_spec : forall old symbols new update, alph_inv new ->
  Forall (fun s => s < 0 /\ single_ok old s) symbols ->
  upd_ok (sym_same old) update new ->
  exists new' update', ua_symbols old symbols new update = Ok (new', update')
    /\ alph_inv new' /\ extends new new' /\ upd_ok (sym_same old) update' new'
    /\ forall k, (In k symbols \/ exists v, map_find Z.eq_dec k update = Some v) -> exists v, map_find Z.eq_dec k update' = Some v.
Proof.
  intros old. induction symbols as [|it symbols IH]; intros new update I F U; cbn [ua_symbols].
  - exists new, update. split; [reflexivity|]. split; [exact I|]. split; [apply extends_refl|]. split; [exact U|]. intros k [[]|H]; exact H.
  - inversion F as [|? ? [Hneg [[n|c] Hx]] F']; subst; [|exfalso; cbn in Hx; lia]. destruct Hx as [_ Hn]. rewrite Hn. cbn [obind].
    destruct (include_code n new I) as [K1 K2]. set (c := symbol_code n (includeSymbol n new)) in *.
    assert (E0 := include_extends n new I).
    destruct (IH (includeSymbol n new) (map_set Z.eq_dec it c update)) as (n' & u' & -> & I' & E' & U' & P); auto using include_inv.
    { intros k v Hk. rewrite map_find_set in Hk. destruct (Z.eq_dec k it) as [->|].
      - injection Hk as <-. split; [exact Hneg|]. exists (STag n). split; split; auto.
      - destruct (U k v Hk) as (H1 & x & H2 & H3). split; [exact H1|]. exists x. split; [exact H2|]. eapply as_symbol_extends; eauto. }
    exists n', u'. split; [reflexivity|]. split; [exact I'|]. split; [eapply extends_trans; eauto|]. split; [exact U'|].
    intros k Hk. apply P. destruct (Z.eq_dec k it) as [->|Hne].
    + right. exists c. rewrite map_find_set. destruct (Z.eq_dec it it); congruence.
    + destruct Hk as [[->|Hk]|Hk]; [contradiction|auto|]. right. rewrite map_find_set. destruct (Z.eq_dec k it); [contradiction|exact Hk].
Qed.

Definition pair_same (old new : alphabet) (s s' : Z) : Prop := exists x, as_symbols old s x /\ as_symbols new s' x.

Lemma ua_side_spec : forall old new update l x, upd_ok (sym_same old) update new ->
  (l < 0 -> exists v, map_find Z.eq_dec l update = Some v) -> as_symbol old l x ->
  as_symbol new (ua_side update l) x.
Proof.
  intros old new update l x U H Hx. unfold ua_side. destruct (Z.ltb_spec l 0) as [Hl|Hl].
  - destruct (H Hl) as (v & Hv). rewrite Hv. destruct (U l v Hv) as (_ & y & H1 & H2).
    now rewrite (as_symbol_fun old l x y).
  - destruct x as [n|c]; cbn in *; [lia|exact Hx].
Qed.

Lemma ua_pairs_spec : forall old update pairs new pupdate, alph_inv new ->
  upd_ok (sym_same old) update new ->
  Forall (fun tag => exists x, as_symbols old tag x) pairs ->
  (forall tag s, In tag pairs -> needs old true tag s -> exists v, map_find Z.eq_dec s update = Some v) ->
  upd_ok (pair_same old) pupdate new ->
  exists new' pupdate', ua_pairs old update pairs new pupdate = Ok (new', pupdate')
    /\ alph_inv new' /\ extends new new' /\ upd_ok (pair_same old) pupdate' new'
    /\ forall k, (In k pairs \/ exists v, map_find Z.eq_dec k pupdate = Some v) -> exists v, map_find Z.eq_dec k pupdate' = Some v.
Proof.
  intros old update. induction pairs as [|it pairs IH]; intros new pu I U F N P; cbn [ua_pairs].
  - exists new, pu. split; [reflexivity|]. split; [exact I|]. split; [apply extends_refl|]. split; [exact P|]. intros k [[]|H]; exact H.
  - inversion F as [|? ? Hit F']; subst. destruct Hit as (xy & l & r & Hd & Hl & Hr). rewrite Hd. cbn [obind].
    assert (Al : as_symbol new (ua_side update l) (fst xy)).
    { eapply ua_side_spec; eauto. intros Hneg. apply (N it); [now left|]. unfold needs. cbn [negb andb]. exists l, r. auto. }
    assert (Ar : as_symbol new (ua_side update r) (snd xy)).
    { eapply ua_side_spec; eauto. intros Hneg. apply (N it); [now left|]. unfold needs. cbn [negb andb]. exists l, r. auto. }
    set (pr := (ua_side update l, ua_side update r)) in *.
    assert (I1 := pair_inv pr new I). assert (E1 := pair_extends pr new I). assert (C1 := pair_code_decode pr new I).
    destruct (pair_code pr new) as [c n1]. cbn [fst snd] in *.
    destruct (IH n1 (map_set Z.eq_dec it c pu)) as (n' & u' & -> & I' & E' & U' & Q); auto.
    { intros k v Hk. destruct (U k v Hk) as (H1 & x & H2 & H3). split; [exact H1|]. exists x. split; [exact H2|]. eapply as_symbol_extends; eauto. }
    { intros tag s Hin. apply N. now right. }
    { intros k v Hk. rewrite map_find_set in Hk. destruct (Z.eq_dec k it) as [->|].
      - injection Hk as <-. exists xy. split; [exists l, r; auto|]. exists (ua_side update l), (ua_side update r).
        split; [exact C1|]. split; eapply as_symbol_extends; eauto.
      - destruct (P k v Hk) as (x & H2 & H3). exists x. split; [exact H2|]. eapply as_symbols_extends; eauto. }
    exists n', u'. split; [reflexivity|]. split; [exact I'|]. split; [eapply extends_trans; eauto|]. split; [exact U'|].
    intros k Hk. apply Q. destruct (Z.eq_dec k it) as [->|Hne].
    + right. exists c. rewrite map_find_set. destruct (Z.eq_dec it it); congruence.
    + destruct Hk as [[->|Hk]|Hk]; [contradiction|auto|]. right. rewrite map_find_set. destruct (Z.eq_dec k it); [contradiction|exact Hk].
Qed.

Definition ua_tag (update : list (Z * Z)) (tag : Z) : Z :=
  match map_find Z.eq_dec tag update with Some v => v | None => tag end.
Lemma ua_arcs_all : forall update arcs, ua_arcs update arcs = mm_all (map (fun a => (ua_tag update (a_tag a), snd a)) arcs) [].
Proof.
  intros update arcs. unfold ua_arcs, mm_all. generalize (@nil arc) as acc.
  induction arcs as [|a arcs IH]; intros acc; [reflexivity|]. cbn [fold_left map]. apply IH.
Qed.
Lemma ua_arcs_relabelled : forall (R : Z -> Z -> Prop) update arcs,
  (forall a, In a arcs -> R (a_tag a) (ua_tag update (a_tag a))) ->
  relabelled R arcs (map (fun a => (ua_tag update (a_tag a), snd a)) arcs).
Proof.
  intros R update. induction arcs as [|a arcs IH]; intros H; constructor.
  - split; [apply H; now left|reflexivity].
  - apply IH. intros b Hb. apply H. now right.
Qed.

Lemma in_all_tags : forall t tag, In tag (map a_tag (concat (trans t))) <-> exists p q w, has_arc t p tag q w.
Proof.
  intros t tag. rewrite in_map_iff. split.
  - intros ([tag' [q w]] & <- & H). apply in_concat in H as (l & Hl & Ha). apply In_nth with (d := []) in Hl as (p & Hp & <-).
    exists p, q, w. exact Ha.
  - intros (p & q & w & H). exists (tag, (q, w)). split; [reflexivity|]. apply in_concat. exists (arcs_of t p). split; [|exact H].
    apply nth_In. exact (has_arc_lt _ _ _ _ _ H).
Qed.

(** The rewritten states, for a relation between old and new tags. *)
Definition rewritten (R : Z -> Z -> Prop) (t t' : transducer) : Prop :=
  forall p, exists bs, arcs_of t' p = mm_all bs [] /\ relabelled R (arcs_of t p) bs.

Lemma rewritten_map : forall (R : Z -> Z -> Prop) update t,
  (forall p a q w, has_arc t p a q w -> R a (ua_tag update a)) ->
  rewritten R t (mkT (initial t) (finals t) (map (ua_arcs update) (trans t))).
Proof.
  intros R update t H p. eexists. split.
  - unfold arcs_of. cbn [trans]. rewrite (nth_map_nil (ua_arcs update)) by reflexivity. apply ua_arcs_all.
  - apply ua_arcs_relabelled. intros [a [q w]] Ha. exact (H p a q w Ha).
Qed.

Lemma rewritten_arcs : forall {X} (D D' : Z -> X -> Prop) (R : Z -> Z -> Prop) t t', rewritten R t t' ->
  (forall a x y, D a x -> D a y -> x = y) -> (forall a x y, D' a x -> D' a y -> x = y) ->
  (forall a b, R a b -> exists x, D a x /\ D' b x) ->
  forall p y q w, (exists b, has_arc t' p b q w /\ D' b y) <-> (exists a x, has_arc t p a q w /\ D a x /\ x = y).
Proof.
  intros X D D' R t t' W F F' HR p y q w. destruct (W p) as (bs & Hb & Hr). unfold has_arc. rewrite Hb. split.
  - intros (b & Hin & Hy). apply mm_all_in in Hin as [Hin|[]].
    destruct (proj1 (relabelled_in _ _ _ b (q, w) Hr) Hin) as (a & Ha & Rab).
    destruct (HR _ _ Rab) as (x & Hx & Hx'). exists a, x. split; [exact Ha|]. split; [exact Hx|]. eapply F'; eauto.
  - intros (a & x & Ha & Hx & ->). destruct (proj2 (relabelled_in _ _ _ a (q, w) Hr) Ha) as (b & Hb' & Rab).
    destruct (HR _ _ Rab) as (x' & Hx1 & Hx2). exists b. split; [apply mm_all_in; now left|]. now rewrite (F a y x').
Qed.

Lemma trace_eq : forall {X} (tr tr' : list (X * Z)),
  Forall2 (fun u v => fst u = fst v /\ snd u = snd v) tr tr' <-> tr = tr'.
Proof.
  intros X tr tr'. split.
  - induction 1 as [|[a b] [c d] tr tr' [H1 H2] _ IH]; [reflexivity|]. cbn in *. congruence.
  - intros <-. induction tr; constructor; auto.
Qed.

Lemma rewritten_wf : forall R t t', wf t -> same_frame t t' -> rewritten R t t' -> wf t'.
Proof.
  intros R t t' W (F1 & F2 & F3) H. split.
  - rewrite F1, F3. apply W.
  - unfold final_wt. rewrite F2, F3. apply W.
  - rewrite F2. apply W.
  - intros p a q w Ha. rewrite F3. destruct (H p) as (bs & Hb & Hr). unfold has_arc in Ha. rewrite Hb in Ha.
    apply mm_all_in in Ha as [Ha|[]]. destruct (proj1 (relabelled_in _ _ _ a (q, w) Hr) Ha) as (a' & Ha' & _).
    exact (wf_arcs t W _ _ _ _ Ha').
  - intros p. destruct (H p) as (bs & Hb & _). rewrite Hb. apply mm_all_sorted. constructor.
Qed.

Lemma same_frame_map : forall f t, same_frame t (mkT (initial t) (finals t) (map f (trans t))).
Proof. intros f t. split; [reflexivity|]. split; [reflexivity|]. unfold nstates. cbn. now rewrite map_length. Qed.

Lemma updateAlphabet_pairs : forall old new t, alph_inv new -> symbols_in t old ->
  exists t' new', updateAlphabet old new true t = Ok (t', new') /\ alph_inv new' /\ extends new new'
    /\ same_frame t t' /\ rewritten (pair_same old new') t t'.
Proof.
  intros old new t I S. unfold updateAlphabet.
  destruct (ua_collect_spec old true (map a_tag (concat (trans t))) [] []) as (pairs & symbols & -> & H1 & H2 & _ & _ & H5 & H6 & H7); try constructor.
  { apply Forall_forall. intros tag Ht. apply in_all_tags in Ht as (p & q & w & Ht). exact (S p tag q w Ht). }
  cbn [obind]. destruct (ua_symbols_spec old symbols new [] I H2) as (n1 & u1 & -> & I1 & E1 & U1 & P1); [intros k v Hk; discriminate|].
  cbn [obind]. destruct (ua_pairs_spec old u1 pairs n1 [] I1 U1) as (n2 & u2 & -> & I2 & E2 & U2 & P2).
  { exact H1. }
  { intros tag s Hin Hn. apply P1. left. destruct (H7 _ Hin) as [[]|Ht]. eapply H5; eauto. }
  { intros k v Hk. discriminate. }
  cbn [obind]. eexists. exists n2. split; [reflexivity|]. split; [exact I2|]. split; [eapply extends_trans; eauto|].
  split; [apply same_frame_map|]. apply rewritten_map. intros p a q w Ha. unfold ua_tag.
  destruct (P2 a) as (v & Hv). { left. apply H6; [|reflexivity]. apply in_all_tags. eauto. }
  rewrite Hv. exact (U2 a v Hv).
Qed.

(** One-sided transducers: a tag is a symbol.  Non-negative tags are looked up as pairs. *)
Definition single_same (old new : alphabet) (s s' : Z) : Prop := exists x, as_symbol old s x /\ as_symbol new s' x.
Lemma updateAlphabet_single : forall old new t, alph_inv new ->
  (forall p tag q w, has_arc t p tag q w -> ua_ok old false tag) ->
  exists t' new', updateAlphabet old new false t = Ok (t', new') /\ alph_inv new' /\ extends new new'
    /\ same_frame t t' /\ rewritten (single_same old new') t t'.
Proof.
  intros old new t I S. unfold updateAlphabet.
  destruct (ua_collect_spec old false (map a_tag (concat (trans t))) [] []) as (pairs & symbols & -> & H1 & H2 & _ & _ & H5 & H6 & H7); try constructor.
  { apply Forall_forall. intros tag Ht. apply in_all_tags in Ht as (p & q & w & Ht). exact (S p tag q w Ht). }
  cbn [obind]. destruct (ua_symbols_spec old symbols new [] I H2) as (n1 & u1 & -> & I1 & E1 & U1 & P1); [intros k v Hk; discriminate|].
  cbn [obind]. eexists. exists n1. split; [reflexivity|]. split; [exact I1|]. split; [exact E1|].
  split; [apply same_frame_map|]. apply rewritten_map. intros p a q w Ha. unfold ua_tag.
  destruct (map_find Z.eq_dec a u1) as [v|] eqn:Ev.
  - destruct (U1 a v Ev) as (_ & x & Hx). exists x. exact Hx.
  - destruct (Z.lt_ge_cases a 0) as [Hn|Hn].
    + exfalso. destruct (P1 a) as (v & Hv); [|congruence]. left. apply (H5 a a).
      * apply in_all_tags. eauto.
      * unfold needs. replace (a <? 0) with true by lia. reflexivity.
    + exists (SChar a). split; split; auto.
Qed.

(** ** deleteSymbols *)
Lemma erase_all_in : forall syms l a, In a (fold_left (fun l sym => mm_erase sym l) syms l) <-> In a l /\ ~ In (a_tag a) syms.
Proof.
  induction syms as [|s syms IH]; intros l a; cbn [fold_left]; [cbn; tauto|]. rewrite IH. unfold mm_erase. rewrite filter_In. cbn [In].
  destruct (Z.eqb_spec (a_tag a) s); cbn [negb]; intuition congruence.
Qed.
Lemma filter_sorted : forall f l, arcs_sorted l -> arcs_sorted (filter f l).
Proof.
  intros f l S. induction S as [|a l S IH H]; cbn [filter]; [constructor|]. destruct (f a); [|exact IH]. constructor; [exact IH|].
  rewrite Forall_forall in *. intros b Hb. apply filter_In in Hb as [Hb _]. auto.
Qed.
Lemma erase_all_sorted : forall syms l, arcs_sorted l -> arcs_sorted (fold_left (fun l sym => mm_erase sym l) syms l).
Proof. induction syms as [|s syms IH]; intros l H; [exact H|]. cbn [fold_left]. apply IH. now apply filter_sorted. Qed.

Lemma delete_arc : forall syms t p a q w,
  has_arc (deleteSymbols syms t) p a q w <-> has_arc t p a q w /\ ~ In a syms.
Proof.
  intros syms t p a q w. unfold has_arc, arcs_of, deleteSymbols. cbn [trans].
  rewrite (nth_map_nil (fun l => fold_left (fun l sym => mm_erase sym l) syms l)).
  - apply erase_all_in.
  - clear. induction syms; [reflexivity|exact IHsyms].
Qed.

(** ** epsilonizeSymbols *)
Definition zeroed (l : list arc) : list arc := map (fun it => (0, snd it)) l.
Lemma eps_loop_ok : forall fuel sym rem l, sym <> 0 -> (length rem <= fuel)%nat ->
  eps_loop fuel sym rem l = Ok (mm_all (zeroed rem) l).
Proof.
  induction fuel as [|f IH]; intros sym rem l Hs Hl; destruct rem as [|it rem]; cbn [length] in Hl; try lia; try reflexivity.
  cbn [eps_loop]. destruct (Z.eqb_spec sym 0); [contradiction|]. rewrite IH by (auto; lia). reflexivity.
Qed.
Definition eps_tag (syms : list Z) (a : Z) : Z := if in_dec Z.eq_dec a syms then 0 else a.

Lemma range_erase_length : forall s l, (length (equal_range s l) + length (mm_erase s l) = length l)%nat.
Proof.
  intros s l. unfold equal_range, mm_erase. induction l as [|a l IH]; [reflexivity|]. cbn [filter].
  destruct (a_tag a =? s); cbn [negb length]; lia.
Qed.
Lemma mm_all_length : forall bs acc, length (mm_all bs acc) = (length bs + length acc)%nat.
Proof.
  unfold mm_all. induction bs as [|b bs IH]; intros acc; [reflexivity|]. cbn [fold_left length]. rewrite IH, mm_insert_length. lia.
Qed.

Lemma eps_state_spec : forall fuel syms l, arcs_sorted l -> ~ In 0 syms -> (length l <= fuel)%nat ->
  exists l', eps_state fuel syms l = Ok l' /\ arcs_sorted l' /\ length l' = length l
    /\ forall b x, In (b, x) l' <-> exists a, In (a, x) l /\ b = eps_tag syms a.
Proof.
  intros fuel. induction syms as [|sym syms IH]; intros l S Hz Hl; cbn [eps_state].
  - exists l. split; [reflexivity|]. split; [exact S|]. split; [reflexivity|]. intros b x. unfold eps_tag. cbn. split.
    + intros H. exists b. auto.
    + intros (a & H & ->). exact H.
  - cbn [In] in Hz. rewrite eps_loop_ok by (try (intros ->; apply Hz; now left); pose proof (range_erase_length sym l); lia).
    cbn [obind]. set (l1 := mm_all (zeroed (equal_range sym l)) l).
    assert (S1 : arcs_sorted l1) by now apply mm_all_sorted.
    assert (Hs : sym <> 0) by tauto.
    assert (L1 : length (mm_erase sym l1) = length l).
    { pose proof (range_erase_length sym l1) as E. rewrite (mm_all_length _ l : length l1 = _) in E. assert (E0 : equal_range sym l1 = equal_range sym l ++ equal_range sym (zeroed (equal_range sym l))) by now apply equal_range_all. rewrite E0 in E.
      assert (Z0 : equal_range sym (zeroed (equal_range sym l)) = []).
      { unfold zeroed. generalize (equal_range sym l). intros r. unfold equal_range. induction r as [|a r IHr]; [reflexivity|].
        cbn [map filter]. cbn [a_tag fst]. destruct (Z.eqb_spec 0 sym); [congruence|exact IHr]. }
      rewrite Z0, app_nil_r in E. unfold zeroed in E at 1. rewrite map_length in E. exact (proj1 (Nat.add_cancel_l _ _ _) E). }
    destruct (IH (mm_erase sym l1)) as (l' & -> & S' & L' & H'); [now apply filter_sorted|tauto|lia|].
    exists l'. split; [reflexivity|]. split; [exact S'|]. split; [lia|]. intros b x. rewrite H'.
    assert (M : forall a, In (a, x) (mm_erase sym l1) <-> exists a0, In (a0, x) l /\ a = if Z.eq_dec a0 sym then 0 else a0).
    { intros a. unfold mm_erase. rewrite filter_In. unfold l1. rewrite mm_all_in. unfold zeroed. rewrite in_map_iff. cbn [a_tag fst]. split.
      - intros [[([a0 x0] & E & Hin)|Hin] Hne].
        + cbn [snd] in E. injection E as <- <-. apply equal_range_in in Hin as [Hin Ht]. cbn in Ht. subst a0.
          exists sym. split; [exact Hin|]. destruct (Z.eq_dec sym sym); congruence.
        + exists a. split; [exact Hin|]. destruct (Z.eq_dec a sym); [lia|reflexivity].
      - intros (a0 & Hin & ->). destruct (Z.eq_dec a0 sym) as [->|Hne].
        + split; [|lia]. left. exists (sym, x). split; [reflexivity|]. now apply equal_range_in.
        + split; [now right|lia]. }
    split.
    + intros (a & Ha & ->). apply M in Ha as (a0 & Ha0 & ->). exists a0. split; [exact Ha0|].
      unfold eps_tag. destruct (in_dec Z.eq_dec a0 (sym :: syms)) as [Hi|Hi]; cbn [In] in Hi.
      * destruct (Z.eq_dec a0 sym); [destruct (in_dec Z.eq_dec 0 syms); tauto|]. destruct (in_dec Z.eq_dec a0 syms); [reflexivity|]. exfalso. destruct Hi; [congruence|contradiction].
      * destruct (Z.eq_dec a0 sym); [exfalso; subst; tauto|]. destruct (in_dec Z.eq_dec a0 syms); [tauto|reflexivity].
    + intros (a0 & Ha0 & ->). exists (if Z.eq_dec a0 sym then 0 else a0). split; [apply M; eauto|].
      unfold eps_tag. destruct (in_dec Z.eq_dec a0 (sym :: syms)) as [Hi|Hi]; cbn [In] in Hi.
      * destruct (Z.eq_dec a0 sym); [destruct (in_dec Z.eq_dec 0 syms); tauto|]. destruct (in_dec Z.eq_dec a0 syms); [reflexivity|]. exfalso. destruct Hi; [congruence|contradiction].
      * destruct (Z.eq_dec a0 sym); [exfalso; subst; tauto|]. destruct (in_dec Z.eq_dec a0 syms); [tauto|reflexivity].
Qed.

Lemma eps_states_spec : forall fuel syms ts, (forall l, In l ts -> arcs_sorted l /\ (length l <= fuel)%nat) -> ~ In 0 syms ->
  exists ts', eps_states fuel syms ts = Ok ts' /\
    Forall2 (fun l l' => arcs_sorted l' /\ forall b x, In (b, x) l' <-> exists a, In (a, x) l /\ b = eps_tag syms a) ts ts'.
Proof.
  intros fuel syms. induction ts as [|l ts IH]; intros H Hz; cbn [eps_states].
  - exists []. split; [reflexivity|constructor].
  - destruct (H l (or_introl eq_refl)) as [Hs Hl].
    destruct (eps_state_spec fuel syms l Hs Hz Hl) as (l' & -> & S' & _ & H'). cbn [obind].
    destruct IH as (ts' & -> & F); [intros m Hm; apply H; now right|exact Hz|]. cbn [obind].
    eexists. split; [reflexivity|]. constructor; auto.
Qed.

Lemma epsilonize_spec : forall fuel syms t, wf t -> ~ In 0 syms -> (forall p, (length (arcs_of t p) <= fuel)%nat) ->
  exists t', epsilonizeSymbols fuel syms t = Ok t' /\ same_frame t t' /\ wf t'
    /\ forall p b q w, has_arc t' p b q w <-> exists a, has_arc t p a q w /\ b = eps_tag syms a.
Proof.
  intros fuel syms t W Hz Hf. unfold epsilonizeSymbols.
  destruct (eps_states_spec fuel syms (trans t)) as (ts' & -> & F); [|exact Hz|].
  { intros l Hl. apply In_nth with (d := []) in Hl as (p & Hp & <-). split; [apply (wf_sorted t W)|apply (Hf p)]. }
  cbn [obind]. eexists. split; [reflexivity|].
  assert (Fr : same_frame t (mkT (initial t) (finals t) ts')).
  { split; [reflexivity|]. split; [reflexivity|]. unfold nstates. cbn. symmetry. eapply Forall2_len; eauto. }
  split; [exact Fr|].
  assert (A := fun p => Forall2_nth_nil _ _ _ p F). cbn beta in A.
  assert (A' : forall p, arcs_sorted (nth p ts' []) /\ forall b x, In (b, x) (nth p ts' []) <-> exists a, In (a, x) (nth p (trans t) []) /\ b = eps_tag syms a).
  { intros p. apply A. split; [constructor|]. intros b x. split; [intros []|intros (a & [] & _)]. }
  assert (Arcs : forall p b q w, has_arc (mkT (initial t) (finals t) ts') p b q w <-> exists a, has_arc t p a q w /\ b = eps_tag syms a).
  { intros p b q w. apply (proj2 (A' p)). }
  split; [|exact Arcs].
  destruct Fr as (F1 & F2 & F3). split.
  - rewrite F1, F3. apply W.
  - unfold final_wt. rewrite F2, F3. apply W.
  - rewrite F2. apply W.
  - intros p a q w Ha. rewrite F3. apply Arcs in Ha as (a0 & Ha & _). exact (wf_arcs t W _ _ _ _ Ha).
  - intros p. apply (A' p).
Qed.

Lemma relabel_path : forall h t t', (forall p b q w, has_arc t' p b q w <-> exists a, has_arc t p a q w /\ b = h a) ->
  forall p l' q, path t' p l' q <-> exists l, path t p l q /\ l' = map (fun x => (h (fst x), snd x)) l.
Proof.
  intros h t t' H p l' q. split.
  - induction 1 as [p|p b w q l r Ha _ (l0 & IH & ->)].
    + exists []. split; [constructor|reflexivity].
    + apply H in Ha as (a & Ha & ->). exists ((a, w) :: l0). split; [econstructor; eauto|reflexivity].
  - intros (l & Hp & ->). induction Hp as [p|p a w q l r Ha _ IH]; cbn [map fst snd]; [constructor|].
    econstructor; [apply H; eauto|exact IH].
Qed.

Lemma eps_loop_out : forall fuel sym rem l, (exists r, eps_loop fuel sym rem l = Ok r /\ incl l r) \/ eps_loop fuel sym rem l = NoFuel.
Proof.
  induction fuel as [|f IH]; intros sym rem l; destruct rem as [|it rem]; cbn [eps_loop]; auto.
  - left. exists l. split; [reflexivity|apply incl_refl].
  - left. exists l. split; [reflexivity|apply incl_refl].
  - destruct (IH sym (if sym =? 0 then rem ++ [(0, snd it)] else rem) (mm_insert (0, snd it) l)) as [(r & -> & Hr)|H]; [|now right].
    left. exists r. split; [reflexivity|]. intros a Ha. apply Hr. apply mm_insert_in. now right.
Qed.
Lemma eps_loop_zero : forall fuel rem l, rem <> [] -> eps_loop fuel 0 rem l = NoFuel.
Proof.
  induction fuel as [|f IH]; intros rem l H; destruct rem as [|it rem]; try contradiction; [reflexivity|].
  cbn [eps_loop]. cbn [Z.eqb]. apply IH. destruct rem; discriminate.
Qed.
Lemma eps_state_zero : forall fuel syms l, In 0 syms -> (exists x, In (0, x) l) -> eps_state fuel syms l = NoFuel.
Proof.
  intros fuel. induction syms as [|s syms IH]; intros l Hz (x & Hx); [destruct Hz|]. cbn [eps_state].
  destruct (Z.eq_dec s 0) as [->|Hs].
  - rewrite eps_loop_zero; [reflexivity|]. intros E. assert (H : In (0, x) (equal_range 0 l)) by now apply equal_range_in. rewrite E in H. exact H.
  - destruct Hz as [Hz|Hz]; [contradiction|].
    destruct (eps_loop_out fuel s (equal_range s l) l) as [(r & -> & Hr)| ->]; [|reflexivity]. cbn [obind].
    apply IH; [exact Hz|]. exists x. unfold mm_erase. apply filter_In. split; [now apply Hr|]. cbn [a_tag fst]. lia.
Qed.
Lemma eps_state_out : forall fuel syms l, (exists r, eps_state fuel syms l = Ok r) \/ eps_state fuel syms l = NoFuel.
Proof.
  intros fuel. induction syms as [|s syms IH]; intros l; cbn [eps_state]; [eauto|].
  destruct (eps_loop_out fuel s (equal_range s l) l) as [(r & -> & _)| ->]; [|now right]. apply IH.
Qed.
Lemma eps_states_zero : forall fuel syms ts, In 0 syms -> (exists l x, In l ts /\ In (0, x) l) -> eps_states fuel syms ts = NoFuel.
Proof.
  intros fuel syms. induction ts as [|l ts IH]; intros Hz (m & x & Hm & Hx); [destruct Hm|]. cbn [eps_states].
  destruct Hm as [->|Hm].
  - now rewrite eps_state_zero by eauto.
  - destruct (eps_state_out fuel syms l) as [(r & ->)| ->]; [|reflexivity]. cbn [obind]. now rewrite IH by eauto.
Qed.

(** ** applyACX *)
Definition acx_equiv (acx : acx_table) (i i' : Z) : Prop := exists syms, acx_find i acx = Some syms /\ In i' syms.

Lemma acx_syms_spec : forall syms o x alpha, alph_inv alpha ->
  alph_inv (snd (acx_syms syms o x alpha)) /\ extends alpha (snd (acx_syms syms o x alpha))
  /\ (forall b y, In (b, y) (fst (acx_syms syms o x alpha)) -> y = x /\ exists s, In s syms /\ decode b (snd (acx_syms syms o x alpha)) = Ok (s, o))
  /\ (forall s, In s syms -> exists b, In (b, x) (fst (acx_syms syms o x alpha)) /\ decode b (snd (acx_syms syms o x alpha)) = Ok (s, o)).
Proof.
  induction syms as [|s syms IH]; intros o x alpha I; cbn [acx_syms].
  - cbn [fst snd]. split; [exact I|]. split; [apply extends_refl|]. split; [intros b y []|intros s []].
  - assert (I1 := pair_inv (s, o) alpha I). assert (E1 := pair_extends (s, o) alpha I). assert (C1 := pair_code_decode (s, o) alpha I).
    destruct (pair_code (s, o) alpha) as [c a1]. cbn [fst snd] in *.
    destruct (IH o x a1 I1) as (I2 & E2 & H1 & H2). destruct (acx_syms syms o x a1) as [l a2]. cbn [fst snd] in *.
    split; [exact I2|]. split; [eapply extends_trans; eauto|]. split.
    + intros b y [E|Hin].
      * injection E as <- <-. split; [reflexivity|]. exists s. split; [now left|]. eapply decode_extends; eauto.
      * destruct (H1 b y Hin) as (-> & s' & Hs & Hd). split; [reflexivity|]. exists s'. split; [now right|exact Hd].
    + intros s' [<-|Hs].
      * exists c. split; [now left|]. eapply decode_extends; eauto.
      * destruct (H2 s' Hs) as (b & Hb & Hd). exists b. split; [now right|exact Hd].
Qed.

(** What the inserted arcs are. *)
Definition acx_new (acx : acx_table) (alpha : alphabet) (arcs ins : list arc) : Prop :=
  (forall b x, In (b, x) ins -> exists a i o i', In (a, x) arcs /\ decode a alpha = Ok (i, o) /\ acx_equiv acx i i' /\ decode b alpha = Ok (i', o))
  /\ (forall a x i o i', In (a, x) arcs -> decode a alpha = Ok (i, o) -> acx_equiv acx i i' ->
        exists b, In (b, x) ins /\ decode b alpha = Ok (i', o)).
Lemma acx_arcs_spec : forall acx arcs alpha, alph_inv alpha ->
  (forall a, In a arcs -> exists p, decode (a_tag a) alpha = Ok p) ->
  exists ins alpha', acx_arcs acx arcs alpha = Ok (ins, alpha') /\ alph_inv alpha' /\ extends alpha alpha' /\ acx_new acx alpha' arcs ins.
Proof.
  intros acx. induction arcs as [|[tag x] arcs IH]; intros alpha I H; cbn [acx_arcs].
  - exists [], alpha. split; [reflexivity|]. split; [exact I|]. split; [apply extends_refl|]. split; [intros b x []|intros a x i o i' []].
  - destruct (H (tag, x) (or_introl eq_refl)) as ([i o] & Hp). cbn [a_tag fst] in Hp. rewrite Hp. cbn [obind].
    set (step := match acx_find i acx with Some syms => acx_syms syms o x alpha | None => ([], alpha) end).
    assert (Hs : alph_inv (snd step) /\ extends alpha (snd step)
      /\ (forall b y, In (b, y) (fst step) -> y = x /\ exists i', acx_equiv acx i i' /\ decode b (snd step) = Ok (i', o))
      /\ (forall i', acx_equiv acx i i' -> exists b, In (b, x) (fst step) /\ decode b (snd step) = Ok (i', o))).
    { unfold step, acx_equiv. destruct (acx_find i acx) as [syms|].
      - destruct (acx_syms_spec syms o x alpha I) as (A1 & A2 & A3 & A4). split; [exact A1|]. split; [exact A2|]. split.
        + intros b y Hb. destruct (A3 b y Hb) as (-> & s & Hs & Hd). split; [reflexivity|]. exists s. split; [eauto|exact Hd].
        + intros i' (syms' & E & Hi). injection E as <-. auto.
      - cbn [fst snd]. split; [exact I|]. split; [apply extends_refl|]. split; [intros b y []|]. intros i' (syms & E & _). discriminate. }
    destruct step as [l a1]. cbn [fst snd] in Hs. destruct Hs as (I1 & E1 & H1 & H2).
    destruct (IH a1 I1) as (m & a2 & -> & I2 & E2 & H3 & H4).
    { intros b Hb. destruct (H b (or_intror Hb)) as (pb & Hpb). exists pb. eapply decode_extends; eauto. }
    cbn [obind]. exists (l ++ m), a2. split; [reflexivity|]. split; [exact I2|]. split; [eapply extends_trans; eauto|].
    assert (Hp2 : decode tag a2 = Ok (i, o)) by (eapply decode_extends; [|exact Hp]; eapply extends_trans; eauto).
    split.
    + intros b y Hin. apply in_app_or in Hin as [Hin|Hin].
      * destruct (H1 b y Hin) as (-> & i' & He & Hd). exists tag, i, o, i'. split; [now left|]. split; [exact Hp2|]. split; [exact He|]. eapply decode_extends; eauto.
      * destruct (H3 b y Hin) as (a & i0 & o0 & i' & Ha & R). exists a, i0, o0, i'. split; [now right|exact R].
    + intros a y i0 o0 i' [E|Ha] Hd He.
      * injection E as <- <-. rewrite Hp2 in Hd. injection Hd as <- <-. destruct (H2 i' He) as (b & Hb & Hd).
        exists b. split; [apply in_or_app; now left|]. eapply decode_extends; eauto.
      * destruct (H4 a y i0 o0 i' Ha Hd He) as (b & Hb & Hd'). exists b. split; [apply in_or_app; now right|exact Hd'].
Qed.

Lemma acx_new_extends : forall acx a a' arcs ins, extends a a' ->
  (forall x, In x arcs -> exists p, decode (a_tag x) a = Ok p) ->
  acx_new acx a arcs ins -> acx_new acx a' arcs ins.
Proof.
  intros acx a a' arcs ins E Hd [H1 H2]. split.
  - intros b x Hb. destruct (H1 b x Hb) as (t & i & o & i' & R1 & R2 & R3 & R4). exists t, i, o, i'.
    split; [exact R1|]. split; [eapply decode_extends; eauto|]. split; [exact R3|]. eapply decode_extends; eauto.
  - intros t x i o i' Ht Hdec He. destruct (Hd (t, x) Ht) as (p & Hp). cbn in Hp.
    assert (p = (i, o)) by (apply (decode_extends _ _ _ _ E) in Hp; congruence). subst p.
    destruct (H2 t x i o i' Ht Hp He) as (b & Hb & Hb'). exists b. split; [exact Hb|]. eapply decode_extends; eauto.
Qed.

Lemma acx_states_spec : forall acx ts alpha, alph_inv alpha ->
  (forall l a, In l ts -> In a l -> exists p, decode (a_tag a) alpha = Ok p) ->
  exists ts' alpha', acx_states acx ts alpha = Ok (ts', alpha') /\ alph_inv alpha' /\ extends alpha alpha'
    /\ Forall2 (fun l l' => exists ins, l' = mm_all ins l /\ acx_new acx alpha' l ins) ts ts'.
Proof.
  intros acx. induction ts as [|l ts IH]; intros alpha I H; cbn [acx_states].
  - exists [], alpha. split; [reflexivity|]. split; [exact I|]. split; [apply extends_refl|constructor].
  - destruct (acx_arcs_spec acx l alpha I) as (ins & a1 & -> & I1 & E1 & R1); [intros a Ha; apply (H l); [now left|exact Ha]|].
    cbn [obind]. destruct (IH a1 I1) as (ts' & a2 & -> & I2 & E2 & R2).
    { intros m a Hm Ha. destruct (H m a (or_intror Hm) Ha) as (p & Hp). exists p. eapply decode_extends; eauto. }
    cbn [obind]. exists (mm_all ins l :: ts'), a2. split; [reflexivity|]. split; [exact I2|]. split; [eapply extends_trans; eauto|].
    constructor; [|exact R2]. exists ins. split; [reflexivity|]. eapply acx_new_extends; [exact E2| |exact R1].
    intros x Hx. destruct (H l x (or_introl eq_refl) Hx) as (p & Hp). exists p. eapply decode_extends; eauto.
Qed.

Lemma applyACX_spec : forall acx t alpha, alph_inv alpha -> tags_in t alpha ->
  exists t' alpha', applyACX acx t alpha = Ok (t', alpha') /\ alph_inv alpha' /\ extends alpha alpha' /\ same_frame t t'
    /\ forall p, exists ins, arcs_of t' p = mm_all ins (arcs_of t p) /\ acx_new acx alpha' (arcs_of t p) ins.
Proof.
  intros acx t alpha I H. unfold applyACX.
  destruct (acx_states_spec acx (trans t) alpha I) as (ts' & a' & -> & I' & E & F).
  { intros l [tag [q w]] Hl Ha. apply In_nth with (d := []) in Hl as (p & Hp & <-). exact (H p tag q w Ha). }
  cbn [obind]. eexists. exists a'. split; [reflexivity|]. split; [exact I'|]. split; [exact E|]. split.
  - split; [reflexivity|]. split; [reflexivity|]. unfold nstates. cbn. symmetry. eapply Forall2_len; eauto.
  - intros p. unfold arcs_of. cbn [trans].
    apply (Forall2_nth_nil (fun l l' => exists ins, l' = mm_all ins l /\ acx_new acx a' l ins) (trans t) ts' p F).
    exists []. split; [reflexivity|]. split; [intros b x []|intros a x i o i' []].
Qed.

Lemma applyACX_arcs : forall acx t alpha t' alpha', extends alpha alpha' -> tags_in t alpha ->
  (forall p, exists ins, arcs_of t' p = mm_all ins (arcs_of t p) /\ acx_new acx alpha' (arcs_of t p) ins) ->
  forall p y q w, (exists b, has_arc t' p b q w /\ as_pair alpha' b y)
    <-> (exists a x, has_arc t p a q w /\ as_pair alpha a x /\ snd x = snd y /\ (fst x = fst y \/ acx_equiv acx (fst x) (fst y))).
Proof.
  intros acx t alpha t' alpha' E T H p [y1 y2] q w. destruct (H p) as (ins & Hb & H1 & H2). unfold has_arc, as_pair. rewrite Hb. cbn [fst snd]. split.
  - intros (b & Hin & Hy). apply mm_all_in in Hin as [Hin|Hin].
    + destruct (H1 b (q, w) Hin) as (a & i & o & i' & Ha & Hd & He & Hd'). rewrite Hy in Hd'. injection Hd' as -> ->.
      destruct (T p a q w Ha) as (x & Hx). assert (x = (i, o)) by (apply (decode_extends _ _ _ _ E) in Hx; congruence). subst x.
      exists a, (i, o). cbn [fst snd]. auto.
    + destruct (T p b q w Hin) as (x & Hx). assert (x = (y1, y2)) by (apply (decode_extends _ _ _ _ E) in Hx; congruence). subst x.
      exists b, (y1, y2). cbn [fst snd]. auto.
  - intros (a & [x1 x2] & Ha & Hx & Hs & Hf). cbn [fst snd] in *. subst x2. apply (decode_extends _ _ _ _ E) in Hx. destruct Hf as [->|Hf].
    + exists a. split; [apply mm_all_in; now right|exact Hx].
    + destruct (H2 a (q, w) x1 y2 y1 Ha Hx Hf) as (b & Hb' & Hd). exists b. split; [apply mm_all_in; now left|exact Hd].
Qed.

(** ** recognise *)
Definition unit_match (a : alphabet) (u tag : Z) : Prop :=
  exists i o s, decode tag a = Ok (i, o) /\ getSymbol i a = Ok s /\ In u s.

Lemma set_insert_all_spec : forall range l, nset l -> nset (set_insert_all range l)
  /\ forall q, In q (set_insert_all range l) <-> In q range \/ In q l.
Proof.
  unfold set_insert_all, set_insert. induction range as [|x range IH]; intros l S; cbn [fold_left].
  - split; [exact S|]. cbn. tauto.
  - destruct (IH (sv_insert Nat.ltb x l) (nset_insert x l S)) as [H1 H2]. split; [exact H1|]. intros q. rewrite H2, in_nset_insert by exact S. cbn [In]. intuition.
Qed.

Section Recognise.
  Context (t : transducer) (alpha : alphabet) (W : wf t).
  Context (T : forall p a q w, has_arc t p a q w -> exists i o s, decode a alpha = Ok (i, o) /\ getSymbol i alpha = Ok s).
  Context (Z0 : decode 0 alpha = Ok (0, 0)).

  Lemma rec_arcs_spec : forall u s arcs acc, incl arcs (arcs_of t s) -> nset acc ->
    exists r, rec_arcs t alpha u arcs acc = Ok r /\ nset r
      /\ forall q, In q r <-> In q acc \/ exists a d w, In (a, (d, w)) arcs /\ unit_match alpha u a /\ tag_reach t [0] d q.
  Proof.
    intros u s. induction arcs as [|[a [d w]] arcs IH]; intros acc Hi S; cbn [rec_arcs].
    - exists acc. split; [reflexivity|]. split; [exact S|]. intros q. split; [auto|]. intros [H|(a & d & w & [] & _)]; exact H.
    - assert (Ha : has_arc t s a d w) by (apply Hi; now left).
      destruct (T s a d w Ha) as (i & o & str & Hd & Hg). cbn [a_tag a_dst fst snd]. rewrite Hd. cbn [obind]. rewrite Hg. cbn [obind].
      assert (Hi' : incl arcs (arcs_of t s)) by (intros x Hx; apply Hi; now right).
      destruct (existsb (Z.eqb u) str) eqn:Eu.
      + apply existsb_exists in Eu as (u' & Hu & Euu). apply Z.eqb_eq in Euu. subst u'.
        destruct (closure_spec t [0] d W (wf_arcs t W _ _ _ _ Ha)) as (c & -> & Hc1 & Hc2). cbn [obind].
        destruct (set_insert_all_spec c acc S) as [S1 S2].
        destruct (IH (set_insert_all c acc) Hi' S1) as (r & -> & Hr1 & Hr2). exists r. split; [reflexivity|]. split; [exact Hr1|].
        intros q. rewrite Hr2, S2, Hc2. split.
        * intros [[H|H]|(a' & d' & w' & H & H')]; [|now left|].
          -- right. exists a, d, w. split; [now left|]. split; [exists i, o, str; auto|exact H].
          -- right. exists a', d', w'. split; [now right|exact H'].
        * intros [H|(a' & d' & w' & [E|H] & Hm & H')]; [tauto| |].
          -- injection E as <- <- <-. tauto.
          -- right. exists a', d', w'. auto.
      + destruct (IH acc Hi' S) as (r & -> & Hr1 & Hr2). exists r. split; [reflexivity|]. split; [exact Hr1|].
        intros q. rewrite Hr2. split.
        * intros [H|(a' & d' & w' & H & H')]; [now left|]. right. exists a', d', w'. split; [now right|exact H'].
        * intros [H|(a' & d' & w' & [E|H] & Hm & H')]; [tauto| |].
          -- exfalso. injection E as <- <- <-. destruct Hm as (i' & o' & s' & K1 & K2 & K3).
             rewrite Hd in K1. injection K1 as <- <-. rewrite Hg in K2. injection K2 as <-.
             assert (existsb (Z.eqb u) str = true); [|congruence]. apply existsb_exists. exists u. split; [exact K3|apply Z.eqb_refl].
          -- right. exists a', d', w'. auto.
  Qed.

  Lemma rec_states_spec : forall u states acc, nset acc ->
    exists r, rec_states t alpha u states acc = Ok r /\ nset r
      /\ forall q, In q r <-> In q acc \/ exists s a d w, In s states /\ has_arc t s a d w /\ unit_match alpha u a /\ tag_reach t [0] d q.
  Proof.
    intros u. induction states as [|s states IH]; intros acc S; cbn [rec_states].
    - exists acc. split; [reflexivity|]. split; [exact S|]. intros q. split; [auto|]. intros [H|(s & a & d & w & [] & _)]; exact H.
    - destruct (rec_arcs_spec u s (arcs_of t s) acc (incl_refl _) S) as (r1 & -> & S1 & H1). cbn [obind].
      destruct (IH r1 S1) as (r & -> & S2 & H2). exists r. split; [reflexivity|]. split; [exact S2|].
      intros q. rewrite H2, H1. split.
      + intros [[H|(a & d & w & H)]|(s' & a & d & w & Hs & H)]; [now left| |].
        * right. exists s, a, d, w. split; [now left|exact H].
        * right. exists s', a, d, w. split; [now right|exact H].
      + intros [H|(s' & a & d & w & [<-|Hs] & H)]; [tauto| |].
        * left. right. exists a, d, w. exact H.
        * right. exists s', a, d, w. auto.
  Qed.

  Definition closed0 (S : list nat) : Prop := forall p q, In p S -> tag_reach t [0] p q -> In q S.
  Lemma tag_reach_path : forall p q, tag_reach t [0] p q -> exists l, path t p l q /\ word_of 0 l = [].
  Proof.
    intros p q H. induction H as [p|p q r a w Ha Hp _ (l & IH & E)].
    - exists []. split; [constructor|reflexivity].
    - destruct Ha as [<-|[]]. exists ((0, w) :: l). split; [econstructor; eauto|exact E].
  Qed.
  Lemma path_tag_reach : forall p l q, path t p l q -> word_of 0 l = [] -> tag_reach t [0] p q.
  Proof.
    intros p l q H. induction H as [p|p a w q l r Ha _ IH]; intros E; [constructor|].
    unfold word_of in E. cbn [filter fst] in E. destruct (Z.eqb_spec a 0) as [->|Hn]; cbn [negb map] in E; [|discriminate].
    econstructor; [now left|exact Ha|]. apply IH. exact E.
  Qed.
  Lemma tag_reach_trans : forall p q r, tag_reach t [0] p q -> tag_reach t [0] q r -> tag_reach t [0] p r.
  Proof. intros p q r H K. induction H; [exact K|]. econstructor; eauto. Qed.
  Lemma unit_match_nz : forall u a, unit_match alpha u a -> a <> 0.
  Proof.
    intros u a (i & o & s & H1 & H2 & H3) ->. rewrite Z0 in H1. injection H1 as <- <-. cbn in H2. injection H2 as <-. exact H3.
  Qed.

  Lemma rec_pattern_spec : forall pat S, closed0 S ->
    exists r, rec_pattern t alpha pat S = Ok r
      /\ forall q, In q r <-> exists s l, In s S /\ path t s l q /\ Forall2 (unit_match alpha) pat (word_of 0 l).
  Proof.
    induction pat as [|u pat IH]; intros S C; cbn [rec_pattern].
    - exists S. split; [reflexivity|]. intros q. split.
      + intros H. exists q, []. split; [exact H|]. split; [constructor|constructor].
      + intros (s & l & Hs & Hp & F). inversion F as [E|]. eapply C; [exact Hs|]. eapply path_tag_reach; eauto.
    - destruct (rec_states_spec u S [] nset_nil) as (S1 & -> & N1 & H1). cbn [obind].
      assert (C1 : closed0 S1).
      { intros p q Hp Hr. apply H1 in Hp as [[]|(s & a & d & w & R1 & R2 & R3 & R4)]. apply H1. right. exists s, a, d, w.
        do 3 (split; [assumption|]). eapply tag_reach_trans; eauto. }
      destruct (IH S1 C1) as (r & -> & H2). exists r. split; [reflexivity|]. intros q. rewrite H2. split.
      + intros (s1 & l & Hs & Hp & F). apply H1 in Hs as [[]|(s & a & d & w & R1 & R2 & R3 & R4)].
        apply tag_reach_path in R4 as (l0 & R4 & E0).
        exists s, ((a, w) :: l0 ++ l). split; [exact R1|]. split; [econstructor; [exact R2|]; eapply path_app; eauto|].
        assert (Hnz := unit_match_nz u a R3). change ((a, w) :: l0 ++ l) with ([(a, w)] ++ l0 ++ l). rewrite !word_app, E0.
        unfold word_of at 1. cbn [filter fst]. destruct (Z.eqb_spec a 0); [contradiction|]. cbn [negb map fst app]. constructor; auto.
      + intros (s & l & Hs & Hp & F). revert F. induction Hp as [p|p a w q l r' Ha Hp IHp]; intros F; [inversion F|].
        unfold word_of in F. cbn [filter fst] in F. destruct (Z.eqb_spec a 0) as [->|Hn]; cbn [negb map] in F.
        * apply IHp; [|exact F]. eapply C; [exact Hs|]. econstructor; [now left|exact Ha|constructor].
        * inversion F as [|? ? ? ? Hm F']; subst. exists q, l. split; [|split; [exact Hp|exact F']].
          apply H1. right. exists p, a, q, w. do 3 (split; [assumption|]). constructor.
  Qed.

  Lemma recognise_spec : forall pat, exists b, recognise pat alpha t = Ok b
    /\ (b = true <-> exists l f, accepts_from t (initial t) l f /\ Forall2 (unit_match alpha) pat (word_of 0 l)).
  Proof.
    intros pat. unfold recognise. destruct (closure_spec t [0] (initial t) W (wf_initial t W)) as (c & -> & _ & Hc). cbn [obind].
    destruct (set_insert_all_spec c [] nset_nil) as [_ S2].
    destruct (rec_pattern_spec pat (set_insert_all c [])) as (r & -> & Hr).
    { intros p q Hp Hr. apply S2 in Hp as [Hp|[]]. apply S2. left. apply Hc in Hp. apply Hc. eapply tag_reach_trans; eauto. }
    cbn [obind]. eexists. split; [reflexivity|]. rewrite existsb_exists. split.
    - intros (q & Hq & Hf). apply Hr in Hq as (s & l & Hs & Hp & F). apply S2 in Hs as [Hs|[]]. apply Hc in Hs.
      apply tag_reach_path in Hs as (l0 & H0 & E0). unfold isFinal in Hf. destruct (fin_find q (finals t)) as [f|] eqn:Ef; [|discriminate].
      exists (l0 ++ l), f. split; [exists q; split; [eapply path_app; eauto|]|rewrite word_app, E0; exact F].
      apply fin_find_some in Ef; [exact Ef|apply W].
    - intros (l & f & (q & Hp & Hf) & F). exists q. split.
      + apply Hr. exists (initial t), l. split; [|auto]. apply S2. left. apply Hc. constructor.
      + unfold isFinal. replace (fin_find q (finals t)) with (Some f); [reflexivity|]. symmetry. apply fin_find_some; [apply W|exact Hf].
  Qed.
End Recognise.
