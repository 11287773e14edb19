(** The closures: closure(state, tags) and closure_all. *)
From Verif Require Import Base SortedVectorModel SortedVectorProofs TransducerModel
  TransducerSpec TransducerProofs NatSets.

(** ** closure(state, tags) *)
Section Closure.
  Context (t : transducer) (tags : list Z) (s : nat).
  Hypothesis W : wf t.
  Hypothesis Hs : (s < nstates t)%nat.

  (** Part of the invariant that every step of the inner loops keeps. *)
  Record cl_inv (nv res : list nat) : Prop := {
    ci_nv : nset nv;
    ci_res : nset res;
    ci_incl : incl nv res;
    ci_start : In s res;
    ci_sound : forall q, In q res -> tag_reach t tags s q /\ (q < nstates t)%nat
  }.

  Lemma tag_reach_snoc : forall p q r a w, tag_reach t tags p q -> In a tags -> has_arc t q a r w ->
    tag_reach t tags p r.
  Proof.
    intros p q r a w H. revert r a w. induction H as [p|p q r a w Ha Hp H IH]; intros r' a' w' Ha' Hr.
    - eapply tr_step; [exact Ha'|exact Hr|constructor].
    - eapply tr_step; [exact Ha|exact Hp|]. eapply IH; eauto.
  Qed.

  Lemma closure_arcs_spec : forall p arcs nv res, cl_inv nv res -> In p res ->
    (forall a, In a arcs -> In (a_tag a) tags /\ In a (arcs_of t p)) ->
    forall nv' res', closure_arcs arcs (nv, res) = (nv', res') ->
    cl_inv nv' res' /\ incl res res' /\ incl nv nv'
    /\ (forall a, In a arcs -> In (a_dst a) res')
    /\ (forall q, In q res' -> In q res \/ In q nv')
    /\ (length res' + length nv = length res + length nv')%nat.
  Proof.
    intros p. induction arcs as [|a arcs IH]; intros nv res I Hp Ha nv' res' H.
    - cbn in H. injection H as <- <-. split; [exact I|]. split; [apply incl_refl|].
      split; [apply incl_refl|]. split; [intros a []|]. split; [auto|lia].
    - unfold closure_arcs in H. cbn [fold_left] in H. destruct (set_mem (a_dst a) res) eqn:E.
      + apply set_mem_spec in E. fold (closure_arcs arcs (nv, res)) in H.
        apply IH in H as (H1 & H2 & H3 & H4 & H5 & H6); auto; [|intros b Hb; apply Ha; now right].
        repeat (split; [assumption|]). split; [|auto].
        intros b [<-|Hb]; [now apply H2|now apply H4].
      + assert (Hn : ~ In (a_dst a) res) by (rewrite <- set_mem_spec, E; discriminate).
        fold (closure_arcs arcs (set_insert (a_dst a) nv, set_insert (a_dst a) res)) in H.
        destruct I as [I1 I2 I3 I4 I5]. unfold set_insert in H.
        assert (Hi : cl_inv (sv_insert Nat.ltb (a_dst a) nv) (sv_insert Nat.ltb (a_dst a) res)).
        { constructor.
          - now apply nset_insert.
          - now apply nset_insert.
          - intros x. rewrite !in_nset_insert by assumption. intros [->|Hx]; auto.
          - rewrite in_nset_insert by assumption. auto.
          - intros q. rewrite in_nset_insert by assumption. intros [->|Hq]; [|auto].
            destruct (Ha a) as [Ht Harc]; [now left|]. destruct a as [tg [d w]]. cbn in *.
            split; [|now apply (wf_arcs t W) in Harc].
            eapply tag_reach_snoc; [exact (proj1 (I5 p Hp))|exact Ht|exact Harc]. }
        apply IH in H as (H1 & H2 & H3 & H4 & H5 & H6); auto.
        2: { rewrite in_nset_insert by assumption. auto. }
        2: { intros b Hb; apply Ha; now right. }
        split; [exact H1|]. split; [|split; [|split; [|split]]].
        * intros x Hx. apply H2. rewrite in_nset_insert by assumption. auto.
        * intros x Hx. apply H3. rewrite in_nset_insert by assumption. auto.
        * intros b [<-|Hb]; [|now apply H4]. apply H2. rewrite in_nset_insert by assumption. auto.
        * intros q Hq. apply H5 in Hq as [Hq|Hq]; [|auto]. apply in_nset_insert in Hq as [->|Hq]; auto.
          right. apply H3. rewrite in_nset_insert by assumption. auto.
        * rewrite !nset_insert_length in H6; auto. lia.
  Qed.

  Lemma closure_tags_spec : forall p ts nv res, cl_inv nv res -> In p res -> incl ts tags ->
    forall nv' res',
    fold_left (fun st tag => closure_arcs (equal_range tag (arcs_of t p)) st) ts (nv, res)
      = (nv', res') ->
    cl_inv nv' res' /\ incl res res' /\ incl nv nv'
    /\ (forall a, In (a_tag a) ts -> In a (arcs_of t p) -> In (a_dst a) res')
    /\ (forall q, In q res' -> In q res \/ In q nv')
    /\ (length res' + length nv = length res + length nv')%nat.
  Proof.
    intros p. induction ts as [|tag ts IH]; intros nv res I Hp Ht nv' res' H; cbn [fold_left] in H.
    - injection H as <- <-. split; [exact I|]. split; [apply incl_refl|].
      split; [apply incl_refl|]. split; [intros a []|]. split; [auto|lia].
    - destruct (closure_arcs (equal_range tag (arcs_of t p)) (nv, res)) as [nv1 res1] eqn:E.
      apply closure_arcs_spec with (p := p) in E as (H1 & H2 & H3 & H4 & H5 & H6); auto.
      2: { intros a Ha. apply equal_range_in in Ha as [Ha Et]. split; [|exact Ha].
           apply Ht. left. now rewrite Et. }
      apply IH in H as (K1 & K2 & K3 & K4 & K5 & K6); auto.
      2: { intros x Hx. apply Ht. now right. }
      split; [exact K1|]. split; [eapply incl_tran; eauto|]. split; [eapply incl_tran; eauto|].
      split; [|split].
      + intros a [Ha|Ha] Hin; [|now apply K4]. apply K2, H4. apply equal_range_in. auto.
      + intros q Hq. apply K5 in Hq as [Hq|Hq]; auto. apply H5 in Hq as [Hq|Hq]; auto.
      + lia.
  Qed.

  Lemma closed_reach : forall res p q,
    (forall p a q w, In p res -> ~ In p [] -> In a tags -> has_arc t p a q w -> In q res) ->
    tag_reach t tags p q -> In p res -> In q res.
  Proof.
    intros res p q Hc Hr. induction Hr as [p|p q r a w Ha Hp Hr IH]; intros Hin; [exact Hin|].
    apply IH. eapply Hc; eauto.
  Qed.

  Lemma closure_loop_spec : forall fuel nv res, cl_inv nv res ->
    (forall p a q w, In p res -> ~ In p nv -> In a tags -> has_arc t p a q w -> In q res) ->
    (nstates t + length nv <= fuel + length res)%nat ->
    exists r, closure_loop fuel t tags nv res = Ok r /\ nset r
      /\ forall q, In q r <-> tag_reach t tags s q.
  Proof.
    induction fuel as [|fuel IH]; intros nv res I Hc Hf.
    - destruct nv as [|x nv].
      + exists res. split; [reflexivity|]. split; [apply (ci_res _ _ I)|]. intros q. split.
        * intros Hq. exact (proj1 (ci_sound _ _ I q Hq)).
        * intros Hr. apply (closed_reach res s q Hc Hr). apply (ci_start _ _ I).
      + exfalso. destruct I as [I1 I2 I3 I4 I5].
        assert (length res <= nstates t)%nat by (apply nset_length_le; [exact I2|]; intros q Hq; now apply I5).
        cbn [length] in Hf. lia.
    - destruct nv as [|x nv1']; [|cbn [closure_loop]; remember (x :: nv1') as nv0 eqn:En].
      + exists res. split; [reflexivity|]. split; [apply (ci_res _ _ I)|]. intros q. split.
        * intros Hq. exact (proj1 (ci_sound _ _ I q Hq)).
        * intros Hr. apply (closed_reach res s q Hc Hr). apply (ci_start _ _ I).
      + destruct (fold_left _ tags (nv0, res)) as [nv1 res1] eqn:E.
        assert (Hx : In x nv0) by (rewrite En; now left).
        apply closure_tags_spec in E as (H1 & H2 & H3 & H4 & H5 & H6); auto;
          [|now apply (ci_incl _ _ I)|apply incl_refl].
        assert (Hx1 : In x nv1) by auto. destruct H1 as [I1 I2 I3 I4 I5].
        apply IH.
        * constructor; auto.
          -- now apply nset_erase.
          -- intros y Hy. apply in_nset_erase in Hy as [Hy _]; auto.
        * intros p a q w Hp Hnp Ha Harc. rewrite in_nset_erase in Hnp by exact I1.
          destruct (Nat.eq_dec p x) as [->|Hpx].
          -- apply (H4 (a, (q, w))); [exact Ha|exact Harc].
          -- assert (Hnp1 : ~ In p nv1) by tauto. apply H5 in Hp as [Hp|Hp]; [|contradiction].
             apply H2. eapply Hc; eauto.
        * pose proof (nset_erase_length x nv1 I1 Hx1). lia.
  Qed.

  (** C15: the closure is exactly what the arcs with these tags can reach. *)
  Theorem closure_spec : exists r, closure t s tags = Ok r /\ nset r
      /\ forall q, In q r <-> tag_reach t tags s q.
  Proof.
    unfold closure. apply closure_loop_spec.
    - assert (N : nset [s]) by (repeat constructor). constructor; auto.
      + apply incl_refl.
      + now left.
      + intros q [<-|[]]. split; [constructor|exact Hs].
    - intros p a q w Hp Hn. contradiction.
    - cbn [length]. lia.
  Qed.
End Closure.

(** ** closure_all *)
Lemma eps_targets_in : forall t eps p q, In q (eps_targets t eps p) <-> has_arc t p eps q 0.
Proof.
  intros t eps p q. unfold eps_targets, has_arc. rewrite in_map_iff. split.
  - intros ([a [d w]] & <- & H). apply filter_In in H as [H Hw]. apply equal_range_in in H as [H Ht].
    cbn in *. apply Z.eqb_eq in Hw. now subst.
  - intros H. exists (eps, (q, 0)). split; [reflexivity|]. apply filter_In. split; [|reflexivity].
    apply equal_range_in. split; [exact H|reflexivity].
Qed.

Lemma eps_reach_trans : forall t eps p q r, eps_reach t eps p q -> eps_reach t eps q r ->
  eps_reach t eps p r.
Proof. induction 1; intros; auto. econstructor; eauto. Qed.

Lemma eps_reach_lt : forall t eps p q, wf t -> eps_reach t eps p q -> (p < nstates t)%nat ->
  (q < nstates t)%nat.
Proof. intros t eps p q W H. induction H; intros; auto. apply IHeps_reach. now apply (wf_arcs t W) in H. Qed.

Lemma list_sum_upd : forall (f : list nat -> list nat) l i, (i < length l)%nat ->
  (list_sum (map (@length nat) (upd i f l)) + length (nth i l []) =
   list_sum (map (@length nat) l) + length (f (nth i l [])))%nat.
Proof.
  intros f. induction l as [|x l IH]; intros [|i] H; cbn [length] in H; try lia; cbn.
  - unfold list_sum. lia.
  - assert (Hi : (i < length l)%nat) by lia. apply IH in Hi. unfold list_sum in *. lia.
Qed.

Section ClosureAll.
  Context (t : transducer) (eps : Z).
  Hypothesis W : wf t.
  Let n := nstates t.

  Lemma ca_reversed_spec : length (ca_reversed t eps) = n /\
    forall i j, has_arc t i eps j 0 -> In i (nth j (ca_reversed t eps) []).
  Proof.
    unfold ca_reversed.
    assert (Inner : forall (i : nat) (ds : list nat) (rev : list (list nat)), length rev = n -> (forall d, In d ds -> (d < n)%nat) ->
      let rev' := fold_left (fun rev d => upd d (fun l => l ++ [i]) rev) ds rev in
      length rev' = n /\ (forall j x, In x (nth j rev []) -> In x (nth j rev' []))
      /\ forall d, In d ds -> In i (nth d rev' [])).
    { intros i. induction ds as [|d ds IH]; intros rev Hl Hd; cbn [fold_left]; cbv zeta.
      - split; [exact Hl|]. split; [auto|intros d []].
      - assert (Hdn : (d < n)%nat) by (apply Hd; now left).
        destruct (IH (upd d (fun l => l ++ [i]) rev)) as (H1 & H2 & H3).
        + now rewrite length_upd.
        + intros; apply Hd; now right.
        + split; [exact H1|]. split.
          * intros j x Hx. apply H2. rewrite nth_upd by lia. destruct (j =? d)%nat; [|exact Hx].
            apply in_or_app. auto.
          * intros d' [<-|Hd']; [|now apply H3]. apply H2. rewrite nth_upd, Nat.eqb_refl by lia.
            apply in_or_app. right. now left. }
    assert (Outer : forall (is : list nat) (rev : list (list nat)), length rev = n -> 
      let rev' := fold_left (fun rev i => fold_left (fun rev d => upd d (fun l => l ++ [i]) rev)
                   (eps_targets t eps i) rev) is rev in
      length rev' = n /\ (forall j x, In x (nth j rev []) -> In x (nth j rev' []))
      /\ forall i d, In i is -> In d (eps_targets t eps i) -> In i (nth d rev' [])).
    { induction is as [|i is IH]; intros rev Hl; cbn [fold_left]; cbv zeta.
      - split; [exact Hl|]. split; [auto|intros i d []].
      - destruct (Inner i (eps_targets t eps i) rev Hl) as (H1 & H2 & H3).
        { intros d Hd. apply eps_targets_in in Hd. now apply (wf_arcs t W) in Hd. }
        destruct (IH _ H1) as (K1 & K2 & K3). split; [exact K1|]. split; [auto|].
        intros i' d [<-|Hi] Hd; [|now apply K3]. apply K2. now apply H3. }
    destruct (Outer (seq 0 (nstates t)) (map (fun _ => []) (trans t))) as (H1 & _ & H3).
    { apply map_length. }
    split; [exact H1|]. intros i j H. apply H3; [|now apply eps_targets_in].
    apply in_seq. apply has_arc_lt in H. lia.
  Qed.

  (** What the closures satisfy at all times. *)
  Record ca_ok (ret : list (list nat)) : Prop := {
    co_len : length ret = n;
    co_set : forall i, nset (nth i ret []);
    co_self : forall i, (i < n)%nat -> In i (nth i ret []);
    co_sound : forall i j, In j (nth i ret []) -> eps_reach t eps i j;
    co_succ : forall i j, has_arc t i eps j 0 -> In j (nth i ret [])
  }.
  (** Edges whose closures are not yet nested are scheduled. *)
  Definition ca_sched (ret : list (list nat)) (pend : list nat) : Prop :=
    forall i j, has_arc t i eps j 0 -> incl (nth j ret []) (nth i ret []) \/ In i pend.

  Lemma ca_ok_bound : forall ret i j, ca_ok ret -> In j (nth i ret []) -> (j < n)%nat.
  Proof.
    intros ret i j [H1 H2 H3 H4 H5] H. destruct (Nat.lt_ge_cases i n) as [L|L].
    - eapply eps_reach_lt; eauto.
    - rewrite nth_overflow in H by lia. destruct H.
  Qed.

  Lemma ca_ret0_spec : ca_ok (ca_ret0 t eps) /\ ca_sched (ca_ret0 t eps) (ca_todo0 (ca_ret0 t eps)).
  Proof.
    assert (L : length (ca_ret0 t eps) = n) by (unfold ca_ret0; now rewrite map_length, seq_length).
    assert (N : forall i, (i < n)%nat -> nth i (ca_ret0 t eps) [] =
      fold_left (fun c d => sv_insert Nat.ltb d c) (eps_targets t eps i) (sv_insert Nat.ltb i [])).
    { intros i Hi. unfold ca_ret0.
      rewrite (nth_indep _ _ ((fun i => fold_left (fun c d => sv_insert Nat.ltb d c)
          (eps_targets t eps i) (sv_insert Nat.ltb i [])) 0%nat)) by (rewrite map_length, seq_length; exact Hi).
      rewrite (map_nth (fun i => fold_left (fun c d => sv_insert Nat.ltb d c)
          (eps_targets t eps i) (sv_insert Nat.ltb i []))). rewrite seq_nth by exact Hi. reflexivity. }
    assert (S : forall i, (i < n)%nat -> nset (nth i (ca_ret0 t eps) [])
      /\ forall x, In x (nth i (ca_ret0 t eps) []) <-> x = i \/ has_arc t i eps x 0).
    { intros i Hi. rewrite N by exact Hi.
      destruct (fold_insert_spec (eps_targets t eps i) (sv_insert Nat.ltb i [])) as [H1 H2].
      { apply nset_insert, nset_nil. }
      split; [exact H1|]. intros x. rewrite H2, in_nset_insert, eps_targets_in by apply nset_nil. cbn. tauto. }
    assert (O : forall i, (n <= i)%nat -> nth i (ca_ret0 t eps) [] = [])
      by (intros; apply nth_overflow; lia).
    split.
    - constructor; auto.
      + intros i. destruct (Nat.lt_ge_cases i n) as [Hi|Hi]; [now apply S|].
        rewrite O by exact Hi. apply nset_nil.
      + intros i Hi. apply S; auto.
      + intros i j H. destruct (Nat.lt_ge_cases i n) as [Hi|Hi].
        * apply S in H as [->|H]; auto; [constructor|]. econstructor; [exact H|constructor].
        * rewrite O in H by exact Hi. destruct H.
      + intros i j H. assert (Hi := has_arc_lt _ _ _ _ _ H). apply S; auto.
    - intros i j H. assert (Hi := has_arc_lt _ _ _ _ _ H).
      destruct (Nat.eq_dec i j) as [<-|Hij]; [left; apply incl_refl|]. right.
      assert (G : (1 < length (nth i (ca_ret0 t eps) []))%nat).
      { change (length [i; j] <= length (nth i (ca_ret0 t eps) []))%nat. apply NoDup_incl_length.
        - constructor; [intros [<-|[]]; auto|]. repeat constructor. intros [].
        - intros x [<-|[<-|[]]]; apply S; auto. }
      unfold ca_todo0.
      assert (T : forall is acc, nset acc ->
        nset (fold_left (fun todo i => if (1 <? length (nth i (ca_ret0 t eps) []))%nat
                then sv_insert Nat.ltb i todo else todo) is acc) /\
        forall x, In x acc \/ (In x is /\ (1 < length (nth x (ca_ret0 t eps) []))%nat) ->
        In x (fold_left (fun todo i => if (1 <? length (nth i (ca_ret0 t eps) []))%nat
                then sv_insert Nat.ltb i todo else todo) is acc)).
      { induction is as [|k is IH]; intros acc Ha; cbn [fold_left].
        - split; [exact Ha|]. intros x [Hx|[[] _]]. exact Hx.
        - destruct (IH (if (1 <? length (nth k (ca_ret0 t eps) []))%nat
                        then sv_insert Nat.ltb k acc else acc)) as [H1 H2].
          { destruct (_ <? _)%nat; [now apply nset_insert|exact Ha]. }
          split; [exact H1|]. intros x Hx. apply H2. destruct Hx as [Hx|[[<-|Hx] Hl]]; [| |auto].
          + left. destruct (_ <? _)%nat; [rewrite in_nset_insert by exact Ha; auto|exact Hx].
          + left. apply Nat.ltb_lt in Hl. rewrite Hl. rewrite in_nset_insert by exact Ha. auto. }
      apply T; [apply nset_nil|]. right. split; [|exact G]. apply in_seq. rewrite L. split; [lia|exact Hi].
  Qed.

  Lemma ca_merge_spec : forall it temp ret, (it < length ret)%nat -> nset (nth it ret []) ->
    let ret' := fold_left (fun ret it2 => upd it (sv_union (nth it2 ret [])) ret) temp ret in
    length ret' = length ret /\ (forall i, i <> it -> nth i ret' [] = nth i ret [])
    /\ nset (nth it ret' [])
    /\ forall x, In x (nth it ret' []) <->
         In x (nth it ret []) \/ exists k, In k temp /\ In x (nth k ret []).
  Proof.
    intros it. induction temp as [|k temp IH]; intros ret Hit Hset; cbn [fold_left]; cbv zeta.
    - split; [reflexivity|]. split; [reflexivity|]. split; [exact Hset|]. intros x.
      split; [auto|]. intros [H|(k & [] & _)]. exact H.
    - destruct (IH (upd it (sv_union (nth k ret [])) ret)) as (H1 & H2 & H3 & H4).
      { now rewrite length_upd. }
      { rewrite nth_upd_eq by exact Hit. now apply nset_union. }
      split; [now rewrite H1, length_upd|]. split.
      { intros i Hi. rewrite H2 by exact Hi. now apply nth_upd_neq. }
      split; [exact H3|]. intros x. rewrite H4. rewrite nth_upd_eq by exact Hit.
      rewrite in_nset_union by exact Hset. split.
      + intros [[H|H]|(k' & Hk & H)]; [now left|right; exists k; split; [now left|exact H]|].
        rewrite nth_upd in H by exact Hit. destruct (Nat.eqb_spec k' it) as [->|E].
        * apply in_nset_union in H as [H|H]; [auto| |exact Hset]. right. exists k. split; [now left|auto].
        * right. exists k'. split; [now right|auto].
      + intros [H|(k' & [<-|Hk] & H)]; auto. right. exists k'. split; [exact Hk|].
        rewrite nth_upd by exact Hit. destruct (Nat.eqb_spec k' it) as [->|E]; auto.
        rewrite in_nset_union by exact Hset. auto.
  Qed.

  Definition total (ret : list (list nat)) : nat := list_sum (map (@length nat) ret).

  Lemma total_cons : forall x l, total (x :: l) = (length x + total l)%nat.
  Proof. reflexivity. Qed.

  Lemma total_le : forall a b, length a = length b ->
    (forall i, (length (nth i a []) <= length (nth i b []))%nat) -> (total a <= total b)%nat.
  Proof.
    induction a as [|x a IH]; intros [|y b] Hl H; cbn [length] in Hl; try lia.
    rewrite !total_cons. assert (H0 := H 0%nat). cbn [nth] in H0.
    assert (total a <= total b)%nat; [|lia]. apply IH; [lia|]. intros i. apply (H (S i)).
  Qed.

  Lemma total_lt : forall i a b, length a = length b ->
    (forall i, (length (nth i a []) <= length (nth i b []))%nat) ->
    (length (nth i a []) < length (nth i b []))%nat -> (total a < total b)%nat.
  Proof.
    intros i a. revert i. induction a as [|x a IH]; intros i [|y b] Hl H Hi; cbn [length] in Hl; try lia.
    assert (Hle : (total a <= total b)%nat) by (apply total_le; [lia|intros j; apply (H (S j))]).
    rewrite !total_cons. assert (H0 := H 0%nat). cbn [nth] in H0. destruct i as [|i]; cbn [nth] in Hi; [lia|].
    assert (total a < total b)%nat; [|lia].
    apply (IH i b); [lia|intros j; apply (H (S j))|exact Hi].
  Qed.

  Lemma total_bound : forall ret, ca_ok ret -> (total ret <= n * n)%nat.
  Proof.
    intros ret H. assert (B : forall l, (forall x, In x l -> (length x <= n)%nat) ->
      (total l <= length l * n)%nat).
    { induction l as [|x l IH]; intros Hx; [cbn; lia|]. rewrite total_cons. cbn [length].
      assert (length x <= n)%nat by (apply Hx; now left).
      assert (total l <= length l * n)%nat; [|lia].
      apply IH. intros; apply Hx; now right. }
    replace (n * n)%nat with (length ret * n)%nat by (now rewrite (co_len _ H)).
    apply B. intros x Hx. apply In_nth with (d := []) in Hx as (i & Hi & <-).
    apply nset_length_le; [apply (co_set _ H)|]. intros y. now apply ca_ok_bound.
  Qed.

  Lemma ca_visit_spec : forall it rest ret new, ca_ok ret -> nset new ->
    ca_sched ret (it :: rest ++ new) -> 
    let '(ret', new') := ca_visit (ca_reversed t eps) (ret, new) it in
    ca_ok ret' /\ nset new' /\ ca_sched ret' (rest ++ new')
    /\ (forall i, incl (nth i ret []) (nth i ret' [])) 
    /\ ((ret' = ret /\ new' = new) \/ (total ret < total ret')%nat).
  Proof.
    intros it rest ret new C Hnew Hs. unfold ca_visit.
    destruct (Nat.lt_ge_cases it n) as [Hit|Hit].
    2: { rewrite nth_overflow by (rewrite (co_len _ C); exact Hit). cbn [fold_left].
         rewrite nth_overflow by (rewrite (co_len _ C); exact Hit). cbn.
         split; [exact C|]. split; [exact Hnew|]. split; [|split; [intros; apply incl_refl|now left]].
         intros i j Hij. destruct (Hs i j Hij) as [H|[<-|H]]; auto.
         apply has_arc_lt in Hij. unfold n in Hit. lia. }
    set (temp := nth it ret []).
    assert (Hl := co_len _ C).
    destruct (ca_merge_spec it temp ret) as (H1 & H2 & H3 & H4); [lia|apply (co_set _ C)|].
    set (ret' := fold_left _ temp ret) in *.
    assert (Hinc : forall i, incl (nth i ret []) (nth i ret' [])).
    { intros i x Hx. destruct (Nat.eq_dec i it) as [->|E]; [apply H4; auto|now rewrite H2]. }
    assert (C' : ca_ok ret').
    { destruct C as [C1 C2 C3 C4 C5]. constructor.
      - now rewrite H1.
      - intros i. destruct (Nat.eq_dec i it) as [->|E]; [exact H3|]. now rewrite H2.
      - intros i Hi. apply Hinc. auto.
      - intros i j Hj. destruct (Nat.eq_dec i it) as [->|E]; [|rewrite H2 in Hj; auto].
        apply H4 in Hj as [Hj|(k & Hk & Hj)]; [auto|]. eapply eps_reach_trans; eauto.
      - intros i j Hj. apply Hinc. auto. }
    assert (Hit' : forall j, has_arc t it eps j 0 -> incl (nth j ret' []) (nth it ret' [])).
    { intros j Hj x Hx. destruct (Nat.eq_dec j it) as [->|E]; [exact Hx|]. rewrite H2 in Hx by exact E.
      apply H4. right. exists j. split; [|exact Hx]. now apply (co_succ _ C). }
    destruct (length temp <? length (nth it ret' []))%nat eqn:G.
    - assert (Hnew' : nset (sv_union (nth it (ca_reversed t eps) []) new)) by now apply nset_union.
      split; [exact C'|]. split; [exact Hnew'|]. split; [|split; [exact Hinc|]].
      + intros i j Hij. destruct (Nat.eq_dec i it) as [->|Ei]; [left; now apply Hit'|].
        destruct (Nat.eq_dec j it) as [->|Ej].
        * right. apply in_or_app. right. apply in_nset_union; [exact Hnew|]. right.
          now apply ca_reversed_spec.
        * destruct (Hs i j Hij) as [Hi|Hi].
          -- left. rewrite !H2 by assumption. exact Hi.
          -- right. destruct Hi as [<-|Hi]; [contradiction|]. apply in_app_or in Hi as [Hi|Hi];
               apply in_or_app; [now left|right]. apply in_nset_union; auto.
      + right. apply Nat.ltb_lt in G. apply total_lt with (i := it); [now rewrite H1| |exact G].
        intros i. apply nset_incl_length; [apply (co_set _ C)|apply Hinc].
    - apply Nat.ltb_ge in G.
      assert (Eq : forall i, nth i ret [] = nth i ret' []).
      { intros i. destruct (Nat.eq_dec i it) as [->|E]; [|now rewrite H2].
        apply nset_incl_eq; auto. apply (co_set _ C). }
      assert (Er : ret' = ret).
      { apply (nth_ext _ _ [] []); [now rewrite H1|]. intros i _. now rewrite Eq. }
      rewrite Er in *. split; [exact C|]. split; [exact Hnew|]. split; [|split; [auto|now left]].
      intros i j Hij. destruct (Hs i j Hij) as [Hi|[<-|Hi]]; auto.
  Qed.

  Lemma ca_round_spec : forall todo ret new, ca_ok ret -> nset new ->
    ca_sched ret (todo ++ new) ->
    let '(ret', new') := fold_left (ca_visit (ca_reversed t eps)) todo (ret, new) in
    ca_ok ret' /\ nset new' /\ ca_sched ret' new'
    /\ ((ret' = ret /\ new' = new) \/ (total ret < total ret')%nat).
  Proof.
    induction todo as [|it todo IH]; intros ret new C Hn Hs; cbn [fold_left].
    - split; [exact C|]. split; [exact Hn|]. split; [exact Hs|]. now left.
    - assert (V := ca_visit_spec it todo ret new C Hn Hs).
      destruct (ca_visit (ca_reversed t eps) (ret, new) it) as [ret1 new1].
      destruct V as (V1 & V2 & V3 & V4 & V5).
      assert (IH' := IH ret1 new1 V1 V2 V3).
      destruct (fold_left (ca_visit (ca_reversed t eps)) todo (ret1, new1)) as [ret2 new2].
      destruct IH' as (K1 & K2 & K3 & K4). split; [exact K1|]. split; [exact K2|]. split; [exact K3|].
      destruct V5 as [[-> ->]|V5]; [exact K4|]. right. destruct K4 as [[-> _]|K4]; lia.
  Qed.

  Definition ca_measure (st : list (list nat) * list nat) : nat :=
    (2 * (n * n - total (fst st)) + match snd st with [] => 0 | _ => 1 end)%nat.

  Theorem closure_all_spec : exists ret, closure_all t eps = Ok ret /\ length ret = n
    /\ (forall i, nset (nth i ret []))
    /\ forall i j, (i < n)%nat -> (In j (nth i ret []) <-> eps_reach t eps i j).
  Proof.
    unfold closure_all. destruct ca_ret0_spec as [C0 S0].
    destruct (iter2_inr (ca_step (ca_reversed t eps))
                (fun st => ca_ok (fst st) /\ ca_sched (fst st) (snd st)) ca_measure)
      with (n := (2 * nstates t + 2)%nat) (s := (ca_ret0 t eps, ca_todo0 (ca_ret0 t eps)))
      as (r & [ret todo] & Hr & [C S] & Hlast).
    - intros [ret todo] [ret' todo'] [C S] H. cbn [fst snd] in *. unfold ca_step in H.
      destruct todo as [|it todo]; [discriminate|].
      assert (H' : fold_left (ca_visit (ca_reversed t eps)) (it :: todo) (ret, []) = (ret', todo'))
        by congruence.
      assert (R := ca_round_spec (it :: todo) ret [] C nset_nil).
      rewrite app_nil_r in R. specialize (R S). rewrite H' in R. destruct R as (R1 & R2 & R3 & R4).
      split; [auto|]. unfold ca_measure. cbn [fst snd]. assert (B := total_bound ret' R1).
      destruct R4 as [[-> ->]|R4]; [lia|]. destruct todo'; lia.
    - auto.
    - unfold ca_measure. cbn [fst snd].
      assert (P : (n < 2 ^ n)%nat) by (apply Nat.pow_gt_lin_r; lia).
      fold n. rewrite Nat.pow_add_r. rewrite (Nat.mul_comm 2 n), Nat.pow_mul_r.
      change (2 ^ 2)%nat with 4%nat. rewrite Nat.pow_2_r.
      assert (n * n < 2 ^ n * 2 ^ n)%nat by (apply Nat.mul_lt_mono; exact P).
      destruct (ca_todo0 (ca_ret0 t eps)); lia.
    - rewrite Hr. cbn [fst snd] in *. unfold ca_step in Hlast.
      destruct todo as [|it todo]; [|discriminate]. injection Hlast as <-.
      exists ret. split; [reflexivity|]. split; [apply (co_len _ C)|]. split; [apply (co_set _ C)|].
      intros i j Hi. split; [apply (co_sound _ C)|]. intros H. induction H as [p|p q r Hpq H IH].
      + now apply (co_self _ C).
      + destruct (S p q Hpq) as [Hin|[]]. apply Hin, IH. now apply (wf_arcs t W) in Hpq.
  Qed.
End ClosureAll.
