(** The pattern matcher: C47 (look-up), C48 (live nodes and classification), C49 (tags). *)
From Verif Require Import Base CompressionModel TransducerModel MatchModel.
From Coq Require Import Sorted.

(** * C47: the binary search *)
Definition by_tag (a b : Z * nat) : Prop := fst a <= fst b.

Lemma search_loop : forall fuel sv tag left right, StronglySorted by_tag sv ->
  0 <= left -> right < Z.of_nat (length sv) -> right - left + 1 < Z.of_nat fuel ->
  (forall i t d, nth_error sv i = Some (t, d) -> Z.of_nat i < left -> t < tag) ->
  (forall i t d, nth_error sv i = Some (t, d) -> right < Z.of_nat i -> tag < t) ->
  exists r, sv_search_loop fuel sv tag left right = Ok r
    /\ match r with Some d => In (tag, d) sv | None => forall d, ~ In (tag, d) sv end.
Proof.
  induction fuel as [|fuel IH]; intros sv tag left right S Hl Hr Hf Lo Hi; cbn [sv_search_loop].
  all: destruct (left <=? right) eqn:E; cbn [negb].
  1: lia.
  1: { exists None. split; auto. intros d Hin. apply In_nth_error in Hin as (i & Hin).
       destruct (Z_lt_ge_dec (Z.of_nat i) left) as [L|L].
       - specialize (Lo _ _ _ Hin L). lia.
       - assert (right < Z.of_nat i) by lia. specialize (Hi _ _ _ Hin H). lia. }
  2: { exists None. split; auto. intros d Hin. apply In_nth_error in Hin as (i & Hin).
       destruct (Z_lt_ge_dec (Z.of_nat i) left) as [L|L].
       - specialize (Lo _ _ _ Hin L). lia.
       - assert (right < Z.of_nat i) by lia. specialize (Hi _ _ _ Hin H). lia. }
  set (mid := (left + right) / 2).
  assert (Hm : left <= mid <= right).
  { unfold mid. split; [apply Z.div_le_lower_bound; lia|]. apply Z.div_le_upper_bound; lia. }
  replace (mid <? 0) with false by lia.
  destruct (nth_error sv (Z.to_nat mid)) as [[t d]|] eqn:En.
  2: { apply nth_error_None in En. lia. }
  assert (Sorted : forall i j a b, (i < j)%nat -> nth_error sv i = Some a -> nth_error sv j = Some b -> fst a <= fst b).
  { clear - S. induction S as [|x l S IH F]; intros i j a b Hij Ha Hb; [destruct i; discriminate|].
    destruct j as [|j]; [lia|]. cbn in Hb. destruct i as [|i]; cbn in Ha.
    - injection Ha as <-. rewrite Forall_forall in F. apply nth_error_In in Hb. apply (F b Hb).
    - apply (IH i j a b); auto. lia. }
  destruct (t =? tag) eqn:Et.
  - apply Z.eqb_eq in Et. subst t. exists (Some d). split; auto. eapply nth_error_In; eauto.
  - destruct (tag <? t) eqn:Elt.
    + apply IH; auto; try lia. intros i t' d' Hi' Hgt.
      destruct (Nat.eq_dec i (Z.to_nat mid)) as [-> | Hne].
      * rewrite En in Hi'. injection Hi' as <- <-. lia.
      * pose proof (Sorted (Z.to_nat mid) i _ _ ltac:(lia) En Hi'). cbn [fst] in H. lia.
    + apply IH; auto; try lia. intros i t' d' Hi' Hlt.
      destruct (Nat.eq_dec i (Z.to_nat mid)) as [-> | Hne].
      * rewrite En in Hi'. injection Hi' as <- <-. lia.
      * pose proof (Sorted i (Z.to_nat mid) _ _ ltac:(lia) Hi' En). cbn [fst] in H. lia.
Qed.

(** For every table sorted by symbol (repetitions allowed): the search ends, without reading
    outside the table, with a target stored for the symbol, or with none if there is none. *)
Theorem C47_search : forall sv tag, StronglySorted by_tag sv ->
  exists r, sv_search sv tag = Ok r
    /\ match r with Some d => In (tag, d) sv | None => forall d, ~ In (tag, d) sv end.
Proof.
  intros sv tag S. unfold sv_search. apply search_loop; auto; try lia.
  intros i t d H Hi. assert (nth_error sv i <> None) by congruence. apply nth_error_Some in H0. lia.
Qed.
(** Without repetitions: exactly the target stored. *)
Theorem C47_exact : forall sv tag, StronglySorted by_tag sv -> NoDup (map fst sv) ->
  forall d, sv_search sv tag = Ok (Some d) <-> In (tag, d) sv.
Proof.
  intros sv tag S N d. destruct (C47_search sv tag S) as (r & E & H). rewrite E. split.
  - intros Hr. injection Hr as ->. exact H.
  - intros Hin. destruct r as [d'|]; [|destruct (H _ Hin)]. do 2 f_equal.
    clear - N H Hin. induction sv as [|[t x] sv IH]; [destruct Hin|]. cbn in N. inversion N; subst.
    destruct H as [H|H], Hin as [Hin|Hin]; auto.
    + congruence.
    + injection H as -> ->. destruct H2. change tag with (fst (tag, d)). now apply in_map.
    + injection Hin as -> ->. destruct H2. change tag with (fst (tag, d')). now apply in_map.
Qed.

(** The tables built from a transducer are sorted, its states being multimaps. *)
Lemma mm_insert_sorted : forall a l, StronglySorted (fun x y => a_tag x <= a_tag y) l ->
  StronglySorted (fun x y => a_tag x <= a_tag y) (mm_insert a l).
Proof.
  intros a l S. induction S as [|x l S IH F]; cbn [mm_insert]; [repeat constructor|].
  destruct (a_tag a <? a_tag x) eqn:E.
  - constructor; [constructor; auto|]. constructor; [lia|].
    rewrite Forall_forall in *. intros y Hy. specialize (F y Hy). cbn beta in F. lia.
  - constructor; auto. rewrite Forall_forall in *. intros y Hy.
    assert (Hy' : y = a \/ In y l).
    { clear - Hy. induction l as [|z l IH]; cbn [mm_insert] in Hy.
      - destruct Hy as [<- | []]; auto.
      - destruct (a_tag a <? a_tag z); cbn [In] in *; destruct Hy as [Hy|Hy]; auto. 
        + destruct (IH Hy); auto. }
    destruct Hy' as [-> | Hy']; [lia|]. apply F; auto.
Qed.

(** A state with two arcs of one symbol: only one is ever followed.  Such states arise when
    one pattern writes out what another takes from a label (pattern_list.cc:325-329). *)
Theorem C47_second_target_refuted : exists sv, StronglySorted by_tag sv
  /\ In (43, 1%nat) sv /\ In (43, 2%nat) sv /\ sv_search sv 43 = Ok (Some 2%nat).
Proof.
  exists [(43, 1%nat); (43, 2%nat); (95, 3%nat)]. split; [|cbn; auto].
  repeat (constructor; [|try (repeat constructor; unfold by_tag; cbn; lia)]). constructor.
Qed.
Example C47_example :
  sv_search [(-3, 5%nat); (-1, 4%nat); (97, 1%nat); (98, 2%nat); (120, 9%nat)] 98 = Ok (Some 2%nat)
  /\ sv_search [(-3, 5%nat); (-1, 4%nat); (97, 1%nat); (98, 2%nat); (120, 9%nat)] 99 = Ok None
  /\ sv_search [] 1 = Ok None.
Proof. repeat split; vm_compute; reflexivity. Qed.

(** * C48: specification
    A step offers one or two symbols; [mpath] is a path taking one of those offered at each
    step, [live] lists the end nodes of all of them, once for each path. *)
Inductive mpath (nodes : node_table) : nat -> list (list Z) -> nat -> Prop :=
| mp_nil n : mpath nodes n [] n
| mp_cons n syms s d steps q : In s syms -> In (s, d) (nth n nodes []) -> mpath nodes d steps q ->
    mpath nodes n (syms :: steps) q.
Definition follow (nodes : node_table) (syms : list Z) (n : nat) : list nat :=
  flat_map (fun s => map snd (filter (fun a => fst a =? s) (nth n nodes []))) syms.
Definition live1 (nodes : node_table) (L : list nat) (syms : list Z) : list nat :=
  flat_map (follow nodes syms) L.
Definition live (nodes : node_table) (n : nat) (steps : list (list Z)) : list nat :=
  fold_left (live1 nodes) steps [n].

Lemma live_paths_gen : forall nodes steps L q,
  In q (fold_left (live1 nodes) steps L) <-> exists n, In n L /\ mpath nodes n steps q.
Proof.
  intros nodes. induction steps as [|syms steps IH]; intros L q; cbn [fold_left].
  - split; [intros H; exists q; split; auto; constructor|]. intros (n & H & M). inversion M. now subst.
  - rewrite IH. split.
    + intros (d & Hd & M). unfold live1, follow in Hd. apply in_flat_map in Hd as (n & Hn & Hd).
      apply in_flat_map in Hd as (s & Hs & Hd). apply in_map_iff in Hd as ([s' d'] & Ed & Hd).
      apply filter_In in Hd as [Hd Es]. cbn in *. apply Z.eqb_eq in Es. subst.
      exists n. split; auto. econstructor; eauto.
    + intros (n & Hn & M). inversion M as [|? ? s d ? ? Hs Hd Hq]; subst. exists d. split; auto.
      unfold live1, follow. apply in_flat_map. exists n. split; auto. apply in_flat_map. exists s. split; auto.
      apply in_map_iff. exists (s, d). split; auto. apply filter_In. split; auto. cbn. apply Z.eqb_refl.
Qed.
Lemma live_paths : forall nodes n steps q, In q (live nodes n steps) <-> mpath nodes n steps q.
Proof.
  intros. unfold live. rewrite live_paths_gen. split.
  - intros (m & [<- | []] & M). exact M.
  - intros M. exists n. split; auto. now left.
Qed.

(** Tables of a deterministic automaton: sorted, one target for each symbol, all existing. *)
Definition tables (nodes : node_table) : Prop :=
  Forall (fun sv => StronglySorted by_tag sv /\ NoDup (map fst sv)
                    /\ Forall (fun a => (snd a < length nodes)%nat) sv) nodes.

(** The ring has room: each step, old and new live nodes together. *)
Fixpoint room (lim : nat) (nodes : node_table) (L : list nat) (steps : list (list Z)) : Prop :=
  match steps with
  | [] => True
  | syms :: r => (length L + length (live1 nodes L syms) <= lim)%nat /\ room lim nodes (live1 nodes L syms) r
  end.

(** The rule reported. *)
Definition permitted (final_class : list (nat * Z)) (banned : list Z) (L : list nat) (c : Z) : Prop :=
  (exists n, In n L /\ class_of n final_class = Some c) /\ ~ In c banned /\ c < 2 ^ 31 - 1.
Definition reported (final_class : list (nat * Z)) (banned : list Z) (L : list nat) (r : Z) : Prop :=
  (permitted final_class banned L r /\ forall c, permitted final_class banned L c -> r <= c)
  \/ (r = -1 /\ forall c, ~ permitted final_class banned L c).

(** * Proofs *)
Lemma m_put_nth : forall (l : list (option nat)) i v j, (i < length l)%nat ->
  nth_error (m_put i v l) j = if (j =? i)%nat then Some v else nth_error l j.
Proof.
  induction l as [|x l IH]; intros [|i] v [|j] H; cbn [m_put nth_error length Nat.eqb] in *; try lia; auto.
  apply IH. lia.
Qed.
Lemma m_put_length : forall (l : list (option nat)) i v, length (m_put i v l) = length l.
Proof. induction l as [|x l IH]; intros [|i] v; cbn; auto. Qed.
Lemma add_mod : forall lim i k, (0 < lim)%nat -> (i < lim)%nat -> (k <= lim)%nat ->
  ((i + k) mod lim = if (i + k <? lim)%nat then i + k else i + k - lim)%nat.
Proof.
  intros lim i k H Hi Hk. destruct (i + k <? lim)%nat eqn:E.
  - apply Nat.mod_small. apply Nat.ltb_lt in E. lia.
  - apply Nat.ltb_ge in E. replace (i + k)%nat with ((i + k - lim) + 1 * lim)%nat at 1 by lia.
    destruct (Nat.eq_dec (i + k - lim) lim) as [E2|E2].
    + exfalso. lia.
    + rewrite Nat.mod_add by lia. apply Nat.mod_small. lia.
Qed.

Section Ring.
  Context (lim : nat) (Hlim : (0 < lim)%nat) (nodes : node_table) (Hnodes : tables nodes).

  Definition block (arr : list (option nat)) (i : nat) (B : list nat) : Prop :=
    length arr = lim /\ (i < lim)%nat /\ (length B <= lim)%nat
    /\ forall k x, nth_error B k = Some x -> nth_error arr ((i + k) mod lim) = Some (Some x).
  Definition known (L : list nat) : Prop := Forall (fun n => (n < length nodes)%nat) L.

  Lemma search_follow : forall n s, (n < length nodes)%nat ->
    exists sv r, nth_error nodes n = Some sv /\ sv_search sv s = Ok r
      /\ follow nodes [s] n = match r with Some d => [d] | None => [] end
      /\ match r with Some d => (d < length nodes)%nat | None => True end.
  Proof.
    intros n s Hn. destruct (nth_error nodes n) as [sv|] eqn:E; [|apply nth_error_None in E; lia].
    pose proof Hnodes as HT. unfold tables in HT. rewrite Forall_forall in HT.
    destruct (HT sv (nth_error_In _ _ E)) as (S & N & T).
    destruct (C47_search sv s S) as (r & Er & Hr). exists sv, r. split; auto. split; auto.
    unfold follow. cbn [flat_map]. rewrite app_nil_r. rewrite (nth_error_nth _ _ _ E).
    destruct r as [d|].
    - split.
      + clear - N Hr. induction sv as [|[t x] sv IH]; [destruct Hr|]. cbn in N. inversion N as [|? ? N1 N2]; subst.
        cbn [filter map]. destruct Hr as [Hr|Hr].
        * injection Hr as -> ->. cbn [fst]. rewrite Z.eqb_refl. cbn. f_equal.
          replace (filter (fun a => fst a =? s) sv) with (@nil (Z * nat)); auto.
          symmetry. clear IH N2 N. induction sv as [|[t x] sv IH]; cbn; auto.
          destruct (t =? s) eqn:Et; [exfalso; apply N1; left; cbn; lia|]. apply IH. intros Hi. apply N1. now right.
        * destruct (fst (t, x) =? s) eqn:Et; [|now apply IH].
          exfalso. apply N1. cbn in Et. apply Z.eqb_eq in Et. subst t.
          change s with (fst (s, d)). now apply in_map.
      + rewrite Forall_forall in T. apply (T _ Hr).
    - split; auto. clear - Hr. induction sv as [|[t x] sv IH]; cbn; auto.
      destruct (t =? s) eqn:Et.
      + exfalso. apply (Hr x). left. f_equal. lia.
      + apply IH. intros d Hd. apply (Hr d). now right.
  Qed.

  (** One symbol on the first node of the block. *)
  Lemma apply_one : forall arr i n B s, block arr i (n :: B) -> known (n :: B) ->
    (length (n :: B) + length (follow nodes [s] n) <= lim)%nat ->
    exists arr', applySymbol lim nodes arr ((i + length (n :: B)) mod lim) i s
      = Ok (arr', ((i + length (n :: B ++ follow nodes [s] n)) mod lim)%nat)
      /\ block arr' i (n :: B ++ follow nodes [s] n) /\ known (n :: B ++ follow nodes [s] n).
  Proof.
    intros arr i n B s (HA & Hi & HB & HC) K Hr. unfold applySymbol.
    assert (E0 : nth_error arr i = Some (Some n)).
    { rewrite <- (HC 0%nat n eq_refl). f_equal. rewrite Nat.add_0_r. symmetry. now apply Nat.mod_small. }
    rewrite E0. inversion K as [|? ? K1 K2]; subst.
    destruct (search_follow n s K1) as (sv & r & -> & -> & Hf & Hd). cbn [obind]. rewrite Hf in *.
    destruct r as [d|]; cbn [length] in Hr.
    - set (last := ((i + length (n :: B)) mod lim)%nat).
      assert (Hl : (last < lim)%nat) by (apply Nat.mod_upper_bound; lia).
      replace (last <? length arr)%nat with true by (symmetry; apply Nat.ltb_lt; lia).
      eexists. split; [|split].
      + do 2 f_equal. unfold last. rewrite Nat.add_mod_idemp_l by lia. f_equal.
        cbn [length]. rewrite app_length. cbn [length]. lia.
      + split; [now rewrite m_put_length|]. split; auto. split; [cbn [length] in *; rewrite app_length; cbn [length]; lia|].
        intros k x Hk. rewrite m_put_nth by lia.
        assert (Hkl : (k < length (n :: B ++ [d]))%nat) by (apply nth_error_Some; congruence).
        cbn [length] in Hkl. rewrite app_length in Hkl. cbn [length] in Hkl.
        change (n :: B ++ [d]) with ((n :: B) ++ [d]) in Hk.
        destruct (Nat.eq_dec k (length (n :: B))) as [-> | Hne].
        * rewrite nth_error_app2, Nat.sub_diag in Hk by lia. cbn in Hk. injection Hk as <-.
          unfold last. rewrite Nat.eqb_refl. reflexivity.
        * assert (k < length (n :: B))%nat by (cbn [length] in *; lia).
          rewrite nth_error_app1 in Hk by auto.
          replace ((i + k) mod lim =? last)%nat with false; [now apply HC|].
          symmetry. apply Nat.eqb_neq. unfold last. rewrite !add_mod by (cbn [length] in *; lia).
          cbn [length] in *.
          destruct (i + k <? lim)%nat eqn:E1, (i + S (length B) <? lim)%nat eqn:E2;
            rewrite ?Nat.ltb_lt, ?Nat.ltb_ge in *; lia.
      + constructor; auto. apply Forall_app. split; auto.
    - exists arr. rewrite app_nil_r. split; auto. split; auto. split; auto.
  Qed.

  Lemma apply_many : forall syms arr i n B, block arr i (n :: B) -> known (n :: B) ->
    (length (n :: B) + length (follow nodes syms n) <= lim)%nat ->
    exists arr', apply_symbols lim nodes arr ((i + length (n :: B)) mod lim) i syms
      = Ok (arr', ((i + length (n :: B ++ follow nodes syms n)) mod lim)%nat)
      /\ block arr' i (n :: B ++ follow nodes syms n) /\ known (n :: B ++ follow nodes syms n).
  Proof.
    induction syms as [|s syms IH]; intros arr i n B HB K Hr; cbn [apply_symbols].
    - unfold follow. cbn [flat_map]. rewrite app_nil_r. eauto.
    - assert (F : follow nodes (s :: syms) n = follow nodes [s] n ++ follow nodes syms n).
      { unfold follow. cbn [flat_map]. now rewrite app_nil_r. }
      rewrite F in *. rewrite app_length in Hr.
      destruct (apply_one arr i n B s HB K ltac:(lia)) as (arr1 & E1 & HB1 & K1).
      rewrite E1. cbn [obind].
      destruct (IH arr1 i n (B ++ follow nodes [s] n) HB1 K1) as (arr2 & E2 & HB2 & K2).
      { cbn [length] in *. rewrite app_length. lia. }
      rewrite E2. rewrite <- app_assoc in *. eauto.
  Qed.

  Lemma block_tail : forall arr i n B, block arr i (n :: B) -> block arr ((i + 1) mod lim) B.
  Proof.
    intros arr i n B (HA & Hi & HB & HC). split; auto. split; [apply Nat.mod_upper_bound; lia|].
    split; [cbn in HB; lia|]. intros k x Hk. rewrite Nat.add_mod_idemp_l by lia.
    replace (i + 1 + k)%nat with (i + S k)%nat by lia. now apply HC.
  Qed.

  Lemma loop_ok : forall R fuel arr i W syms, block arr i (R ++ W) -> known (R ++ W) ->
    (length R < lim)%nat -> (length R <= fuel)%nat ->
    (length R + length W + length (live1 nodes R syms) <= lim)%nat ->
    exists arr', m_loop lim nodes fuel arr ((i + length (R ++ W)) mod lim) i ((i + length R) mod lim) syms
      = Ok (arr', ((i + length R + length (W ++ live1 nodes R syms)) mod lim)%nat)
      /\ block arr' ((i + length R) mod lim) (W ++ live1 nodes R syms)
      /\ known (W ++ live1 nodes R syms).
  Proof.
    induction R as [|n R IH]; intros fuel arr i W syms HB K Hl Hf Hr.
    - cbn [app length live1 flat_map] in *. rewrite Nat.add_0_r, app_nil_r.
      destruct HB as (HA & Hi & HB & HC). rewrite (Nat.mod_small i lim) by auto.
      unfold live1. cbn [flat_map]. exists arr.
      destruct fuel; cbn [m_loop]; rewrite Nat.eqb_refl; (split; [reflexivity|]); split; auto; split; auto.
    - assert (Hi : (i < lim)%nat) by apply HB.
      assert (Hne : (i =? (i + length (n :: R)) mod lim)%nat = false).
      { apply Nat.eqb_neq. rewrite add_mod by lia. cbn [length] in *.
        destruct (i + S (length R) <? lim)%nat eqn:E; rewrite ?Nat.ltb_lt, ?Nat.ltb_ge in E; lia. }
      destruct fuel as [|fuel]; [cbn in Hf; lia|]. cbn [m_loop]. rewrite Hne.
      assert (F : live1 nodes (n :: R) syms = follow nodes syms n ++ live1 nodes R syms) by reflexivity.
      rewrite F in *. rewrite app_length in Hr. cbn [app] in HB, K |- *.
      destruct (apply_many syms arr i n (R ++ W) HB K) as (arr1 & E1 & HB1 & K1).
      { cbn [length] in *. rewrite app_length. lia. }
      rewrite E1. cbn [obind]. apply block_tail in HB1. inversion K1 as [|? ? _ K1']; subst.
      rewrite <- app_assoc in HB1, K1'.
      destruct (IH fuel arr1 ((i + 1) mod lim)%nat (W ++ follow nodes syms n) syms HB1 K1') as (arr2 & E2 & HB2 & K2).
      { cbn in Hl; lia. }
      { cbn in Hf; lia. }
      { cbn in Hr. rewrite app_length. lia. }
      exists arr2. rewrite <- !app_assoc in *.
      rewrite !(Nat.add_mod_idemp_l (i + 1) (length R)) in E2, HB2 by lia.
      rewrite !(Nat.add_mod_idemp_l (i + 1) (length (R ++ W ++ follow nodes syms n))) in E2 by lia.
      assert (M2 : (((i + 1) mod lim + length R + length (W ++ follow nodes syms n ++ live1 nodes R syms)) mod lim
        = (i + length (n :: R) + length (W ++ follow nodes syms n ++ live1 nodes R syms)) mod lim)%nat).
      { rewrite <- Nat.add_assoc. rewrite Nat.add_mod_idemp_l by lia. f_equal. cbn [length]. lia. }
      rewrite M2 in E2.
      replace (i + 1 + length R)%nat with (i + length (n :: R))%nat in E2, HB2 by (cbn; lia).
      replace (i + length (n :: R ++ W ++ follow nodes syms n))%nat
        with (i + 1 + length (R ++ W ++ follow nodes syms n))%nat by (cbn [length]; lia).
      split; [exact E2|]. split; auto.
  Qed.

  Definition ring (s : mstate) (L : list nat) : Prop :=
    block (m_state s) (m_first s) L /\ (length L < lim)%nat
    /\ m_last s = ((m_first s + length L) mod lim)%nat /\ known L.

  Lemma step_ring : forall s L syms, ring s L ->
    (length L + length (live1 nodes L syms) <= lim)%nat ->
    exists s', m_step lim nodes syms s = Ok s' /\ ring s' (live1 nodes L syms).
  Proof.
    intros [arr first last] L syms (HB & Hl & Hlast & K) Hr. cbn [m_state m_first m_last] in *.
    unfold m_step. cbn [m_state m_first m_last].
    rewrite <- (app_nil_r L) in HB at 1. rewrite <- (app_nil_r L) in K.
    destruct (loop_ok L lim arr first [] syms HB K Hl ltac:(lia)) as (arr' & E & HB' & K').
    { cbn. lia. }
    rewrite app_nil_r in E. rewrite Hlast. rewrite E. cbn [obind app] in *.
    eexists. split; [reflexivity|]. unfold ring. cbn [m_state m_first m_last]. split; auto. split; [|split].
    - destruct L as [|n L]; [cbn; lia|]. cbn [length] in Hr. lia.
    - rewrite Nat.add_mod_idemp_l by lia. reflexivity.
    - auto.
  Qed.
  Lemma init_ring : forall s n, length (m_state s) = lim -> (1 < lim)%nat -> (n < length nodes)%nat ->
    ring (m_init n s) [n].
  Proof.
    intros [arr first last] n HA H1 Hn. cbn [m_state] in HA. unfold ring, m_init, block.
    cbn [m_state m_first m_last length]. rewrite m_put_length. split; [|split; [|split]].
    - do 3 (split; [lia|]). intros [|k] x Hk; [|destruct k; discriminate].
      injection Hk as <-. rewrite Nat.mod_small by lia. rewrite m_put_nth by lia. reflexivity.
    - lia.
    - rewrite Nat.mod_small; lia.
    - repeat constructor. exact Hn.
  Qed.
  Lemma steps_ring : forall steps s L, ring s L -> room lim nodes L steps ->
    exists s', m_run lim nodes s (map MStep steps) = Ok s' /\ ring s' (fold_left (live1 nodes) steps L).
  Proof.
    induction steps as [|syms steps IH]; intros s L R H; cbn [map m_run fold_left]; [eauto|].
    destruct H as [H1 H2]. cbn [m_exec]. destruct (step_ring s L syms R H1) as (s1 & -> & R1). cbn [obind].
    apply IH; auto.
  Qed.
  Lemma ring_size : forall s L, ring s L -> m_size lim s = length L.
  Proof.
    intros [arr first last] L ((HA & Hi & HB & HC) & Hl & Hlast & K). cbn [m_state m_first m_last] in *.
    unfold m_size. cbn [m_state m_first m_last]. rewrite Hlast, add_mod by lia.
    destruct (first + length L <? lim)%nat eqn:E; rewrite ?Nat.ltb_lt, ?Nat.ltb_ge in E.
    - replace (first <=? first + length L)%nat with true by (symmetry; apply Nat.leb_le; lia). lia.
    - destruct (first <=? first + length L - lim)%nat eqn:E2; rewrite ?Nat.leb_le, ?Nat.leb_gt in E2; lia.
  Qed.

  Lemma classify_ok : forall fc banned L fuel arr i res, block arr i L -> (length L < lim)%nat ->
    (length L <= fuel)%nat -> res <= 2 ^ 31 - 1 ->
    exists r, classify_loop lim fuel arr i ((i + length L) mod lim) fc banned res = Ok r
      /\ r <= res
      /\ (forall c, permitted fc banned L c -> r <= c)
      /\ (r = res \/ permitted fc banned L r).
  Proof.
    intros fc banned. induction L as [|n L IH]; intros fuel arr i res HB Hl Hf Hres.
    - cbn [length] in *. rewrite Nat.add_0_r. rewrite Nat.mod_small by apply HB. exists res.
      destruct fuel; cbn [classify_loop]; rewrite Nat.eqb_refl; (split; [auto|]); (split; [lia|]);
        (split; [intros c ((m & [] & _) & _)|auto]).
    - assert (Hi : (i < lim)%nat) by apply HB.
      assert (Hne : (i =? (i + length (n :: L)) mod lim)%nat = false).
      { apply Nat.eqb_neq. rewrite add_mod by lia. cbn [length] in *.
        destruct (i + S (length L) <? lim)%nat eqn:E; rewrite ?Nat.ltb_lt, ?Nat.ltb_ge in E; lia. }
      destruct fuel as [|fuel]; [cbn in Hf; lia|]. cbn [classify_loop]. rewrite Hne.
      assert (E0 : nth_error arr i = Some (Some n)).
      { destruct HB as (_ & _ & _ & HC). rewrite <- (HC 0%nat n eq_refl). f_equal.
        rewrite Nat.add_0_r. symmetry. now apply Nat.mod_small. }
      rewrite E0.
      set (res' := match class_of n fc with
                   | Some c => if (c <? res) && negb (existsb (Z.eqb c) banned) then c else res
                   | None => res end).
      assert (Hres' : res' <= res /\ (res' = res \/ permitted fc banned (n :: L) res')
               /\ forall c, class_of n fc = Some c -> ~ In c banned -> res' <= c).
      { unfold res'. destruct (class_of n fc) as [c|] eqn:Ec.
        - destruct (existsb (Z.eqb c) banned) eqn:Eb.
          + rewrite andb_false_r. split; [lia|]. split; auto. intros c' Hc Hb. injection Hc as <-.
            exfalso. apply Hb. apply existsb_exists in Eb as (x & Hx & Ex). apply Z.eqb_eq in Ex. now subst.
          + cbn [negb]. rewrite andb_true_r. destruct (c <? res) eqn:El.
            * split; [lia|]. split.
              -- right. split; [exists n; split; auto; now left|]. split; [|lia].
                 intros Hin. assert (existsb (Z.eqb c) banned = true) by (apply existsb_exists; exists c; split; auto; apply Z.eqb_refl).
                 congruence.
              -- intros c' Hc _. injection Hc as <-. lia.
            * split; [lia|]. split; auto. intros c' Hc _. injection Hc as <-. lia.
        - split; [lia|]. split; auto. intros c Hc. discriminate. }
      destruct Hres' as (H1 & H2 & H3).
      destruct (IH fuel arr ((i + 1) mod lim)%nat res' (block_tail _ _ _ _ HB)) as (r & E & R1 & R2 & R3).
      all: try (cbn in Hl, Hf; lia).
      exists r. rewrite Nat.add_mod_idemp_l in E by lia.
      replace (i + 1 + length L)%nat with (i + length (n :: L))%nat in E by (cbn; lia).
      split; auto. split; [lia|]. split.
      + intros c ((m & Hm & Hc) & Hb & Hlt). destruct Hm as [<- | Hm].
        * specialize (H3 c Hc Hb). lia.
        * apply R2. split; eauto.
      + destruct R3 as [-> | ((m & Hm & Hc) & Hb)].
        * destruct H2; auto.
        * right. split; auto. exists m. split; auto. now right.
  Qed.
  Lemma classify_ring : forall s L fc banned, ring s L ->
    exists r, classifyFinals lim fc banned s = Ok r /\ reported fc banned L r.
  Proof.
    intros [arr first last] L fc banned (HB & Hl & Hlast & K). cbn [m_state m_first m_last] in *.
    unfold classifyFinals. cbn [m_state m_first m_last]. rewrite Hlast.
    destruct (classify_ok fc banned L lim arr first m_int_max HB Hl ltac:(lia) ltac:(unfold m_int_max; lia))
      as (r & -> & R1 & R2 & R3).
    cbn [obind]. eexists. split; [reflexivity|]. unfold m_int_max in *. unfold reported.
    destruct (r <? 2 ^ 31 - 1) eqn:E.
    - left. destruct R3 as [R3|R3]; [lia|]. auto.
    - right. split; auto. intros c Hc. pose proof (R2 c Hc). destruct Hc as (_ & _ & Hc). lia.
  Qed.
End Ring.

(** Any program's MatchState has an array of BUF_LIMIT. *)
Lemma run_length : forall lim nodes ops s s', length (m_state s) = lim ->
  m_run lim nodes s ops = Ok s' -> length (m_state s') = lim.
Proof.
  intros lim nodes.
  assert (A : forall arr last i x r, applySymbol lim nodes arr last i x = Ok r -> length (fst r) = length arr).
  { intros arr last i x r H. unfold applySymbol in H. destruct (nth_error arr i) as [[n|]|]; try discriminate.
    destruct (nth_error nodes n); try discriminate. destruct (sv_search l x) as [[d|]| | | |]; try discriminate; cbn [obind] in H.
    - destruct (last <? length arr)%nat; [|discriminate]. injection H as <-. apply m_put_length.
    - now injection H as <-. }
  assert (B : forall syms arr last i r, apply_symbols lim nodes arr last i syms = Ok r -> length (fst r) = length arr).
  { induction syms as [|x syms IH]; intros arr last i r H; cbn [apply_symbols] in H; [now injection H as <-|].
    destruct (applySymbol lim nodes arr last i x) as [[a l]| | | |] eqn:E; try discriminate. cbn [obind] in H.
    rewrite (IH _ _ _ _ H). apply (A _ _ _ _ _ E). }
  assert (C : forall syms fuel arr last i my r, m_loop lim nodes fuel arr last i my syms = Ok r -> length (fst r) = length arr).
  { intros syms. induction fuel as [|fuel IH]; intros arr last i my r H; cbn [m_loop] in H;
      (destruct (i =? my)%nat; [now injection H as <-|]); [discriminate|].
    destruct (apply_symbols lim nodes arr last i syms) as [[a l]| | | |] eqn:E; try discriminate. cbn [obind] in H.
    rewrite (IH _ _ _ _ _ H). apply (B _ _ _ _ _ E). }
  induction ops as [|op ops IH]; intros s s' HL H; cbn [m_run] in H; [now injection H as <-|].
  destruct (m_exec lim nodes s op) as [s1| | | |] eqn:E; try discriminate. cbn [obind] in H.
  apply (IH s1); auto. destruct op; cbn [m_exec] in E.
  - injection E as <-. unfold m_init; cbn [m_state]; now rewrite m_put_length.
  - unfold m_step in E. destruct (m_loop _ _ _ _ _ _ _ _) as [[a l]| | | |] eqn:E2; try discriminate.
    cbn [obind] in E. injection E as <-. cbn [m_state]. rewrite <- HL. exact (C _ _ _ _ _ _ _ E2).
  - injection E as <-. exact HL.
Qed.

(** The matcher object after whatever was done with it before, then init and any steps the
    ring has room for: the nodes held are those at the end of the paths, the rule reported
    is the least permitted one of them. *)
Theorem C48_live : forall nodes before s n steps, tables nodes ->
  m_run BUF_LIMIT nodes (m_new BUF_LIMIT) before = Ok s -> (n < length nodes)%nat ->
  room BUF_LIMIT nodes [n] steps ->
  exists s' L, m_run BUF_LIMIT nodes s (MInit n :: map MStep steps) = Ok s'
    /\ m_size BUF_LIMIT s' = length L
    /\ (forall q, In q L <-> mpath nodes n steps q)
    /\ (forall fc banned, exists r, classifyFinals BUF_LIMIT fc banned s' = Ok r /\ reported fc banned L r).
Proof.
  intros nodes before s n steps T Hb Hn Hr.
  assert (HL : length (m_state s) = BUF_LIMIT).
  { eapply run_length; [|exact Hb]. unfold m_new. cbn [m_state]. apply repeat_length. }
  assert (H1 : (1 < BUF_LIMIT)%nat) by (unfold BUF_LIMIT; apply Nat.ltb_lt; vm_compute; reflexivity).
  cbn [m_run m_exec obind]. generalize dependent BUF_LIMIT. intros lim Hb Hr HL H1.
  destruct (steps_ring lim ltac:(lia) nodes T steps (m_init n s) [n]) as (s' & E & R); auto.
  { apply init_ring; auto. lia. }
  exists s', (live nodes n steps). split; auto. split.
  - eapply ring_size; [|exact R]. lia.
  - split; [apply live_paths|]. intros fc banned. eapply classify_ring; [|exact R]. lia.
Qed.

(** With one symbol at each step there is always room. *)
Lemma live1_single : forall nodes L s, tables nodes -> (length (live1 nodes L [s]) <= length L)%nat.
Proof.
  intros nodes L s T. induction L as [|n L IH]; [cbn; lia|].
  change (live1 nodes (n :: L) [s]) with (follow nodes [s] n ++ live1 nodes L [s]).
  rewrite app_length. cbn [length]. enough (length (follow nodes [s] n) <= 1)%nat by lia.
  destruct (Nat.lt_ge_cases n (length nodes)) as [H|H].
  - destruct (search_follow 1 ltac:(lia) nodes T n s H) as (sv & r & _ & _ & -> & _). destruct r; cbn; lia.
  - unfold follow. rewrite nth_overflow by auto. cbn. lia.
Qed.
Theorem C48_single_room : forall nodes n (symbols : list Z), tables nodes ->
  room BUF_LIMIT nodes [n] (map (fun s => [s]) symbols).
Proof.
  intros nodes n symbols T.
  assert (H : (length [n] + length [n] <= BUF_LIMIT)%nat)
    by (unfold BUF_LIMIT; apply Nat.leb_le; vm_compute; reflexivity).
  revert H. generalize [n]. generalize BUF_LIMIT.
  induction symbols as [|s symbols IH]; intros lim L H; cbn [map room]; auto.
  pose proof (live1_single nodes L s T). split; [lia|]. apply IH. lia.
Qed.

(** After clear nothing is live, whatever steps follow. *)
Theorem C48_clear : forall nodes s steps,
  exists s', m_run BUF_LIMIT nodes s (MClear :: map MStep steps) = Ok s'
    /\ m_size BUF_LIMIT s' = 0%nat
    /\ forall fc banned, classifyFinals BUF_LIMIT fc banned s' = Ok (-1).
Proof.
  intros nodes s steps. cbn [m_run m_exec obind].
  assert (H : forall steps t, m_first t = 0%nat -> m_last t = 0%nat ->
    exists s', m_run BUF_LIMIT nodes t (map MStep steps) = Ok s' /\ m_first s' = 0%nat /\ m_last s' = 0%nat).
  { clear. induction steps as [|x steps IH]; intros t F L; [exists t; auto|].
    cbn [map m_run m_exec]. unfold m_step. rewrite F, L.
    assert (E : forall n arr, m_loop BUF_LIMIT nodes n arr 0 0 0 x = Ok (arr, 0%nat)) by (destruct n; reflexivity).
    rewrite E. cbn [obind]. apply IH; reflexivity. }
  destruct (H steps (m_clear s) eq_refl eq_refl) as (s' & -> & F & L). exists s'. split; [reflexivity|].
  split; [unfold m_size; rewrite F, L; vm_compute; reflexivity|].
  intros fc banned. unfold classifyFinals. rewrite F, L.
  assert (E : forall n, classify_loop BUF_LIMIT n (m_state s') 0 0 fc banned m_int_max = Ok m_int_max)
    by (destruct n; reflexivity).
  rewrite E. reflexivity.
Qed.
Example C48_clear_example : exists s, m_run BUF_LIMIT [[(1, 0%nat)]] (m_new BUF_LIMIT) [MInit 0; MStep [1]] = Ok s
  /\ m_size BUF_LIMIT s = 1%nat
  /\ exists s', m_run BUF_LIMIT [[(1, 0%nat)]] s [MClear; MStep [1]] = Ok s' /\ m_size BUF_LIMIT s' = 0%nat.
Proof. eexists. do 2 (split; [vm_compute; reflexivity|]). eexists. split; vm_compute; reflexivity. Qed.

(** A table with two symbols leading back: ten steps offering both make 1024 paths, and
    the ring of 1024 then counts as empty. *)
Definition twice : node_table := [[(1, 0%nat); (2, 0%nat)]].
Lemma twice_tables : tables twice.
Proof.
  repeat constructor; unfold by_tag; cbn; try lia.
Qed.
Theorem C48_full_refuted : exists s,
  m_run BUF_LIMIT twice (m_new BUF_LIMIT) (MInit 0 :: map MStep (repeat [1; 2] 10)) = Ok s
  /\ m_size BUF_LIMIT s = 0%nat /\ classifyFinals BUF_LIMIT [(0%nat, 5)] [] s = Ok (-1)
  /\ mpath twice 0 (repeat [1; 2] 10) 0.
Proof.
  eexists. split; [vm_compute; reflexivity|]. split; [vm_compute; reflexivity|].
  split; [vm_compute; reflexivity|]. apply live_paths. vm_compute. auto.
Qed.
(** After five steps: 32 nodes, rule 5 unless banned. *)
Example C48_example : exists s,
  m_run BUF_LIMIT twice (m_new BUF_LIMIT) (MInit 0 :: map MStep (repeat [1; 2] 5)) = Ok s
  /\ m_size BUF_LIMIT s = 32%nat /\ classifyFinals BUF_LIMIT [(0%nat, 5)] [] s = Ok 5
  /\ classifyFinals BUF_LIMIT [(0%nat, 5)] [5] s = Ok (-1) /\ room BUF_LIMIT twice [0%nat] (repeat [1; 2] 5).
Proof.
  eexists. split; [vm_compute; reflexivity|]. do 3 (split; [vm_compute; reflexivity|]).
  cbn -[BUF_LIMIT]. repeat split; apply Nat.leb_le; vm_compute; reflexivity.
Qed.

(** * C49: the pieces between the dots *)
Fixpoint pieces (l : list Z) : list (list Z) :=
  match l with
  | [] => [[]]
  | c :: r => if c =? 46 then [] :: pieces r
              else match pieces r with p :: ps => (c :: p) :: ps | [] => [[c]] end
  end.
(** [pieces] is splitting at dots: joined with dots the pieces give the string, and no piece
    contains one. *)
Fixpoint dotted (ps : list (list Z)) : list Z :=
  match ps with [] => [] | [p] => p | p :: r => p ++ 46 :: dotted r end.
Lemma pieces_nonempty : forall l, pieces l <> [].
Proof. destruct l as [|c r]; cbn; [discriminate|]. destruct (c =? 46); [discriminate|]. destruct (pieces r); discriminate. Qed.
Lemma pieces_dotted : forall l, dotted (pieces l) = l /\ Forall (fun p => ~ In 46 p) (pieces l).
Proof.
  induction l as [|c r [IH1 IH2]]; cbn [pieces]; [split; [reflexivity|repeat constructor; intros []]|].
  pose proof (pieces_nonempty r) as Hn. destruct (c =? 46) eqn:E.
  - apply Z.eqb_eq in E. subst c. split.
    + destruct (pieces r) as [|p ps]; [congruence|]. cbn [dotted] in *. cbn [app]. f_equal. exact IH1.
    + constructor; auto.
  - destruct (pieces r) as [|p ps]; [congruence|]. inversion IH2; subst. split.
    + destruct ps; cbn [dotted] in *; cbn [app]; now f_equal.
    + constructor; auto. intros [H|H]; [lia|contradiction].
Qed.
Lemma pieces_app_plain : forall cur l, ~ In 46 cur ->
  exists p ps, pieces l = p :: ps /\ pieces (cur ++ l) = (cur ++ p) :: ps.
Proof.
  induction cur as [|c cur IH]; intros l H.
  - pose proof (pieces_nonempty l). destruct (pieces l) as [|p ps] eqn:E; [congruence|]. exists p, ps. auto.
  - destruct (IH l) as (p & ps & E1 & E2); [intros Hin; apply H; now right|]. exists p, ps. split; auto.
    cbn [app pieces]. rewrite E2. destruct (c =? 46) eqn:E; [exfalso; apply H; left; lia|]. reflexivity.
Qed.

Lemma count_dots : forall l, tag_count_loop false l = Z.of_nat (length (pieces l)) - 1.
Proof.
  induction l as [|c r IH]; cbn [tag_count_loop pieces]; auto. rewrite IH.
  pose proof (pieces_nonempty r). destruct (c =? 46); cbn [length]; [lia|].
  destruct (pieces r); [congruence|]. cbn [length]. lia.
Qed.
Lemma tag_at_ok : forall rest pre cur start index count,
  ~ In 46 cur ->
  (pre = [] \/ 2 <= Z.of_nat (length pre)) ->
  (pre = [] -> cur = [] -> hd 0 rest <> 46) -> count <= index -> 0 <= count ->
  tag_at_loop (pre ++ cur ++ rest) index (Z.of_nat (length (pre ++ cur))) rest start
    (if (length pre =? 0)%nat then 0 else Z.of_nat (length pre) - 1) count
  = Ok (nth (Z.to_nat (index - count)) (pieces (cur ++ rest)) []).
Proof.
  induction rest as [|c rest IH]; intros pre cur start index count Hc Hp Hh Hi H0; cbn [tag_at_loop].
  - destruct (pieces_app_plain cur [] Hc) as (p & ps & E1 & E2). cbn in E1. injection E1 as <- <-.
    rewrite E2. rewrite !app_nil_r.
    destruct (count <? index) eqn:El.
    + destruct (Z.to_nat (index - count)) as [|k] eqn:Ek; [lia|]. cbn. now destruct k.
    + replace (Z.to_nat (index - count)) with 0%nat by lia. cbn [nth].
      assert (Hsub : forall pos, Z.to_nat pos = length pre -> 0 <= pos ->
        substr (pre ++ cur) pos (Z.of_nat (length (pre ++ cur))) = Ok cur).
      { intros pos Hpos Hpos'. unfold substr.
        replace (Z.of_nat (length (pre ++ cur)) <? pos) with false by (rewrite app_length; lia).
        rewrite Hpos, skipn_app, skipn_all, Nat.sub_diag. cbn [app skipn]. f_equal. apply firstn_all2.
        rewrite app_length. lia. }
      destruct Hp as [-> | Hp].
      * cbn [length Nat.eqb Z.eqb negb]. apply Hsub; auto. lia.
      * destruct (length pre =? 0)%nat eqn:Ep; [apply Nat.eqb_eq in Ep; lia|].
        replace (Z.of_nat (length pre) - 1 =? 0) with false by lia. cbn [negb]. apply Hsub; lia.
  - destruct (c =? 46) eqn:E.
    + apply Z.eqb_eq in E. subst c.
      destruct (pieces_app_plain cur (46 :: rest) Hc) as (p & ps & E1 & E2). cbn in E1.
      injection E1 as <- <-. rewrite E2, app_nil_r.
      assert (Hend : Z.of_nat (length (pre ++ cur)) <> 0).
      { intros Hz. rewrite app_length in Hz. apply Hh; try reflexivity; apply length_zero_iff_nil; lia. }
      set (start' := if (if (length pre =? 0)%nat then 0 else Z.of_nat (length pre) - 1) =? 0 then 0
                     else (if (length pre =? 0)%nat then 0 else Z.of_nat (length pre) - 1) + 1).
      assert (Hs : start' = Z.of_nat (length pre)).
      { unfold start'. destruct Hp as [-> | Hp]; [reflexivity|].
        destruct (length pre =? 0)%nat eqn:Ep; [apply Nat.eqb_eq in Ep; lia|].
        replace (Z.of_nat (length pre) - 1 =? 0) with false by lia. lia. }
      rewrite Hs. clear start' Hs. destruct (count + 1 =? index + 1) eqn:Ei.
      * replace (Z.to_nat (index - count)) with 0%nat by lia. cbn [nth]. unfold substr.
        replace (Z.of_nat (length (pre ++ cur ++ 46 :: rest)) <? Z.of_nat (length pre)) with false
          by (rewrite app_length; lia).
        rewrite Nat2Z.id, skipn_app, skipn_all, Nat.sub_diag. cbn [app skipn]. f_equal.
        replace (Z.to_nat (Z.of_nat (length (pre ++ cur)) - Z.of_nat (length pre))) with (length cur)
          by (rewrite app_length; lia).
        rewrite firstn_app, firstn_all, Nat.sub_diag. apply app_nil_r.
      * specialize (IH (pre ++ cur ++ [46]) [] (Z.of_nat (length pre)) index (count + 1)).
        replace ((pre ++ cur ++ [46]) ++ [] ++ rest) with (pre ++ cur ++ 46 :: rest) in IH
          by (cbn [app]; rewrite <- !app_assoc; reflexivity).
        replace (Z.of_nat (length ((pre ++ cur ++ [46]) ++ []))) with (Z.of_nat (length (pre ++ cur)) + 1) in IH
          by (rewrite app_nil_r, !app_length; cbn [length]; lia).
        replace (if (length (pre ++ cur ++ [46%Z]) =? 0)%nat then 0 else Z.of_nat (length (pre ++ cur ++ [46])) - 1)
          with (Z.of_nat (length (pre ++ cur))) in IH.
        2: { rewrite !app_length. cbn [length]. replace (length pre + (length cur + 1) =? 0)%nat with false
               by (symmetry; apply Nat.eqb_neq; lia). lia. }
        rewrite IH; try lia.
        -- f_equal. replace (Z.to_nat (index - count)) with (S (Z.to_nat (index - (count + 1)))) by lia. reflexivity.
        -- intros [].
        -- right. rewrite !app_length in *. cbn [length]. lia.
        -- intros Hn. destruct pre; [destruct cur|]; discriminate.
    + replace (count =? index + 1) with false by lia.
      specialize (IH pre (cur ++ [c]) start index count).
      replace (pre ++ (cur ++ [c]) ++ rest) with (pre ++ cur ++ c :: rest) in IH
        by (rewrite <- !app_assoc; reflexivity).
      replace (Z.of_nat (length (pre ++ cur ++ [c]))) with (Z.of_nat (length (pre ++ cur)) + 1) in IH
        by (rewrite !app_length; cbn [length]; lia).
      replace (cur ++ c :: rest) with ((cur ++ [c]) ++ rest) by (rewrite <- app_assoc; reflexivity).
      replace (pre ++ (cur ++ [c]) ++ rest) with (pre ++ cur ++ c :: rest) by (rewrite <- !app_assoc; reflexivity).
      apply IH; auto.
      * intros Hin. apply in_app_or in Hin as [Hin|[Hin|[]]]; [auto|lia].
      * intros _ Hn. destruct cur; discriminate.
Qed.

(** For a string that does not begin with a dot, the tags seen are exactly the pieces. *)
Theorem C49_tags : forall tags, tags <> [] -> hd 0 tags <> 46 ->
  tagCount tags = Z.of_nat (length (pieces tags))
  /\ (forall i, 0 <= i -> tagAt tags i = Ok (nth (Z.to_nat i) (pieces tags) []))
  /\ dotted (pieces tags) = tags /\ Forall (fun p => ~ In 46 p) (pieces tags).
Proof.
  intros tags Hn Hd. split; [|split; [|apply pieces_dotted]].
  - destruct tags as [|c r]; [congruence|]. unfold tagCount. cbn [tag_count_loop].
    rewrite count_dots. cbn [hd] in Hd. cbn [pieces]. replace (c =? 46) with false by lia.
    pose proof (pieces_nonempty r). destruct (pieces r); [congruence|]. cbn [length]. lia.
  - intros i Hi. unfold tagAt.
    pose proof (tag_at_ok tags [] [] 0 i 0) as H. cbn [app length Nat.eqb] in H. rewrite Z.sub_0_r in H.
    apply H; auto; lia.
Qed.
(** "n.sg.*" *)
Example C49_example :
  tagCount [110; 46; 115; 103; 46; 42] = 3
  /\ map (tagAt [110; 46; 115; 103; 46; 42]) [0; 1; 2; 3] = [Ok [110]; Ok [115; 103]; Ok [42]; Ok []].
Proof. split; vm_compute; reflexivity. Qed.
(** ".n.m": two tags are counted, the empty one and ".n"; the pieces are "", "n", "m". *)
Theorem C49_leading_dot_refuted :
  pieces [46; 110; 46; 109] = [[]; [110]; [109]]
  /\ tagCount [46; 110; 46; 109] = 2
  /\ map (tagAt [46; 110; 46; 109]) [0; 1; 2] = [Ok []; Ok [46; 110]; Ok [109]].
Proof. repeat split; vm_compute; reflexivity. Qed.

Print Assumptions C47_search.
Print Assumptions C47_exact.
Print Assumptions C47_second_target_refuted.
Print Assumptions C48_live.
Print Assumptions C48_single_room.
Print Assumptions C48_clear.
Print Assumptions C48_full_refuted.
Print Assumptions C49_tags.
Print Assumptions C49_leading_dot_refuted.
