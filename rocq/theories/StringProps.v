(** C50 and C51: splitting, joining, substituting, trimming and iterating over strings. *)
From Verif Require Import Base StringModel.

(** * Specification *)
(** [d] occurs in [s] *)
Definition occurs (d s : list Z) : Prop := exists a b, s = a ++ d ++ b.

(** The pieces with the separator between them *)
Fixpoint between (d : list Z) (ps : list (list Z)) : list Z :=
  match ps with
  | [] => []
  | p :: r => match r with [] => p | _ => p ++ d ++ between d r end
  end.
(** Cut at the leftmost occurrences of [d]: no piece but the last contains [d], not even
    reaching into the separator after it; nor does the last *)
Fixpoint leftmost (d : list Z) (ps : list (list Z)) : Prop :=
  match ps with
  | [] => False
  | p :: r => match r with
              | [] => ~ occurs d p
              | _ => ~ occurs d (p ++ removelast d) /\ leftmost d r
              end
  end.
Definition non_empty (p : list Z) : bool := match p with [] => false | _ => true end.

(** Text in which [delim] stands only behind a backslash; the whole escapes are inside *)
Inductive guarded (delim : Z) : list Z -> Prop :=
| g_nil : guarded delim []
| g_char c r : c <> 92 -> c <> delim -> guarded delim r -> guarded delim (c :: r)
| g_esc c r : guarded delim r -> guarded delim (92 :: c :: r).
(** The same where the string may break off after a backslash *)
Definition guarded_end (delim : Z) (p : list Z) : Prop :=
  guarded delim p \/ exists q, guarded delim q /\ p = q ++ [92].
Fixpoint cut_escaped (delim : Z) (ps : list (list Z)) : Prop :=
  match ps with
  | [] => False
  | p :: r => match r with
              | [] => guarded_end delim p
              | _ => guarded delim p /\ cut_escaped delim r
              end
  end.

(** * find *)
Lemma is_prefix_spec : forall d s, is_prefix d s = true <-> exists b, s = d ++ b.
Proof.
  induction d as [|x d IH]; intros [|y s]; cbn; split; try discriminate.
  - intros _. now exists [].
  - reflexivity.
  - intros _. now exists (y :: s).
  - reflexivity.
  - now intros [b Hb].
  - intros H. apply andb_true_iff in H as [H1 H2]. apply Z.eqb_eq in H1. apply IH in H2 as [b ->].
    exists b. now rewrite H1.
  - intros [b Hb]. injection Hb as -> ->. rewrite Z.eqb_refl. apply IH. now exists b.
Qed.

Lemma find_in_none : forall d s, find_in d s = None -> ~ occurs d s.
Proof.
  intros d s. induction s as [|y s IH]; intros H (a & b & E); cbn in H.
  - destruct (is_prefix d []) eqn:P; [discriminate|].
    destruct a; [|discriminate]. cbn in E. assert (is_prefix d [] = true) by (apply is_prefix_spec; eauto).
    congruence.
  - destruct (is_prefix d (y :: s)) eqn:P; [discriminate|].
    destruct (find_in d s) eqn:F; [discriminate|].
    destruct a as [|z a].
    + cbn in E. assert (is_prefix d (y :: s) = true) by (apply is_prefix_spec; eauto). congruence.
    + injection E as -> ->. apply IH; auto. now exists a, b.
Qed.

Lemma find_in_some : forall d s p, find_in d s = Some p ->
  exists b, s = firstn p s ++ d ++ b /\ length (firstn p s) = p
    /\ (d <> [] -> ~ occurs d (firstn p s ++ removelast d)).
Proof.
  intros d s. induction s as [|y s IH]; intros p H; cbn in H.
  - destruct (is_prefix d []) eqn:P; [|discriminate]. injection H as <-. cbn.
    apply is_prefix_spec in P as [b P]. exists b. repeat split; auto.
    symmetry in P. apply app_eq_nil in P as [-> ->]. congruence.
  - destruct (is_prefix d (y :: s)) eqn:P.
    + injection H as <-. cbn. apply is_prefix_spec in P as [b P]. exists b. repeat split; auto.
      intros Hd (a & b' & E). apply (f_equal (@length _)) in E. rewrite !app_length in E.
      destruct d as [|x d]; [congruence|]. clear - E.
      assert (length (removelast (x :: d)) = length d).
      { clear. revert x. induction d as [|z d IH]; intros x; [reflexivity|].
        change (removelast (x :: z :: d)) with (x :: removelast (z :: d)). cbn [length]. now rewrite IH. }
      cbn [length] in E. lia.
    + destruct (find_in d s) as [q|] eqn:F; [|discriminate]. injection H as <-.
      destruct (IH q eq_refl) as (b & E1 & E2 & E3). exists b. cbn [firstn length app].
      repeat split; [now f_equal | now f_equal |].
      intros Hd (a & b' & E). destruct a as [|z a].
      * cbn [app] in E.
        assert (is_prefix d (y :: s) = true).
        { apply is_prefix_spec. exists (b' ++ [last d 0] ++ b).
          transitivity (y :: firstn q s ++ (removelast d ++ [last d 0]) ++ b).
          - f_equal. rewrite <- (app_removelast_last 0 Hd). exact E1.
          - rewrite <- (app_assoc (removelast d)). rewrite (app_assoc (firstn q s)), app_comm_cons, E.
            now rewrite <- !app_assoc. }
        congruence.
      * injection E as -> E. apply (E3 Hd). now exists a, b'.
Qed.

Lemma find_from_spec : forall s d pos, (pos <= length s)%nat ->
  find_from s d pos = match find_in d (skipn pos s) with Some p => Some (pos + p)%nat | None => None end.
Proof.
  intros s d pos H. unfold find_from. destruct (length s <? pos)%nat eqn:E; auto.
  apply Nat.ltb_lt in E. lia.
Qed.

Lemma leftmost_none : forall d s, find_in d s = None -> leftmost d [s] /\ between d [s] = s.
Proof. intros d s H. cbn. split; auto. now apply find_in_none. Qed.
Lemma leftmost_some : forall d s p b, d <> [] -> find_in d s = Some p -> s = firstn p s ++ d ++ b ->
  forall ps, leftmost d ps -> between d ps = b ->
  leftmost d (firstn p s :: ps) /\ between d (firstn p s :: ps) = s.
Proof.
  intros d s p b Hd F E ps L B. destruct (find_in_some _ _ _ F) as (b' & _ & _ & O).
  destruct ps as [|q r]; [contradiction L|]. split.
  - split; auto.
  - change (firstn p s ++ d ++ between d (q :: r) = s). now rewrite B.
Qed.

(** * split and join *)
Lemma skipn_twice : forall (l : list Z) a b, skipn a (skipn b l) = skipn (a + b) l.
Proof.
  intros l a b. revert l. induction b as [|b IH]; intros l; [now rewrite Nat.add_0_r|].
  rewrite Nat.add_succ_r. destruct l as [|x l]; [now rewrite !skipn_nil|]. apply IH.
Qed.
Lemma skipn_after : forall (s a d b : list Z) pos, skipn pos s = a ++ d ++ b ->
  skipn (pos + length a + length d) s = b.
Proof.
  intros s a d b pos E.
  replace (pos + length a + length d)%nat with ((length a + length d) + pos)%nat by lia.
  rewrite <- skipn_twice, E, app_assoc, <- app_length, skipn_app, skipn_all, Nat.sub_diag. reflexivity.
Qed.

Lemma split_loop_spec : forall str d, d <> [] -> forall fuel pos,
  (length str - pos < fuel)%nat ->
  exists ps r, split_loop fuel str d pos = Ok r /\ r = filter non_empty ps
    /\ leftmost d ps /\ between d ps = skipn pos str.
Proof.
  intros str d Hd. assert (Hl : (0 < length d)%nat) by (destruct d; [congruence|cbn; lia]).
  induction fuel as [|fuel IH]; intros pos Hf; [lia|]. cbn [split_loop].
  destruct (pos <? length str)%nat eqn:L; cbn [negb].
  2:{ apply Nat.ltb_ge in L. exists [[]], []. rewrite skipn_all2 by lia. repeat split; auto.
      cbn. intros (a & b & E). symmetry in E. apply app_eq_nil in E as [_ E].
      apply app_eq_nil in E as [E _]. congruence. }
  apply Nat.ltb_lt in L. rewrite find_from_spec by lia.
  destruct (find_in d (skipn pos str)) as [p|] eqn:F.
  - destruct (find_in_some _ _ _ F) as (b & E & Ep & O).
    assert (Hb : skipn (pos + p + length d) str = b).
    { rewrite <- Ep at 1. eapply skipn_after. exact E. }
    destruct (IH (pos + p + length d)%nat ltac:(lia)) as (ps & r & R1 & R2 & R3 & R4).
    rewrite R1. cbn [obind]. rewrite Hb in R4.
    destruct (leftmost_some _ _ _ _ Hd F E _ R3 R4) as [L1 L2].
    exists (firstn p (skipn pos str) :: ps). eexists. split; [reflexivity|]. split; [|split; auto].
    cbn [filter]. unfold sub. replace (pos + p - pos)%nat with p by lia.
    destruct (pos <? pos + p)%nat eqn:Lp.
    + apply Nat.ltb_lt in Lp. destruct (firstn p (skipn pos str)) eqn:Ef; [cbn in Ep; lia|].
      cbn [non_empty]. now rewrite R2.
    + apply Nat.ltb_ge in Lp. assert (p = 0%nat) as -> by lia. cbn [firstn non_empty]. exact R2.
  - destruct (leftmost_none _ _ F) as [L1 L2].
    destruct (IH (length str + length d)%nat ltac:(lia)) as (ps & r & R1 & R2 & R3 & R4).
    rewrite R1. cbn [obind]. exists [skipn pos str]. eexists. split; [reflexivity|]. split; [|split; auto].
    apply Nat.ltb_lt in L as Lb. rewrite Lb. apply Nat.ltb_lt in Lb.
    assert (r = []) as ->.
    { destruct fuel as [|fuel]; [lia|]. cbn [split_loop] in R1.
      replace (length str + length d <? length str)%nat with false in R1
        by (symmetry; apply Nat.ltb_ge; lia).
      cbn [negb] in R1. congruence. }
    cbn [filter]. unfold sub. rewrite firstn_all2 by (rewrite skipn_length; lia).
    destruct (skipn pos str) eqn:E; [|reflexivity].
    apply (f_equal (@length _)) in E. rewrite skipn_length in E. cbn in E. lia.
Qed.

(** The pieces of split are those between the leftmost occurrences of the delimiter, without
    the empty ones. *)
Theorem C51_split : forall str d, d <> [] ->
  exists ps, split (S (length str)) str d = Ok (filter non_empty ps)
    /\ leftmost d ps /\ between d ps = str.
Proof.
  intros str d Hd. destruct (split_loop_spec str d Hd (S (length str)) 0 ltac:(lia))
    as (ps & r & R1 & -> & R3 & R4). now exists ps.
Qed.

Lemma join_acc : forall (d : list Z) v s, s <> [] ->
  fold_left (fun s piece => (match s with [] => s | _ => s ++ d end) ++ piece) v s
  = s ++ concat (map (fun p => d ++ p) v).
Proof.
  intros d. induction v as [|p v IH]; intros s Hs; cbn [fold_left map concat]; [now rewrite app_nil_r|].
  destruct s as [|x s]; [congruence|]. rewrite IH by discriminate.
  now rewrite <- !app_assoc.
Qed.
Lemma between_concat : forall d v p, between d (p :: v) = p ++ concat (map (fun p => d ++ p) v).
Proof.
  intros d. induction v as [|q v IH]; intros p; [cbn; now rewrite app_nil_r|].
  change (between d (p :: q :: v)) with (p ++ d ++ between d (q :: v)). rewrite IH.
  cbn [map concat]. now rewrite <- !app_assoc.
Qed.

(** join puts the delimiter between the pieces, once the first non-empty piece is met. *)
Theorem C51_join : forall v d, Forall (fun p => non_empty p = true) v -> join v d = between d v.
Proof.
  intros [|p v] d H; [reflexivity|]. unfold join. cbn [fold_left]. rewrite between_concat.
  apply Forall_inv in H. cbn [app]. apply join_acc. now destruct p.
Qed.
(** ... an empty piece at the start loses its delimiter. *)
Theorem C51_join_refuted : join [[]; [97]] [44] = [97] /\ between [44] [[]; [97]] = [44; 97].
Proof. split; reflexivity. Qed.

Lemma filter_all : forall v, Forall (fun p => non_empty p = true) v -> filter non_empty v = v.
Proof. induction 1 as [|p v E _ IH]; cbn; auto. now rewrite E, IH. Qed.

(** What is cut at the delimiter is put together again, up to empty pieces. *)
Theorem C51_join_split : forall str d, d <> [] -> exists v ps,
  split (S (length str)) str d = Ok v
  /\ leftmost d ps /\ between d ps = str /\ join v d = between d (filter non_empty ps)
  /\ (Forall (fun p => non_empty p = true) ps -> join v d = str).
Proof.
  intros str d Hd. destruct (C51_split str d Hd) as (ps & E & L & B). eexists. exists ps.
  split; [exact E|]. do 2 (split; auto).
  assert (J : join (filter non_empty ps) d = between d (filter non_empty ps)).
  { apply C51_join. apply Forall_forall. intros p Hp. apply filter_In in Hp. tauto. }
  split; auto. intros Ha. rewrite J. now rewrite filter_all.
Qed.

Lemma leftmost_unique_first : forall d a b a' b', d <> [] -> a ++ d ++ b = a' ++ d ++ b' ->
  ~ occurs d (a ++ removelast d) -> ~ occurs d (a' ++ removelast d) -> a = a' /\ b = b'.
Proof.
  intros d a b a' b' Hd E N N'.
  assert (Hx : forall a b a' b', (length a < length a')%nat -> a ++ d ++ b = a' ++ d ++ b' ->
     occurs d (a' ++ removelast d)).
  { clear - Hd. intros a b a' b' Hl E.
    exists a. exists (firstn (length a' - length a - 1) b).
    assert (E' : firstn (length a' + length d - 1) (a ++ d ++ b) = firstn (length a' + length d - 1) (a' ++ d ++ b')) by now rewrite E.
    assert (Hl0 : (0 < length d)%nat) by (destruct d; [congruence|cbn; lia]).
    rewrite !firstn_app in E'. rewrite (firstn_all2 a) in E' by lia. rewrite (firstn_all2 a') in E' by lia.
    rewrite (firstn_all2 d) in E' by lia.
    replace (length a' + length d - 1 - length a - length d)%nat with (length a' - length a - 1)%nat in E' by lia.
    replace (length a' + length d - 1 - length a' - length d)%nat with 0%nat in E' by lia.
    replace (length a' + length d - 1 - length a')%nat with (length d - 1)%nat in E' by lia.
    rewrite firstn_O, app_nil_r in E'. rewrite E'. f_equal.
    rewrite removelast_firstn_len. f_equal. lia. }
  destruct (Nat.lt_trichotomy (length a) (length a')) as [H|[H|H]].
  - exfalso. apply N'. eapply Hx; eauto.
  - assert (Ha : a = a').
    { apply (f_equal (firstn (length a))) in E.
      rewrite firstn_app, firstn_all, Nat.sub_diag, firstn_O, app_nil_r in E.
      rewrite H, firstn_app, firstn_all, Nat.sub_diag, firstn_O, app_nil_r in E. exact E. }
    split; auto. subst. apply app_inv_head in E. now apply app_inv_head in E.
  - exfalso. apply N. eapply Hx; eauto.
Qed.

Lemma leftmost_unique : forall d ps qs, d <> [] -> leftmost d ps -> leftmost d qs ->
  between d ps = between d qs -> ps = qs.
Proof.
  intros d. induction ps as [|p ps IH]; intros qs Hd L L' E; [contradiction L|].
  destruct qs as [|q qs]; [contradiction L'|].
  destruct ps as [|p' ps], qs as [|q' qs].
  - cbn in E. now subst.
  - exfalso. cbn [leftmost] in L. apply L.
    change (p = q ++ d ++ between d (q' :: qs)) in E. rewrite E. now eexists _, _.
  - exfalso. cbn [leftmost] in L'. apply L'.
    change (p ++ d ++ between d (p' :: ps) = q) in E. rewrite <- E. now eexists _, _.
  - change (p ++ d ++ between d (p' :: ps) = q ++ d ++ between d (q' :: qs)) in E.
    destruct L as [La Lb], L' as [La' Lb'].
    destruct (leftmost_unique_first _ _ _ _ _ Hd E La La') as [-> E'].
    f_equal. apply IH; auto.
Qed.

(** What is put together is cut into the same pieces again. *)
Theorem C51_split_join : forall v d, d <> [] -> leftmost d v -> Forall (fun p => non_empty p = true) v ->
  split (S (length (join v d))) (join v d) d = Ok v.
Proof.
  intros v d Hd L H. destruct (C51_split (join v d) d Hd) as (ps & E & L' & B).
  rewrite E. f_equal. rewrite (C51_join v d H) in B.
  rewrite (leftmost_unique d ps v Hd L' L B). now apply filter_all.
Qed.
(** For a delimiter of one unit it is enough that no piece contains it. *)
Theorem C51_split_join_unit : forall v c, v <> [] ->
  Forall (fun p => non_empty p = true /\ ~ In c p) v ->
  split (S (length (join v [c]))) (join v [c]) [c] = Ok v.
Proof.
  intros v c Hv H. apply C51_split_join; [discriminate| |].
  - assert (Ho : forall p, ~ In c p -> ~ occurs [c] p).
    { intros p Hp (a & b & ->). apply Hp. apply in_app_iff. right. now left. }
    induction H as [|p v [_ Hp] Hf IH]; [congruence|]. destruct v as [|q v]; cbn [leftmost].
    + now apply Ho.
    + split; [cbn [removelast]; rewrite app_nil_r; now apply Ho|]. now apply IH.
  - apply Forall_forall. intros p Hp. rewrite Forall_forall in H. now apply H.
Qed.

(** Cutting at the empty delimiter never ends. *)
Theorem C51_split_empty_refuted : forall str, str <> [] -> forall fuel, split fuel str [] = NoFuel.
Proof.
  intros str Hs fuel. unfold split. assert (0 < length str)%nat by (destruct str; [congruence|cbn; lia]).
  induction fuel as [|fuel IH]; cbn [split_loop].
  - replace (0 <? length str)%nat with true by (symmetry; apply Nat.ltb_lt; lia). reflexivity.
  - replace (0 <? length str)%nat with true by (symmetry; apply Nat.ltb_lt; lia). cbn [negb].
    rewrite find_from_spec by lia. cbn [skipn]. replace (find_in [] str) with (Some 0%nat) by now destruct str.
    cbn [Nat.add length]. now rewrite IH.
Qed.

(** * split_escaped *)
Lemma guarded_app : forall dl a b, guarded dl a -> guarded dl b -> guarded dl (a ++ b).
Proof. intros dl a b Ha Hb. induction Ha; cbn [app]; auto; [apply g_char | apply g_esc]; auto. Qed.

Lemma split_escaped_loop_spec : forall str dl n rest start i, (length rest <= n)%nat ->
  (start <= i)%nat -> rest = skipn i str -> (i <= length str)%nat ->
  guarded dl (sub str start (i - start)) ->
  exists ps, split_escaped_loop str dl start i rest = filter non_empty ps
    /\ cut_escaped dl ps /\ between [dl] ps = skipn start str.
Proof.
  intros str dl. 
  assert (Hend : forall start, guarded_end dl (skipn start str) -> exists ps,
    (if (start <? length str)%nat then [skipn start str] else []) = filter non_empty ps
    /\ cut_escaped dl ps /\ between [dl] ps = skipn start str).
  { intros start Hg. exists [skipn start str]. split; [|split; auto].
    cbn [filter]. destruct (start <? length str)%nat eqn:L.
    - apply Nat.ltb_lt in L. destruct (skipn start str) eqn:E; [|reflexivity].
      apply (f_equal (@length _)) in E. rewrite skipn_length in E. cbn in E. lia.
    - apply Nat.ltb_ge in L. now rewrite skipn_all2. }
  assert (Hcat : forall start i, (start <= i)%nat -> skipn start str = sub str start (i - start) ++ skipn i str).
  { intros start i Hi. unfold sub. rewrite <- (firstn_skipn (i - start) (skipn start str)) at 1.
    f_equal. rewrite skipn_twice. f_equal. lia. }
  assert (Hsub : forall start i k, (start <= i)%nat ->
     sub str start (i + k - start) = sub str start (i - start) ++ firstn k (skipn i str)).
  { intros start i k Hi. unfold sub. replace (i + k - start)%nat with ((i - start) + k)%nat by lia.
    rewrite <- (firstn_skipn (i - start) (skipn start str)) at 1.
    assert (Hx : forall (a b : list Z) n k, length a = n \/ b = [] /\ (length a <= n)%nat -> firstn (n + k) (a ++ b) = a ++ firstn k b).
    { clear. intros a b n k [Ha|[-> Ha]].
      - rewrite firstn_app, firstn_all2 by lia. f_equal. f_equal. lia.
      - rewrite firstn_nil, !app_nil_r. apply firstn_all2. lia. }
    rewrite Hx.
    - f_equal. rewrite skipn_twice. f_equal. f_equal. lia.
    - destruct (le_lt_dec (i - start) (length (skipn start str))).
      + left. rewrite firstn_length. lia.
      + right. split; [apply skipn_all2; lia|]. rewrite firstn_length. lia. }
  induction n as [n IH] using lt_wf_ind. intros rest start i Hn Hi Hr Hl Hg.
  destruct rest as [|c r]; cbn [split_escaped_loop].
  - apply Hend. left. rewrite (Hcat start i Hi), <- Hr, app_nil_r. exact Hg.
  - assert (Hc : skipn (S i) str = r).
    { change (S i) with (1 + i)%nat. rewrite <- skipn_twice, <- Hr. reflexivity. }
    assert (Hli : (S i <= length str)%nat).
    { apply (f_equal (@length _)) in Hr. rewrite skipn_length in Hr. cbn in Hr. lia. }
    destruct (c =? 92) eqn:E92; [apply Z.eqb_eq in E92; subst c|apply Z.eqb_neq in E92].
    + destruct r as [|c' r'].
      * apply Hend. right. eexists. split; [exact Hg|]. rewrite (Hcat start i Hi), <- Hr. reflexivity.
      * assert (Hc' : skipn (S (S i)) str = r').
        { change (S (S i)) with (2 + i)%nat. rewrite <- skipn_twice, <- Hr. reflexivity. }
        apply (IH (length r')); try lia; auto.
        { cbn [length] in Hn. lia. }
        { apply (f_equal (@length _)) in Hr. rewrite skipn_length in Hr. cbn in Hr. lia. }
        replace (S (S i)) with (i + 2)%nat by lia. rewrite Hsub by auto. rewrite <- Hr. cbn [firstn].
        apply guarded_app; auto. apply g_esc. constructor.
    + destruct (c =? dl) eqn:Ed; [apply Z.eqb_eq in Ed; subst c|apply Z.eqb_neq in Ed].
      * cbn [length] in Hn.
        destruct (IH (length r) ltac:(lia) r (S i) (S i)) as (ps & P1 & P2 & P3); auto.
        { rewrite Nat.sub_diag. unfold sub. rewrite firstn_O. constructor. }
        exists (sub str start (i - start) :: ps). rewrite P1. split; [|split].
        { cbn [filter]. destruct (start <? i)%nat eqn:Ls.
          - apply Nat.ltb_lt in Ls. destruct (sub str start (i - start)) eqn:Es; [|reflexivity].
            apply (f_equal (@length _)) in Es. unfold sub in Es.
            rewrite firstn_length, skipn_length in Es. cbn in Es. lia.
          - apply Nat.ltb_ge in Ls. replace (i - start)%nat with 0%nat by lia. reflexivity. }
        { destruct ps; [contradiction P2|]. split; auto. }
        { rewrite (Hcat start i Hi), <- Hr.
          destruct ps as [|q ps]; [contradiction P2|].
          change (sub str start (i - start) ++ [dl] ++ between [dl] (q :: ps) = sub str start (i - start) ++ dl :: r).
          now rewrite P3, Hc. }
      * apply (IH (length r)); auto.
        replace (S i) with (i + 1)%nat by lia. rewrite Hsub by auto. rewrite <- Hr. cbn [firstn].
        apply guarded_app; auto. apply g_char; auto. constructor.
Qed.

(** split_escaped cuts exactly at the delimiters without a backslash before them and keeps
    the pieces as they are. *)
Theorem C51_split_escaped : forall str dl, exists ps,
  split_escaped str dl = filter non_empty ps /\ cut_escaped dl ps /\ between [dl] ps = str.
Proof.
  intros str dl. unfold split_escaped. apply (split_escaped_loop_spec str dl (length str)); auto; try lia.
  cbn. constructor.
Qed.

Lemma guarded_stop : forall dl p r q s, dl <> 92 -> guarded dl p -> guarded dl q ->
  p ++ dl :: r = q ++ dl :: s -> p = q /\ r = s.
Proof.
  intros dl p r q s Hd Hp. revert q. induction Hp as [|c p H1 H2 Hp IH|c p Hp IH]; intros q Hq E.
  - destruct Hq as [|c q H1 H2 Hq|c q Hq]; cbn [app] in E; [|congruence|congruence].
    split; congruence.
  - destruct Hq as [|c' q H1' H2' Hq|c' q Hq]; cbn [app] in E; try congruence.
    injection E as -> E. destruct (IH q Hq E) as [-> ->]. auto.
  - destruct Hq as [|c' q H1' H2' Hq|c' q Hq]; cbn [app] in E; try congruence.
    injection E as -> E. destruct (IH q Hq E) as [-> ->]. auto.
Qed.
Lemma guarded_end_stop : forall dl p q s, dl <> 92 -> guarded_end dl p -> guarded dl q ->
  p = q ++ dl :: s -> False.
Proof.
  intros dl p q s Hd Hp Hq. revert p Hp. induction Hq as [|c q H1 H2 Hq IH|c q Hq IH]; intros p Hp E.
  - cbn [app] in E. destruct Hp as [Hp|(p' & Hp & ->)].
    + rewrite E in Hp. inversion Hp; congruence.
    + destruct Hp; cbn [app] in E; congruence.
  - destruct Hp as [Hp|(p' & Hp & ->)].
    + rewrite E in Hp. inversion Hp; subst; [|congruence]. apply (IH (q ++ dl :: s)); auto. now left.
    + destruct Hp as [|c' p' G1 G2 Hp|c' p' Hp]; cbn [app] in E; try congruence.
      injection E as -> E. apply (IH (p' ++ [92])); auto. right. eauto.
  - destruct Hp as [Hp|(p' & Hp & ->)].
    + rewrite E in Hp. inversion Hp; subst; [congruence|]. apply (IH (q ++ dl :: s)); auto. now left.
    + destruct Hp as [|c' p' G1 G2 Hp|c' p' Hp]; cbn [app] in E; try congruence.
      injection E as -> E. apply (IH (p' ++ [92])); auto. right. eauto.
Qed.
Lemma cut_escaped_unique : forall dl ps qs, dl <> 92 -> cut_escaped dl ps -> cut_escaped dl qs ->
  between [dl] ps = between [dl] qs -> ps = qs.
Proof.
  intros dl ps qs Hd. revert qs. induction ps as [|p ps IH]; intros qs L L' E; [contradiction L|].
  destruct qs as [|q qs]; [contradiction L'|].
  destruct ps as [|p' ps], qs as [|q' qs].
  - cbn in E. now subst.
  - exfalso. cbn [cut_escaped] in L. destruct L' as [L' _].
    change (p = q ++ dl :: between [dl] (q' :: qs)) in E. eapply guarded_end_stop; eauto.
  - exfalso. cbn [cut_escaped] in L'. destruct L as [L _].
    change (p ++ dl :: between [dl] (p' :: ps) = q) in E. symmetry in E. eapply guarded_end_stop; eauto.
  - change (p ++ dl :: between [dl] (p' :: ps) = q ++ dl :: between [dl] (q' :: qs)) in E.
    destruct L as [La Lb], L' as [La' Lb'].
    destruct (guarded_stop _ _ _ _ _ Hd La La' E) as [-> E'].
    f_equal. apply IH; auto.
Qed.

(** Pieces in which the delimiter is escaped come back from their joined text. *)
Theorem C51_split_escaped_join : forall v dl, dl <> 92 -> v <> [] ->
  Forall (fun p => non_empty p = true /\ guarded dl p) v ->
  split_escaped (join v [dl]) dl = v.
Proof.
  intros v dl Hd Hv H. destruct (C51_split_escaped (join v [dl]) dl) as (ps & -> & L & B).
  assert (Hn : Forall (fun p => non_empty p = true) v)
    by (apply Forall_forall; intros p Hp; rewrite Forall_forall in H; now apply H).
  rewrite (C51_join v [dl] Hn) in B.
  rewrite (cut_escaped_unique dl ps v Hd L); [now apply filter_all| |exact B].
  clear - H Hv. induction H as [|p v [_ Hp] Hf IH]; [congruence|]. destruct v as [|q v].
  - now left.
  - split; auto. now apply IH.
Qed.

(** * substitute *)
Lemma find_from_drop : forall a s d, find_from (a ++ s) d (length a)
  = match find_in d s with Some p => Some (length a + p)%nat | None => None end.
Proof.
  intros a s d. rewrite find_from_spec by (rewrite app_length; lia).
  now rewrite skipn_app, skipn_all, Nat.sub_diag.
Qed.
Lemma substitute_loop_spec : forall olds news, olds <> [] -> forall fuel done rest,
  (length rest < fuel)%nat ->
  exists ps, leftmost olds ps /\ between olds ps = rest
    /\ substitute_loop fuel (done ++ rest) olds news (find_from (done ++ rest) olds (length done))
       = Ok (done ++ between news ps).
Proof.
  intros olds news Ho. assert (Hl : (0 < length olds)%nat) by (destruct olds; [congruence|cbn; lia]).
  induction fuel as [|fuel IH]; intros done rest Hf; [lia|].
  rewrite find_from_drop. destruct (find_in olds rest) as [p|] eqn:F.
  - destruct (find_in_some _ _ _ F) as (b & E & Ep & O). cbn [substitute_loop].
    set (a := firstn p rest) in *.
    assert (E1 : firstn (length done + p) (done ++ rest) = done ++ a).
    { rewrite firstn_app_2. reflexivity. }
    assert (E2 : skipn (length done + p + length olds) (done ++ rest) = b).
    { rewrite E, <- Ep. apply (skipn_after (done ++ a ++ olds ++ b) a olds b (length done)).
      now rewrite skipn_app, skipn_all, Nat.sub_diag. }
    rewrite E1, E2. rewrite (app_assoc (done ++ a) news b).
    replace (length done + p + length news)%nat with (length ((done ++ a) ++ news))
      by (rewrite !app_length; lia).
    destruct (IH ((done ++ a) ++ news) b) as (ps & L & B & R).
    { apply (f_equal (@length _)) in E. rewrite !app_length in E. lia. }
    rewrite R. destruct (leftmost_some _ _ _ _ Ho F E _ L B) as [L1 L2].
    exists (a :: ps). split; auto. split; auto. destruct ps as [|q ps]; [contradiction L|].
    change (between news (a :: q :: ps)) with (a ++ news ++ between news (q :: ps)).
    now rewrite <- !app_assoc.
  - destruct (leftmost_none _ _ F) as [L1 L2]. exists [rest]. split; auto.
Qed.

(** substitute puts the new text for every leftmost occurrence of the old, in one pass. *)
Theorem C51_substitute : forall str olds news, olds <> [] -> exists ps,
  leftmost olds ps /\ between olds ps = str
  /\ substitute (S (length str)) str olds news = Ok (between news ps).
Proof.
  intros str olds news Ho.
  exact (substitute_loop_spec olds news Ho (S (length str)) [] str ltac:(lia)).
Qed.
(** Replacing the empty string never ends. *)
Theorem C51_substitute_empty_refuted : forall str news fuel, substitute fuel str [] news = NoFuel.
Proof.
  intros str news fuel. unfold substitute.
  assert (H : forall fuel done rest, substitute_loop fuel (done ++ rest) [] news
      (find_from (done ++ rest) [] (length done)) = NoFuel).
  { clear. induction fuel as [|fuel IH]; intros done rest; rewrite find_from_drop;
      replace (find_in [] rest) with (Some 0%nat) by (now destruct rest); [reflexivity|].
    cbn [substitute_loop length]. rewrite !Nat.add_0_r.
    rewrite firstn_app, firstn_all, Nat.sub_diag, firstn_O, app_nil_r.
    rewrite skipn_app, skipn_all, Nat.sub_diag. cbn [skipn app].
    rewrite app_assoc, <- app_length. apply IH. }
  exact (H fuel [] str).
Qed.

(** * startswith, endswith *)
Theorem C51_affixes : forall str x,
  (startswith str x = true <-> exists r, str = x ++ r)
  /\ (endswith str x = true <-> exists r, str = r ++ x).
Proof.
  intros str x. unfold startswith, endswith, sub. rewrite !andb_true_iff, !Nat.leb_le. split; split.
  - intros [H E]. destruct (list_eq_dec _ _ _) as [E'|]; [|discriminate]. cbn [skipn] in E'.
    exists (skipn (length x) str). rewrite <- E' at 1. now rewrite firstn_skipn.
  - intros [r ->]. rewrite app_length. split; [lia|]. cbn [skipn].
    rewrite firstn_app, firstn_all, Nat.sub_diag, firstn_O, app_nil_r.
    now destruct (list_eq_dec _ _ _).
  - intros [H E]. destruct (list_eq_dec _ _ _) as [E'|]; [|discriminate].
    exists (firstn (length str - length x) str). rewrite <- E' at 2. now rewrite firstn_skipn.
  - intros [r ->]. rewrite app_length. split; [lia|].
    replace (length r + length x - length x)%nat with (length r) by lia.
    rewrite skipn_app, skipn_all, Nat.sub_diag. cbn [app skipn]. now destruct (list_eq_dec _ _ _).
Qed.

(** * trim *)
Section Trim.
  Context (isspace : Z -> bool).
  (** No space has a supplementary or surrogate code point. *)
  Hypothesis Hspace : forall c, isspace c = true -> c < 65536 /\ is_lead c = false /\ is_trail c = false.

  Lemma supplementary_no_space : forall l t, is_lead l = true -> is_trail t = true ->
    isspace (supplementary l t) = false.
  Proof.
    intros l t Hl Ht. destruct (isspace (supplementary l t)) eqn:E; auto.
    apply Hspace in E as [E _]. unfold supplementary, is_lead, is_trail in *.
    apply andb_true_iff in Hl as [Hl _], Ht as [Ht _]. apply Z.leb_le in Hl, Ht. lia.
  Qed.
  Lemma unit_at_nth : forall mem i, (i < length mem)%nat -> unit_at mem i = Ok (nth i mem 0).
  Proof. intros mem i H. unfold unit_at. now rewrite (nth_error_nth' mem 0 H). Qed.

  Lemma get_space : forall mem i, (i < length mem)%nat -> exists c,
    u16_get mem 0 i (length mem) = Ok c /\ isspace c = isspace (nth i mem 0).
  Proof.
    intros mem i H. unfold u16_get. rewrite unit_at_nth by auto. cbn [obind].
    set (x := nth i mem 0). 
    assert (Hx : isspace x = true -> is_lead x = false /\ is_trail x = false)
      by (intros Hs; apply Hspace in Hs; tauto).
    destruct (is_lead x) eqn:El.
    - assert (Hn : isspace x = false) by (destruct (isspace x); auto; now destruct Hx).
      destruct (S i =? length mem)%nat eqn:E; cbn [negb]; [eauto|]. apply Nat.eqb_neq in E.
      rewrite unit_at_nth by lia. cbn [obind]. destruct (is_trail (nth (S i) mem 0)) eqn:Et; eauto.
      eexists. split; [reflexivity|]. now rewrite supplementary_no_space.
    - destruct (is_trail x) eqn:Et; [|eauto].
      assert (Hn : isspace x = false) by (destruct (isspace x); auto; now destruct Hx).
      destruct (0 <? i)%nat eqn:E; [|eauto]. rewrite unit_at_nth by lia. cbn [obind].
      destruct (is_lead (nth (i - 1) mem 0)) eqn:El'; eauto.
      eexists. split; [reflexivity|]. now rewrite supplementary_no_space.
  Qed.
  Lemma fwd_space : forall mem i, (i < length mem)%nat -> isspace (nth i mem 0) = true ->
    u16_fwd mem i (length mem) = Ok (S i).
  Proof.
    intros mem i H Hs. unfold u16_fwd, u16_next. rewrite unit_at_nth by auto. cbn [obind].
    apply Hspace in Hs as (_ & -> & _). reflexivity.
  Qed.
  Lemma back_spec : forall mem i, (i < length mem)%nat -> exists j,
    u16_back mem 0 (S i) = Ok j /\ (j <= i)%nat /\ isspace (nth j mem 0) = isspace (nth i mem 0)
    /\ (isspace (nth i mem 0) = true -> j = i).
  Proof.
    intros mem i H. unfold u16_back. rewrite unit_at_nth by auto. cbn [obind].
    destruct (is_trail (nth i mem 0)) eqn:Et; cbn [andb]; [|exists i; auto].
    destruct (0 <? i)%nat eqn:E; [|exists i; auto]. apply Nat.ltb_lt in E.
    rewrite unit_at_nth by lia. cbn [obind].
    assert (Hn : isspace (nth i mem 0) = false).
    { destruct (isspace (nth i mem 0)) eqn:X; auto. apply Hspace in X as (_ & _ & X). congruence. }
    destruct (is_lead (nth (i - 1) mem 0)) eqn:El.
    - exists (i - 1)%nat. repeat split; [lia| |congruence]. rewrite Hn.
      destruct (isspace (nth (i - 1) mem 0)) eqn:X; auto. apply Hspace in X as (_ & X & _). congruence.
    - exists i. repeat split; auto.
  Qed.

  Lemma trim_front_spec : forall mem b, (b < length mem)%nat -> isspace (nth b mem 0) = false ->
    (forall i, (i < b)%nat -> isspace (nth i mem 0) = true) ->
    forall fuel i, (i <= b)%nat -> (b - i < fuel)%nat -> trim_front isspace fuel mem (length mem) i = Ok b.
  Proof.
    intros mem b Hb Hn Hs. induction fuel as [|fuel IH]; intros i Hi Hf; [lia|]. cbn [trim_front].
    destruct (get_space mem i ltac:(lia)) as (c & -> & Ec). cbn [obind]. rewrite Ec.
    destruct (Nat.eq_dec i b) as [->|Hne]; [now rewrite Hn|].
    rewrite (Hs i) by lia. cbn [negb]. rewrite fwd_space by (auto; try lia; apply Hs; lia). cbn [obind].
    apply IH; lia.
  Qed.
  Lemma trim_back_spec : forall mem b e, (b < e)%nat -> (e < length mem)%nat ->
    isspace (nth (e - 1) mem 0) = false ->
    (forall i, (e <= i < length mem)%nat -> isspace (nth i mem 0) = true) ->
    forall fuel i end_, (e <= i < end_)%nat -> (i < length mem)%nat -> (i - e < fuel)%nat ->
    trim_back isspace fuel mem (length mem) b end_ i = Ok e.
  Proof.
    intros mem b e Hbe He Hn Hs. induction fuel as [|fuel IH]; intros i end_ Hi Hl Hf; [lia|]. cbn [trim_back].
    replace (b <? end_)%nat with true by (symmetry; apply Nat.ltb_lt; lia). cbn [negb].
    destruct i as [|i]; [lia|].
    destruct (back_spec mem i ltac:(lia)) as (j & -> & J1 & J2 & J3). cbn [obind].
    destruct (get_space mem j ltac:(lia)) as (c & -> & Ec). cbn [obind]. rewrite Ec, J2.
    destruct (Nat.eq_dec e (S i)) as [->|Hne].
    - replace (S i - 1)%nat with i in Hn by lia. now rewrite Hn.
    - rewrite (Hs i) by lia. cbn [negb]. rewrite J3 by (apply Hs; lia). apply IH; lia.
  Qed.

  (** trim cuts off the spaces at both ends of a string that has something else in it. *)
  Theorem C51_trim : forall s, Exists (fun c => isspace c = false) s ->
    exists a core b, s = a ++ core ++ b
      /\ Forall (fun c => isspace c = true) a /\ Forall (fun c => isspace c = true) b
      /\ isspace (hd 32 core) = false /\ isspace (last core 32) = false /\ core <> []
      /\ trim isspace (S (length s)) s (length s) = Ok core.
  Proof.
    intros s Hex.
    assert (Hd : exists a core b, s = a ++ core ++ b
      /\ Forall (fun c => isspace c = true) a /\ Forall (fun c => isspace c = true) b
      /\ core <> [] /\ isspace (hd 32 core) = false /\ isspace (last core 32) = false).
    { assert (Hf : forall s, Exists (fun c => isspace c = false) s -> exists a r, s = a ++ r
        /\ Forall (fun c => isspace c = true) a /\ r <> [] /\ isspace (hd 32 r) = false).
      { clear. induction 1 as [x s Hx|x s Hx IH].
        - exists [], (x :: s). repeat split; auto. discriminate.
        - destruct (isspace x) eqn:E.
          + destruct IH as (a & r & -> & Ha & Hr). exists (x :: a), r. repeat split; auto; tauto.
          + exists [], (x :: s). repeat split; auto. discriminate. }
      assert (Hb : forall s, Exists (fun c => isspace c = false) s -> exists r b, s = r ++ b
        /\ Forall (fun c => isspace c = true) b /\ r <> [] /\ isspace (last r 32) = false).
      { clear. intros s. induction s as [|x s IH] using rev_ind; intros H; [inversion H|].
        destruct (isspace x) eqn:E.
        - apply Exists_app in H as [H|H].
          + destruct (IH H) as (r & b & -> & Hb & Hr). exists r, (b ++ [x]). rewrite app_assoc.
            repeat split; try tauto. apply Forall_app. auto.
          + inversion H as [? ? X|? ? X]; [congruence|inversion X].
        - exists (s ++ [x]), []. rewrite app_nil_r. repeat split; auto.
          + intros X. apply app_eq_nil in X as [_ X]. discriminate.
          + now rewrite last_last. }
      destruct (Hf s Hex) as (a & r & Es & Ha & Hr & Hh).
      assert (Hexr : Exists (fun c => isspace c = false) r).
      { destruct r; [congruence|]. now apply Exists_cons_hd. }
      destruct (Hb r Hexr) as (core & b & Er & Hb' & Hc & Hl).
      exists a, core, b. repeat split; auto; [now rewrite Es, Er|].
      destruct core; [congruence|]. rewrite Er in Hh. exact Hh. }
    destruct Hd as (a & core & b & Es & Ha & Hb & Hc & Hh & Hl). exists a, core, b.
    do 6 (split; auto).
    assert (Hlen : length s = (length a + length core + length b)%nat) by (rewrite Es, !app_length; lia).
    assert (Hcl : (0 < length core)%nat) by (destruct core; [congruence|cbn; lia]).
    assert (Nb : nth (length a) s 0 = hd 32 core).
    { rewrite Es, app_nth2, Nat.sub_diag by lia. destruct core; [congruence|reflexivity]. }
    assert (Ne : nth (length a + length core - 1) s 0 = last core 32).
    { rewrite Es, app_nth2, app_nth1 by lia.
      rewrite (app_removelast_last 32 Hc) at 2. rewrite (app_removelast_last 32 Hc) at 1.
      rewrite app_length. cbn [length].
      rewrite app_nth2 by lia. replace (_ - _)%nat with 0%nat by lia. reflexivity. }
    unfold trim. replace (length s =? 0)%nat with false by (symmetry; apply Nat.eqb_neq; lia).
    rewrite (trim_front_spec s (length a)); try lia; [|congruence|].
    2:{ intros i Hi. rewrite Es, app_nth1 by lia. rewrite Forall_forall in Ha. apply Ha. now apply nth_In. }
    cbn [obind]. remember (length s) as n eqn:Hn. destruct n as [|n]; [lia|].
    destruct (back_spec s n ltac:(lia)) as (j & -> & J1 & J2 & J3). cbn [obind].
    rewrite Hn. destruct (get_space s j ltac:(lia)) as (c & -> & Ec). cbn [obind]. rewrite Ec, J2.
    replace (length s <? length a)%nat with false by (symmetry; apply Nat.ltb_ge; lia).
    rewrite firstn_all.
    assert (Hsub : sub s (length a) (length core) = core).
    { unfold sub. rewrite Es, skipn_app, skipn_all, Nat.sub_diag. cbn [skipn app].
      now rewrite firstn_app, firstn_all, Nat.sub_diag, firstn_O, app_nil_r. }
    destruct b as [|y b].
    - cbn [length] in Hlen. replace n with (length a + length core - 1)%nat by lia.
      rewrite Ne, Hl. cbn [negb]. replace (length s - length a)%nat with (length core) by lia.
      now rewrite Hsub.
    - cbn [length] in Hlen.
      assert (Hsp : forall i, (length a + length core <= i < length s)%nat -> isspace (nth i s 0) = true).
      { intros i Hi. rewrite Es, app_nth2, app_nth2 by lia. rewrite Forall_forall in Hb. apply Hb.
        apply nth_In. cbn [length]. lia. }
      rewrite Hsp by lia. cbn [negb]. rewrite J3 by (apply Hsp; lia).
      rewrite (trim_back_spec s (length a) (length a + length core)); auto; try lia; [|congruence].
      cbn [obind]. replace (length a <=? length a + length core)%nat with true by (symmetry; apply Nat.leb_le; lia).
      replace (length a + length core - length a)%nat with (length core) by lia. now rewrite Hsub.
  Qed.

  (** For a string of spaces it reads on behind the string: *)
  Theorem C51_trim_blank_refuted : forall s, s <> [] -> Forall (fun c => isspace c = true) s ->
    trim isspace (S (S (length s))) s (length s) = UB.
  Proof.
    intros s Hs Hf. unfold trim. destruct (length s =? 0)%nat eqn:E.
    { apply Nat.eqb_eq in E. destruct s; [congruence|discriminate E]. }
    assert (H : forall fuel i, (i <= length s)%nat -> (length s - i < fuel)%nat ->
      trim_front isspace fuel s (length s) i = UB).
    { induction fuel as [|fuel IH]; intros i Hi Hl; [lia|]. cbn [trim_front].
      destruct (Nat.eq_dec i (length s)) as [->|Hne].
      - unfold u16_get, unit_at. assert (nth_error s (length s) = None) as -> by (apply nth_error_None; lia).
        reflexivity.
      - assert (Hx : isspace (nth i s 0) = true).
        { rewrite Forall_forall in Hf. apply Hf. apply nth_In. lia. }
        destruct (get_space s i ltac:(lia)) as (c & -> & Ec). cbn [obind]. rewrite Ec, Hx. cbn [negb].
        rewrite fwd_space by (auto; lia). cbn [obind]. apply IH; lia. }
    rewrite H by lia. reflexivity.
  Qed.
End Trim.

(** * symbol_iter *)
(** [c] is the first code point of [c ++ r] *)
Definition first_cp (c r : list Z) : Prop :=
  (exists x, c = [x] /\ ~ (is_lead x = true /\ exists y r', r = y :: r' /\ is_trail y = true))
  \/ (exists x y, c = [x; y] /\ is_lead x = true /\ is_trail y = true).
(** The symbols of a text: an escaped code point, a tag, or a code point; 92 is the backslash,
    60 and 62 are the angle brackets *)
Inductive symbols_of : list Z -> list (list Z) -> Prop :=
| so_nil : symbols_of [] []
| so_end : symbols_of [92] []
| so_esc c r l : first_cp c r -> symbols_of r l -> symbols_of (92 :: c ++ r) (c :: l)
| so_tag t r l : ~ In 62 t -> symbols_of r l -> symbols_of (60 :: t ++ 62 :: r) ((60 :: t ++ [62]) :: l)
| so_open r l : ~ In 62 r -> symbols_of r l -> symbols_of (60 :: r) ([60] :: l)
| so_char c r l : first_cp c r -> c <> [92] -> c <> [60] -> symbols_of r l -> symbols_of (c ++ r) (c :: l).

Lemma next_spec : forall s tl p x r, skipn p s = x :: r -> exists c cp r',
  u16_next (s ++ tl) p (length s) = Ok (c, (p + length cp)%nat)
  /\ x :: r = cp ++ r' /\ first_cp cp r' /\ cp <> [] /\ hd 0 cp = x
  /\ (c = x /\ cp = [x] \/ 65536 <= c /\ is_lead x = true /\ length cp = 2%nat).
Proof.
  intros s tl p x r E.
  assert (Hp : (p < length s)%nat).
  { destruct (le_lt_dec (length s) p); auto. rewrite skipn_all2 in E by lia. discriminate. }
  assert (Hx : nth_error (s ++ tl) p = Some x).
  { rewrite nth_error_app1 by auto. rewrite <- (firstn_skipn p s), E, nth_error_app2; rewrite firstn_length_le by lia; [|lia].
    now rewrite Nat.sub_diag. }
  unfold u16_next, unit_at. rewrite Hx. cbn [obind].
  destruct (is_lead x) eqn:El; cbn [andb].
  2:{ exists x, [x], r. repeat split; auto; [f_equal; f_equal; cbn; lia| |discriminate].
      left. exists x. split; auto. intros [H _]. congruence. }
  assert (Hr : skipn (S p) s = r).
  { change (S p) with (1 + p)%nat. rewrite <- skipn_twice, E. reflexivity. }
  destruct (S p =? length s)%nat eqn:Ee; cbn [negb].
  { apply Nat.eqb_eq in Ee. exists x, [x], r. repeat split; auto; [f_equal; f_equal; cbn; lia| |discriminate].
    left. exists x. split; auto. intros [_ (y & r' & -> & _)]. rewrite skipn_all2 in Hr by lia. discriminate. }
  apply Nat.eqb_neq in Ee. destruct r as [|y r].
  { apply (f_equal (@length _)) in Hr. rewrite skipn_length in Hr. cbn in Hr. lia. }
  assert (Hy : nth_error (s ++ tl) (S p) = Some y).
  { rewrite nth_error_app1 by lia. rewrite <- (firstn_skipn (S p) s), Hr, nth_error_app2; rewrite firstn_length_le by lia; [|lia].
    now rewrite Nat.sub_diag. }
  rewrite Hy. cbn [obind]. destruct (is_trail y) eqn:Et.
  - exists (supplementary x y), [x; y], r. repeat split; auto; [f_equal; f_equal; cbn; lia| |discriminate|].
    + right. eauto.
    + right. repeat split; auto. unfold supplementary, is_lead, is_trail in *.
      apply andb_true_iff in El as [El _], Et as [Et _]. apply Z.leb_le in El, Et. lia.
  - exists x, [x], (y :: r). repeat split; auto; [f_equal; f_equal; cbn; lia| |discriminate].
    left. exists x. split; auto. intros [_ (y' & r' & H1 & H2)]. injection H1 as <- <-. congruence.
Qed.

Lemma tag_loop_none : forall s tl fuel c i, c <> 62 -> ~ In 62 (skipn i s) -> (length s - i <= fuel)%nat ->
  exists c' i', tag_loop fuel (s ++ tl) (length s) c i = Ok (c', i') /\ c' <> 62.
Proof.
  intros s tl. induction fuel as [|fuel IH]; intros c i Hc Hn Hf; cbn [tag_loop];
    (replace (c =? 62) with false by (symmetry; now apply Z.eqb_neq)); cbn [negb andb].
  - replace (i <? length s)%nat with false by (symmetry; apply Nat.ltb_ge; lia). eauto.
  - destruct (i <? length s)%nat eqn:L; [|eauto]. apply Nat.ltb_lt in L.
    destruct (skipn i s) as [|x r] eqn:E.
    { apply (f_equal (@length _)) in E. rewrite skipn_length in E. cbn in E. lia. }
    destruct (next_spec s tl i x r E) as (c' & cp & r' & -> & Er & Hcp & Hn0 & Hh & Hcase). cbn [obind].
    assert (0 < length cp)%nat by (destruct cp; [congruence|cbn; lia]).
    apply IH; try lia.
    + destruct Hcase as [[-> _]|[? _]]; [|lia]. intros ->. apply Hn. now left.
    + intros H'. apply Hn. rewrite Er. apply in_app_iff. right.
      replace r' with (skipn (i + length cp) s); auto.
      replace (i + length cp)%nat with (length cp + i)%nat by lia.
      rewrite <- skipn_twice, E, Er, skipn_app, skipn_all, Nat.sub_diag. reflexivity.
Qed.
Lemma tag_loop_some : forall s tl n t r fuel c i, (length t <= n)%nat -> c <> 62 -> skipn i s = t ++ 62 :: r -> ~ In 62 t ->
  (length s - i <= fuel)%nat ->
  tag_loop fuel (s ++ tl) (length s) c i = Ok (62, (i + length t + 1)%nat).
Proof.
  intros s tl. induction n as [n IH] using lt_wf_ind. intros t r fuel c i Hl Hc E Ht Hf.
  assert (L : (i < length s)%nat).
  { destruct (le_lt_dec (length s) i); auto. rewrite skipn_all2 in E by lia. destruct t; discriminate. }
  destruct fuel as [|fuel]; [lia|]. cbn [tag_loop].
  replace (c =? 62) with false by (symmetry; now apply Z.eqb_neq).
  replace (i <? length s)%nat with true by (symmetry; now apply Nat.ltb_lt). cbn [negb andb].
  destruct t as [|x t].
  - cbn [app] in E. destruct (next_spec s tl i _ _ E) as (c' & cp & r' & -> & Er & Hcp & Hn0 & Hh & Hcase).
    cbn [obind]. destruct Hcase as [[-> ->]|(_ & H & _)]; [|discriminate H].
    cbn [length]. rewrite Nat.add_0_r. destruct fuel; reflexivity.
  - cbn [app] in E. destruct (next_spec s tl i _ _ E) as (c' & cp & r' & -> & Er & Hcp & Hn0 & Hh & Hcase).
    cbn [obind]. destruct Hcase as [[-> ->]|(Hb & Hlead & H2)].
    + cbn [app] in Er. injection Er as Er. cbn [length].
      cbn [length] in Hl.
      rewrite (IH (length t) ltac:(lia) t r fuel x (i + 1)%nat (le_n _)); try lia.
      * f_equal. f_equal. lia.
      * intros ->. apply Ht. now left.
      * replace (i + 1)%nat with (1 + i)%nat by lia. rewrite <- skipn_twice, E. reflexivity.
      * intros H. apply Ht. now right.
    + destruct cp as [|x' [|y [|]]]; try discriminate H2. cbn in Hh. subst x'.
      cbn [app] in Er. injection Er as Er. destruct t as [|y' t].
      { cbn [app] in Er. injection Er as <- _.
        destruct Hcp as [(? & X & _)|(? & ? & X & _ & X2)]; [discriminate X|]. injection X as <- <-. discriminate X2. }
      cbn [app] in Er. injection Er as <- Er. cbn [length] in *.
      rewrite (IH (length t) ltac:(lia) t r fuel c' (i + 2)%nat (le_n _)); try lia.
      * f_equal. f_equal. lia.
      * replace (i + 2)%nat with (2 + i)%nat by lia. rewrite <- skipn_twice, E. reflexivity.
      * intros H. apply Ht. right. now right.
Qed.

(** One step of the iterator whose end is at [p]. *)
Lemma si_next_spec : forall s z tl it, z <> 92 -> is_lead z = false -> (s_loc it < length s)%nat ->
  (e_loc it <= length s)%nat ->
  let p := e_loc it in
  exists it', si_next (s ++ z :: tl) (length s) it = Ok it' /\
  ((skipn p s = [] \/ skipn p s = [92]) /\ it' = mkSI (length s) (length s)
   \/ exists skip tok rest, skipn p s = skip ++ tok ++ rest /\ tok <> []
      /\ it' = mkSI (p + length skip) (p + length skip + length tok)
      /\ forall l, symbols_of rest l -> symbols_of (skipn p s) (tok :: l)).
Proof.
  intros s z tl [sl p] Hz Hlz Hs Hp. cbn [s_loc e_loc] in *. unfold si_next. cbn [s_loc e_loc].
  replace (sl <? length s)%nat with true by (symmetry; now apply Nat.ltb_lt).
  assert (Hzz : u16_next (s ++ z :: tl) (length s) (length s) = Ok (z, S (length s))).
  { unfold u16_next, unit_at. rewrite nth_error_app2, Nat.sub_diag by lia. cbn [nth_error obind].
    now rewrite Hlz. }
  assert (Hclamp : forall e, (e <= length s)%nat -> (if (length s <? e)%nat then length s else e) = e).
  { intros e He. destruct (length s <? e)%nat eqn:X; auto. apply Nat.ltb_lt in X. lia. }
  destruct (skipn p s) as [|x r] eqn:E.
  { assert (p = length s) as ->.
    { apply (f_equal (@length _)) in E. rewrite skipn_length in E. cbn in E. lia. }
    rewrite Hzz. cbn [obind]. replace (z =? 92) with false by (symmetry; now apply Z.eqb_neq).
    exists (mkSI (length s) (length s)). split; [|auto].
    destruct (z =? 60) eqn:E60; cbn [obind].
    - apply Z.eqb_eq in E60. subst z.
      assert (Ht : tag_loop (length s) (s ++ 60 :: tl) (length s) 60 (S (length s)) = Ok (60, S (length s))).
      { destruct (length s) as [|n]; [lia|]. cbn [tag_loop]. replace (S (S n) <? S n)%nat with false; [reflexivity|].
        symmetry. apply Nat.ltb_ge. lia. }
      rewrite Ht. cbn [obind]. replace (60 =? 62) with false by reflexivity.
      replace (length s <? S (length s))%nat with true by (symmetry; apply Nat.ltb_lt; lia). reflexivity.
    - replace (length s <? S (length s))%nat with true by (symmetry; apply Nat.ltb_lt; lia). reflexivity. }
  assert (Hlen : length s = (p + S (length r))%nat).
  { apply (f_equal (@length _)) in E. rewrite skipn_length in E. cbn in E. lia. }
  destruct (next_spec s (z :: tl) p x r E) as (c & cp & r' & -> & Er & Hcp & Hn0 & Hh & Hcase). cbn [obind].
  assert (Hcr : (length cp + length r' = S (length r))%nat).
  { apply (f_equal (@length _)) in Er. rewrite app_length in Er. cbn in Er. lia. }
  destruct (c =? 92) eqn:E92.
  - apply Z.eqb_eq in E92. subst c. destruct Hcase as [[<- ->]|[? _]]; [|lia]. cbn [length app] in *.
    injection Er as <-. destruct r as [|y r].
    + replace (p + 1)%nat with (length s) by lia. rewrite Hzz. cbn [obind].
      eexists. split; [reflexivity|]. left. split; auto. f_equal; [cbn in Hlen; lia|].
      replace (length s <? S (length s))%nat with true by (symmetry; apply Nat.ltb_lt; lia). reflexivity.
    + assert (E' : skipn (p + 1) s = y :: r).
      { replace (p + 1)%nat with (1 + p)%nat by lia. rewrite <- skipn_twice, E. reflexivity. }
      destruct (next_spec s (z :: tl) (p + 1) y r E') as (c' & cp' & r'' & -> & Er' & Hcp' & Hn0' & Hh' & _).
      cbn [obind]. eexists. split; [reflexivity|]. right. exists [92], cp', r''.
      repeat split; auto.
      * cbn [app]. now rewrite Er'.
      * cbn [length]. f_equal; [lia|]. apply Hclamp.
        apply (f_equal (@length _)) in Er'. rewrite app_length in Er'. cbn [length] in *. lia.
      * intros l Hl. rewrite Er'. now apply so_esc.
  - apply Z.eqb_neq in E92. destruct (c =? 60) eqn:E60.
    + apply Z.eqb_eq in E60. subst c. destruct Hcase as [[<- ->]|[? _]]; [|lia]. cbn [length app] in *.
      injection Er as <-.
      assert (E' : skipn (p + 1) s = r).
      { replace (p + 1)%nat with (1 + p)%nat by lia. rewrite <- skipn_twice, E. reflexivity. }
      destruct (in_dec Z.eq_dec 62 r) as [Hin|Hin].
      * assert (Hd : exists t r', r = t ++ 62 :: r' /\ ~ In 62 t).
        { clear - Hin. induction r as [|y r IH]; [contradiction|]. destruct (Z.eq_dec y 62) as [->|Hne].
          - exists [], r. split; auto.
          - destruct Hin as [H|H]; [congruence|]. destruct (IH H) as (t & r' & -> & Ht).
            exists (y :: t), r'. split; auto. intros [X|X]; auto. }
        destruct Hd as (t & r' & Er & Ht).
        rewrite (tag_loop_some s (z :: tl) (length t) t r') by (auto; try lia; congruence).
        cbn [obind]. replace (62 =? 62) with true by reflexivity. eexists. split; [reflexivity|]. right.
        exists [], (60 :: t ++ [62]), r'. cbn [length app]. rewrite app_length. cbn [length].
        assert (Hrl : length r = (length t + S (length r'))%nat) by (rewrite Er, app_length; cbn; lia).
        repeat split; auto.
        -- now rewrite Er, <- app_assoc.
        -- discriminate.
        -- f_equal; [lia|]. rewrite Hclamp by lia. lia.
        -- intros l Hl. rewrite Er. now apply so_tag.
      * destruct (tag_loop_none s (z :: tl) (length s) 60 (p + 1)) as (c' & i' & -> & Hc'); try lia.
        { now rewrite E'. }
        cbn [obind]. replace (c' =? 62) with false by (symmetry; now apply Z.eqb_neq).
        eexists. split; [reflexivity|]. right. exists [], [60], r. cbn [length app]. repeat split; auto.
        -- f_equal; [lia|]. rewrite Hclamp by lia. lia.
        -- intros l Hl. now apply so_open.
    + apply Z.eqb_neq in E60. cbn [obind]. eexists. split; [reflexivity|]. right. exists [], cp, r'.
      cbn [length app]. repeat split; auto.
      * f_equal; [lia|]. rewrite Hclamp by lia. lia.
      * intros l Hl. rewrite Er. destruct Hcase as [[-> ->]|(_ & _ & H2)].
        -- apply so_char; auto; congruence.
        -- apply so_char; auto; intros ->; discriminate H2.
Qed.

Lemma si_loop_spec : forall s z tl, z <> 92 -> is_lead z = false -> forall fuel it,
  (s_loc it < e_loc it)%nat -> (e_loc it <= length s)%nat -> (length s - e_loc it < fuel)%nat ->
  exists l, si_loop fuel (s ++ z :: tl) (length s) it = Ok (sub s (s_loc it) (e_loc it - s_loc it) :: l)
    /\ symbols_of (skipn (e_loc it) s) l.
Proof.
  intros s z tl Hz Hl. induction fuel as [|fuel IH]; intros it H1 H2 Hf; [lia|]. cbn [si_loop].
  assert (Hn : si_at_end (length s) it = false).
  { unfold si_at_end. replace (s_loc it =? length s)%nat with false; auto. symmetry. apply Nat.eqb_neq. lia. }
  rewrite Hn. unfold si_deref at 1.
  replace (length s <? s_loc it)%nat with false by (symmetry; apply Nat.ltb_ge; lia).
  replace (s_loc it <=? e_loc it)%nat with true by (symmetry; apply Nat.leb_le; lia).
  cbn [obind]. rewrite firstn_app, firstn_all, Nat.sub_diag, firstn_O, app_nil_r.
  destruct (si_next_spec s z tl it Hz Hl ltac:(lia) H2) as (it' & -> & Hc). cbn [obind].
  destruct Hc as [[Hr ->]|(skip & tok & rest & E & Ht & -> & Hs)].
  - assert (Hloop : si_loop fuel (s ++ z :: tl) (length s) (mkSI (length s) (length s)) = Ok []).
    { assert (Hend : si_at_end (length s) (mkSI (length s) (length s)) = true)
        by (unfold si_at_end; cbn [s_loc e_loc]; now rewrite Nat.eqb_refl).
      destruct fuel; cbn [si_loop]; now rewrite Hend. }
    rewrite Hloop. cbn [obind]. exists []. split; auto. destruct Hr as [-> | ->]; constructor.
  - assert (Htl : (0 < length tok)%nat) by (destruct tok; [congruence|cbn; lia]).
    assert (Hlen : (length s = e_loc it + (length skip + length tok + length rest))%nat).
    { apply (f_equal (@length _)) in E. rewrite skipn_length, !app_length in E. lia. }
    destruct (IH (mkSI (e_loc it + length skip) (e_loc it + length skip + length tok))) as (l & -> & Hl');
      cbn [s_loc e_loc]; try lia.
    cbn [obind]. cbn [e_loc s_loc] in *. eexists. split; [reflexivity|].
    assert (Hk : skipn (e_loc it + length skip) s = tok ++ rest).
    { replace (e_loc it + length skip)%nat with (length skip + e_loc it)%nat by lia.
      rewrite <- skipn_twice, E, skipn_app, skipn_all, Nat.sub_diag. reflexivity. }
    replace (sub s (e_loc it + length skip) _) with tok.
    + apply Hs. replace rest with (skipn (e_loc it + length skip + length tok) s); auto.
      replace (e_loc it + length skip + length tok)%nat with (length tok + (e_loc it + length skip))%nat by lia.
      rewrite <- skipn_twice, Hk, skipn_app, skipn_all, Nat.sub_diag. reflexivity.
    + unfold sub. rewrite Hk. replace (_ - _)%nat with (length tok) by lia.
      now rewrite firstn_app, firstn_all, Nat.sub_diag, firstn_O, app_nil_r.
Qed.

(** Over a string followed in memory by a unit that is no backslash (such as the 0 of a
    std::basic_string), symbol_iter gives the symbols of the string. *)
Theorem C50_symbols : forall s z tl, z <> 92 -> is_lead z = false -> exists l,
  symbols (S (length s)) (s ++ z :: tl) (length s) = Ok l /\ symbols_of s l.
Proof.
  intros s z tl Hz Hl. unfold symbols, si_begin.
  assert (Hloop : forall fuel, si_loop fuel (s ++ z :: tl) (length s) (mkSI (length s) (length s)) = Ok []).
  { assert (Hend : si_at_end (length s) (mkSI (length s) (length s)) = true)
      by (unfold si_at_end; cbn [s_loc e_loc]; now rewrite Nat.eqb_refl).
    intros [|fuel]; cbn [si_loop]; now rewrite Hend. }
  destruct s as [|x s0]; [exists []; split; [|constructor]; reflexivity|].
  remember (x :: s0) as s eqn:Es. assert (Hp : (0 < length s)%nat) by (subst; cbn; lia).
  destruct (si_next_spec s z tl (mkSI 0 0) Hz Hl Hp ltac:(cbn; lia)) as (it' & -> & Hc). cbn [obind].
  destruct Hc as [[Hr ->]|(skip & tok & rest & E & Ht & -> & Hs)]; cbn [e_loc skipn Nat.add] in *.
  - rewrite Hloop. exists []. split; auto. destruct Hr as [-> | ->]; constructor.
  - assert (Htl : (0 < length tok)%nat) by (destruct tok; [congruence|cbn; lia]).
    assert (Hlen : (length s = length skip + length tok + length rest)%nat).
    { apply (f_equal (@length _)) in E. rewrite !app_length in E. lia. }
    destruct (si_loop_spec s z tl Hz Hl (S (length s)) (mkSI (length skip) (length skip + length tok)))
      as (l & -> & Hl'); cbn [s_loc e_loc]; try lia.
    cbn [e_loc s_loc] in *. eexists. split; [reflexivity|].
    replace (sub s (length skip) _) with tok.
    + apply Hs. replace rest with (skipn (length skip + length tok) s); auto.
      rewrite E, app_assoc, <- app_length, skipn_app, skipn_all, Nat.sub_diag. reflexivity.
    + unfold sub. rewrite E, skipn_app, skipn_all, Nat.sub_diag. cbn [skipn app].
      replace (length skip + length tok - length skip)%nat with (length tok) by lia.
      now rewrite firstn_app, firstn_all, Nat.sub_diag, firstn_O, app_nil_r.
Qed.

(** The symbols lose nothing but backslashes. *)
Inductive sparse : list Z -> list Z -> Prop := (* backslashes put into the second give the first *)
| sp_nil : sparse [] []
| sp_keep c a b : sparse a b -> sparse (c :: a) (c :: b)
| sp_drop a b : sparse a b -> sparse (92 :: a) b.
Lemma sparse_keep : forall w a b, sparse a b -> sparse (w ++ a) (w ++ b).
Proof. induction w; intros a0 b H; cbn [app]; auto. apply sp_keep. auto. Qed.
Theorem C50_nothing_lost : forall s l, symbols_of s l -> sparse s (concat l) /\ Forall (fun x => x <> []) l.
Proof.
  assert (Hcp : forall c r, first_cp c r -> c <> []).
  { intros c r [(x & -> & _)|(x & y & -> & _)]; discriminate. }
  induction 1 as [| |c r l Hc _ [IH1 IH2]|t r l Ht _ [IH1 IH2]|r l Hr _ [IH1 IH2]|c r l Hc H1 H2 _ [IH1 IH2]];
    cbn [concat]; (split; [|repeat (constructor; eauto)]).
  - constructor.
  - apply sp_drop. constructor.
  - apply sp_drop. now apply sparse_keep.
  - rewrite <- (app_comm_cons _ _ 60), <- app_assoc. cbn [app]. apply sp_keep. apply sparse_keep.
    now apply sp_keep.
  - discriminate.
  - cbn [app]. now apply sp_keep.
  - discriminate.
  - now apply sparse_keep.
Qed.

(** The reading of a text is unique, so [symbols_of] says which symbols these are. *)
Lemma first_cp_unique : forall c r c' r', first_cp c r -> first_cp c' r' -> c ++ r = c' ++ r' -> c = c' /\ r = r'.
Proof.
  intros c r c' r' [(x & -> & H)|(x & y & -> & H1 & H2)] [(x' & -> & H')|(x' & y' & -> & H1' & H2')] E;
    cbn [app] in E.
  - injection E as -> ->. auto.
  - injection E as -> ->. exfalso. apply H. split; auto. now eexists _, _.
  - injection E as -> E. exfalso. apply H'. split; auto. exists y, r. split; auto.
  - injection E as -> -> ->. auto.
Qed.
Lemma stop_unique : forall (x : Z) t r t' r', ~ In x t -> ~ In x t' -> t ++ x :: r = t' ++ x :: r' -> t = t' /\ r = r'.
Proof.
  intros x. induction t as [|y t IH]; intros r [|y' t'] r' H H' E; cbn [app] in E.
  - injection E as ->. auto.
  - injection E as <- _. exfalso. apply H'. now left.
  - injection E as -> _. exfalso. apply H. now left.
  - injection E as -> E. destruct (IH r t' r') as [-> ->]; auto; intros X; [apply H|apply H']; now right.
Qed.
Theorem C50_unique : forall s l l', symbols_of s l -> symbols_of s l' -> l = l'.
Proof.
  assert (Hcp : forall c r, first_cp c r -> exists x c', c = x :: c' /\ (is_lead x = true \/ c' = [])).
  { intros c r [(x & -> & _)|(x & y & -> & H & _)]; eauto. }
  intros s l l' H. revert l'. induction H as [| |c r l Hc H IH|t r l Ht H IH|r l Hr H IH|c r l Hc H1 H2 H IH];
    intros l' H'; remember (_ : list Z) as s eqn:Es in H'.
  - destruct H' as [| |c' r' l' Hc' H'|t' r' l' Ht' H'|r' l' Hr' H'|c' r' l' Hc' H1' H2' H']; auto; try discriminate Es.
    destruct (Hcp _ _ Hc') as (x & c'' & -> & _). discriminate Es.
  - destruct H' as [| |c' r' l' Hc' H'|t' r' l' Ht' H'|r' l' Hr' H'|c' r' l' Hc' H1' H2' H']; auto; try discriminate Es.
    + destruct (Hcp _ _ Hc') as (x & c'' & -> & _). discriminate Es.
    + destruct (Hcp _ _ Hc') as (x & c'' & -> & [X | ->]); cbn [app] in Es; injection Es as -> Es; [discriminate X|].
      congruence.
  - destruct H' as [| |c' r' l' Hc' H'|t' r' l' Ht' H'|r' l' Hr' H'|c' r' l' Hc' H1' H2' H']; auto; try discriminate Es.
    + destruct (Hcp _ _ Hc) as (x & c'' & -> & _). discriminate Es.
    + injection Es as Es. destruct (first_cp_unique _ _ _ _ Hc Hc' (eq_sym Es)) as [-> ->]. f_equal; auto.
    + destruct (Hcp _ _ Hc') as (x & c'' & -> & [X | ->]); cbn [app] in Es; injection Es as -> Es; [discriminate X|].
      congruence.
  - destruct H' as [| |c' r' l' Hc' H'|t' r' l' Ht' H'|r' l' Hr' H'|c' r' l' Hc' H1' H2' H']; auto; try discriminate Es.
    + injection Es as Es. destruct (stop_unique _ _ _ _ _ Ht Ht' (eq_sym Es)) as [-> ->]. f_equal; auto.
    + injection Es as ->. exfalso. apply Hr'. apply in_app_iff. right. now left.
    + destruct (Hcp _ _ Hc') as (x & c'' & -> & [X | ->]); cbn [app] in Es; injection Es as -> Es; [discriminate X|].
      congruence.
  - destruct H' as [| |c' r' l' Hc' H'|t' r' l' Ht' H'|r' l' Hr' H'|c' r' l' Hc' H1' H2' H']; auto; try discriminate Es.
    + injection Es as <-. exfalso. apply Hr. apply in_app_iff. right. now left.
    + injection Es as ->. f_equal; auto.
    + destruct (Hcp _ _ Hc') as (x & c'' & -> & [X | ->]); cbn [app] in Es; injection Es as -> Es; [discriminate X|].
      congruence.
  - destruct (Hcp _ _ Hc) as (x & c'' & Ec & Hx).
    destruct H' as [| |c' r' l' Hc' H'|t' r' l' Ht' H'|r' l' Hr' H'|c' r' l' Hc' H1' H2' H']; rewrite Ec in *; try discriminate Es.
    + cbn [app] in Es. injection Es as <- Es. destruct Hx as [X | ->]; [discriminate X|congruence].
    + cbn [app] in Es. injection Es as <- Es. destruct Hx as [X | ->]; [discriminate X|congruence].
    + cbn [app] in Es. injection Es as <- Es. destruct Hx as [X | ->]; [discriminate X|congruence].
    + cbn [app] in Es. injection Es as <- Es. destruct Hx as [X | ->]; [discriminate X|congruence].
    + destruct (first_cp_unique _ _ _ _ Hc Hc' (eq_sym Es)) as [-> ->]. f_equal; auto.
Qed.

(** Without the unit behind it the string is read out of bounds at its end ... *)
Theorem C50_reads_past_refuted : symbols 2 [97] 1 = UB /\ symbols_of [97] [[97]].
Proof.
  split; [vm_compute; reflexivity|].
  change [97] with ([97] ++ []) at 1. apply so_char; [|discriminate|discriminate|constructor].
  left. exists 97. split; auto. intros [H _]. discriminate H.
Qed.
(** ... and a backslash behind the string (the view "a" of the text "a\b") makes the iteration
    miss its end. *)
Theorem C50_backslash_behind_refuted : symbols 9 [97; 92; 98] 1 = Throw.
Proof. vm_compute. reflexivity. Qed.

(** * Examples *)
(* "a\<b<n>" and a supplementary character, in a NUL-terminated string *)
Example C50_example : symbols 9 [97; 92; 60; 98; 60; 110; 62; 55357; 56832; 0] 9
  = Ok [[97]; [60]; [98]; [60; 110; 62]; [55357; 56832]].
Proof. vm_compute. reflexivity. Qed.
(* an open bracket without its end; a backslash at the end *)
Example C50_example_open : symbols 4 [60; 97; 92; 0] 3 = Ok [[60]; [97]].
Proof. vm_compute. reflexivity. Qed.
Example C51_example_split : split 8 [44; 97; 44; 44; 98; 44] [44] = Ok [[97]; [98]]
  /\ leftmost [44] [[]; [97]; []; [98]; []] /\ between [44] [[]; [97]; []; [98]; []] = [44; 97; 44; 44; 98; 44].
Proof.
  split; [vm_compute; reflexivity|]. split; [|reflexivity].
  cbn [leftmost removelast]. rewrite !app_nil_r.
  assert (Ho : forall p, ~ In 44 p -> ~ occurs [44] p).
  { intros p Hp (a & b & ->). apply Hp. apply in_app_iff. right. now left. }
  repeat split; apply Ho; cbn; lia.
Qed.
Example C51_example_overlap : split 9 [97; 97; 97] [97; 97] = Ok [[97]]
  /\ substitute 9 [97; 97; 97] [97; 97] [98; 97; 97] = Ok [98; 97; 97; 97].
Proof. split; vm_compute; reflexivity. Qed.
Example C51_example_escaped : split_escaped [97; 92; 47; 47; 92; 92; 47; 47; 98] 47 = [[97; 92; 47]; [92; 92]; [98]].
Proof. vm_compute. reflexivity. Qed.
Example C51_example_join : split_escaped (join [[97; 92; 47]; [98]] [47]) 47 = [[97; 92; 47]; [98]].
Proof. vm_compute. reflexivity. Qed.
Example C51_example_trim : trim (fun c => c =? 32) 9 [32; 97; 32; 55357; 56832; 32; 32] 7 = Ok [97; 32; 55357; 56832].
Proof. vm_compute. reflexivity. Qed.
(* a string of spaces with its 0 behind it *)
Example C51_example_blank : trim (fun c => c =? 32) 9 [32; 32; 0] 2 = Ok [].
Proof. vm_compute. reflexivity. Qed.

Print Assumptions C50_symbols.
Print Assumptions C50_nothing_lost.
Print Assumptions C50_unique.
Print Assumptions C50_reads_past_refuted.
Print Assumptions C50_backslash_behind_refuted.
Print Assumptions C51_split.
Print Assumptions C51_join.
Print Assumptions C51_join_refuted.
Print Assumptions C51_join_split.
Print Assumptions C51_split_join.
Print Assumptions C51_split_join_unit.
Print Assumptions C51_split_empty_refuted.
Print Assumptions C51_split_escaped.
Print Assumptions C51_split_escaped_join.
Print Assumptions C51_substitute.
Print Assumptions C51_substitute_empty_refuted.
Print Assumptions C51_affixes.
Print Assumptions C51_trim.
Print Assumptions C51_trim_blank_refuted.
