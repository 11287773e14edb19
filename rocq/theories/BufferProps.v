(** The input buffer replays exactly what was read (C45). *)
From Verif Require Import Base BufferModel.

(** * Specification: the unbounded tape
    All symbols ever added, and the number of those consumed. *)
Section Tape.
  Context {A : Type}.
  Record tape := mkTape { t_all : list A; t_at : Z }.
  Definition t_len (t : tape) : Z := Z.of_nat (length (t_all t)).

  (** What a call does to the tape, and returns.  At the end of the tape [next] and [peek]
      give the last symbol again. *)
  Inductive tstep : tape -> list Z -> bop A -> tape -> list Z -> bobs A -> Prop :=
  | t_add t m v : tstep t m (BAdd v) (mkTape (t_all t ++ [v]) (t_len t + 1)) m OUnit
  | t_next t m v : nth_error (t_all t) (Z.to_nat (t_at t)) = Some v ->
      tstep t m BNext (mkTape (t_all t) (t_at t + 1)) m (OVal v)
  | t_next_end t m l v : t_all t = l ++ [v] -> t_at t = t_len t -> tstep t m BNext t m (OVal v)
  | t_peek t m v : nth_error (t_all t) (Z.to_nat (t_at t)) = Some v -> tstep t m BPeek t m (OVal v)
  | t_peek_end t m l v : t_all t = l ++ [v] -> t_at t = t_len t -> tstep t m BPeek t m (OVal v)
  | t_last t m l v : t_all t = l ++ [v] -> tstep t m BLast t m (OVal v)
  | t_empty t m : tstep t m BIsEmpty t m (OBool (t_at t =? t_len t))
  | t_save t m : tstep t m BSave t (t_at t :: m) OUnit
  | t_restore t m k j : tstep t m (BRestore k j) (mkTape (t_all t) (nth k m 0 + j)) m OUnit
  | t_back t m n : tstep t m (BBack n) (mkTape (t_all t) (t_at t - n)) m OUnit
  | t_diff t m k : tstep t m (BDiffPrev k) t m (ONum (t_at t - nth k m 0)).

  (** The use a buffer of [size] supports: going back to positions fewer than [size]
      symbols before the end; and never to the very end when the end is a multiple of the
      size. *)
  Definition within (size : Z) (t : tape) (p : Z) : Prop :=
    0 <= p /\ t_len t - size < p <= t_len t /\ (p = t_len t -> p mod size = 0 -> p = 0).
  Definition supported (size : Z) (t : tape) (m : list Z) (op : bop A) : Prop :=
    match op with
    | BRestore k j => (k < length m)%nat /\ 0 <= j <= size /\ within size t (nth k m 0 + j)
    | BBack n => 1 <= n /\ within size t (t_at t - n)
    | BDiffPrev k => (k < length m)%nat /\ 0 < t_at t - nth k m 0 < size
    | _ => True
    end.
  Inductive truns (size : Z) : tape -> list Z -> list (bop A) -> tape -> list Z -> list (bobs A) -> Prop :=
  | tr_nil t m : truns size t m [] t m []
  | tr_cons t m op t1 m1 o ops t2 m2 os :
      supported size t m op -> tstep t m op t1 m1 o -> truns size t1 m1 ops t2 m2 os ->
      truns size t m (op :: ops) t2 m2 (o :: os).
End Tape.
Arguments tape : clear implicits.

(** * Proofs *)
Definition cong (s a b : Z) : Prop := exists q, a = b + q * s.
Lemma cong_eq : forall s a b c d, 0 < s -> cong s a c -> cong s b d -> a = b -> 0 <= d - c < s -> c = d.
Proof. intros s a b c d Hs (p & ->) (q & ->) E H. assert (p - q = 0 \/ p - q <> 0) as [X|X] by lia; nia. Qed.
Lemma cong_mod : forall s a c, 0 < s -> cong s a c -> 0 <= a < s -> a = c mod s.
Proof. intros s a c Hs (q & ->) H. rewrite <- (Z.mod_small _ _ H). apply Z.mod_add. lia. Qed.
Lemma mod_cong : forall s c, 0 < s -> cong s (c mod s) c.
Proof. intros s c Hs. exists (- (c / s)). rewrite Z.mod_eq; lia. Qed.
Lemma cong_refl : forall s a, cong s a a.
Proof. intros s a. exists 0. lia. Qed.

Section Proofs.
  Context {A : Type} (size : Z) (Hsize : 0 < size < 2 ^ 31).

  Lemma set_cell_nth : forall (l : list (option A)) i v j, (i < length l)%nat ->
    nth_error (set_cell i v l) j = if (j =? i)%nat then Some v else nth_error l j.
  Proof.
    induction l as [|x l IH]; intros [|i] v [|j] H; cbn [set_cell nth_error length Nat.eqb] in *; try lia; auto.
    apply IH. lia.
  Qed.
  Lemma set_cell_length : forall (l : list (option A)) i v, length (set_cell i v l) = length l.
  Proof. induction l as [|x l IH]; intros [|i] v; cbn; auto. Qed.

  Record rel (b : buffer A) (t : tape A) : Prop := {
    r_size : b_size b = size;
    r_length : Z.of_nat (length (b_buf b)) = size;
    r_cells : forall i v, 0 <= i -> nth_error (t_all t) (Z.to_nat i) = Some v -> t_len t - size <= i ->
      nth_error (b_buf b) (Z.to_nat (i mod size)) = Some (Some v);
    r_last : cong size (b_last b) (t_len t) /\ 0 <= b_last b <= size /\ (b_last b = 0 <-> t_len t = 0);
    r_cur : cong size (b_cur b) (t_at t) /\ 0 <= b_cur b <= size;
    r_at : 0 <= t_at t /\ t_len t - size < t_at t <= t_len t;
    r_end : t_at t = t_len t -> b_cur b = b_last b
  }.

  Lemma read_at : forall b t i v idx, rel b t -> 0 <= i -> nth_error (t_all t) (Z.to_nat i) = Some v ->
    t_len t - size <= i -> cong size idx i -> 0 <= idx < size -> read_cell (b_buf b) idx = Ok v.
  Proof.
    intros b t i v idx R Hi Hv Hl Hc Hx. unfold read_cell. replace (idx <? 0) with false by lia.
    rewrite (cong_mod size idx i ltac:(lia) Hc Hx). now rewrite (r_cells _ _ R i v).
  Qed.
  Lemma empty_iff : forall b t, rel b t -> (b_cur b =? b_last b) = (t_at t =? t_len t).
  Proof.
    intros b t R. destruct (t_at t =? t_len t) eqn:E.
    - apply Z.eqb_eq in E. rewrite (r_end _ _ R E). apply Z.eqb_refl.
    - apply Z.eqb_neq in E. apply Z.eqb_neq. intros H. apply E.
      pose proof (r_at _ _ R). destruct (r_cur _ _ R) as [C _]. destruct (r_last _ _ R) as [D _].
      apply (cong_eq size (b_cur b) (b_last b)); auto; lia.
  Qed.
  Lemma last_read : forall b t l v, rel b t -> t_all t = l ++ [v] -> last_elem b = Ok v.
  Proof.
    intros b t l v R E. unfold last_elem. destruct (r_last _ _ R) as ((q & C) & D & N).
    assert (L : t_len t = Z.of_nat (length l) + 1) by (unfold t_len; rewrite E, app_length; cbn; lia).
    destruct (b_last b =? 0) eqn:Z0; [exfalso; lia|]. cbn [negb].
    apply (read_at b t (Z.of_nat (length l))); auto; try lia.
    - rewrite Nat2Z.id, E. rewrite nth_error_app2 by lia. now rewrite Nat.sub_diag.
    - exists q. lia.
  Qed.

  (** Moving to [p]. *)
  Lemma move : forall b t p cur, rel b t -> 0 <= p -> t_len t - size < p <= t_len t ->
    cong size cur p -> 0 <= cur <= size -> (p = t_len t -> cur = b_last b) ->
    rel (mkB (b_size b) (b_buf b) cur (b_last b)) (mkTape (t_all t) p).
  Proof. intros b t p cur [] Hp Hb Hc Hr He. constructor; auto. Qed.

  Lemma step_ok : forall b t saved m op t1 m1 o, rel b t ->
    Forall2 (cong size) saved m -> Forall (fun p => 0 <= p <= size) saved ->
    supported size t m op -> tstep t m op t1 m1 o ->
    exists b1 saved1, bexec b saved op = Ok (b1, saved1, o) /\ rel b1 t1
      /\ Forall2 (cong size) saved1 m1 /\ Forall (fun p => 0 <= p <= size) saved1.
  Proof.
    intros b t saved m op t1 m1 o R F G S T.
    assert (Fnth : forall k, (k < length m)%nat -> cong size (nth k saved 0) (nth k m 0)
                             /\ 0 <= nth k saved 0 <= size).
    { clear - F G. intros k. revert k. induction F as [|x y l l' H F IH]; intros [|k] Hk; cbn in *; try lia.
      - split; auto. now inversion G.
      - apply IH; [now inversion G|lia]. }
    pose proof (r_size _ _ R) as Rs. pose proof (r_at _ _ R) as Ra.
    destruct (r_cur _ _ R) as [Rc Rr]. destruct (r_last _ _ R) as (Lc & Lr & L0).
    inversion T; subst; cbn [bexec].
    - (* add *)
      unfold add. rewrite Rs, (r_length _ _ R).
      set (last := if b_last b =? size then 0 else b_last b).
      assert (Hl : 0 <= last < size) by (unfold last; destruct (b_last b =? size) eqn:E; lia).
      assert (Hlc : cong size last (t_len t)).
      { unfold last. destruct (b_last b =? size) eqn:E; auto. destruct Lc as (q & Hq). exists (q - 1). lia. }
      replace ((last <? 0) || (size <=? last)) with false by lia. cbn [obind].
      eexists _, saved. split; [reflexivity|]. split; [|auto].
      assert (NL : t_len (mkTape (t_all t ++ [v]) (t_len t + 1)) = t_len t + 1)
        by (unfold t_len; cbn [t_all]; rewrite app_length; cbn; lia).
      constructor; cbn [b_size b_buf b_cur b_last]; auto.
      + rewrite set_cell_length. apply R.
      + rewrite NL. cbn [t_all]. intros i w Hi Hw Hb.
        pose proof (r_length _ _ R) as RL.
        rewrite set_cell_nth by (apply Nat2Z.inj_lt; rewrite Z2Nat.id, RL; lia).
        assert (Hm : 0 <= i mod size < size) by (apply Z.mod_pos_bound; lia).
        assert (Hle : i < t_len t + 1).
        { assert (nth_error (t_all t ++ [v]) (Z.to_nat i) <> None) by congruence.
          apply nth_error_Some in H. rewrite app_length in H. cbn in H. unfold t_len. lia. }
        destruct (Z.to_nat (i mod size) =? Z.to_nat last)%nat eqn:E.
        * apply Nat.eqb_eq in E. apply Z2Nat.inj in E; try lia.
          assert (i = t_len t).
          { apply (cong_eq size (i mod size) last); auto; [lia|apply mod_cong; lia|lia]. }
          subst i. unfold t_len in Hw. rewrite Nat2Z.id, nth_error_app2, Nat.sub_diag in Hw by lia.
          cbn in Hw. congruence.
        * assert (i <> t_len t).
          { intros ->. apply Nat.eqb_neq in E. apply E. f_equal. symmetry. apply cong_mod; auto. lia. }
          rewrite nth_error_app1 in Hw by (unfold t_len in *; lia).
          apply (r_cells _ _ R); auto. lia.
      + rewrite NL. split; [destruct Hlc as (q & ->); exists q; lia|]. unfold t_len in *. lia.
      + cbn [t_at]. split; [destruct Hlc as (q & ->); exists q; lia|]. lia.
      + rewrite NL. cbn [t_at]. unfold t_len in *. lia.
    - (* next *)
      unfold next. rewrite (empty_iff _ _ R).
      assert (Hlt : t_at t < t_len t).
      { assert (nth_error (t_all t) (Z.to_nat (t_at t)) <> None) by congruence.
        apply nth_error_Some in H0. unfold t_len. lia. }
      replace (t_at t =? t_len t) with false by lia. cbn [negb]. rewrite Rs.
      set (cur := if b_cur b =? size then 0 else b_cur b).
      assert (Hc : 0 <= cur < size) by (unfold cur; destruct (b_cur b =? size) eqn:E; lia).
      assert (Hcc : cong size cur (t_at t)).
      { unfold cur. destruct (b_cur b =? size) eqn:E; auto. destruct Rc as (q & Hq). exists (q - 1). lia. }
      rewrite (read_at b t (t_at t) v cur) by (auto; lia). cbn [obind].
      eexists _, saved. split; [reflexivity|]. split; [|auto]. rewrite <- Rs.
      apply move; auto; try lia.
      + destruct Hcc as (q & ->). exists q. lia.
      + intros E. destruct Lc as (p & Lc'). destruct Hcc as (q & Hcc').
        assert (p - q = 0); [|nia]. assert (b_last b <> 0) by lia.
        assert (p - q <= 0 \/ 1 <= p - q) by lia. assert (p - q <= -1 \/ 0 <= p - q) by lia. nia.
    - (* next at the end *)
      unfold next. rewrite (empty_iff _ _ R). rewrite H0, Z.eqb_refl. cbn [negb].
      rewrite (last_read b t1 l v) by auto. cbn [obind]. eauto 6.
    - (* peek *)
      unfold peek. rewrite (empty_iff _ _ R).
      assert (Hlt : t_at t1 < t_len t1).
      { assert (nth_error (t_all t1) (Z.to_nat (t_at t1)) <> None) by congruence.
        apply nth_error_Some in H0. unfold t_len. lia. }
      replace (t_at t1 =? t_len t1) with false by lia. cbn [negb]. rewrite Rs.
      replace (if b_cur b =? size then read_cell (b_buf b) 0 else read_cell (b_buf b) (b_cur b))
        with (@Ok A v); [cbn [obind]; eauto 6|]. symmetry.
      destruct (b_cur b =? size) eqn:E.
      + apply (read_at b t1 (t_at t1)); auto; try lia. destruct Rc as (q & Hq). exists (q - 1). lia.
      + apply (read_at b t1 (t_at t1)); auto; lia.
    - (* peek at the end *)
      unfold peek. rewrite (empty_iff _ _ R). rewrite H0, Z.eqb_refl. cbn [negb].
      rewrite (last_read b t1 l v) by auto. cbn [obind]. eauto 6.
    - rewrite (last_read b t1 l v) by auto. cbn [obind]. eauto 6.
    - unfold isEmpty. rewrite (empty_iff _ _ R). eauto 6.
    - eexists b, _. split; [reflexivity|]. split; [exact R|]. split; [constructor; auto|]. constructor; auto.
    - (* restore *)
      destruct S as (Hk & Hj & Hw0 & Hw1 & Hw2). destruct (Fnth k Hk) as [Nc Nr].
      eexists _, saved. split; [reflexivity|]. split; [|auto]. unfold setPos. rewrite Rs.
      assert (U : u32 (nth k saved 0 + j) = nth k saved 0 + j) by (apply Z.mod_small; lia).
      rewrite U. rewrite <- Rs at 1.
      assert (C : cong size ((nth k saved 0 + j) mod size) (nth k m1 0 + j)).
      { destruct (mod_cong size (nth k saved 0 + j) ltac:(lia)) as (q & ->). destruct Nc as (q' & ->).
        exists (q + q'). lia. }
      pose proof (Z.mod_pos_bound (nth k saved 0 + j) size ltac:(lia)) as Hb.
      apply move; auto; try lia. intros E.
      destruct (Z.eq_dec (t_len t) 0) as [E0|E0].
      + destruct C as (q & Hq). assert (b_last b = 0) by lia.
        assert (q = 0 \/ q <= -1 \/ 1 <= q) by lia. nia.
      + assert (nth k m1 0 + j <> 0) by lia.
        assert (M0 : (nth k m1 0 + j) mod size <> 0) by (intros M; apply H, Hw2; auto).
        pose proof (cong_mod size _ _ ltac:(lia) C ltac:(lia)) as CM.
        assert (b_last b <> size).
        { intros Hs. apply M0. rewrite E. destruct Lc as (q & Hq). replace (t_len t) with ((1 - q) * size) by lia.
          apply Z.mod_mul. lia. }
        rewrite CM, E. symmetry. apply cong_mod; auto; lia.
    - (* back *)
      destruct S as (Hn & Hw0 & Hw1 & Hw2).
      assert (n < size) by lia.
      assert (E : t_at t - n <> t_len t) by lia.
      eexists _, saved. split; [reflexivity|]. split; [|auto]. unfold back. rewrite Rs. rewrite <- Rs at 1.
      destruct Rc as (q & Hq).
      destruct (n <? b_cur b) eqn:L.
      + apply move; auto; try lia. exists q. lia.
      + assert (U : u32 (size - (n - b_cur b)) = size - (n - b_cur b)) by (apply Z.mod_small; lia).
        rewrite U. apply move; auto; try lia. exists (q + 1). lia.
    - (* difference *)
      destruct S as (Hk & Hd). destruct (Fnth k Hk) as [(p & Np) Nr]. destruct Rc as (q & Hq).
      eexists b, saved. split; [|auto]. do 2 f_equal. f_equal. unfold diffPrevPos. rewrite Rs.
      set (d := t_at t1 - nth k m1 0) in *.
      destruct (nth k saved 0 <=? b_cur b) eqn:L.
      + assert (b_cur b - nth k saved 0 = d); [|unfold u32; rewrite Z.mod_small; lia].
        assert (X : b_cur b - nth k saved 0 = d + (q - p) * size) by (unfold d; lia).
        assert (q - p = 0 \/ q - p <= -1 \/ 1 <= q - p) as [Y|Y] by lia; nia.
      + assert (b_cur b + size - nth k saved 0 = d); [|unfold u32; rewrite Z.mod_small; lia].
        assert (X : b_cur b + size - nth k saved 0 = d + (q - p + 1) * size) by (unfold d; lia).
        assert (q - p + 1 = 0 \/ q - p + 1 <= -1 \/ 1 <= q - p + 1) as [Y|Y] by lia; nia.
  Qed.

  Lemma runs_ok : forall ops b t saved m t1 m1 os, rel b t ->
    Forall2 (cong size) saved m -> Forall (fun p => 0 <= p <= size) saved ->
    truns size t m ops t1 m1 os -> brun b saved ops = Ok os.
  Proof.
    intros ops b t saved m t1 m1 os R F G H. revert b saved R F G.
    induction H as [|t m op t1 m1 o ops t2 m2 os S T _ IH]; intros b saved R F G; cbn [brun]; auto.
    destruct (step_ok _ _ _ _ _ _ _ _ R F G S T) as (b1 & s1 & E & R1 & F1 & G1). rewrite E. cbn [obind].
    rewrite (IH _ _ R1 F1 G1). reflexivity.
  Qed.
End Proofs.

Lemma new_rel : forall {A} size, 0 < size < 2 ^ 31 ->
  rel size (mkB size (repeat (@None A) (Z.to_nat size)) 0 0) (mkTape [] 0).
Proof.
  intros A size H. constructor; cbn; auto.
  - rewrite repeat_length. lia.
  - intros i v _ Hv. now destruct (Z.to_nat i).
  - unfold t_len. cbn. split; [exists 0; lia|lia].
  - split; [exists 0; lia|lia].
  - unfold t_len; cbn; lia.
Qed.

(** Over any history of supported calls the buffer returns what the tape returns. *)
Theorem C45_tape : forall {A} size ops t m (os : list (bobs A)), 0 < size < 2 ^ 31 ->
  truns size (mkTape [] 0) [] ops t m os -> bprogram size ops = Ok os.
Proof.
  intros A size ops t m os Hs H. unfold bprogram, new_buffer. replace (size =? 0) with false by lia.
  cbn [obind]. eapply runs_ok; eauto. apply new_rel; auto.
Qed.

(** Rewinding: after any supported history, remember the position, read fewer symbols than
    the buffer holds, go back: the same symbols come again. *)
Lemma truns_app : forall {A} size t m (a : list (bop A)) t1 m1 os1 b t2 m2 os2,
  truns size t m a t1 m1 os1 -> truns size t1 m1 b t2 m2 os2 ->
  truns size t m (a ++ b) t2 m2 (os1 ++ os2).
Proof.
  intros A size t m a t1 m1 os1 b t2 m2 os2 H. revert b t2 m2 os2.
  induction H; intros; cbn [app]; auto. econstructor; eauto.
Qed.
Lemma truns_adds : forall {A} size (xs : list A) l m q,
  truns size (mkTape l q) m (map BAdd xs)
    (mkTape (l ++ xs) (if (length xs =? 0)%nat then q else Z.of_nat (length (l ++ xs)))) m
    (map (fun _ => OUnit) xs).
Proof.
  intros A size xs. induction xs as [|x xs IH]; intros l m q; cbn [map].
  - rewrite app_nil_r. constructor.
  - econstructor; [exact I|constructor|]. cbn [t_all].
    specialize (IH (l ++ [x]) m (t_len (mkTape l q) + 1)).
    rewrite <- app_assoc in IH. cbn [app] in IH. cbn [length Nat.eqb].
    replace (if (length xs =? 0)%nat then t_len (mkTape l q) + 1 else Z.of_nat (length (l ++ x :: xs)))
      with (Z.of_nat (length (l ++ x :: xs))) in IH; [exact IH|].
    destruct xs; auto. cbn [length Nat.eqb]. unfold t_len. cbn [t_all]. rewrite app_length. cbn. lia.
Qed.
Lemma truns_nexts : forall {A} size (xs : list A) l m,
  truns size (mkTape (l ++ xs) (Z.of_nat (length l))) m (map (fun _ => BNext) xs)
    (mkTape (l ++ xs) (Z.of_nat (length (l ++ xs)))) m (map OVal xs).
Proof.
  intros A size xs. induction xs as [|x xs IH]; intros l m; cbn [map].
  - rewrite app_nil_r. constructor.
  - econstructor; [exact I| |].
    + apply t_next. cbn [t_all t_at]. rewrite Nat2Z.id, nth_error_app2, Nat.sub_diag by lia. reflexivity.
    + cbn [t_all t_at]. specialize (IH (l ++ [x]) m). rewrite <- app_assoc in IH. cbn [app] in IH.
      replace (Z.of_nat (length (l ++ [x]))) with (Z.of_nat (length l) + 1) in IH by (rewrite app_length; cbn; lia).
      exact IH.
Qed.
Theorem C45_replay : forall {A} size ops t m os (xs : list A), 0 < size < 2 ^ 31 ->
  truns size (mkTape [] 0) [] ops t m os -> t_at t = t_len t ->
  (0 < length xs)%nat -> Z.of_nat (length xs) < size ->
  bprogram size (ops ++ BSave :: map BAdd xs ++ BRestore 0 0 :: map (fun _ => BNext) xs ++ [BIsEmpty])
  = Ok (os ++ OUnit :: map (fun _ => OUnit) xs ++ OUnit :: map OVal xs ++ [OBool true]).
Proof.
  intros A size ops [l p] m os xs Hs H Hend Hx Hxs. unfold t_len in Hend. cbn [t_at t_all] in Hend. subst p.
  eapply C45_tape; auto. eapply truns_app; [exact H|]. econstructor; [exact I|apply t_save|].
  eapply truns_app.
  - apply truns_adds.
  - destruct (length xs =? 0)%nat eqn:E; [apply Nat.eqb_eq in E; lia|].
    econstructor.
    + cbn [supported nth]. split; [cbn; lia|]. split; [lia|]. unfold within, t_len. cbn [t_all t_at].
      rewrite app_length. lia.
    + apply t_restore.
    + cbn [nth t_all t_at]. rewrite Z.add_0_r. eapply truns_app; [apply truns_nexts|].
      pose proof (t_empty (mkTape (l ++ xs) (Z.of_nat (length (l ++ xs)))) (Z.of_nat (length l) :: m)) as HE.
      unfold t_len in HE. cbn [t_at t_all] in HE. rewrite Z.eqb_refl in HE.
      econstructor; [exact I|exact HE|constructor].
Qed.

(** * Concrete runs *)
(** A buffer of 4 with wrap-around: 1 2 3, remember, 4 5 6, go back, replay. *)
Example C45_example :
  bprogram 4 [BAdd 1; BAdd 2; BAdd 3; BSave; BAdd 4; BAdd 5; BAdd 6; BRestore 0 0;
              BPeek; BNext; BNext; BDiffPrev 0; BBack 1; BNext; BNext; BIsEmpty; BNext]
  = Ok [OUnit; OUnit; OUnit; OUnit; OUnit; OUnit; OUnit; OUnit;
        OVal 4; OVal 4; OVal 5; ONum 2; OUnit; OVal 5; OVal 6; OBool true; OVal 6].
Proof. vm_compute. reflexivity. Qed.
Example C45_tape_example :
  truns 4 (mkTape [] 0) [] [BAdd 1; BAdd 2; BBack 1; BNext] (mkTape [1; 2] 2) [] [OUnit; OUnit; OUnit; OVal 2].
Proof.
  econstructor; [exact I|apply t_add|]. econstructor; [exact I|apply t_add|].
  econstructor; [unfold supported, within, t_len; cbn; lia|apply t_back|].
  econstructor; [exact I|apply t_next; reflexivity|]. constructor.
Qed.

(** Not up to the capacity: after reading exactly [size] symbols the remembered position
    counts as the end and nothing is replayed. *)
Theorem C45_full_refuted :
  bprogram 4 [BAdd 1; BSave; BAdd 2; BAdd 3; BAdd 4; BAdd 5; BRestore 0 0; BIsEmpty; BNext]
  = Ok [OUnit; OUnit; OUnit; OUnit; OUnit; OUnit; OUnit; OBool true; OVal 5].
Proof. vm_compute. reflexivity. Qed.
(** Setting the position to where it already is, just when the last cell was filled, makes
    all the old contents come again. *)
Theorem C45_same_position_refuted :
  bprogram 4 [BAdd 1; BAdd 2; BAdd 3; BAdd 4; BIsEmpty; BSave; BRestore 0 0; BIsEmpty; BNext]
  = Ok [OUnit; OUnit; OUnit; OUnit; OBool true; OUnit; OUnit; OBool false; OVal 1].
Proof. vm_compute. reflexivity. Qed.
(** A copied buffer of 4-byte elements holds a quarter of the contents. *)
Theorem C45_copy_refuted : exists b : buffer Z,
  (let! b := new_buffer 4 in let! b := add 7 b in add 8 b) = Ok b
  /\ last_elem b = Ok 8 /\ last_elem (copy 4 b) = UB.
Proof. eexists. split; [vm_compute; reflexivity|]. split; vm_compute; reflexivity. Qed.

Print Assumptions C45_tape.
Print Assumptions C45_replay.
Print Assumptions C45_full_refuted.
Print Assumptions C45_same_position_refuted.
Print Assumptions C45_copy_refuted.
