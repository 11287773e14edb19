(** Growing a transducer the way the dictionary compiler does: states at which entries
    share their beginnings, copies of other transducers, and shared endings. *)
From Verif Require Import Base TransducerModel TransducerSpec TransducerProofs ReverseProofs
  DeterminizeProofs MinimizeProofs RationalProofs RegexpProofs.

(** * The words that lead from a state to another *)
Definition sym (a : Z) : list Z := if a =? 0 then [] else [a].
Inductive reach (T : transducer) (s : nat) : list Z -> nat -> Prop :=
| reach_here : reach T s [] s
| reach_arc u p a q w : reach T s u p -> has_arc T p a q w -> reach T s (u ++ sym a) q.

Lemma word_sym : forall a w, word_of 0 [(a, w)] = sym a.
Proof. intros a w. unfold word_of, sym. cbn. destruct (a =? 0); reflexivity. Qed.
Lemma reach_path : forall T s u q, reach T s u q <-> exists l, path T s l q /\ word_of 0 l = u.
Proof.
  intros T s u q. split.
  - intros H. induction H as [|u p a q w _ (l & Hl & <-) Ha]; [exists []; split; [constructor|reflexivity]|].
    exists (l ++ [(a, w)]). split; [exact (path_snoc _ _ _ _ _ _ _ Hl Ha)|]. now rewrite word_app, word_sym.
  - intros (l & Hl & <-). revert q Hl. induction l as [|[a w] l IH] using rev_ind; intros q Hl.
    + inversion Hl. subst. constructor.
    + apply path_app_inv in Hl as (r & H1 & H2). inversion H2 as [|? ? ? ? ? ? Ha H3]. subst. inversion H3. subst.
      rewrite word_app, word_sym. apply (reach_arc _ _ _ r a _ w); [apply IH; exact H1|exact Ha].
Qed.
Lemma lang_reach : forall T u, lang T 0 u <-> exists q, reach T (initial T) u q /\ is_final T q.
Proof.
  intros T u. split.
  - intros (c & l & f & (q & Hp & Hf) & Hw & _). exists q. split; [apply reach_path; eauto|now exists f].
  - intros (q & H & (f & Hf)). apply reach_path in H as (l & Hl & Hw). exists (cost_of l + f), l, f.
    split; [exists q; auto|auto].
Qed.
Lemma reach_app : forall T s u p v q, reach T s u p -> reach T p v q -> reach T s (u ++ v) q.
Proof.
  intros T s u p v q H1 H2. induction H2 as [|v r a q w H IH Ha]; [now rewrite app_nil_r|].
  rewrite app_assoc. exact (reach_arc _ _ _ _ _ _ _ IH Ha).
Qed.
Lemma reach_lt : forall T s u q, wf T -> (s < nstates T)%nat -> reach T s u q -> (q < nstates T)%nat.
Proof. intros T s u q W Hs H. induction H as [|u p a q w H IH Ha]; [exact Hs|exact (wf_arcs T W _ _ _ _ Ha)]. Qed.

(** * Enlarging: new arcs lead to new states, and start at new states or in [A] *)
Record enlarged (T : transducer) (A : nat -> Prop) (T' : transducer) : Prop := {
  el_wf : wf T';
  el_initial : initial T' = initial T;
  el_finals : finals T' = finals T;
  el_size : (nstates T <= nstates T')%nat;
  el_old : forall p a q w, has_arc T p a q w -> has_arc T' p a q w;
  el_new : forall p a q w, has_arc T' p a q w ->
    has_arc T p a q w \/ ((nstates T <= q)%nat /\ (A p \/ (nstates T <= p)%nat))
}.
Lemma enlarged_refl : forall T A, wf T -> enlarged T A T.
Proof. intros T A W. constructor; auto. Qed.

Lemma enlarged_reach : forall T A T' s u q, enlarged T A T' -> (q < nstates T)%nat ->
  (reach T' s u q <-> reach T s u q).
Proof.
  intros T A T' s u q E Hq. split.
  - intros H. induction H as [|u p a q w H IH Ha]; [constructor|].
    apply (el_new _ _ _ E) in Ha as [Ha|[Ha _]]; [|lia].
    exact (reach_arc _ _ _ _ _ _ _ (IH (has_arc_lt _ _ _ _ _ Ha)) Ha).
  - intros H. clear Hq. induction H as [|u p a q w H IH Ha]; [constructor|].
    exact (reach_arc _ _ _ _ _ _ _ IH (el_old _ _ _ E _ _ _ _ Ha)).
Qed.
Lemma enlarged_final : forall T A T' q, enlarged T A T' -> (is_final T' q <-> is_final T q).
Proof. intros T A T' q E. unfold is_final, final_wt. now rewrite (el_finals _ _ _ E). Qed.
Lemma enlarged_lang : forall T A T' u, wf T -> enlarged T A T' -> (lang T' 0 u <-> lang T 0 u).
Proof.
  intros T A T' u W E. rewrite !lang_reach, (el_initial _ _ _ E).
  split; intros (q & H & F); exists q; (split; [|now apply (enlarged_final T A T' q E)]);
    apply (enlarged_final T A T' q E) in F || idtac; apply (enlarged_reach T A T' _ _ _ E) in H || apply (enlarged_reach T A T' _ _ _ E); auto;
    destruct F as (f & F); try rewrite <- (el_finals _ _ _ E) in F; try exact (wf_finals T W _ _ F).
  unfold final_wt in F. rewrite (el_finals _ _ _ E) in F. exact (wf_finals T W _ _ F).
Qed.

(** * Sharing states *)
(** At the states of [A] every tag but 0 occurs once, leading to a state of [A] with no
    other way in. *)
Record trie (T : transducer) (A : nat -> Prop) : Prop := {
  tr_wf : wf T;
  tr_lt : forall p, A p -> (p < nstates T)%nat;
  tr_init : A (initial T);
  tr_root : forall p a w, ~ has_arc T p a (initial T) w;
  tr_arc : forall s a q w, A s -> a <> 0 -> has_arc T s a q w ->
    A q /\ forall p b v, has_arc T p b q v -> p = s /\ b = a;
  tr_one : forall s a, A s -> a <> 0 -> (length (equal_range a (arcs_of T s)) <= 1)%nat
}.
Definition plus_state (A : nat -> Prop) (n : nat) : nat -> Prop := fun q => A q \/ q = n.

Lemma trie_root : forall T A u, trie T A -> (reach T (initial T) u (initial T) <-> u = []).
Proof.
  intros T A u H. split.
  - intros R. inversion R as [|u' p a q w R' Ha]; [reflexivity|]. subst. now apply (tr_root _ _ H) in Ha.
  - intros ->. constructor.
Qed.

Lemma quiet_range : forall T q a, quiet_at T q -> a <> 0 -> equal_range a (arcs_of T q) = [].
Proof.
  intros T q a H Ha. destruct (equal_range a (arcs_of T q)) as [|[b [r w]] l] eqn:E; [reflexivity|].
  assert (X : In (b, (r, w)) (equal_range a (arcs_of T q))) by (rewrite E; now left).
  apply equal_range_in in X as [X Y]. cbn in Y. subst. apply H in X. contradiction.
Qed.
Lemma trie_add : forall T A q, trie T A -> (q < nstates T)%nat -> quiet_at T q -> trie T (plus_state A q).
Proof.
  intros T A q [H1 H2 H3 H4 H5 H6] Hq Q. constructor; auto.
  - intros p [Hp| ->]; auto.
  - now left.
  - intros s a r w Hs Ha Harc. destruct Hs as [Hs|Hs]; [|subst s].
    + destruct (H5 s a r w Hs Ha Harc) as [X Y]. split; [now left|exact Y].
    + apply Q in Harc. contradiction.
  - intros s a [Hs| ->] Ha; [auto|]. rewrite (quiet_range T q a Q Ha). cbn. lia.
Qed.
Lemma trie_drop : forall T A q p w, trie T (plus_state A q) -> A (initial T) -> has_arc T p 0 q w -> trie T A.
Proof.
  intros T A q p w [H1 H2 H3 H4 H5 H6] Hi Hq. constructor; auto.
  - intros r Hr. apply H2. now left.
  - intros s a r v Hs Ha Harc. destruct (H5 s a r v (or_introl Hs) Ha Harc) as [[X|X] Y]; [auto|]. subst r.
    destruct (Y _ _ _ Hq) as [_ E]. congruence.
  - intros s a Hs Ha. apply H6; [now left|exact Ha].
Qed.

(** ** Multimap ranges *)
Lemma range_insert_other : forall tag x l, a_tag x <> tag -> equal_range tag (mm_insert x l) = equal_range tag l.
Proof.
  intros tag x l H. induction l as [|y l IH]; cbn [mm_insert].
  - unfold equal_range. cbn. replace (a_tag x =? tag) with false by lia. reflexivity.
  - unfold equal_range in *. destruct (a_tag x <? a_tag y); cbn [filter]; [|now rewrite IH].
    replace (a_tag x =? tag) with false by lia. reflexivity.
Qed.
Lemma range_insert_same : forall x l, length (equal_range (a_tag x) (mm_insert x l)) = S (length (equal_range (a_tag x) l)).
Proof.
  intros x l. induction l as [|y l IH]; cbn [mm_insert].
  - unfold equal_range. cbn. now rewrite Z.eqb_refl.
  - unfold equal_range in *. destruct (a_tag x <? a_tag y); cbn [filter].
    + rewrite Z.eqb_refl. reflexivity.
    + destruct (a_tag y =? a_tag x); cbn [length]; now rewrite IH.
Qed.
Lemma arcs_add_other : forall s x T p, p <> s -> arcs_of (add_arc s x T) p = arcs_of T p.
Proof. intros s x T p H. unfold arcs_of, add_arc. cbn [trans]. now apply nth_upd_neq. Qed.
Lemma arcs_add_same : forall s x T, (s < nstates T)%nat -> arcs_of (add_arc s x T) s = mm_insert x (arcs_of T s).
Proof. intros s x T H. unfold arcs_of, add_arc. cbn [trans]. now rewrite nth_upd_eq. Qed.
Lemma range_add_other : forall s x T p a, (s < nstates T)%nat -> a_tag x <> a ->
  equal_range a (arcs_of (add_arc s x T) p) = equal_range a (arcs_of T p).
Proof.
  intros s x T p a Hs H. destruct (Nat.eq_dec p s) as [->|E].
  - rewrite arcs_add_same by exact Hs. now apply range_insert_other.
  - now rewrite arcs_add_other.
Qed.

(** * A new state behind one arc *)
Lemma insertNew_enlarged : forall T A e tag w, trie T A -> A e ->
  tag = 0 \/ equal_range tag (arcs_of T e) = [] ->
  let T' := snd (insertNewSingleTransduction tag e w T) in
  fst (insertNewSingleTransduction tag e w T) = nstates T
  /\ nstates T' = S (nstates T)
  /\ enlarged T A T' /\ trie T' (plus_state A (nstates T))
  /\ (forall p a q v, has_arc T' p a q v <-> has_arc T p a q v \/ (p = e /\ a = tag /\ q = nstates T /\ v = w))
  /\ forall u, reach T' (initial T') u (nstates T) <-> exists v, reach T (initial T) v e /\ u = v ++ sym tag.
Proof.
  intros T A e tag w H He Hr T'. assert (Le := tr_lt _ _ H e He). assert (W := tr_wf _ _ H).
  destruct (newState_spec T) as (N1 & N2 & N3 & N4 & N5).
  assert (WN := newState_wf T W).
  assert (ET : insertNewSingleTransduction tag e w T = (nstates T, add_arc e (tag, (nstates T, w)) (snd (newState T)))) by reflexivity.
  assert (E' : T' = add_arc e (tag, (nstates T, w)) (snd (newState T))) by (unfold T'; now rewrite ET).
  clearbody T'. rewrite ET. clear ET. cbn [fst].
  assert (Sz : nstates T' = S (nstates T)) by (rewrite E', nstates_add_arc; exact N2).
  assert (Arc : forall p a q v, has_arc T' p a q v <-> has_arc T p a q v \/ (p = e /\ a = tag /\ q = nstates T /\ v = w)).
  { intros p a q v. rewrite E', has_arc_add by lia. unfold has_arc at 1. rewrite N5. unfold has_arc. split.
    - intros [X|[-> X]]; [auto|]. right. repeat split; congruence.
    - intros [X|(-> & -> & -> & ->)]; auto. }
  assert (W' : wf T') by (rewrite E'; apply add_arc_wf; [exact WN|lia|lia]).
  assert (I' : initial T' = initial T) by (rewrite E'; exact N3).
  assert (En : enlarged T A T').
  { constructor; auto.
    - rewrite E'. exact N4.
    - lia.
    - intros p a q v X. apply Arc. now left.
    - intros p a q v X. apply Arc in X as [X|(-> & -> & -> & ->)]; [auto|]. right. split; [lia|auto]. }
  split; [reflexivity|]. split; [exact Sz|]. split; [exact En|]. split; [|split; [exact Arc|]].
  - constructor; auto.
    + intros p [Hp| ->]; [apply (tr_lt _ _ H) in Hp|]; lia.
    + rewrite I'. left. apply (tr_init _ _ H).
    + intros p a v X. rewrite I' in X. apply Arc in X as [X|(_ & _ & X & _)]; [now apply (tr_root _ _ H) in X|].
      assert (Y := tr_lt _ _ H _ (tr_init _ _ H)). lia.
    + intros s a q v Hs Ha X. apply Arc in X as [X|(-> & -> & -> & ->)].
      * assert (Ls := has_arc_lt _ _ _ _ _ X). assert (As : A s) by (destruct Hs as [Hs| ->]; [exact Hs|lia]).
        destruct (tr_arc _ _ H s a q v As Ha X) as [Y Z]. split; [now left|].
        intros p b y Hp. apply Arc in Hp as [Hp|(-> & -> & -> & ->)]; [exact (Z _ _ _ Hp)|].
        apply (wf_arcs T W) in X. lia.
      * split; [now right|]. intros p b y Hp. apply Arc in Hp as [Hp|(-> & -> & _ & _)]; [|auto].
        apply (wf_arcs T W) in Hp. lia.
    + intros s a Hs Ha. rewrite E'. destruct (Z.eq_dec a tag) as [->|Na].
      * destruct Hr as [Hr|Hr]; [congruence|]. destruct (Nat.eq_dec s e) as [->|Ne].
        -- rewrite arcs_add_same by lia. rewrite N5. change tag with (a_tag (tag, (nstates T, w))) at 1.
           rewrite range_insert_same. cbn [a_tag fst]. rewrite Hr. cbn. lia.
        -- rewrite arcs_add_other by exact Ne. rewrite N5. destruct Hs as [Hs| ->]; [now apply (tr_one _ _ H)|].
           unfold arcs_of. rewrite nth_overflow by (unfold nstates; lia). cbn. lia.
      * rewrite range_add_other; [rewrite N5|lia|cbn; lia]. destruct Hs as [Hs| ->]; [now apply (tr_one _ _ H)|].
        unfold arcs_of. rewrite nth_overflow by (unfold nstates; lia). cbn. lia.
  - intros u. rewrite I'. split.
    + intros R. inversion R as [X|u' p a q v R' Ha].
      * assert (Y := tr_lt _ _ H _ (tr_init _ _ H)). lia.
      * subst u q. apply Arc in Ha as [Ha|(-> & -> & _ & _)]; [apply (wf_arcs T W) in Ha; lia|].
        exists u'. split; [|reflexivity]. now apply (enlarged_reach T A T' _ _ _ En Le).
    + intros (v & R & ->). apply (reach_arc _ _ _ e _ _ w); [now apply (enlarged_reach T A T' _ _ _ En Le)|].
      apply Arc. auto.
Qed.

(** * Following an arc that is there *)
Lemma trie_follow : forall T A e tag x, trie T A -> A e -> tag <> 0 -> equal_range tag (arcs_of T e) = [x] ->
  A (a_dst x) /\ forall u, reach T (initial T) u (a_dst x) <-> exists v, reach T (initial T) v e /\ u = v ++ sym tag.
Proof.
  intros T A e tag [b [q w]] H He Ht E. cbn [a_dst fst snd].
  assert (X : In (b, (q, w)) (equal_range tag (arcs_of T e))) by (rewrite E; now left).
  apply equal_range_in in X as [X Y]. cbn in Y. subst b.
  destruct (tr_arc _ _ H e tag q w He Ht X) as [Aq U]. split; [exact Aq|]. intros u. split.
  - intros R. inversion R as [Eq|u' p a r v R' Ha].
    + exfalso. subst q. exact (tr_root _ _ H _ _ _ X).
    + subst. destruct (U _ _ _ Ha) as [-> ->]. exists u'. auto.
  - intros (v & R & ->). exact (reach_arc _ _ _ _ _ _ _ R X).
Qed.

(** * A copy of another transducer *)
Lemma add_arcs_other : forall s (g : arc -> arc) arcs t p, p <> s ->
  arcs_of (fold_left (fun t a => add_arc s (g a) t) arcs t) p = arcs_of t p.
Proof.
  intros s g arcs. induction arcs as [|x arcs IH]; intros t p H; cbn [fold_left]; [reflexivity|].
  rewrite IH by exact H. now apply arcs_add_other.
Qed.
Lemma copy_arcs_other : forall ts base i self p, (p < base)%nat -> arcs_of (copy_arcs base i ts self) p = arcs_of self p.
Proof.
  induction ts as [|arcs ts IH]; intros base i self p H; cbn [copy_arcs]; [reflexivity|].
  cbv zeta. rewrite IH by exact H.
  exact (add_arcs_other (base + i) (fun a => (a_tag a, ((base + a_dst a)%nat, a_wt a))) arcs self p ltac:(lia)).
Qed.
Lemma copy_arcs_size : forall ts base i self, nstates (copy_arcs base i ts self) = nstates self.
Proof.
  induction ts as [|arcs ts IH]; intros base i self; cbn [copy_arcs]; [reflexivity|]. cbv zeta. rewrite IH.
  clear IH. revert self. induction arcs as [|x arcs IH]; intros self; cbn [fold_left]; [reflexivity|].
  rewrite IH. apply nstates_add_arc.
Qed.
Lemma insertTransducer_ranges : forall source t self e self' u s a,
  insertTransducer source t 0 self = Ok (e, self', u) -> (source < nstates self)%nat -> (s < nstates self)%nat -> a <> 0 ->
  equal_range a (arcs_of self' s) = equal_range a (arcs_of self s).
Proof.
  intros source t self e self' u s a E Hsrc Hs Ha. unfold insertTransducer in E.
  destruct (trans t) as [|x r]; [congruence|]. destruct (joinFinals 0 t) as [j| | | |]; try discriminate.
  cbn [obind] in E. destruct (finals j) as [|[f fw] fs]; [discriminate|].
  set (s1 := mkT (initial self) (finals self) (trans self ++ map (fun _ => []) (trans j))) in *.
  assert (E' : self' = add_arc source (0, ((nstates self + initial j)%nat, 0)) (copy_arcs (nstates self) 0 (trans j) s1)) by congruence.
  rewrite E'. rewrite range_add_other.
  - rewrite copy_arcs_other by exact Hs. unfold arcs_of, s1. cbn [trans]. now rewrite app_nth1.
  - rewrite copy_arcs_size. unfold s1, nstates. cbn [trans]. rewrite app_length. unfold nstates in *. lia.
  - cbn. lia.
Qed.

Definition ranges_kept (T T' : transducer) : Prop :=
  forall s a, (s < nstates T)%nat -> a <> 0 -> equal_range a (arcs_of T' s) = equal_range a (arcs_of T s).

Lemma inserted_enlarged : forall T A e u T', trie T A -> A e -> wf u -> inserted 0 e T u T' -> ranges_kept T T' ->
  enlarged T A T' /\ trie T' A
  /\ (forall i x, reach T' (initial T') x (nstates T + i) <->
        exists v y, reach T (initial T) v e /\ reach u (initial u) y i /\ x = v ++ y)
  /\ forall i, quiet_at u i -> quiet_at T' (nstates T + i).
Proof.
  intros T A e u T' H He Wu I Rk. assert (Le := tr_lt _ _ H e He). assert (W := tr_wf _ _ H).
  destruct I as [I1 I2 I3 I4 I5].
  assert (En : enlarged T A T').
  { constructor; auto.
    - lia.
    - intros p a q w X. apply I5. auto.
    - intros p a q w X. apply I5 in X as [X|[(p' & q' & -> & -> & X)|(-> & -> & -> & ->)]]; [auto| |]; right; split; auto; lia. }
  split; [exact En|]. split; [|split].
  - constructor; auto.
    + intros p Hp. apply (tr_lt _ _ H) in Hp. lia.
    + rewrite I2. apply (tr_init _ _ H).
    + intros p a w X. rewrite I2 in X. assert (Y := tr_lt _ _ H _ (tr_init _ _ H)).
      apply I5 in X as [X|[(p' & q' & _ & X & _)|(_ & _ & X & _)]]; [now apply (tr_root _ _ H) in X|lia|lia].
    + intros s a q w Hs Ha X. assert (Ls := tr_lt _ _ H s Hs).
      apply I5 in X as [X|[(p' & q' & -> & _ & _)|(_ & Y & _ & _)]]; [|lia|congruence].
      destruct (tr_arc _ _ H s a q w Hs Ha X) as [Aq U]. split; [exact Aq|]. assert (Lq := tr_lt _ _ H q Aq).
      intros p b v Y. apply I5 in Y as [Y|[(p' & q' & _ & -> & _)|(_ & _ & -> & _)]]; [exact (U _ _ _ Y)|lia|lia].
    + intros s a Hs Ha. rewrite (Rk s a (tr_lt _ _ H s Hs) Ha). now apply (tr_one _ _ H).
  - intros i x. rewrite I2. split.
    + intros R. remember (nstates T + i)%nat as q eqn:Eq. revert i Eq.
      induction R as [|x p a q w R IH Ha]; intros i Eq.
      * assert (Y := tr_lt _ _ H _ (tr_init _ _ H)). lia.
      * apply I5 in Ha as [Ha|[(p' & q' & -> & -> & Ha)|(-> & -> & -> & ->)]].
        -- apply (wf_arcs T W) in Ha. lia.
        -- assert (q' = i) as -> by lia. destruct (IH p' eq_refl) as (v & y & R1 & R2 & ->).
           exists v, (y ++ sym a). split; [exact R1|]. split; [exact (reach_arc _ _ _ _ _ _ _ R2 Ha)|apply app_assoc_reverse].
        -- assert (i = initial u) as -> by lia. exists x, []. split; [now apply (enlarged_reach T A T' _ _ _ En Le)|].
           split; [constructor|reflexivity].
    + intros (v & y & R1 & R2 & ->). apply (enlarged_reach T A T' _ _ _ En Le) in R1.
      apply (reach_app _ _ _ (nstates T + initial u)%nat).
      * rewrite <- (app_nil_r v). apply (reach_arc _ _ _ e 0 _ 0 R1). apply I5. right. right. auto.
      * clear R1. induction R2 as [|y p a q w R IH Ha]; [constructor|]. apply (reach_arc _ _ _ (nstates T + p)%nat a _ w IH).
        apply I5. right. left. eauto.
  - intros i Q a q w X. apply I5 in X as [X|[(p' & q' & Ep & -> & X)|(Ep & -> & _)]]; [apply has_arc_lt in X; lia| |reflexivity].
    assert (p' = i) as -> by lia. exact (Q _ _ _ X).
Qed.

(** * Final states *)
Lemma fin_insert_there : forall s w l f, finals_sorted l -> In (s, f) l -> fin_insert s w l = l.
Proof.
  intros s w l f. unfold finals_sorted. induction l as [|[s' w'] l IH]; intros H X; [destruct X|].
  inversion H as [|? ? Sl Fl]; subst. rewrite Forall_forall in Fl. cbn [fin_insert]. destruct X as [X|X].
  - assert (s' = s) as -> by congruence. now rewrite Nat.ltb_irrefl, Nat.eqb_refl.
  - assert (Y := Fl _ X). cbn [fst] in Y. replace (s <? s')%nat with false by (symmetry; apply Nat.ltb_ge; lia).
    replace (s =? s')%nat with false by (symmetry; apply Nat.eqb_neq; lia). f_equal. now apply IH.
Qed.
Lemma setFinal_there : forall T s w, wf T -> is_final T s -> setFinal s w true T = T.
Proof.
  intros T s w W (f & Hf). unfold setFinal. rewrite (fin_insert_there s w (finals T) f (wf_finals_sorted T W) Hf).
  now destruct T.
Qed.
Lemma setFinal_final : forall T s w q, wf T -> (is_final (setFinal s w true T) q <-> is_final T q \/ q = s).
Proof.
  intros T s w q W. unfold is_final, final_wt, setFinal. cbn [finals]. split.
  - intros (f & X). apply fin_insert_in in X as [X|(-> & _)]; [left; eauto|now right|apply (wf_finals_sorted T W)].
  - intros [(f & X)| ->]; [exists f; apply fin_insert_in; [apply (wf_finals_sorted T W)|now left]|].
    destruct (fin_find s (finals T)) as [v|] eqn:E.
    + apply fin_find_some in E; [|apply (wf_finals_sorted T W)]. exists v. apply fin_insert_in; [apply (wf_finals_sorted T W)|now left].
    + exists w. apply fin_insert_in; [apply (wf_finals_sorted T W)|]. right. do 2 (split; [reflexivity|]). now apply fin_find_none.
Qed.
Lemma setFinal_reach : forall T s w x p q, reach (setFinal s w true T) p x q <-> reach T p x q.
Proof.
  intros T s w x p q. split; intros R; (induction R as [|x r a q v R IH Ha]; [constructor|exact (reach_arc _ _ _ _ _ _ _ IH Ha)]).
Qed.
Lemma setFinal_trie : forall T A s w, trie T A -> (s < nstates T)%nat -> trie (setFinal s w true T) A.
Proof. intros T A s w [H1 H2 H3 H4 H5 H6] Hs. constructor; auto. now apply setFinal_wf. Qed.
Lemma setFinal_lang : forall T s w u, wf T -> (lang (setFinal s w true T) 0 u <-> lang T 0 u \/ reach T (initial T) u s).
Proof.
  intros T s w u W. rewrite !lang_reach. cbn [setFinal initial]. split.
  - intros (q & R & F). apply setFinal_reach in R. apply setFinal_final in F as [F| ->]; [left; eauto|now right|exact W].
  - intros [(q & R & F)|R]; [exists q|exists s]; (split; [now apply setFinal_reach|apply setFinal_final; auto]).
Qed.

(** * Shared endings *)
(** From [S] one stays outside [A]; the words accepted from there are [P]; [F] is final. *)
Record ending (T : transducer) (A : nat -> Prop) (S F : nat) (P : list Z -> Prop) : Prop := {
  en_start : (S < nstates T)%nat;
  en_final : is_final T F;
  en_apart : forall u q, reach T S u q -> (q < nstates T)%nat /\ ~ A q;
  en_words : forall u, P u <-> exists q, reach T S u q /\ is_final T q
}.

Lemma ending_kept : forall T A S F P T' (A' : nat -> Prop), ending T A S F P ->
  (nstates T <= nstates T')%nat ->
  (forall p a q w, has_arc T p a q w -> has_arc T' p a q w) ->
  (forall p a q w, (p < nstates T)%nat -> ~ A p -> has_arc T' p a q w -> has_arc T p a q w) ->
  (forall q, is_final T q -> is_final T' q) ->
  (forall q, (q < nstates T)%nat -> ~ A q -> is_final T' q -> is_final T q) ->
  (forall q, (q < nstates T)%nat -> A' q -> A q) ->
  ending T' A' S F P.
Proof.
  intros T A S F P T' A' [E1 E2 E3 E4] Hn Ho Hb Hf Hg HA.
  assert (R' : forall u q, reach T' S u q <-> reach T S u q).
  { intros u q. split; intros R; (induction R as [|u p a q w R IH Ha]; [constructor|]).
    - destruct (E3 _ _ IH) as [Lp Np]. exact (reach_arc _ _ _ _ _ _ _ IH (Hb _ _ _ _ Lp Np Ha)).
    - exact (reach_arc _ _ _ _ _ _ _ IH (Ho _ _ _ _ Ha)). }
  constructor; auto.
  - lia.
  - intros u q R. apply R' in R. destruct (E3 _ _ R) as [L N]. split; [lia|]. intros X. apply N. auto.
  - intros u. rewrite E4. split; intros (q & R & Fq).
    + exists q. split; [now apply R'|auto].
    + apply R' in R. destruct (E3 _ _ R) as [L N]. exists q. auto.
Qed.
Lemma ending_enlarged : forall T A S F P T' (A' : nat -> Prop), ending T A S F P -> enlarged T A T' ->
  (forall q, (q < nstates T)%nat -> A' q -> A q) -> ending T' A' S F P.
Proof.
  intros T A S F P T' A' E H HA. apply (ending_kept T A S F P T' A' E); auto.
  - apply H.
  - apply H.
  - intros p a q w L N X. apply (el_new _ _ _ H) in X as [X|[_ [X|X]]]; [exact X|contradiction|lia].
  - intros q X. now apply (enlarged_final T A T' q H).
  - intros q _ _ X. now apply (enlarged_final T A T' q H) in X.
Qed.
Lemma ending_setFinal : forall T A S F P s w, wf T -> ending T A S F P -> A s \/ (nstates T <= s)%nat ->
  ending (setFinal s w true T) A S F P.
Proof.
  intros T A S F P s w W E Hs. apply (ending_kept T A S F P _ A E); auto.
  - intros q X. apply setFinal_final; auto.
  - intros q L N X. apply setFinal_final in X as [X| ->]; [exact X| |exact W]. destruct Hs; [contradiction|lia].
Qed.
Lemma ending_setFinal_new : forall T A S F P T' s w, ending T A S F P -> enlarged T A T' -> (nstates T <= s)%nat ->
  ending (setFinal s w true T') A S F P.
Proof.
  intros T A S F P T' s w E H Hs. apply (ending_kept T A S F P _ A E); auto.
  - apply H.
  - apply H.
  - intros p a q v L N X. apply (el_new _ _ _ H) in X as [X|[_ [X|X]]]; [exact X|contradiction|lia].
  - intros q X. apply setFinal_final; [apply H|]. left. now apply (enlarged_final T A T' q H).
  - intros q L N X. apply setFinal_final in X as [X| ->]; [now apply (enlarged_final T A T' q H) in X|lia|apply H].
Qed.

(** ** Leading to an ending that is there *)
Lemma link_ending : forall T A S F P e, trie T A -> A e -> ending T A S F P ->
  exists T', linkStates e S 0 0 T = Ok T' /\ trie T' A /\ nstates T' = nstates T /\ initial T' = initial T
    /\ is_final T' F
    /\ (forall u, lang T' 0 u <-> lang T 0 u \/ exists v y, reach T (initial T) v e /\ P y /\ u = v ++ y)
    /\ (forall u q, A q -> reach T' (initial T) u q <-> reach T (initial T) u q)
    /\ (forall S2 F2 P2, ending T A S2 F2 P2 -> ending T' A S2 F2 P2).
Proof.
  intros T A S F P e H He En. assert (Le := tr_lt _ _ H e He). assert (W := tr_wf _ _ H). assert (LS := en_start _ _ _ _ _ En).
  destruct (linkStates_spec e S 0 0 T W Le LS) as (T' & E & W' & N' & I' & F' & Arcs).
  exists T'. split; [exact E|].
  assert (Fin : forall q, is_final T' q <-> is_final T q) by (intros q; unfold is_final, final_wt; now rewrite F').
  assert (Arc : forall p a q w, has_arc T' p a q w -> has_arc T p a q w \/ (p = e /\ a = 0 /\ q = S)).
  { destruct Arcs as [[-> _]|[_ Arcs]]; intros p a q w X; [auto|]. apply Arcs in X as [X|(-> & -> & -> & _)]; auto. }
  assert (Arc' : forall p a q w, has_arc T p a q w -> has_arc T' p a q w).
  { destruct Arcs as [[-> _]|[_ Arcs]]; intros p a q w X; [auto|]. apply Arcs. auto. }
  assert (Link : exists w, has_arc T' e 0 S w).
  { destruct Arcs as [[-> X]|[_ Arcs]]; [exact X|]. exists 0. apply Arcs. auto. }
  assert (Rg : forall s a, a <> 0 -> equal_range a (arcs_of T' s) = equal_range a (arcs_of T s)).
  { intros s a Ha. unfold linkStates in E. destruct ((e <? nstates T) && (S <? nstates T))%nat; [|discriminate].
    destruct (existsb _ _); [congruence|]. assert (T' = add_arc e (0, (S, 0)) T) as -> by congruence.
    apply range_add_other; [exact Le|cbn; lia]. }
  assert (NS : ~ A S) by exact (proj2 (en_apart _ _ _ _ _ En [] S (reach_here _ _))).
  assert (R' : forall u q, reach T' (initial T) u q <->
    reach T (initial T) u q \/ exists v y, reach T (initial T) v e /\ reach T S y q /\ u = v ++ y).
  { intros u q. split.
    - intros R. induction R as [|u p a q w R IH Ha]; [left; constructor|].
      apply Arc in Ha as [Ha|(-> & -> & ->)].
      + destruct IH as [IH|(v & y & R1 & R2 & ->)]; [left; exact (reach_arc _ _ _ _ _ _ _ IH Ha)|].
        right. exists v, (y ++ sym a). split; [exact R1|]. split; [exact (reach_arc _ _ _ _ _ _ _ R2 Ha)|apply app_assoc_reverse].
      + destruct IH as [IH|(v & y & R1 & R2 & ->)].
        * right. exists u, []. split; [exact IH|]. split; [constructor|reflexivity].
        * exfalso. exact (proj2 (en_apart _ _ _ _ _ En _ _ R2) He).
    - assert (Up : forall s x r, reach T s x r -> reach T' s x r).
      { intros s x r R. induction R as [|x p a r w R IH Ha]; [constructor|exact (reach_arc _ _ _ _ _ _ _ IH (Arc' _ _ _ _ Ha))]. }
      intros [R|(v & y & R1 & R2 & ->)]; [auto|]. destruct Link as (w & Hl).
      apply (reach_app _ _ _ S); [|auto]. rewrite <- (app_nil_r v). exact (reach_arc _ _ _ _ _ _ _ (Up _ _ _ R1) Hl). }
  assert (RA : forall u q, A q -> reach T' (initial T) u q <-> reach T (initial T) u q).
  { intros u q Aq. rewrite R'. split; [|auto]. intros [R|(v & y & _ & R2 & _)]; [exact R|].
    exfalso. exact (proj2 (en_apart _ _ _ _ _ En _ _ R2) Aq). }
  split; [|split; [exact N'|split; [exact I'|split; [apply Fin; apply En|split; [|split; [exact RA|]]]]]].
  - constructor; auto.
    + intros p Hp. rewrite N'. now apply (tr_lt _ _ H).
    + rewrite I'. apply (tr_init _ _ H).
    + intros p a w X. rewrite I' in X. apply Arc in X as [X|(_ & _ & X)]; [now apply (tr_root _ _ H) in X|].
      apply NS. rewrite <- X. apply (tr_init _ _ H).
    + intros s a q w Hs Ha X. apply Arc in X as [X|(_ & X & _)]; [|congruence].
      destruct (tr_arc _ _ H s a q w Hs Ha X) as [Aq U]. split; [exact Aq|]. intros p b v Y.
      apply Arc in Y as [Y|(_ & _ & ->)]; [exact (U _ _ _ Y)|contradiction].
    + intros s a Hs Ha. rewrite Rg by exact Ha. now apply (tr_one _ _ H).
  - intros u. rewrite !lang_reach, I'. split.
    + intros (q & R & Fq). apply Fin in Fq. apply R' in R as [R|(v & y & R1 & R2 & ->)]; [left; eauto|].
      right. exists v, y. split; [exact R1|]. split; [apply En; eauto|reflexivity].
    + intros [(q & R & Fq)|(v & y & R1 & Py & ->)]; [exists q; split; [apply R'; auto|now apply Fin]|].
      apply En in Py as (q & R2 & Fq). exists q. split; [|now apply Fin]. apply R'. right. eauto.
  - intros S2 F2 P2 E2. apply (ending_kept T A S2 F2 P2 T' A E2); auto.
    + lia.
    + intros p a q w _ Np X. apply Arc in X as [X|(-> & _)]; [exact X|contradiction].
    + intros q X. now apply Fin.
    + intros q _ _ X. now apply Fin.
Qed.

(** * A copy whose last state is made final, without further growth there *)
Lemma inserted_final : forall T A e u T' f fw, trie T A -> A e -> wf u -> inserted 0 e T u T' -> ranges_kept T T' ->
  finals u = [(f, fw)] ->
  let T2 := setFinal (nstates T + f) 0 true T' in
  trie T2 A
  /\ (forall x, lang T2 0 x <-> lang T 0 x \/ exists v y, reach T (initial T) v e /\ lang u 0 y /\ x = v ++ y)
  /\ (forall x q, (q < nstates T)%nat -> reach T2 (initial T) x q <-> reach T (initial T) x q)
  /\ (forall S F P, ending T A S F P -> ending T2 A S F P).
Proof.
  intros T A e u T' f fw H He Wu I Rk Hf T2.
  destruct (inserted_enlarged T A e u T' H He Wu I Rk) as (En & Tr & R & _).
  assert (Lf : (f < nstates u)%nat) by (apply (wf_finals u Wu f fw); unfold final_wt; rewrite Hf; now left).
  assert (Lu : forall y, lang u 0 y <-> reach u (initial u) y f).
  { intros y. rewrite lang_reach. split.
    - intros (q & Rq & (g & Hq)). unfold final_wt in Hq. rewrite Hf in Hq. destruct Hq as [Hq|[]]. congruence.
    - intros Ry. exists f. split; [exact Ry|]. exists fw. unfold final_wt. rewrite Hf. now left. }
  split; [apply setFinal_trie; [exact Tr|rewrite (in_size _ _ _ _ _ I); lia]|]. split; [|split].
  - intros x. unfold T2. rewrite setFinal_lang by apply En. rewrite (enlarged_lang T A T' x (tr_wf _ _ H) En), R.
    split; (intros [X|(v & y & R1 & R2 & ->)]; [auto|]; right; exists v, y; rewrite Lu in *; auto).
  - intros x q Lq. unfold T2. rewrite setFinal_reach. apply (enlarged_reach T A T' _ _ _ En Lq).
  - intros S F P E. apply (ending_setFinal_new T A S F P T'); auto. lia.
Qed.

(** ** Making a new ending *)
Lemma new_ending : forall T A e u T' f fw, trie T A -> A e -> wf u -> finals u = [(f, fw)] ->
  let T1 := snd (insertNewSingleTransduction 0 e 0 T) in
  inserted 0 (nstates T) T1 u T' -> ranges_kept T1 T' ->
  let T2 := setFinal (nstates T1 + f) 0 true T' in
  trie T2 A
  /\ (forall x, lang T2 0 x <-> lang T 0 x \/ exists v y, reach T (initial T) v e /\ lang u 0 y /\ x = v ++ y)
  /\ (forall x q, (q < nstates T)%nat -> reach T2 (initial T) x q <-> reach T (initial T) x q)
  /\ ending T2 A (nstates T) (nstates T1 + f) (lang u 0)
  /\ (forall S F P, ending T A S F P -> ending T2 A S F P).
Proof.
  intros T A e u T' f fw H He Wu Hf T1 I Rk T2. assert (W := tr_wf _ _ H). assert (Le := tr_lt _ _ H e He).
  destruct (insertNew_enlarged T A e 0 0 H He (or_introl eq_refl)) as (_ & N1 & En1 & Tr1 & Arc1 & R1).
  fold T1 in N1, En1, Tr1, Arc1, R1.
  destruct (inserted_final T1 (plus_state A (nstates T)) (nstates T) u T' f fw Tr1 (or_intror eq_refl) Wu I Rk Hf)
    as (Tr2 & L2 & R2 & E2). fold T2 in Tr2, L2, R2, E2.
  assert (I1 := el_initial _ _ _ En1).
  destruct (inserted_enlarged T1 (plus_state A (nstates T)) (nstates T) u T' Tr1 (or_intror eq_refl) Wu I Rk) as (En2 & _ & _ & _).
  assert (Lf : (f < nstates u)%nat) by (apply (wf_finals u Wu f fw); unfold final_wt; rewrite Hf; now left).
  assert (Lu : forall y, lang u 0 y <-> reach u (initial u) y f).
  { intros y. rewrite lang_reach. split.
    - intros (q & Rq & (g & Hq)). unfold final_wt in Hq. rewrite Hf in Hq. destruct Hq as [Hq|[]]. congruence.
    - intros Ry. exists f. split; [exact Ry|]. exists fw. unfold final_wt. rewrite Hf. now left. }
  assert (ArcS : has_arc T2 e 0 (nstates T) 0).
  { change (has_arc T' e 0 (nstates T) 0). apply (el_old _ _ _ En2). apply Arc1. auto. }
  assert (I2 : initial T2 = initial T) by (change (initial T2) with (initial T'); rewrite (in_initial _ _ _ _ _ I); exact I1).
  split; [|split; [|split; [|split]]].
  - apply (trie_drop T2 A (nstates T) e 0 Tr2); [|exact ArcS]. rewrite I2. apply (tr_init _ _ H).
  - intros x. rewrite L2, (enlarged_lang T A T1 x W En1). split; (intros [X|(v & y & X & Y & ->)]; [auto|]; right; exists v, y).
    + apply R1 in X as (v' & X & ->). unfold sym. cbn. rewrite app_nil_r. auto.
    + split; [|auto]. apply R1. exists v. unfold sym. cbn. rewrite app_nil_r. auto.
  - intros x q Lq. rewrite I1 in R2. rewrite R2 by lia. apply (enlarged_reach T A T1 _ _ _ En1 Lq).
  - assert (RS : forall x q, reach T2 (nstates T) x q <-> (x = [] /\ q = nstates T)
        \/ exists i, q = (nstates T1 + i)%nat /\ reach u (initial u) x i).
    { intros x q. unfold T2. rewrite setFinal_reach. split.
      - intros R. induction R as [|x p a q w R IH Ha]; [left; auto|]. right.
        apply (in_arcs _ _ _ _ _ I) in Ha as [Ha|[(p' & q' & -> & -> & Ha)|(-> & -> & -> & ->)]].
        + exfalso. apply Arc1 in Ha as [Ha|(Ep & _ & Eq & _)].
          * apply has_arc_lt in Ha. destruct IH as [[_ Ep]|(i & Ep & _)]; lia.
          * destruct IH as [[_ Eq']|(i & Eq' & _)]; lia.
        + exists q'. split; [reflexivity|]. destruct IH as [[_ X]|(i & X & Y)]; [lia|]. assert (i = p') as -> by lia.
          exact (reach_arc _ _ _ _ _ _ _ Y Ha).
        + exists (initial u). split; [reflexivity|]. destruct IH as [[-> _]|(i & X & Y)]; [constructor|lia].
      - intros [[-> ->]|(i & -> & R)]; [constructor|]. induction R as [|x p a q w R IH Ha].
        + change (@nil Z) with (@nil Z ++ sym 0). apply (reach_arc _ _ _ (nstates T) 0 _ 0); [constructor|].
          apply (in_arcs _ _ _ _ _ I). right. right. auto.
        + apply (reach_arc _ _ _ (nstates T1 + p)%nat a _ w IH). apply (in_arcs _ _ _ _ _ I). right. left. eauto. }
    assert (N2 : nstates T2 = (nstates T1 + nstates u)%nat) by exact (in_size _ _ _ _ _ I).
    assert (Fin : forall q, is_final T2 q <-> is_final T q \/ q = (nstates T1 + f)%nat).
    { intros q. unfold T2. rewrite setFinal_final by apply En2. rewrite (enlarged_final T1 _ T' q En2), (enlarged_final T A T1 q En1). tauto. }
    constructor.
    + lia.
    + apply Fin. now right.
    + intros x q R. apply RS in R as [[_ Eq]|(i & Eq & R)].
      * split; [lia|]. intros X. apply (tr_lt _ _ H) in X. lia.
      * apply reach_lt in R; [|exact Wu|apply (wf_initial u Wu)]. split; [lia|]. intros X. apply (tr_lt _ _ H) in X. lia.
    + intros x. rewrite Lu. split.
      * intros R. exists (nstates T1 + f)%nat. split; [apply RS; right; eauto|apply Fin; now right].
      * intros (q & R & Fq). apply RS in R as [[-> Eq]|(i & Eq & R)]; apply Fin in Fq as [(g & Fq)|Fq];
          try (apply (wf_finals T W) in Fq; lia); try lia. assert (i = f) as -> by lia. exact R.
  - intros S F P E. apply (ending_kept T A S F P T2 A E); auto.
    + change (nstates T2) with (nstates T'). assert (X := el_size _ _ _ En2). lia.
    + intros p a q w X. change (has_arc T' p a q w). apply (el_old _ _ _ En2), (el_old _ _ _ En1), X.
    + intros p a q w L N X. change (has_arc T' p a q w) in X.
      apply (in_arcs _ _ _ _ _ I) in X as [X|[(p' & q' & -> & _ & _)|(-> & _)]]; [|lia|lia].
      apply Arc1 in X as [X|(-> & _)]; [exact X|contradiction].
    + intros q X. unfold T2. apply setFinal_final; [apply En2|]. left. apply (enlarged_final T1 _ T' q En2), (enlarged_final T A T1 q En1), X.
    + intros q L N X. unfold T2 in X. apply setFinal_final in X as [X| ->]; [|lia|apply En2].
      apply (enlarged_final T1 _ T' q En2), (enlarged_final T A T1 q En1) in X. exact X.
Qed.

(** * Minimised transducers are trim *)
Lemma minimized_coaccessible : forall eps t m q, minimized eps t m -> (q < nstates m)%nat ->
  exists l f r, path m q l r /\ final_wt m r f.
Proof.
  intros eps t m q [(j1 & t1 & Q2 & t2 & j3 & t3 & Q4 & J1 & _ & S2 & _ & J3 & R3 & S4 & _)] Hq.
  assert (W2 := sa_wf _ _ _ _ S2). assert (A2 := sa_acc _ _ _ _ S2).
  assert (A3 : forall p, (p < nstates j3)%nat -> exists l, path j3 (initial j3) l p).
  { inversion J3 as [p f Hf E|j Hl Wj Hn Hi Hf Ha E]; subst; [exact A2|]. intros p Hp.
    assert (Up : forall p l r, path t2 p l r -> path j3 p l r).
    { intros p0 l r X. induction X; [constructor|econstructor; [apply Ha; eauto|auto]]. }
    rewrite Hi. destruct (Nat.eq_dec p (nstates t2)) as [->|Ne].
    - destruct (finals t2) as [|[p f] fs] eqn:E; [cbn in Hl; lia|].
      assert (Ff : final_wt t2 p f) by (unfold final_wt; rewrite E; now left).
      destruct (A2 p (wf_finals t2 W2 p f Ff)) as (l & Hp'). exists (l ++ [(eps, f)]).
      apply (path_snoc _ _ _ p); [auto|]. apply Ha. auto.
    - destruct (A2 p ltac:(lia)) as (l & X). exists l. auto. }
  rewrite <- (sa_size _ _ _ _ S4) in Hq.
  destruct (sa_sets _ _ _ _ S4 (nth q Q4 []) (nth_In _ _ Hq)) as (_ & Ne & Lt & Cl).
  destruct (nth q Q4 []) as [|x xs] eqn:Ex; [contradiction|].
  assert (Hx : In x (nth q Q4 [])) by (rewrite Ex; now left). clear Ne Cl.
  assert (Lx := Lt x ltac:(now left)). clear Lt Ex xs.
  rewrite (re_size _ _ R3) in Lx. destruct (A3 x Lx) as (l & Hl).
  assert (P3 : path t3 x (rev l) (initial j3)) by (apply (reversed_path j3 t3 _ _ _ R3); now rewrite rev_involutive).
  assert (F3 : is_final t3 (initial j3)) by (exists 0; unfold final_wt; rewrite (re_final _ _ R3); now left).
  clear Hl. revert q Hq Hx. remember (rev l) as l' eqn:El. remember (initial j3) as y eqn:Ey. clear El.
  induction P3 as [x|x a w z l' y Ha P IH]; intros q Hq Hx.
  - assert (X : is_final m q) by (apply (sa_final _ _ _ _ S4 q Hq); exists x; auto).
    destruct X as (f & X). exists [], f, q. split; [constructor|exact X].
  - assert (Lz : (z < nstates j3)%nat) by (rewrite <- (re_size _ _ R3); exact (wf_arcs t3 (re_wf _ _ R3) _ _ _ _ Ha)).
    destruct (silent eps (a, w)) eqn:Sil.
    + apply (IH Ey A3 Lz F3 q Hq). unfold silent in Sil. cbn in Sil. apply andb_prop in Sil as [S1' S2'].
      apply Z.eqb_eq in S1', S2'. subst.
      apply (proj2 (proj2 (proj2 (sa_sets _ _ _ _ S4 (nth q Q4 []) (nth_In _ _ Hq)))) x z Hx).
      apply (er_step _ _ _ z); [exact Ha|constructor].
    + destruct (sa_complete _ _ _ _ S4 q x a z w Hx Ha Sil) as (j & Hj).
      destruct (sa_arc _ _ _ _ S4 q a j w Hj) as (Lj & _ & Mem).
      destruct (IH Ey A3 Lz F3 j Lj) as (l2 & f & r & P2 & Fr).
      { apply Mem. exists x, z. split; [exact Hx|]. split; [exact Ha|constructor]. }
      exists ((a, w) :: l2), f, r. split; [econstructor; eauto|exact Fr].
Qed.

(** A minimised transducer with bounded words, its final states joined, has no way on from
    its final state. *)
Lemma bounded_quiet : forall t m j N, wf t -> minimized 0 t m -> joined 0 m j ->
  (forall u, lang t 0 u -> (length u <= N)%nat) -> quiet j.
Proof.
  intros t m j N W M J B p f Hf a q w Ha.
  destruct (Z.eq_dec a 0) as [|Na]; [assumption|exfalso].
  assert (Wm : wf m /\ accessible m).
  { destruct M as [(j1 & t1 & Q2 & t2 & j3 & t3 & Q4 & _ & _ & _ & _ & _ & _ & S4 & _)].
    split; [apply (sa_wf _ _ _ _ S4)|apply (sa_acc _ _ _ _ S4)]. }
  destruct Wm as [Wm Am].
  inversion J as [p0 f0 Hf0 E|j' Hl Wj Hn Hi Hf' Harc E]; subst.
  - unfold final_wt in Hf. rewrite Hf0 in Hf. destruct Hf as [Hf|[]]. assert (p0 = p) as -> by congruence.
    destruct (minimized_coaccessible 0 t j q M (wf_arcs j Wm _ _ _ _ Ha)) as (l2 & g & r & P2 & Fr).
    unfold final_wt in Fr. rewrite Hf0 in Fr. destruct Fr as [Fr|[]]. assert (r = p) as -> by congruence.
    destruct (Am p (has_arc_lt _ _ _ _ _ Ha)) as (l1 & P1).
    assert (R1 : reach j (initial j) (word_of 0 l1) p) by (apply reach_path; eauto).
    assert (R2 : reach j p (sym a ++ word_of 0 l2) p).
    { apply reach_path. exists ((a, w) :: l2). split; [econstructor; eauto|]. change ((a, w) :: l2) with ([(a, w)] ++ l2).
      now rewrite word_app, word_sym. }
    assert (Loop : forall k, exists u, reach j (initial j) u p /\ (k <= length u)%nat).
    { induction k as [|k (u & Ru & Lu)]; [exists (word_of 0 l1); split; [exact R1|lia]|].
      exists (u ++ sym a ++ word_of 0 l2). split; [exact (reach_app _ _ _ _ _ _ Ru R2)|].
      rewrite !app_length. unfold sym. replace (a =? 0) with false by lia. cbn [length]. lia. }
    destruct (Loop (S N)) as (u & Ru & Lu).
    assert (X : lang t 0 u). { apply (minimized_lang 0 t j u W M). apply lang_reach. exists p. split; [exact Ru|].
      exists f0. unfold final_wt. rewrite Hf0. now left. }
    apply B in X. lia.
  - unfold final_wt in Hf. rewrite Hf' in Hf. destruct Hf as [Hf|[]]. assert (p = nstates m) as -> by congruence.
    apply Harc in Ha as [Ha|(-> & _)]; [|congruence]. apply has_arc_lt in Ha. lia.
Qed.
