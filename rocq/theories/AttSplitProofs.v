(** AT&T files: words and punctuation. *)
From Verif Require Import Base CompressionModel SerialiserModel AlphabetModel AlphabetProofs TransducerModel TransducerSpec RelabelSpec RelabelProofs ComposeSpec AttModel AttSpec AttTextProofs AttProofs AttGraphProofs AttWalkProofs.

(** * Types only grow *)
Definition grows (a b : Z) : Prop := forall T, Z.land a T = T -> Z.land b T = T.
Lemma grows_refl : forall a, grows a a.
Proof. intros a T H. exact H. Qed.
Lemma grows_trans : forall a b c, grows a b -> grows b c -> grows a c.
Proof. intros a b c H K T E. auto. Qed.
Lemma land_lor_l : forall a b T, Z.land a T = T -> Z.land (Z.lor a b) T = T.
Proof.
  intros a b T H. apply Z.bits_inj'. intros n Hn. apply (f_equal (fun z => Z.testbit z n)) in H. rewrite Z.land_spec in *. rewrite Z.lor_spec.
  destruct (Z.testbit a n), (Z.testbit b n), (Z.testbit T n); cbn in *; congruence.
Qed.
Lemma land_lor_r : forall a b T, Z.land b T = T -> Z.land (Z.lor a b) T = T.
Proof. intros a b T H. rewrite Z.lor_comm. now apply land_lor_l. Qed.
Lemma grows_lor : forall a b, grows a (Z.lor a b).
Proof. intros a b T H. now apply land_lor_l. Qed.
Lemma grows_zero : forall b, grows 0 b.
Proof. intros b T H. rewrite Z.land_0_l in H. subst T. apply Z.land_0_r. Qed.

Definition tr_same (t t' : transduction) : Prop :=
  tr_to t' = tr_to t /\ tr_tag t' = tr_tag t /\ tr_wt t' = tr_wt t /\ grows (tr_type t) (tr_type t').
Definition retyped (g g' : graph) : Prop := forall n, Forall2 tr_same (node g n) (node g' n).
Lemma tr_same_refl : forall t, tr_same t t.
Proof. intros t. repeat split. apply grows_refl. Qed.
Lemma tr_same_trans : forall a b c, tr_same a b -> tr_same b c -> tr_same a c.
Proof. intros a b c (H1 & H2 & H3 & H4) (K1 & K2 & K3 & K4). repeat split; try congruence. eapply grows_trans; eassumption. Qed.
Lemma retyped_refl : forall g, retyped g g.
Proof. intros g n. induction (node g n); constructor; auto using tr_same_refl. Qed.
Lemma retyped_trans : forall a b c, retyped a b -> retyped b c -> retyped a c.
Proof.
  intros a b c H K n. specialize (H n). specialize (K n). revert K. generalize (node c n) as m. induction H as [|x y l l' H F IH]; intros m K; inversion K; subst; constructor; auto.
  eapply tr_same_trans; eassumption.
Qed.
Lemma retyped_length : forall g g' n, retyped g g' -> length (node g' n) = length (node g n).
Proof. intros g g' n H. specialize (H n). induction H; cbn; auto. Qed.
Lemma retyped_back : forall g g' n t', retyped g g' -> garc g' n t' -> exists t, garc g n t /\ tr_same t t'.
Proof.
  intros g g' n t' H K. specialize (H n). unfold garc in *. induction H as [|x y l l' H F IH]; [destruct K|]. destruct K as [<-|K].
  - exists x. split; [now left|exact H].
  - destruct (IH K) as (t & Ht & Hs). exists t. split; [now right|exact Hs].
Qed.
Lemma retyped_forth : forall g g' n t, retyped g g' -> garc g n t -> exists t', garc g' n t' /\ tr_same t t'.
Proof.
  intros g g' n t H K. specialize (H n). unfold garc in *. induction H as [|x y l l' H F IH]; [destruct K|]. destruct K as [<-|K].
  - exists y. split; [now left|exact H].
  - destruct (IH K) as (t' & Ht & Hs). exists t'. split; [now right|exact Hs].
Qed.
Lemma or_types_retyped : forall id ty g, retyped g (or_types id ty g).
Proof.
  intros id ty g n. unfold or_types. rewrite node_set. destruct (n =? id) eqn:E; [|apply retyped_refl]. apply Z.eqb_eq in E as ->.
  induction (node g id); cbn [map]; constructor; auto. repeat split. apply grows_lor.
Qed.
Lemma or_types_node : forall id ty g n t', garc (or_types id ty g) n t' -> n = id -> Z.land (tr_type t') ty = ty.
Proof.
  intros id ty g n t' H ->. unfold garc, or_types in H. rewrite node_set, Z.eqb_refl in H. apply in_map_iff in H as (t & <- & _). cbn [tr_type].
  apply land_lor_r. apply Z.land_diag.
Qed.

(** * Forwards *)
Definition remaining (done : list Z) (g : graph) : nat := length (flat_map (fun e => if existsb (Z.eqb (fst e)) done then [] else snd e) g).
Lemma remaining_step : forall n done g, ~ In n done -> (remaining (n :: done) g + length (node g n) <= remaining done g)%nat.
Proof.
  intros n done g Hn. unfold remaining. assert (G : forall g, (length (flat_map (fun e : Z * list transduction => if existsb (Z.eqb (fst e)) (n :: done) then [] else snd e) g) <= length (flat_map (fun e => if existsb (Z.eqb (fst e)) done then [] else snd e) g))%nat).
  { clear. induction g as [|[k l] g IH]; cbn [flat_map fst snd]; [lia|]. rewrite !app_length. cbn [existsb] in IH |- *. destruct (k =? n); cbn [orb]; destruct (existsb (Z.eqb k) done); cbn [length]; lia. }
  induction g as [|[k l] g IH]; cbn [flat_map node fst snd]; [cbn [length]; lia|]. rewrite !app_length. cbn [existsb]. rewrite (Z.eqb_sym k n). destruct (n =? k) eqn:E; cbn [orb].
  - apply Z.eqb_eq in E as ->. rewrite (proj2 (mem_out k done) Hn). cbn [length]. specialize (G g). cbn [existsb] in G. lia.
  - cbn [existsb] in IH. destruct (existsb (Z.eqb k) done); cbn [length]; lia.
Qed.
Lemma remaining_set : forall done n l g, length l = length (node g n) -> remaining done (set_node n l g) = remaining done g.
Proof.
  intros done n l g. unfold remaining. induction g as [|[k m] g IH]; cbn [set_node node flat_map fst snd]; intros E.
  - destruct l; [|discriminate]. cbn. destruct (existsb _ _); reflexivity.
  - destruct (n =? k) eqn:Ek; cbn [flat_map fst snd]; rewrite !app_length.
    + destruct (existsb (Z.eqb k) done); cbn [length]; lia.
    + rewrite IH by exact E. reflexivity.
Qed.
Lemma remaining_arcs : forall k i s done todo g todo' g' d, fwd_arcs k i s done todo g = (todo', g') -> remaining d g' = remaining d g.
Proof.
  induction k as [|k IH]; intros i s done todo g todo' g' d E; cbn [fwd_arcs] in E; [now injection E as _ <-|].
  destruct (nth_error (node g s) i); [|now injection E as _ <-]. apply (IH _ _ _ _ _ _ _ d) in E. rewrite E. apply remaining_set. now rewrite map_length.
Qed.

Section Forward.
  Context (g0 : graph) (start : Z) (T : Z).
  Definition own (t : transduction) : Prop := has_type T t.
  (** reached without an arc of the type *)
  Inductive bare : Z -> Prop :=
  | bare_start : bare start
  | bare_step n t : bare n -> garc g0 n t -> ~ own t -> bare (tr_to t).
  Definition marked (g : graph) (n : Z) : Prop := forall t, garc g n t -> has_type T t.
  Definition finv (g : graph) (n : Z) : Prop := bare n \/ marked g n.
  Lemma marked_grow : forall g g' n, retyped g g' -> marked g n -> marked g' n.
  Proof using. intros g g' n R M t' H. destruct (retyped_back _ _ _ _ R H) as (t & H1 & (_ & _ & _ & G)). apply G. now apply M. Qed.
  Lemma finv_grow : forall g g' n, retyped g g' -> finv g n -> finv g' n.
  Proof using. intros g g' n R [B|M]; [now left|right; eapply marked_grow; eassumption]. Qed.
  Lemma has_type_dec : forall t, {has_type T t} + {~ has_type T t}.
  Proof using. intros t. apply Z.eq_dec. Qed.

  (** one node *)
  Lemma fwd_arcs_ok : forall k i s done todo g, retyped g0 g -> (k + i = length (node g s))%nat -> finv g s -> (forall n, In n todo -> finv g n) ->
    exists todo' g', fwd_arcs k i s done todo g = (todo', g') /\ retyped g g' /\ (forall n, In n todo' -> finv g' n)
      /\ incl todo todo' /\ (length todo' <= length todo + k)%nat
      /\ (forall j t, (i <= j)%nat -> nth_error (node g s) j = Some t -> In (tr_to t) (done ++ todo')).
  Proof using.
    induction k as [|k IH]; intros i s done todo g R0 Ek Fs Ft; cbn [fwd_arcs].
    - exists todo, g. split; [reflexivity|]. split; [apply retyped_refl|]. split; [exact Ft|]. split; [apply incl_refl|]. split; [lia|].
      intros j t Hj H. assert (j < length (node g s))%nat by (apply nth_error_Some; congruence). lia.
    - destruct (nth_error (node g s) i) as [t1|] eqn:E1. 2:{ apply nth_error_None in E1. lia. }
      set (g1 := or_types (tr_to t1) (tr_type t1) g).
      assert (R1 : retyped g g1) by apply or_types_retyped.
      assert (G1 : garc g s t1) by (eapply nth_error_In; eassumption).
      assert (F1 : finv g1 (tr_to t1)).
      { destruct (has_type_dec t1) as [HT|HT].
        - right. intros t' Ht'. assert (K := or_types_node _ _ _ _ _ Ht' eq_refl). unfold has_type in *.
          rewrite <- HT. rewrite Z.land_assoc, K. reflexivity.
        - left. destruct Fs as [Bs|Ms]; [|exfalso; now apply HT, Ms].
          destruct (retyped_back _ _ _ _ R0 G1) as (t0 & G0 & (E & _ & _ & Gr)). rewrite E. apply bare_step with s; auto. intros K. apply HT. now apply Gr. }
      destruct (IH (S i) s done (if existsb (Z.eqb (tr_to t1)) done then todo else tr_to t1 :: todo) g1) as (todo' & g' & E & R & F & I & Ln & C).
      + eapply retyped_trans; eassumption.
      + rewrite (retyped_length g g1 s R1). lia.
      + eapply finv_grow; eassumption.
      + intros n Hn. destruct (existsb (Z.eqb (tr_to t1)) done); [eapply finv_grow; eauto|]. destruct Hn as [<-|Hn]; [exact F1|eapply finv_grow; eauto].
      + exists todo', g'. split; [exact E|]. split; [eapply retyped_trans; eassumption|]. split; [exact F|]. split; [|split].
        * intros n Hn. apply I. destruct (existsb (Z.eqb (tr_to t1)) done); [exact Hn|now right].
        * destruct (existsb (Z.eqb (tr_to t1)) done); cbn [length] in Ln; lia.
        * intros j t Hj H. destruct (Nat.eq_dec j i) as [->|D].
          -- rewrite E1 in H. injection H as <-. apply in_or_app. destruct (existsb (Z.eqb (tr_to t1)) done) eqn:M; [left; now apply mem_in|right; apply I; now left].
          -- assert (K : exists t', nth_error (node g1 s) j = Some t' /\ tr_to t' = tr_to t).
             { specialize (R1 s). clear -R1 H. revert j H. induction R1 as [|p q l l' (Q & _) F IHf]; intros [|j] H; cbn [nth_error] in *; try discriminate.
               - injection H as ->. eauto.
               - eauto. }
             destruct K as (t' & K1 & <-). apply (C j t'); [lia|exact K1].
  Qed.

  Lemma fwd_loop_ok : forall fuel done todo g, retyped g0 g -> (length todo + remaining done g <= fuel)%nat ->
    (forall n, In n (done ++ todo) -> finv g n) -> (forall n t, In n done -> garc g n t -> In (tr_to t) (done ++ todo)) ->
    exists g' done', fwd_loop fuel done todo g = Ok g' /\ retyped g g' /\ (forall n, In n done' -> finv g' n)
      /\ incl (done ++ todo) done' /\ (forall n t, In n done' -> garc g' n t -> In (tr_to t) done').
  Proof using.
    assert (STOP : forall fuel done g, fwd_loop fuel done [] g = Ok g) by (intros [|fuel]; reflexivity).
    induction fuel as [|fuel IH]; intros done todo g R0 Fu Fi Cl; (destruct todo as [|next todo]; [rewrite STOP|]); cbn [length] in Fu; try lia; cbn [fwd_loop].
    1, 2: exists g, done; rewrite app_nil_r in *; (split; [reflexivity|]); (split; [apply retyped_refl|]); (split; [exact Fi|]); split; [apply incl_refl|exact Cl].
    - destruct (existsb (Z.eqb next) done) eqn:M.
      + apply mem_in in M. destruct (IH done todo g R0) as (g' & done' & E & R & F & I & C); [lia| | |].
        * intros n Hn. apply Fi. apply in_app_or in Hn. apply in_or_app. cbn [In]. tauto.
        * intros n t Hn Ht. specialize (Cl n t Hn Ht). apply in_app_or in Cl. cbn [In] in Cl. apply in_or_app. destruct Cl as [K|[<-|K]]; auto.
        * exists g', done'. split; [exact E|]. split; [exact R|]. split; [exact F|]. split; [|exact C].
          intros n Hn. apply I. apply in_app_or in Hn. cbn [In] in Hn. apply in_or_app. destruct Hn as [K|[<-|K]]; auto.
      + apply mem_out in M.
        destruct (fwd_arcs_ok (length (node g next)) 0 next done todo g R0) as (todo' & g1 & E1 & R1 & F1 & I1 & L1 & C1); [lia| | |].
        { apply Fi. apply in_or_app. right. now left. }
        { intros n Hn. apply Fi. apply in_or_app. right. now right. }
        rewrite E1. assert (RS := remaining_step next done g M). assert (RE := remaining_arcs _ _ _ _ _ _ _ _ (next :: done) E1).
        destruct (IH (next :: done) todo' g1) as (g' & done' & E & R & F & I & C).
        * eapply retyped_trans; eassumption.
        * lia.
        * intros n Hn. apply in_app_or in Hn as [[<-|Hn]|Hn]; [| |now apply F1].
          -- eapply finv_grow; [exact R1|]. apply Fi. apply in_or_app. right. now left.
          -- eapply finv_grow; [exact R1|]. apply Fi. apply in_or_app. now left.
        * intros n t Hn Ht. destruct (retyped_back _ _ _ _ R1 Ht) as (t0 & Ht0 & (Et & _)). rewrite Et.
          destruct Hn as [<-|Hn].
          -- apply In_nth_error in Ht0 as (j & Hj). apply (C1 j) in Hj; [|lia]. apply in_app_or in Hj. cbn [app In]. rewrite in_app_iff. tauto.
          -- specialize (Cl n t0 Hn Ht0). apply in_app_or in Cl. cbn [app In] in *. rewrite in_app_iff. destruct Cl as [K|[K|K]]; auto.
        * exists g', done'. split; [exact E|]. split; [eapply retyped_trans; eassumption|]. split; [exact F|]. split; [|exact C].
          intros n Hn. apply I. cbn [app In]. rewrite in_app_iff. apply in_app_or in Hn as [Hn|[<-|Hn]]; auto.
  Qed.
End Forward.

Inductive reached (g : graph) (start : Z) : Z -> Prop :=
| re_start : reached g start start
| re_step n t : reached g start n -> garc g n t -> reached g start (tr_to t).
Lemma forwards_ok : forall start g, exists g', classify_forwards start g = Ok g' /\ retyped g g'
  /\ (forall T n t, reached g start n -> garc g' n t -> ~ bare g start T n -> has_type T t).
Proof.
  intros start g. unfold classify_forwards.
  assert (PRE : forall T, exists g' done', fwd_loop (S (narcs g)) [] [start] g = Ok g' /\ retyped g g' /\ (forall n, In n done' -> finv g start T g' n)
      /\ incl ([] ++ [start]) done' /\ (forall n t, In n done' -> garc g' n t -> In (tr_to t) done')).
  { intros T. apply fwd_loop_ok.
    - apply retyped_refl.
    - cbn [length]. unfold remaining, narcs. cbn [existsb].
      change (fun e : Z * list transduction => snd e) with (@snd Z (list transduction)). lia.
    - intros n [<-|[]]. left. constructor.
    - intros n t []. }
  destruct (PRE 0) as (g' & _ & E & R & _). exists g'. split; [exact E|]. split; [exact R|].
  intros T n t Hn Ht Hb. destruct (PRE T) as (g'' & done' & E' & _ & F & I & C). rewrite E in E'. injection E' as <-.
  assert (D : In n done').
  { clear -Hn R I C. induction Hn as [|n t Hn IH Ht]; [apply I; now left|]. destruct (retyped_forth _ _ _ _ R Ht) as (t' & Ht' & (<- & _)). eapply C; eassumption. }
  destruct (F n D) as [B|M]; [contradiction|]. now apply M.
Qed.

(** * Backwards *)
Definition tr_like (t t' : transduction) : Prop := tr_to t' = tr_to t /\ tr_tag t' = tr_tag t /\ tr_wt t' = tr_wt t.
Definition shaped (g g' : graph) : Prop := forall n, Forall2 tr_like (node g n) (node g' n).
Lemma tr_like_refl : forall t, tr_like t t.
Proof. intros t. repeat split. Qed.
Lemma shaped_refl : forall g, shaped g g.
Proof. intros g n. induction (node g n); constructor; auto using tr_like_refl. Qed.
Lemma shaped_trans : forall a b c, shaped a b -> shaped b c -> shaped a c.
Proof.
  intros a b c H K n. specialize (H n). specialize (K n). revert K. generalize (node c n) as m. induction H as [|x y l l' H F IH]; intros m K; inversion K as [|? z ? ? (K1 & K2 & K3)]; subst; constructor; auto.
  destruct H as (H1 & H2 & H3). repeat split; congruence.
Qed.
Lemma retyped_shaped : forall g g', retyped g g' -> shaped g g'.
Proof. intros g g' H n. specialize (H n). induction H as [|x y l l' (H1 & H2 & H3 & _) F IH]; constructor; auto. repeat split; assumption. Qed.
Lemma shaped_back : forall g g' n t', shaped g g' -> garc g' n t' -> exists t, garc g n t /\ tr_like t t'.
Proof.
  intros g g' n t' H K. specialize (H n). unfold garc in *. induction H as [|x y l l' H F IH]; [destruct K|]. destruct K as [<-|K].
  - exists x. split; [now left|exact H].
  - destruct (IH K) as (t & Ht & Hs). exists t. split; [now right|exact Hs].
Qed.
Lemma set_type_shaped : forall s i ty g, shaped g (set_type s i ty g).
Proof.
  intros s i ty g n. unfold set_type. rewrite node_set. destruct (n =? s) eqn:En; [|apply shaped_refl]. apply Z.eqb_eq in En as ->.
  revert i. induction (node g s) as [|t l IH]; intros [|i]; cbn [upd]; constructor; auto using tr_like_refl; [repeat split|].
  clear. induction l; constructor; auto using tr_like_refl.
Qed.
Lemma bwd_arcs_shaped : forall rec, (forall s path g ty g', rec s path g = Ok (ty, g') -> shaped g g') ->
  forall k i s path type g ty g', bwd_arcs rec k i s path type g = Ok (ty, g') -> shaped g g'.
Proof.
  intros rec HR. induction k as [|k IH]; intros i s path type g ty g' E; cbn [bwd_arcs] in E; [injection E as _ <-; apply shaped_refl|].
  destruct (nth_error (node g s) i) as [t1|] eqn:E1; [|injection E as _ <-; apply shaped_refl].
  destruct (negb (tr_type t1 =? 0)) eqn:Z0; [now apply IH in E|]. destruct (existsb (Z.eqb (tr_to t1)) path); [discriminate|].
  destruct (rec (tr_to t1) (tr_to t1 :: path) g) as [[ty1 g1]| | | |] eqn:R1; cbn [obind] in E; try discriminate.
  apply IH in E. apply HR in R1. eapply shaped_trans; [exact R1|]. eapply shaped_trans; [|exact E]. apply set_type_shaped.
Qed.
Lemma backwards_shaped : forall fuel fins s path g ty g', classify_backwards fuel fins s path g = Ok (ty, g') -> shaped g g'.
Proof.
  induction fuel as [|fuel IH]; intros fins s path g ty g' E; cbn [classify_backwards] in E; [discriminate|].
  destruct (zfind s fins); [discriminate|]. eapply bwd_arcs_shaped; [|exact E]. intros. eapply IH; eassumption.
Qed.
Lemma gpath_shaped : forall T a g g' n tr n', shaped g g' -> gpath T g' a n tr n' -> gpath 0 g a n tr n'.
Proof.
  intros T a g g' n tr n' S H. induction H as [n|n t' p tr n' G _ D H IH]; [constructor|].
  destruct (shaped_back _ _ _ _ S G) as (t & Gt & (E1 & E2 & E3)). rewrite E3. econstructor; [exact Gt| |rewrite <- E2; exact D|rewrite <- E1; exact IH].
  unfold has_type. apply Z.land_0_r.
Qed.

(** A node whose arcs all have a type. *)
Definition all_typed (g : graph) (n : Z) : Prop := forall t, garc g n t -> tr_type t <> 0.
Definition union_of (l : list transduction) : Z := fold_left (fun ty t => Z.lor ty (tr_type t)) l 0.
Lemma bwd_typed : forall rec k i s path type g, all_typed g s -> (k + i = length (node g s))%nat ->
  bwd_arcs rec k i s path type g = Ok (fold_left (fun ty t => Z.lor ty (tr_type t)) (skipn i (node g s)) type, g).
Proof.
  intros rec. induction k as [|k IH]; intros i s path type g A E; cbn [bwd_arcs].
  - rewrite skipn_all2 by lia. reflexivity.
  - destruct (nth_error (node g s) i) as [t1|] eqn:E1. 2:{ apply nth_error_None in E1. lia. }
    assert (N : tr_type t1 <> 0) by (apply A; eapply nth_error_In; eassumption). apply Z.eqb_neq in N. rewrite N. cbn [negb].
    rewrite (IH (S i)) by (auto; lia). do 2 f_equal. apply nth_error_split in E1 as (l1 & l2 & -> & <-).
    assert (F2 : skipn (length l1) (l1 ++ t1 :: l2) = t1 :: l2) by (rewrite skipn_app, skipn_all, Nat.sub_diag; reflexivity).
    assert (F4 : skipn (S (length l1)) (l1 ++ t1 :: l2) = l2).
    { replace (l1 ++ t1 :: l2) with ((l1 ++ [t1]) ++ l2) by (rewrite <- app_assoc; reflexivity).
      replace (S (length l1)) with (length (l1 ++ [t1])) by (rewrite app_length; cbn; lia). rewrite skipn_app, skipn_all, Nat.sub_diag. reflexivity. }
    rewrite F2, F4. reflexivity.
Qed.
Lemma backwards_typed : forall fuel fins s path g, all_typed g s -> zfind s fins = None ->
  classify_backwards (S fuel) fins s path g = Ok (union_of (node g s), g).
Proof. intros fuel fins s path g A F. cbn [classify_backwards]. rewrite F. rewrite bwd_typed by (auto; lia). reflexivity. Qed.

(** The arcs of the first node lead to such nodes. *)
Definition settle (g : graph) (t : transduction) : transduction := mkTr (tr_to t) (tr_tag t) (tr_wt t) (union_of (node g (tr_to t))).
Lemma node_upd_other : forall s i ty g n, n <> s -> node (set_type s i ty g) n = node g n.
Proof. intros s i ty g n H. unfold set_type. rewrite node_set. apply Z.eqb_neq in H. now rewrite H. Qed.
Lemma bwd_start : forall fuel fins g0 k i g type,
  (forall n, n <> 0 -> node g n = node g0 n) -> (k + i = length (node g0 0))%nat ->
  node g 0 = map (settle g0) (firstn i (node g0 0)) ++ skipn i (node g0 0) ->
  (forall t, garc g0 0 t -> tr_type t = 0 /\ tr_to t <> 0 /\ all_typed g0 (tr_to t) /\ zfind (tr_to t) fins = None) ->
  exists ty g', bwd_arcs (classify_backwards (S fuel) fins) k i 0 [] type g = Ok (ty, g')
    /\ (forall n, n <> 0 -> node g' n = node g0 n) /\ node g' 0 = map (settle g0) (node g0 0).
Proof.
  intros fuel fins g0. induction k as [|k IH]; intros i g type EO Ek E0 H; cbn [bwd_arcs].
  - exists type, g. split; [reflexivity|]. split; [exact EO|]. rewrite E0. rewrite firstn_all2, skipn_all2 by lia. apply app_nil_r.
  - assert (K : exists t1, nth_error (node g0 0) i = Some t1).
    { destruct (nth_error (node g0 0) i) eqn:E; [eauto|]. apply nth_error_None in E. lia. }
    destruct K as (t1 & E1). assert (E1' := E1). apply nth_error_split in E1 as (l1 & l2 & EL & <-).
    assert (F1 : firstn (length l1) (node g0 0) = l1) by (rewrite EL, firstn_app, firstn_all, Nat.sub_diag; cbn; apply app_nil_r).
    assert (F2 : skipn (length l1) (node g0 0) = t1 :: l2) by (rewrite EL, skipn_app, skipn_all, Nat.sub_diag; reflexivity).
    assert (F3 : firstn (S (length l1)) (node g0 0) = l1 ++ [t1]).
    { rewrite EL. replace (l1 ++ t1 :: l2) with ((l1 ++ [t1]) ++ l2) by (rewrite <- app_assoc; reflexivity).
      replace (S (length l1)) with (length (l1 ++ [t1])) by (rewrite app_length; cbn; lia). rewrite firstn_app, firstn_all, Nat.sub_diag. cbn. apply app_nil_r. }
    assert (F4 : skipn (S (length l1)) (node g0 0) = l2).
    { rewrite EL. replace (l1 ++ t1 :: l2) with ((l1 ++ [t1]) ++ l2) by (rewrite <- app_assoc; reflexivity).
      replace (S (length l1)) with (length (l1 ++ [t1])) by (rewrite app_length; cbn; lia). rewrite skipn_app, skipn_all, Nat.sub_diag. reflexivity. }
    rewrite F1, F2 in E0.
    assert (E2 : nth_error (node g 0) (length l1) = Some t1).
    { rewrite E0, nth_error_app2; rewrite map_length; [|lia]. rewrite Nat.sub_diag. reflexivity. }
    rewrite E2. destruct (H t1) as (Z0 & N0 & A & Fn); [eapply nth_error_In; eassumption|]. rewrite Z0. cbn [Z.eqb negb existsb].
    assert (A' : all_typed g (tr_to t1)). { intros t. unfold garc. rewrite EO by exact N0. apply A. }
    rewrite backwards_typed by assumption. cbn [obind]. rewrite EO by exact N0.
    apply IH.
    + intros n Hn. rewrite node_upd_other by exact Hn. now apply EO.
    + lia.
    + rewrite F3, F4. unfold set_type. rewrite node_set. cbn [Z.eqb]. rewrite E0. rewrite map_app. cbn [map]. rewrite <- app_assoc. cbn [app].
      clear. induction l1 as [|q l1 IHl]; cbn [length map app upd]; [reflexivity|]. now rewrite IHl.
    + exact H.
Qed.
Lemma union_has : forall T l, (T = 1 \/ T = 2) -> (Z.land (union_of l) T = T <-> exists t, In t l /\ has_type T t).
Proof.
  intros T l HT. unfold union_of.
  assert (LOR : forall a b, Z.land (Z.lor a b) T = T <-> Z.land a T = T \/ Z.land b T = T).
  { intros a b. split; [|intros [H|H]; [now apply land_lor_l|now apply land_lor_r]]. intros H.
    assert (BIT : forall z, Z.land z T = T <-> Z.testbit z (T - 1) = true).
    { assert (ET : T = 2 ^ (T - 1)) by (destruct HT as [-> | ->]; reflexivity). assert (PT : 0 <= T - 1) by lia.
      assert (TT : Z.testbit T (T - 1) = true) by (destruct HT as [-> | ->]; reflexivity).
      intros z. split; intros K.
      + apply (f_equal (fun q => Z.testbit q (T - 1))) in K. rewrite Z.land_spec, TT, andb_true_r in K. exact K.
      + apply Z.bits_inj'. intros n Hn. rewrite Z.land_spec. destruct (Z.eq_dec n (T - 1)) as [->|D]; [now rewrite K|].
        assert (Z.testbit T n = false) as ->; [|apply andb_false_r]. rewrite ET. apply Z.pow2_bits_false. lia. }
    rewrite BIT in *. rewrite Z.lor_spec in H. rewrite BIT. apply orb_true_iff in H. rewrite <- BIT. rewrite <- BIT in H. exact H. }
  assert (G : forall l z, Z.land (fold_left (fun ty t => Z.lor ty (tr_type t)) l z) T = T <-> Z.land z T = T \/ exists t, In t l /\ has_type T t).
  { clear l. induction l as [|t l IH]; intros z; cbn [fold_left].
    - split; [now left|]. intros [H|(t & [] & _)]. exact H.
    - rewrite IH, LOR. cbn [In]. split.
      + intros [[H|H]|(t' & H & K)]; [now left|right; exists t; auto|right; exists t'; auto].
      + intros [H|(t' & [<-|H] & K)]; [tauto|left; now right|right; exists t'; auto]. }
  rewrite G. rewrite Z.land_0_l. split; [intros [H|H]; [lia|exact H]|now right].
Qed.
