(** sorted_vector refines a mathematical set. *)
From Coq Require Export Sorted.
From Verif Require Import Base SortedVectorModel.

(** A strict total order given by a boolean function, with its equality. *)
Record strict_total {A} (ltb eqb : A -> A -> bool) : Prop := {
  st_irrefl : forall a, ltb a a = false;
  st_trans : forall a b c, ltb a b = true -> ltb b c = true -> ltb a c = true;
  st_total : forall a b, ltb a b = false -> ltb b a = false -> a = b;
  st_eqb : forall a b, eqb a b = true <-> a = b
}.

Section Proofs.
  Context {A : Type} (ltb eqb : A -> A -> bool) (ST : strict_total ltb eqb).

  Definition slt (a b : A) : Prop := ltb a b = true.
  Definition sle (a b : A) : Prop := ltb b a = false.
  (** Strictly increasing. *)
  Definition ssorted (l : list A) : Prop := StronglySorted slt l.
  Definition wsorted (l : list A) : Prop := StronglySorted sle l.

  Lemma slt_sle : forall a b, slt a b -> sle a b.
  Proof.
    intros a b H. unfold sle. destruct (ltb b a) eqn:E; [|reflexivity].
    assert (F := st_trans _ _ ST _ _ _ H E). rewrite (st_irrefl _ _ ST) in F. discriminate.
  Qed.
  Lemma sle_refl : forall a, sle a a.
  Proof. intros a. apply (st_irrefl _ _ ST). Qed.
  Lemma sle_trans : forall a b c, sle a b -> sle b c -> sle a c.
  Proof.
    unfold sle. intros a b c H1 H2. destruct (ltb c a) eqn:E; [|reflexivity].
    destruct (ltb a b) eqn:F.
    - now rewrite (st_trans _ _ ST _ _ _ E F) in H2.
    - assert (a = b) by now apply (st_total _ _ ST). subst. congruence.
  Qed.
  Lemma sle_slt_trans : forall a b c, sle a b -> slt b c -> slt a c.
  Proof.
    intros a b c H1 H2. destruct (ltb a b) eqn:F.
    - exact (st_trans _ _ ST _ _ _ F H2).
    - assert (a = b) by now apply (st_total _ _ ST). now subst.
  Qed.
  Lemma slt_sle_trans : forall a b c, slt a b -> sle b c -> slt a c.
  Proof.
    intros a b c H1 H2. destruct (ltb b c) eqn:F.
    - exact (st_trans _ _ ST _ _ _ H1 F).
    - assert (b = c) by now apply (st_total _ _ ST). now subst.
  Qed.
  Lemma sle_neq : forall a b, sle a b -> a <> b -> slt a b.
  Proof.
    intros a b H1 H2. unfold slt. destruct (ltb a b) eqn:E; [reflexivity|].
    exfalso. apply H2. now apply (st_total _ _ ST).
  Qed.
  Lemma slt_irrefl : forall a, ~ slt a a.
  Proof. intros a H. unfold slt in H. rewrite (st_irrefl _ _ ST) in H. discriminate. Qed.

  (** ** lower_bound *)
  Lemma lower_bound_le : forall t l, (lower_bound ltb t l <= length l)%nat.
  Proof.
    induction l as [|x l IH]; cbn; [lia|]. destruct (ltb x t); cbn; lia.
  Qed.

  Lemma lower_bound_split : forall t l, ssorted l ->
    Forall (fun x => slt x t) (firstn (lower_bound ltb t l) l)
    /\ Forall (fun x => sle t x) (skipn (lower_bound ltb t l) l).
  Proof.
    induction l as [|x l IH]; intros H; cbn [lower_bound].
    - split; constructor.
    - inversion H as [|? ? Hl Hx]; subst. destruct (ltb x t) eqn:E; cbn [firstn skipn].
      + destruct (IH Hl) as [H1 H2]. split; [constructor; assumption|exact H2].
      + split; constructor.
        * exact E.
        * revert Hx. apply Forall_impl. intros y Hy. eapply sle_trans; [exact E|now apply slt_sle].
  Qed.

  Lemma ssorted_app : forall l1 l2, ssorted l1 -> ssorted l2 ->
    (forall x y, In x l1 -> In y l2 -> slt x y) -> ssorted (l1 ++ l2).
  Proof.
    induction l1 as [|x l1 IH]; intros l2 H1 H2 H; cbn; [exact H2|].
    inversion H1 as [|? ? Hl Hx]; subst. constructor.
    - apply IH; auto. intros a b Ha Hb. apply H; [now right|exact Hb].
    - apply Forall_app. split; [exact Hx|]. apply Forall_forall. intros y Hy. apply H; [now left|exact Hy].
  Qed.

  Lemma ssorted_app_inv : forall l1 l2, ssorted (l1 ++ l2) -> ssorted l1 /\ ssorted l2
    /\ (forall x y, In x l1 -> In y l2 -> slt x y).
  Proof.
    induction l1 as [|x l1 IH]; intros l2 H; cbn in H.
    - split; [constructor|]. split; [exact H|]. intros a b [].
    - inversion H as [|? ? Hl Hx]; subst. destruct (IH l2 Hl) as (H1 & H2 & H3).
      apply Forall_app in Hx as [Hx1 Hx2]. split; [constructor; assumption|]. split; [exact H2|].
      intros a b [->|Ha] Hb; [|now apply H3]. rewrite Forall_forall in Hx2. auto.
  Qed.

  (** ** insert *)
  Lemma sv_insert_cases : forall t l, ssorted l ->
    (In t l /\ sv_insert ltb t l = l)
    \/ (~ In t l /\ sv_insert ltb t l = insert_at (lower_bound ltb t l) t l).
  Proof.
    intros t l H. destruct (lower_bound_split t l H) as [H1 H2].
    assert (Hl : forall x, nth_error l (lower_bound ltb t l) = Some x ->
      exists r, skipn (lower_bound ltb t l) l = x :: r).
    { intros x Hx. revert Hx. generalize (lower_bound ltb t l). clear. induction l as [|y l IH].
      - intros [|n] Hn; discriminate.
      - intros [|n] Hn; cbn in *; [injection Hn as ->; eauto|auto]. }
    assert (Hnot : forall x, nth_error l (lower_bound ltb t l) = Some x -> slt t x -> ~ In t l).
    { intros x Hx Hlt Hin. destruct (Hl x Hx) as [r Hr].
      rewrite <- (firstn_skipn (lower_bound ltb t l) l) in Hin. apply in_app_or in Hin as [G|G].
      - rewrite Forall_forall in H1. apply (slt_irrefl t). now apply H1.
      - rewrite Hr in G. destruct G as [->|G]; [now apply (slt_irrefl t)|].
        assert (S2 : ssorted (skipn (lower_bound ltb t l) l)).
        { rewrite <- (firstn_skipn (lower_bound ltb t l) l) in H. now apply ssorted_app_inv in H. }
        rewrite Hr in S2. inversion S2 as [|? ? _ Hfa]; subst. rewrite Forall_forall in Hfa.
        apply (slt_irrefl t). eapply st_trans; eauto. now apply Hfa. }
    assert (Hend : nth_error l (lower_bound ltb t l) = None -> ~ In t l).
    { intros Hn Hin. apply nth_error_None in Hn.
      rewrite <- (firstn_skipn (lower_bound ltb t l) l) in Hin. rewrite skipn_all2 in Hin by exact Hn.
      rewrite app_nil_r in Hin. rewrite Forall_forall in H1. apply (slt_irrefl t). now apply H1. }
    assert (Hgen : match nth_error l (lower_bound ltb t l) with
        | None => insert_at (lower_bound ltb t l) t l
        | Some x => if ltb x t || ltb t x then insert_at (lower_bound ltb t l) t l else l
        end = sv_insert ltb t l) by (destruct l; reflexivity).
    rewrite <- Hgen. destruct (nth_error l (lower_bound ltb t l)) as [x|] eqn:E; [|right; auto].
    destruct (Hl x eq_refl) as [r Hr]. rewrite Hr in H2. inversion H2 as [|? ? Hx _]; subst.
    rewrite Hx. cbn [orb]. destruct (ltb t x) eqn:F.
    - right. split; [now apply (Hnot x)|reflexivity].
    - left. split; [|reflexivity]. assert (t = x) by now apply (st_total _ _ ST). subst.
      eapply nth_error_In; eauto.
  Qed.

  Lemma in_insert_at : forall i t (l : list A) x, In x (insert_at i t l) <-> x = t \/ In x l.
  Proof.
    intros i t l x. unfold insert_at. rewrite in_app_iff. cbn [In].
    rewrite <- (firstn_skipn i l) at 3. rewrite in_app_iff. intuition congruence.
  Qed.

  Lemma sv_insert_in : forall t l x, ssorted l -> (In x (sv_insert ltb t l) <-> x = t \/ In x l).
  Proof.
    intros t l x H. destruct (sv_insert_cases t l H) as [[Hi ->]|[_ ->]].
    - split; [auto|]. intros [->|]; auto.
    - apply in_insert_at.
  Qed.

  Lemma sv_insert_sorted : forall t l, ssorted l -> ssorted (sv_insert ltb t l).
  Proof.
    intros t l H. destruct (sv_insert_cases t l H) as [[_ ->]|[Hn ->]]; [exact H|].
    destruct (lower_bound_split t l H) as [H1 H2]. unfold insert_at.
    rewrite <- (firstn_skipn (lower_bound ltb t l) l) in H. apply ssorted_app_inv in H as (S1 & S2 & S3).
    rewrite Forall_forall in H1, H2. apply ssorted_app; [exact S1| |].
    - constructor; [exact S2|]. apply Forall_forall. intros x Hx. apply sle_neq; [now apply H2|].
      intros ->. apply Hn. rewrite <- (firstn_skipn (lower_bound ltb x l) l). apply in_or_app. now right.
    - intros x y Hx [<-|Hy]; [now apply H1|now apply S3].
  Qed.

  (** ** merge, sort, unique *)
  Lemma merge_in : forall a b x, In x (merge ltb a b) <-> In x a \/ In x b.
  Proof.
    induction a as [|y a IHa]; intros b x.
    - destruct b; cbn; tauto.
    - induction b as [|z b IHb]; [cbn; tauto|].
      cbn [merge]. destruct (ltb z y).
      + cbn [In]. change ((fix merge_a (b : list A) : list A := _) b) with (merge ltb (y :: a) b).
        rewrite IHb. cbn [In]. tauto.
      + cbn [In]. rewrite IHa. cbn [In]. tauto.
  Qed.

  Lemma merge_sorted : forall a b, wsorted a -> wsorted b -> wsorted (merge ltb a b).
  Proof.
    induction a as [|y a IHa]; intros b Ha Hb; [destruct b; exact Hb|].
    induction b as [|z b IHb]; [exact Ha|].
    inversion Ha as [|? ? Sa Fa]; subst. inversion Hb as [|? ? Sb Fb]; subst.
    cbn [merge]. destruct (ltb z y) eqn:E.
    - change ((fix merge_a (b : list A) : list A := _) b) with (merge ltb (y :: a) b).
      constructor; [now apply IHb|]. apply Forall_forall. intros x Hx. apply merge_in in Hx as [[<-|Hx]|Hx].
      + apply slt_sle; exact E.
      + rewrite Forall_forall in Fa. eapply sle_trans; [apply slt_sle; exact E|]. now apply Fa.
      + rewrite Forall_forall in Fb. now apply Fb.
    - constructor; [now apply IHa|]. apply Forall_forall. intros x Hx. apply merge_in in Hx as [Hx|[<-|Hx]].
      + rewrite Forall_forall in Fa. now apply Fa.
      + exact E.
      + rewrite Forall_forall in Fb. eapply sle_trans; [exact E|]. now apply Fb.
  Qed.

  Lemma sort_insert_in : forall t l x, In x (sort_insert ltb t l) <-> x = t \/ In x l.
  Proof.
    induction l as [|y l IH]; intros x; cbn; [intuition|].
    destruct (ltb t y); cbn [In]; [intuition|]. rewrite IH. intuition.
  Qed.

  Lemma sort_in : forall l x, In x (sort ltb l) <-> In x l.
  Proof.
    induction l as [|y l IH]; intros x; cbn [sort In]; [tauto|]. rewrite sort_insert_in, IH. intuition.
  Qed.

  Lemma sort_insert_sorted : forall t l, wsorted l -> wsorted (sort_insert ltb t l).
  Proof.
    induction l as [|y l IH]; intros H; cbn [sort_insert]; [repeat constructor|].
    inversion H as [|? ? Sl Fl]; subst. destruct (ltb t y) eqn:E.
    - constructor; [exact H|]. constructor; [apply slt_sle; exact E|]. rewrite Forall_forall in Fl |- *.
      intros x Hx. eapply sle_trans; [apply slt_sle; exact E|]. now apply Fl.
    - constructor; [now apply IH|]. apply Forall_forall. intros x Hx.
      apply sort_insert_in in Hx as [->|Hx]; [exact E|]. rewrite Forall_forall in Fl. now apply Fl.
  Qed.

  Lemma sort_sorted : forall l, wsorted (sort ltb l).
  Proof. induction l as [|x l IH]; cbn; [constructor|now apply sort_insert_sorted]. Qed.

  Lemma is_sorted_from_sorted : forall l x, is_sorted_from ltb x l = true -> wsorted (x :: l).
  Proof.
    induction l as [|y l IH]; intros x H; [repeat constructor|]. cbn in H.
    destruct (ltb y x) eqn:E; [discriminate|]. assert (W := IH y H). constructor; [exact W|].
    inversion W as [|? ? _ F]; subst. constructor; [exact E|]. rewrite Forall_forall in F |- *.
    intros z Hz. eapply sle_trans; [exact E|]. now apply F.
  Qed.

  Lemma is_sorted_sorted : forall l, is_sorted ltb l = true -> wsorted l.
  Proof. intros [|x l] H; [constructor|]. now apply is_sorted_from_sorted. Qed.

  Lemma eqb_refl : forall a, eqb a a = true.
  Proof. intros a. now apply (st_eqb _ _ ST). Qed.

  Lemma unique_from_spec : forall l x, wsorted (x :: l) ->
    ssorted (unique_from eqb x l) /\ (forall y, In y (unique_from eqb x l) <-> y = x \/ In y l)
    /\ exists r, unique_from eqb x l = x :: r.
  Proof.
    induction l as [|y l IH]; intros x H.
    - cbn. split; [repeat constructor|]. split; [intuition|]. eauto.
    - inversion H as [|? ? W F]; subst. inversion F as [|? ? Hxy Fl]; subst. cbn [unique_from].
      destruct (eqb x y) eqn:E.
      + apply (st_eqb _ _ ST) in E. subst y. destruct (IH x W) as (H1 & H2 & H3).
        split; [exact H1|]. split; [|exact H3]. intros z. rewrite H2. cbn [In]. intuition.
      + destruct (IH y W) as (H1 & H2 & _). split; [|split; [|eauto]].
        * constructor; [exact H1|]. apply Forall_forall. intros z Hz. apply H2 in Hz.
          assert (Hlt : slt x y).
          { apply sle_neq; [exact Hxy|]. intros ->. now rewrite eqb_refl in E. }
          destruct Hz as [->|Hz]; [exact Hlt|]. inversion W as [|? ? _ Fy]; subst.
          rewrite Forall_forall in Fy. eapply slt_sle_trans; [exact Hlt|]. now apply Fy.
        * intros z. cbn [In]. rewrite H2. intuition.
  Qed.

  Lemma unique_sorted : forall l, wsorted l -> ssorted (unique eqb l).
  Proof. intros [|x l] H; [constructor|]. now apply unique_from_spec. Qed.
  Lemma unique_in : forall l x, wsorted l -> (In x (unique eqb l) <-> In x l).
  Proof.
    intros [|y l] x H; [reflexivity|]. cbn [unique]. destruct (unique_from_spec l y H) as (_ & H2 & _).
    rewrite H2. cbn [In]. intuition.
  Qed.

  Lemma ssorted_wsorted : forall l, ssorted l -> wsorted l.
  Proof.
    induction l as [|x l IH]; intros H; [constructor|]. inversion H as [|? ? S F]; subst.
    constructor; [now apply IH|]. revert F. apply Forall_impl. intros y. apply slt_sle.
  Qed.

  (** ** insert range *)
  Lemma sv_insert_range_spec : forall r l, ssorted l ->
    ssorted (sv_insert_range ltb eqb r l)
    /\ forall x, In x (sv_insert_range ltb eqb r l) <-> In x l \/ In x r.
  Proof.
    intros r l H.
    assert (G : ssorted (unique eqb (if is_sorted ltb r then merge ltb l r else merge ltb l (sort ltb r)))
      /\ forall x, In x (unique eqb (if is_sorted ltb r then merge ltb l r else merge ltb l (sort ltb r)))
                   <-> In x l \/ In x r).
    { assert (Hw := ssorted_wsorted l H). destruct (is_sorted ltb r) eqn:E.
      - assert (W := merge_sorted l r Hw (is_sorted_sorted r E)).
        split; [now apply unique_sorted|]. intros x. rewrite unique_in by exact W. apply merge_in.
      - assert (W := merge_sorted l (sort ltb r) Hw (sort_sorted r)).
        split; [now apply unique_sorted|]. intros x. rewrite unique_in by exact W.
        rewrite merge_in, sort_in. reflexivity. }
    destruct r as [|x [|y r]].
    - exact G.
    - cbn [sv_insert_range]. split; [now apply sv_insert_sorted|]. intros z.
      rewrite sv_insert_in by exact H. cbn [In]. intuition.
    - exact G.
  Qed.

  (** ** erase *)
  Lemma last_max : forall l d x, ssorted l -> In x l -> sle x (last l d).
  Proof.
    induction l as [|y l IH]; intros d x H Hx; [destruct Hx|]. inversion H as [|? ? S F]; subst.
    destruct l as [|z l]; [destruct Hx as [->|[]]; apply sle_refl|].
    change (last (y :: z :: l) d) with (last (z :: l) d).
    destruct Hx as [->|Hx]; [|now apply IH]. inversion F as [|? ? Hz _]; subst.
    eapply sle_trans; [apply slt_sle; exact Hz|]. apply IH; [exact S|now left].
  Qed.

  Lemma front_min : forall x l y, ssorted (x :: l) -> In y (x :: l) -> sle x y.
  Proof.
    intros x l y H [<-|Hy]; [apply sle_refl|]. inversion H as [|? ? S F]; subst.
    rewrite Forall_forall in F. apply slt_sle. now apply F.
  Qed.

  (** Where an element is, if it is there at all. *)
  Lemma lower_bound_hit : forall t l, ssorted l -> In t l ->
    nth_error l (lower_bound ltb t l) = Some t.
  Proof.
    induction l as [|x l IH]; intros H Hi; [destruct Hi|]. inversion H as [|? ? S F]; subst.
    cbn [lower_bound]. destruct (ltb x t) eqn:E.
    - cbn [nth_error]. apply IH; [exact S|]. destruct Hi as [->|Hi]; [|exact Hi].
      now apply slt_irrefl in E.
    - cbn [nth_error]. destruct Hi as [->|Hi]; [reflexivity|]. rewrite Forall_forall in F.
      assert (G := F t Hi). unfold slt in G. congruence.
  Qed.

  Lemma sv_erase_spec : forall t l, ssorted l ->
    ssorted (fst (sv_erase ltb t l))
    /\ (forall x, In x (fst (sv_erase ltb t l)) <-> In x l /\ x <> t)
    /\ (snd (sv_erase ltb t l) = true <-> In t l).
  Proof.
    intros t l H.
    assert (Hout : ~ In t l -> ssorted l /\ (forall x, In x l <-> In x l /\ x <> t)
                   /\ (false = true <-> In t l)).
    { intros Hn. split; [exact H|]. split; [|split; [discriminate|contradiction]].
      intros x. split; [|tauto]. intros Hx. split; [exact Hx|]. congruence. }
    unfold sv_erase. destruct l as [|front l'] eqn:El; [apply Hout; auto|]. rewrite <- El in *.
    assert (Hf : forall y, In y l -> sle front y) by (intros y Hy; subst l; now apply front_min with l').
    destruct (ltb (last l front) t) eqn:E1.
    { apply Hout. intros Hi. apply (last_max l front t H) in Hi. unfold sle in Hi. congruence. }
    destruct (ltb t front) eqn:E2.
    { apply Hout. intros Hi. apply Hf in Hi. unfold sle in Hi. congruence. }
    destruct (nth_error l (lower_bound ltb t l)) as [x|] eqn:E3.
    - destruct (negb (ltb x t) && negb (ltb t x)) eqn:E4.
      + apply andb_prop in E4 as [E4 E5]. apply negb_true_iff in E4, E5.
        assert (x = t) by now apply (st_total _ _ ST). subst x.
        destruct (nth_error_split l _ E3) as (l1 & l2 & -> & Hlen).
        cbn [fst snd]. unfold erase_at. rewrite <- Hlen.
        rewrite firstn_app, Nat.sub_diag, firstn_all, app_nil_r.
        replace (skipn (S (length l1)) (l1 ++ t :: l2)) with l2.
        2:{ rewrite skipn_app, skipn_all2 by lia.
            replace (S (length l1) - length l1)%nat with 1%nat by lia. reflexivity. }
        apply ssorted_app_inv in H as (S1 & S2 & S3). inversion S2 as [|? ? S4 F4]; subst.
        rewrite Forall_forall in F4. split.
        * apply ssorted_app; auto. intros a b Ha Hb. apply S3; [exact Ha|now right].
        * split.
          -- intros y. rewrite !in_app_iff. cbn [In]. split; [|intuition congruence].
             intros [G|G]; (split; [auto|]); intros ->; apply (slt_irrefl t);
               [apply S3; [exact G|now left]|now apply F4].
          -- split; [intros _|reflexivity]. apply in_or_app. right. now left.
      + apply Hout. intros Hi. rewrite (lower_bound_hit t l H Hi) in E3. injection E3 as <-.
        rewrite (st_irrefl _ _ ST) in E4. discriminate.
    - apply Hout. intros Hi. rewrite (lower_bound_hit t l H Hi) in E3. discriminate.
  Qed.

  Lemma sv_erase_range_spec : forall r l, ssorted l ->
    ssorted (sv_erase_range ltb r l)
    /\ forall x, In x (sv_erase_range ltb r l) <-> In x l /\ ~ In x r.
  Proof.
    induction r as [|t r IH]; intros l H; cbn [sv_erase_range fold_left].
    - split; [exact H|]. cbn. tauto.
    - destruct (sv_erase_spec t l H) as (H1 & H2 & _). destruct (IH _ H1) as [H3 H4].
      split; [exact H3|]. intros x. unfold sv_erase_range in H4. rewrite H4, H2. cbn [In].
      intuition congruence.
  Qed.

  (** ** find, count *)
  Lemma sv_find_spec : forall t l, ssorted l ->
    (In t l -> nth_error l (sv_find ltb t l) = Some t)
    /\ (~ In t l -> sv_find ltb t l = length l).
  Proof.
    intros t l H. unfold sv_find. destruct l as [|front l'] eqn:El; [split; [intros []|auto]|].
    rewrite <- El in *.
    assert (Hf : forall y, In y l -> sle front y) by (intros y Hy; subst l; now apply front_min with l').
    destruct (ltb (last l front) t) eqn:E1.
    { split; [|auto]. intros Hi. apply (last_max l front t H) in Hi. unfold sle in Hi. congruence. }
    destruct (ltb t front) eqn:E2.
    { split; [|auto]. intros Hi. apply Hf in Hi. unfold sle in Hi. congruence. }
    split.
    - intros Hi. rewrite (lower_bound_hit t l H Hi), (st_irrefl _ _ ST). cbn [orb].
      now apply lower_bound_hit.
    - intros Hn. destruct (nth_error l (lower_bound ltb t l)) as [x|] eqn:E3.
      + destruct (ltb x t) eqn:E4; [reflexivity|]. destruct (ltb t x) eqn:E5; [reflexivity|].
        exfalso. assert (x = t) by now apply (st_total _ _ ST). subst. apply Hn.
        eapply nth_error_In; eauto.
      + apply nth_error_None in E3. assert (G := lower_bound_le t l). lia.
  Qed.

  Lemma sv_count_spec : forall t l, ssorted l -> (sv_count ltb t l = true <-> In t l).
  Proof.
    intros t l H. destruct (sv_find_spec t l H) as [H1 H2]. unfold sv_count. split.
    - intros E.
      apply negb_true_iff in E. apply Nat.eqb_neq in E.
      assert (Hdec : In t l \/ ~ In t l).
      { clear -ST. induction l as [|x l IH]; [right; intros []|]. destruct (eqb x t) eqn:F.
        - left. left. now apply (st_eqb _ _ ST).
        - destruct IH as [IH|IH]; [left; now right|]. right. intros [G|G]; [|contradiction].
          subst. now rewrite eqb_refl in F. }
      destruct Hdec as [Hi|Hn]; [exact Hi|]. exfalso. auto.
    - intros Hi. apply negb_true_iff, Nat.eqb_neq. intros E. specialize (H1 Hi). rewrite E in H1.
      assert (length l < length l)%nat by (apply nth_error_Some; congruence). lia.
  Qed.

  (** ** intersects *)
  Lemma sv_intersects_spec : forall a b, ssorted a -> ssorted b ->
    (sv_intersects ltb eqb a b = true <-> exists x, In x a /\ In x b).
  Proof.
    induction a as [|x a IHa]; intros b Ha Hb.
    - destruct b; cbn; (split; [discriminate|intros (? & [] & _)]).
    - induction b as [|y b IHb].
      + cbn. split; [discriminate|intros (? & _ & [])].
      + inversion Ha as [|? ? Sa Fa]; subst. inversion Hb as [|? ? Sb Fb]; subst.
        cbn [sv_intersects]. destruct (eqb x y) eqn:E.
        * apply (st_eqb _ _ ST) in E. subst. split; [|reflexivity]. intros _. exists y. cbn. auto.
        * assert (Hne : x <> y) by (intros ->; now rewrite eqb_refl in E).
          destruct (ltb x y) eqn:F.
          -- rewrite IHa by assumption. split.
             ++ intros (z & H1 & H2). exists z. split; [now right|exact H2].
             ++ intros (z & [->|H1] & H2); [|exists z; auto]. exfalso.
                destruct H2 as [->|H2]; [congruence|]. rewrite Forall_forall in Fb.
                apply (slt_irrefl z). eapply (st_trans _ _ ST); [exact F|]. now apply Fb.
          -- change ((fix go (b : list A) : bool := _) b) with (sv_intersects ltb eqb (x :: a) b).
             rewrite IHb by assumption. split.
             ++ intros (z & H1 & H2). exists z. split; [exact H1|now right].
             ++ intros (z & H1 & [->|H2]); [|exists z; auto]. exfalso.
                destruct H1 as [->|H1]; [congruence|]. rewrite Forall_forall in Fa.
                assert (G := Fa z H1). unfold slt in G. congruence.
  Qed.

  (** ** Equality is determined by the elements *)
  Lemma ssorted_ext : forall a b, ssorted a -> ssorted b -> (forall x, In x a <-> In x b) -> a = b.
  Proof.
    induction a as [|x a IH]; intros b Ha Hb H.
    - destruct b as [|y b]; [reflexivity|]. exfalso. apply (proj2 (H y)). now left.
    - destruct b as [|y b]; [exfalso; apply (proj1 (H x)); now left|].
      assert (Hxy : x = y).
      { apply (st_total _ _ ST).
        - destruct (proj2 (H y) (or_introl eq_refl)) as [->|G]; [apply (st_irrefl _ _ ST)|].
          assert (L := front_min y b x Hb (proj1 (H x) (or_introl eq_refl))). exact L.
        - exact (front_min x a y Ha (proj2 (H y) (or_introl eq_refl))). }
      subst y. f_equal. inversion Ha as [|? ? Sa Fa]; subst. inversion Hb as [|? ? Sb Fb]; subst.
      rewrite Forall_forall in Fa, Fb. apply IH; auto. intros z. split; intros Hz.
      + destruct (proj1 (H z) (or_intror Hz)) as [->|G]; [|exact G].
        exfalso. apply (slt_irrefl z). now apply Fa.
      + destruct (proj2 (H z) (or_intror Hz)) as [->|G]; [|exact G].
        exfalso. apply (slt_irrefl z). now apply Fb.
  Qed.

  Lemma ssorted_NoDup : forall l, ssorted l -> NoDup l.
  Proof.
    induction l as [|x l IH]; intros H; [constructor|]. inversion H as [|? ? S F]; subst.
    constructor; [|now apply IH]. intros Hi. rewrite Forall_forall in F.
    apply (slt_irrefl x). now apply F.
  Qed.
End Proofs.

Lemma nat_strict_total : strict_total Nat.ltb Nat.eqb.
Proof.
  split; intros.
  - apply Nat.ltb_irrefl.
  - apply Nat.ltb_lt in H, H0. apply Nat.ltb_lt. lia.
  - apply Nat.ltb_ge in H, H0. lia.
  - apply Nat.eqb_eq.
Qed.

Lemma Z_strict_total : strict_total Z.ltb Z.eqb.
Proof. split; intros; lia. Qed.
