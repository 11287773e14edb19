(** Proofs for C59. *)
From Coq Require Import Permutation Sorted.
From Verif Require Import Base CompressionModel AlphabetModel AlphabetProofs StateModel StateSpec StatePathProofs
  StateProps FinalsModel FinalsProps InputModel InputProps StreamModel StreamProps ProcessorModel ProcessorProofs
  CompoundProofs LookupProps GenerationModel GenerationSpec.

(** * Texts *)
Lemma quote_written : forall t, quote t (writeEscaped t).
Proof.
  induction t as [|c t IH]; [constructor|]. cbn [writeEscaped]. destruct (is_escaped c) eqn:E; cbn [app].
  - apply qu_meta; auto. now apply meta_iff.
  - apply qu_plain; auto. rewrite <- meta_iff. congruence.
Qed.
(** What is removed *)
Fixpoint removed (prev : option Z) (t : list Z) : list Z :=
  match t with
  | [] => []
  | c :: r => if (c =? 60) && match prev with Some p => negb (p =? 92) | None => false end
              then t else removed (Some c) r
  end.
Lemma remove_split : forall t prev, t = remove_tags prev t ++ removed prev t.
Proof.
  induction t as [|c t IH]; intros prev; [reflexivity|]. cbn [remove_tags removed].
  destruct ((c =? 60) && _); [reflexivity|]. cbn [app]. f_equal. apply IH.
Qed.
Lemma remove_lemma : forall t, lemma_rest t (removeTags t) (removed None t).
Proof.
  intros t. unfold lemma_rest, removeTags.
  assert (G : forall t prev, let pre := match prev with Some p => [p] | None => [] end in
    (forall i, (length pre <= i < length pre + length (remove_tags prev t))%nat -> ~ ends_lemma (pre ++ t) i)
    /\ (removed prev t <> [] -> ends_lemma (pre ++ t) (length pre + length (remove_tags prev t)))).
  { clear. intros t. induction t as [|c t IH]; intros prev pre.
    - cbn [remove_tags removed length]. split; [intros i Hi; lia|congruence].
    - cbn [remove_tags removed].
      destruct ((c =? 60) && match prev with Some p => negb (p =? 92) | None => false end) eqn:E.
      + cbn [length]. split; [intros i Hi; lia|]. intros _. apply andb_prop in E as [E1 E2].
        apply Z.eqb_eq in E1. subst c. destruct prev as [p|]; [|discriminate]. subst pre. cbn [length app Nat.add].
        split; [reflexivity|]. exists 0%nat. split; [reflexivity|]. cbn [nth].
        apply negb_true_iff, Z.eqb_neq in E2. exact E2.
      + destruct (IH (Some c)) as [A B]. cbn [length app Nat.add] in A, B |- *.
        assert (Sh : forall i, ends_lemma (pre ++ c :: t) (length pre + S i) <-> ends_lemma (c :: t) (S i)).
        { intros i. subst pre. destruct prev as [p|]; cbn [length app Nat.add]; [|tauto].
          unfold ends_lemma. cbn [nth_error]. split.
          - intros (X & j & Ej & Hj). split; [exact X|]. exists i. split; [reflexivity|]. assert (j = S i) by lia. subst j. exact Hj.
          - intros (X & j & Ej & Hj). split; [exact X|]. exists (S i). split; [reflexivity|]. assert (j = i) by lia. subst j. exact Hj. }
        split.
        * intros i Hi. destruct (Nat.eq_dec i (length pre)) as [->|Hn].
          -- intros (X & j & Ej & Hj). subst pre. destruct prev as [p|]; cbn [length app] in *; [|discriminate].
             cbn [nth_error] in X. assert (c = 60) by congruence. subst c.
             assert (j = 0)%nat by lia. subst j. cbn [nth] in Hj.
             replace (p =? 92) with false in E by lia. discriminate.
          -- replace i with (length pre + S (i - S (length pre)))%nat by lia. rewrite Sh.
             apply A. lia.
        * intros Hr. apply B in Hr. rewrite Sh. exact Hr. }
  destruct (G t None) as [A B]. cbn [length app Nat.add] in A, B.
  split; [apply remove_split|]. split; [intros i Hi; apply A; lia|exact B].
Qed.

Lemma utf16_not : forall c x, scalar c -> 0 <= x < 128 -> c <> x -> ~ In x (utf16 c).
Proof.
  intros c x Hc Hx Hn H. unfold utf16 in H. destruct (c <? 65536) eqn:E.
  - destruct H as [H|[]]. congruence.
  - apply Z.ltb_ge in E. pose proof (Z.mod_pos_bound (c - 65536) 1024 ltac:(lia)).
    assert (0 <= (c - 65536) / 1024) by (apply Z.div_pos; lia). destruct H as [H|[H|[]]]; lia.
Qed.
(** The unit before and the character before are or are not a backslash alike. *)
Definition same_prev (p q : option Z) : Prop :=
  match p, q with
  | None, None => True
  | Some a, Some b => (a = 92 <-> b = 92)
  | _, _ => False
  end.
Lemma prev_test : forall p q, same_prev p q ->
  match p with Some p => negb (p =? 92) | None => false end = match q with Some p => negb (p =? 92) | None => false end.
Proof.
  intros [a|] [b|] H; cbn in H; try tauto. f_equal.
  destruct (Z.eq_dec a 92) as [Ea|Ea].
  - rewrite (proj2 (Z.eqb_eq a 92) Ea). apply H in Ea. symmetry. now apply Z.eqb_eq.
  - rewrite (proj2 (Z.eqb_neq a 92) Ea). symmetry. apply Z.eqb_neq. tauto.
Qed.
Lemma remove_plain : forall u prev t, u <> [] -> ~ In 60 u ->
  remove_tags prev (u ++ t) = u ++ remove_tags (Some (last u 0)) t.
Proof.
  induction u as [|c u IH]; intros prev t Hn H; [congruence|]. cbn [app remove_tags].
  assert (c <> 60) by (intros ->; apply H; now left). replace (c =? 60) with false by lia. cbn [andb]. f_equal.
  destruct u as [|d u]; [reflexivity|]. rewrite IH; [reflexivity|discriminate|].
  intros X. apply H. now right.
Qed.
Lemma utf16_last : forall c, scalar c -> utf16 c <> [] /\ (last (utf16 c) 0 = 92 <-> c = 92).
Proof.
  intros c Hc. split; [unfold utf16; destruct (c <? 65536); discriminate|].
  destruct (Z.eq_dec c 92) as [->|Hn]; [split; reflexivity|].
  split; [|congruence]. intros H. exfalso. apply (utf16_not c 92 Hc ltac:(lia) Hn).
  assert (K : forall l : list Z, l <> [] -> In (last l 0) l).
  { clear. induction l as [|x l IH]; [congruence|]. intros _. destruct l; [now left|]. right. apply IH. discriminate. }
  rewrite <- H. apply K. unfold utf16. destruct (c <? 65536); discriminate.
Qed.
Lemma remove_utf16 : forall t p q, Forall scalar t -> same_prev p q ->
  remove_tags p (utf16_text t) = utf16_text (remove_tags q t).
Proof.
  induction t as [|c t IH]; intros p q Hs Hp; [reflexivity|]. inversion Hs as [|? ? Hc Ht]; subst.
  rewrite utf16_text_cons. destruct (Z.eq_dec c 60) as [->|Hn].
  - change (utf16 60) with [60]. cbn [app remove_tags]. rewrite (prev_test p q Hp).
    destruct (_ && _); [reflexivity|]. rewrite utf16_text_cons. change (utf16 60) with [60]. cbn [app]. f_equal.
    apply IH; auto. cbn. lia.
  - destruct (utf16_last c Hc) as [Hne Hl]. rewrite remove_plain; auto.
    2: { apply utf16_not; auto; lia. }
    cbn [remove_tags]. replace (c =? 60) with false by lia. cbn [andb]. rewrite utf16_text_cons. f_equal.
    apply IH; auto.
Qed.
Lemma removeTags_utf16 : forall t, Forall scalar t -> removeTags (utf16_text t) = utf16_text (removeTags t).
Proof. intros t H. apply remove_utf16; [exact H|exact I]. Qed.

Lemma with_tags_split : forall t prev, escapedWithTags prev t = writeEscaped (remove_tags prev t) ++ removed prev t.
Proof.
  induction t as [|c t IH]; intros prev; [reflexivity|]. cbn [escapedWithTags remove_tags removed].
  destruct ((c =? 60) && _); [reflexivity|]. cbn [writeEscaped]. rewrite IH, <- app_assoc. reflexivity.
Qed.
Lemma removed_utf16 : forall t, Forall scalar t -> removed None (utf16_text t) = utf16_text (removed None t).
Proof.
  intros t H. pose proof (remove_split (utf16_text t) None) as E. pose proof (remove_split t None) as E'.
  change (remove_tags None (utf16_text t)) with (removeTags (utf16_text t)) in E. rewrite removeTags_utf16 in E by auto.
  apply (f_equal utf16_text) in E'. rewrite utf16_text_app in E'. rewrite E in E' at 1.
  now apply app_inv_head in E'.
Qed.
Lemma removeTags_scalar : forall t, Forall scalar t -> Forall scalar (removeTags t).
Proof. intros t H. rewrite (remove_split t None) in H. apply Forall_app in H. apply H. Qed.
Lemma with_tags_utf16 : forall t, Forall scalar t ->
  exists u, quote_lemma t u /\ writeEscapedWithTags (utf16_text t) = utf16_text u.
Proof.
  intros t H. exists (writeEscaped (removeTags t) ++ removed None t). split.
  - exists (removeTags t), (removed None t), (writeEscaped (removeTags t)). split; [apply remove_lemma|].
    split; [apply quote_written|reflexivity].
  - unfold writeEscapedWithTags. rewrite with_tags_split.
    change (remove_tags None (utf16_text t)) with (removeTags (utf16_text t)).
    rewrite removeTags_utf16, removed_utf16, utf16_text_app, writeEscaped_utf16 by auto using removeTags_scalar. reflexivity.
Qed.
Lemma lemma_utf16 : forall t, Forall scalar t ->
  exists a b q, lemma_rest t a b /\ quote a q /\ writeEscaped (removeTags (utf16_text t)) = utf16_text q.
Proof.
  intros t H. exists (removeTags t), (removed None t), (writeEscaped (removeTags t)).
  split; [apply remove_lemma|]. split; [apply quote_written|].
  rewrite removeTags_utf16, writeEscaped_utf16 by auto using removeTags_scalar. reflexivity.
Qed.
Lemma all_utf16 : forall t, Forall scalar t -> exists q, quote t q /\ writeEscaped (utf16_text t) = utf16_text q.
Proof. intros t H. exists (writeEscaped t). split; [apply quote_written|]. now apply writeEscaped_utf16. Qed.

Lemma marked_utf16 : forall k t, 0 <= k < 128 -> Forall scalar t ->
  exists u, pair_of k t u /\ gen_marked k (utf16_text t) = utf16_text u.
Proof.
  intros k t Hk H. destruct (lemma_utf16 t H) as (a & b & q & Hl & Hq & E1). destruct (with_tags_utf16 t H) as (v & Hv & E2).
  exists (94 :: q ++ 47 :: k :: v ++ [36]). split; [exists a, b, q, v; auto|].
  unfold gen_marked. rewrite E1, E2. rewrite !utf16_text_cons, utf16_text_app, !utf16_text_cons, utf16_text_app.
  rewrite (utf16_ascii k Hk). reflexivity.
Qed.
Lemma skipped_passed : forall m k t u, Forall scalar t -> gen_skipped m k (utf16_text t) = Some u ->
  In k [star; percent; at_sign] /\ exists v, passed_on m k t v /\ u = utf16_text v.
Proof.
  intros m k t u H E. unfold gen_skipped in E.
  assert (Hk : In k [star; percent; at_sign]).
  { unfold star, percent, at_sign. cbn [In]. destruct ((k =? 42) || (k =? 37)) eqn:E1; [lia|].
    destruct (k =? 64) eqn:E2; [lia|discriminate]. }
  split; [exact Hk|].
  assert (Ha : 0 <= k < 128) by (cbn [In] in Hk; unfold star, percent, at_sign in Hk; lia).
  destruct (lemma_utf16 t H) as (a & b & q & Hl & Hq & E1). destruct (all_utf16 t H) as (w & Hw & E2).
  destruct (marked_utf16 k t Ha H) as (v & Hv & E3). rewrite E1, E2, E3 in E.
  assert (Ec : forall x, k :: utf16_text x = utf16_text ([k] ++ x)).
  { intros x. cbn [app]. rewrite utf16_text_cons, (utf16_ascii k Ha). reflexivity. }
  rewrite !Ec in E.
  assert (M : forall mk, marked_lemma mk t (mk ++ q)) by (intros mk; exists a, b, q; auto).
  assert (A : forall mk, marked_all mk t (mk ++ w)) by (intros mk; exists w; auto).
  destruct ((k =? 42) || (k =? 37)) eqn:E0.
  - assert (N : (k =? at_sign) = false) by (unfold at_sign; lia).
    destruct m; injection E as <-; (eexists; split; [|reflexivity]); cbn [passed_on]; rewrite ?N;
      first [exact Hv | apply (A [k]) | apply (A [])].
  - destruct (k =? 64) eqn:E4; [|discriminate].
    assert (N : (k =? at_sign) = true) by exact E4.
    destruct m; injection E as <-; try ((eexists; split; [|reflexivity]); cbn [passed_on]; rewrite ?N;
      first [exact Hv | apply (A [k]) | apply (M [k]) | apply (M [])]).
    exists []. cbn [passed_on]. rewrite N. split; reflexivity.
Qed.
Lemma failed_not_generated : forall m t, Forall scalar t ->
  exists u, not_generated m t u /\ gen_failed m (utf16_text t) = utf16_text u.
Proof.
  intros m t H. unfold gen_failed.
  destruct (lemma_utf16 t H) as (a & b & q & Hl & Hq & E1). destruct (all_utf16 t H) as (w & Hw & E2).
  destruct (marked_utf16 35 t ltac:(lia) H) as (v & Hv & E3). rewrite E1, E2, E3.
  assert (Eh : forall x, 35 :: utf16_text x = utf16_text (35 :: x)).
  { intros x. rewrite utf16_text_cons. reflexivity. }
  assert (Ee : (match utf16_text t with [] => [] | _ => [35] end) = match t with [] => [] | _ => [35] end).
  { destruct t as [|c t]; [reflexivity|]. destruct (utf16_text (c :: t)) eqn:E; [apply utf16_text_nil in E; discriminate|reflexivity]. }
  assert (M : forall mk, marked_lemma mk t (mk ++ q)) by (intros mk; exists a, b, q; auto).
  destruct m; cbn [not_generated].
  - exists q. split; [apply (M [])|reflexivity].
  - rewrite Ee. exists ((match t with [] => [] | _ => [hash] end) ++ q). split; [apply M|]. destruct t; [reflexivity|apply Eh].
  - exists (35 :: w). split; [|apply Eh]. exists w. auto.
  - exists q. split; [apply (M [])|reflexivity].
  - rewrite Ee. exists ((match t with [] => [] | _ => [hash] end) ++ q). split; [apply M|]. destruct t; [reflexivity|apply Eh].
  - exists v. auto.
  - rewrite Ee. exists ((match t with [] => [] | _ => [hash] end) ++ q). split; [apply M|]. destruct t; [reflexivity|apply Eh].
Qed.

(** * Runs *)
Section Runs.
  Context (P : processor) (cs : bool) (m : gmode) (Htl : forall c, c <> 0 -> p_tolower P c <> 0).
  Notation find := (p_find P).
  Notation root := (p_root P).
  Notation careful := (careful_mode m).
  Notation choices := (map (fun c => gen_choice P m c cs)).

  Lemma folds_test : forall c, negb (isTag c) && p_isupper P c && negb cs = true <-> folds P cs c.
  Proof.
    intros c. unfold folds, isTag. rewrite !andb_true_iff, !negb_true_iff. split.
    - intros [[A B] C]. repeat split; auto. lia.
    - intros (A & B & C). repeat split; auto. lia.
  Qed.
  (** What one symbol offers at a node *)
  Lemma choice_offers : forall c ov opts p i d o q w, gen_choice P m c cs = Some (ov, opts) ->
    In (i, d) (opts p) -> In (o, (q, w)) (find p i) ->
    c <> 0 /\ i <> 0 /\ ov o = o
    /\ ((i = c /\ d = false)
        \/ (i = p_tolower P c /\ d = true /\ folds P cs c /\ p_tolower P c <> c /\ (careful = true -> find p c = []))).
  Proof.
    intros c ov opts p i d o q w E Hi Ho. unfold gen_choice in E.
    destruct (negb (isTag c) && p_isupper P c && negb cs) eqn:Ef.
    - apply folds_test in Ef. unfold careful_mode. destruct (is_careful m) eqn:Em.
      + unfold careful_choice in E. destruct ((c =? 0) || (p_tolower P c =? 0)) eqn:Ez; [discriminate|].
        injection E as <- <-. cbn beta in Hi.
        destruct (find p c) as [|x l] eqn:Ex.
        * destruct Hi as [Hi|[]]. injection Hi as <- <-.
          split; [lia|]. split; [lia|]. split; [reflexivity|]. right. repeat split; auto; try apply Ef.
          intros Eq. rewrite Eq, Ex in Ho. destruct Ho.
        * destruct Hi as [Hi|[]]. injection Hi as <- <-. split; [lia|]. split; [lia|]. split; [reflexivity|]. left. auto.
      + unfold two, alternatives in E. destruct (existsb _ _) eqn:Ez in E; [discriminate|]. injection E as <- <-.
        cbn [existsb fst] in Ez. apply orb_false_iff in Ez as [Ez Ez'].
        destruct Hi as [Hi|Hi].
        * injection Hi as <- <-. split; [lia|]. split; [lia|]. split; [reflexivity|]. left. auto.
        * destruct (c =? p_tolower P c) eqn:Eq; [destruct Hi|]. destruct Hi as [Hi|[]]. injection Hi as <- <-.
          cbn [existsb fst] in Ez'. split; [lia|]. split; [lia|]. split; [reflexivity|]. right.
          repeat split; auto; try apply Ef; try lia.
          intros Hc. destruct m; discriminate.
    - unfold one, alternatives in E. cbn [existsb fst] in E. destruct (c =? 0) eqn:Ez; [discriminate|].
      cbn [orb] in E. injection E as <- <-. destruct Hi as [Hi|[]]. injection Hi as <- <-.
      split; [lia|]. split; [lia|]. split; [reflexivity|]. left. auto.
  Qed.
  Lemma same_offered : forall c p x l, c <> 0 -> find p c = x :: l ->
    exists opts, gen_choice P m c cs = Some (StateModel.same, opts) /\ In (c, false) (opts p).
  Proof.
    intros c p x l Hc Hf. unfold gen_choice. pose proof (Htl c Hc) as Ht.
    destruct (negb (isTag c) && p_isupper P c && negb cs).
    - destruct (is_careful m).
      + unfold careful_choice. replace (c =? 0) with false by lia. replace (p_tolower P c =? 0) with false by lia. cbn [orb].
        eexists. split; [reflexivity|]. cbn beta. rewrite Hf. now left.
      + unfold two, alternatives. cbn [existsb fst]. replace (c =? 0) with false by lia. cbn [orb].
        destruct (c =? p_tolower P c); cbn [existsb fst]; replace (p_tolower P c =? 0) with false by lia; cbn [orb];
        (eexists; split; [reflexivity|]; now left).
    - unfold one, alternatives. cbn [existsb fst]. replace (c =? 0) with false by lia. cbn [orb].
      eexists. split; [reflexivity|]. now left.
  Qed.
  Lemma lower_offered : forall c p, c <> 0 -> folds P cs c -> p_tolower P c <> c -> (careful = true -> find p c = []) ->
    exists opts, gen_choice P m c cs = Some (StateModel.same, opts) /\ In (p_tolower P c, true) (opts p).
  Proof.
    intros c p Hc Hf Hn Hk. unfold gen_choice. pose proof (Htl c Hc) as Ht. apply folds_test in Hf. rewrite Hf.
    destruct (is_careful m) eqn:Em.
    - assert (Ek : careful = true) by (destruct m; auto; discriminate). apply Hk in Ek.
      unfold careful_choice. replace (c =? 0) with false by lia. replace (p_tolower P c =? 0) with false by lia. cbn [orb].
      eexists. split; [reflexivity|]. cbn beta. rewrite Ek. now left.
    - unfold two, alternatives. cbn [existsb fst]. replace (c =? 0) with false by lia. cbn [orb].
      replace (c =? p_tolower P c) with false by lia. cbn [existsb fst]. replace (p_tolower P c =? 0) with false by lia.
      cbn [orb]. eexists. split; [reflexivity|]. right. now left.
  Qed.
  Lemma cpath_run : forall p w s d q, cpath find p (choices w) s d q <-> run P cs careful p w s d q.
  Proof.
    intros p w s d q. split.
    - intros H. remember (choices w) as L eqn:EL. revert w EL.
      induction H as [p|p o q w l s d r Ho Hp IH|p ov opts i d o q w l s b r Hi Ho Hp IH]; intros v EL.
      + destruct v; [constructor|discriminate].
      + apply run_eps with (q := q); auto.
      + destruct v as [|c v]; [discriminate|]. cbn [map] in EL. injection EL as Ec EL.
        destruct (choice_offers c ov opts p i d o q w (eq_sym Ec) Hi Ho) as (Hc & Hi0 & Eo & D).
        replace (i =? 0) with false by lia. rewrite Eo. cbn [app].
        destruct D as [[-> ->]|(-> & -> & D1 & D2 & D3)].
        * cbn [orb]. apply run_same with (q := q); auto.
        * cbn [orb]. eapply run_lower; eauto.
    - intros H. induction H as [p|p o q w l s d r Ho Hp IH|p c o q w l s d r Hc Ho Hp IH|p c o q w l s d r Hc Hf Hn Hk Ho Hp IH].
      + constructor.
      + apply cp_eps with (q := q); auto.
      + destruct (find p c) as [|x xs] eqn:Ef; [destruct Ho|].
        destruct (same_offered c p x xs Hc Ef) as (opts & Ec & Hin). cbn [map]. rewrite Ec.
        pose proof (cp_sym find p StateModel.same opts c false o q w (choices l) s d r Hin) as K.
        replace (c =? 0) with false in K by lia. cbn [orb app] in K. apply K; [now rewrite Ef|exact IH].
      + destruct (lower_offered c p Hc Hf Hn Hk) as (opts & Ec & Hin). cbn [map]. rewrite Ec.
        pose proof (cp_sym find p StateModel.same opts (p_tolower P c) true o q w (choices l) s d r Hin) as K.
        pose proof (Htl c Hc). replace (p_tolower P c =? 0) with false in K by lia. cbn [orb app] in K. apply K; auto.
  Qed.

  (** ** States *)
  (** The states after the beginnings of [l] use the case folding [cs]. *)
  Fixpoint calm (st : analyses) (l : list Z) : Prop :=
    match l with
    | [] => True
    | c :: r => beCaseSensitive P st = cs /\ forall st', gen_step P m c st = Ok st' -> calm st' r
    end.
  Lemma steps_hold : forall l w st st', holds find root (choices w) st -> calm st l -> gen_steps P m st l = Ok st' ->
    holds find root (choices (w ++ l)) st'.
  Proof.
    induction l as [|c l IH]; intros w st st' Hh Hc H; cbn [gen_steps calm] in *.
    - assert (st = st') by congruence. subst. now rewrite app_nil_r.
    - destruct (gen_step P m c st) as [st1| | | |] eqn:E; try discriminate. cbn [obind] in H.
      destruct Hc as [Hb Hc]. specialize (Hc st1 eq_refl).
      replace (w ++ c :: l) with ((w ++ [c]) ++ l) by (rewrite <- app_assoc; reflexivity).
      apply (IH (w ++ [c]) st1); auto. unfold gen_step, offer in E. rewrite Hb in E. rewrite map_app.
      eapply step_holds; eauto.
  Qed.
  Lemma word_state : forall l init st, initial_state P = Ok init -> calm init l -> gen_steps P m init l = Ok st ->
    forall q s d, In (mkV q s d) st <-> run P cs careful root l s d q.
  Proof.
    intros l init st Hi Hc H q s d. rewrite <- cpath_run. apply (steps_hold l [] init st); auto.
    eapply init_holds. exact Hi.
  Qed.
  Lemma state_has_word : forall l st, (forall q s d, In (mkV q s d) st <-> run P cs careful root l s d q) ->
    (isFinal (all_finals P) st = true <-> has_word P cs careful l).
  Proof.
    intros l st R. unfold isFinal, has_word. rewrite existsb_exists. split.
    - intros ([q s d] & Hin & Hf). exists s, d, q. split; [now apply R|]. cbn [v_where] in Hf.
      destruct (final_weight q (all_finals P)); congruence.
    - intros (s & d & q & Hr & Hf). exists (mkV q s d). split; [now apply R|]. cbn [v_where].
      destruct (final_weight q (all_finals P)); congruence.
  Qed.
  Lemma slashes_concat : forall l, l <> [] -> exists t, concat (map (fun t : ustr => 47 :: t) l) = 47 :: t /\ t = slashes l.
  Proof.
    intros l Hl. destruct l as [|x l]; [congruence|]. exists (slashes (x :: l)). split; [|reflexivity].
    clear Hl. revert x. induction l as [|y l IH]; intros x.
    - cbn. now rewrite app_nil_r.
    - cbn [map concat] in *. rewrite IH. cbn [slashes app]. f_equal.
  Qed.
  Lemma forms_spec : forall l content st line, is_sort (p_sort P) -> 0 < p_maxAnalyses P -> 0 < p_maxClasses P ->
    (forall q s d, In (mkV q s d) st <-> run P cs careful root l s d q) ->
    has_word P cs careful l -> gen_forms P content st = Ok line -> forms_of P cs careful l content line.
  Proof.
    intros l content st line Hs HA HC R Hw F. unfold gen_forms in F.
    set (up := negb (p_dictionaryCase P) && (1 <? length content)%nat && p_isupper P (nth 1 content 0)) in *.
    set (fu := negb (p_dictionaryCase P) && p_isupper P (nth 0 content 0)) in *.
    assert (Hcase : word_casing P content up fu).
    { unfold word_casing, up, fu. rewrite !andb_true_iff, negb_true_iff, Nat.ltb_lt. split; [tauto|].
      split; [intros [[A B] C]|intros (A & B & C)]; repeat split; auto; lia. }
    clearbody up fu. unfold filterFinals in F.
    destruct (filterFinalsArray (p_toupper P) (p_sort P) (all_finals P) (p_alpha P) is_escaped (p_weights P)
      (p_maxAnalyses P) (p_maxClasses P) up fu 0 st) as [arr| | | |] eqn:Ea; try discriminate. cbn [obind] in F.
    assert (Hne : arr <> []).
    { apply (array_nonempty (p_toupper P) (p_sort P) Hs _ _ _ _ _ _ _ _ _ _ _ HA HC Ea). now apply (state_has_word l st R). }
    destruct (slashes_concat arr Hne) as (t & Et & ->). cbn in Et, F. cbv beta in F.
    match type of F with match ?x with _ => _ end = _ => change x with (concat (map (fun t : ustr => 47 :: t) arr)) in F end.
    rewrite Et in F. assert (line = slashes arr) by congruence. subst line.
    assert (Core : exists rep : list (ustr * Z),
      arr = map (fun x => fst x ++ if p_weights P then weight_text (snd x) else []) rep /\ NoDup (map fst rep)
      /\ StronglySorted by_weight rep
      /\ (forall t c, In (t, c) rep -> exists s, In s st /\ reports (p_toupper P) (all_finals P) (p_alpha P) is_escaped up fu 0 s t c)
      /\ (Z.of_nat (length st) <= p_maxAnalyses P -> Z.of_nat (length st) <= p_maxClasses P ->
          forall s, In s st -> final_weight (v_where s) (all_finals P) <> None ->
           exists t c least, reports (p_toupper P) (all_finals P) (p_alpha P) is_escaped up fu 0 s t c
             /\ In (t, least) rep /\ least <= c)).
    { destruct (Z_le_gt_dec (Z.of_nat (length st)) (p_maxAnalyses P)) as [LA|LA];
      [destruct (Z_le_gt_dec (Z.of_nat (length st)) (p_maxClasses P)) as [LC|LC]|].
      1: { destruct (C37_complete (p_toupper P) (p_sort P) Hs _ _ _ _ _ _ _ _ _ _ _ Ea LA LC) as (rep & E & N & So & Snd & Cpl).
           exists rep. auto. }
      all: destruct (C37_reported (p_toupper P) (p_sort P) Hs _ _ _ _ _ _ _ _ _ _ _ Ea) as (rep & E & N & So & _ & _ & Snd);
        exists rep; split; [exact E|]; split; [exact N|]; split; [exact So|]; split; [exact Snd|lia]. }
    destruct Core as (rep & E & N & So & Snd & Cpl).
    exists up, fu, rep. split; [exact Hcase|]. split; [now rewrite E|].
    split. { intros ->. apply Hne. exact E. }
    split; [exact N|]. split; [exact So|]. split.
    { intros t c Hin. destruct (Snd t c Hin) as ([q s d] & Hin' & Hr). apply R in Hin'. exists s, d, q. auto. }
    exists st. split; [exact R|exact Cpl].
  Qed.
End Runs.

(** * Words and streams *)
Section Stream.
  Context (P : processor) (cs : bool) (m : gmode).
  Context (Htl : forall c, c <> 0 -> p_tolower P c <> 0).
  Context (Hs : is_sort (p_sort P)) (HA : 0 < p_maxAnalyses P) (HC : 0 < p_maxClasses P).

  Definition word_calm (r : rtext) : Prop :=
    forall init, initial_state P = Ok init -> calm P cs m init (piece_symbols (p_alpha P) (t_pieces r)).
  Definition item_calm (i : item) : Prop :=
    match i with Unit _ _ (r :: _) => word_calm r | _ => True end.

  Lemma mark_kept : forall r, (if match t_mark r with Some k => k | None => 0 end =? 61 then [61] else []) = kept_mark r.
  Proof. intros [[k|] ps]; reflexivity. Qed.
  Lemma word_spec : forall r out, rtext_ok r -> Forall scalar (pieces_content (t_pieces r)) -> word_calm r ->
    gen_word P m (expected (Some (p_alpha P)) r) = Ok out -> word_out P cs m r out.
  Proof.
    intros r out Hr Hsc Hc H. unfold gen_word, expected in H. cbn [r_mark r_content r_symbols] in H.
    set (t := pieces_content (t_pieces r)) in *. set (w := piece_symbols (p_alpha P) (t_pieces r)) in *.
    destruct (gen_skipped m (match t_mark r with Some k => k | None => 0 end) (utf16_text t)) as [u|] eqn:Es.
    - assert (out = u) by congruence. subst out. apply skipped_passed in Es as (Hk & v & Hv & ->); auto.
      destruct (t_mark r) as [k|] eqn:Em.
      + eapply wo_passed; eauto.
      + exfalso. unfold star, percent, at_sign in Hk. cbn [In] in Hk. lia.
    - assert (Hg : to_generate r).
      { intros k Ek. destruct Hr as [_ Hr]. rewrite Ek in Hr, Es. unfold gen_skipped in Es.
        unfold marks in Hr. cbn [In] in Hr. unfold hash, equals.
        destruct ((k =? 42) || (k =? 37)) eqn:E1; [discriminate|]. destruct (k =? 64) eqn:E2; [discriminate|]. lia. }
      rewrite mark_kept in H.
      destruct (initial_state P) as [init| | | |] eqn:Ei; try discriminate. cbn [obind] in H.
      destruct (gen_steps P m init w) as [st| | | |] eqn:Est; try discriminate. cbn [obind] in H.
      pose proof (word_state P cs m Htl w init st Ei (Hc init Ei) Est) as R.
      pose proof (state_has_word P cs m w st R) as W.
      destruct (isFinal (all_finals P) st).
      + destruct (gen_forms P (utf16_text t) st) as [line| | | |] eqn:Ef; try discriminate. cbn [obind] in H.
        pose proof (forms_spec P cs m w (utf16_text t) st line Hs HA HC R (proj1 W eq_refl) Ef) as F.
        destruct (with_tags_utf16 t Hsc) as (u & Hu & Eu). rewrite Eu in H.
        destruct (is_tagged_mode m) eqn:Em.
        * cbn [obind app] in H. assert (out = kept_mark r ++ 94 :: line ++ 47 :: utf16_text u ++ [36]) by congruence. subst out.
          apply wo_known_tags; auto. unfold keeps_tags. destruct m; auto; discriminate.
        * cbn [obind] in H. assert (out = kept_mark r ++ line) by congruence. subst out.
          apply wo_known; auto. intros [E|E]; rewrite E in Em; discriminate.
      + destruct (failed_not_generated m t Hsc) as (u & Hu & Eu). rewrite Eu in H. cbn [obind] in H.
        assert (out = kept_mark r ++ utf16_text u) by congruence. subst out.
        apply wo_unknown; auto. intros K. apply W in K. discriminate.
  Qed.

  Lemma alpha_same : forall rs alpha, after_tags false rs alpha = alpha.
  Proof. intros rs [a|]; reflexivity. Qed.
  Lemma content_scalar : forall ps, Forall scalar (pieces_text ps) -> Forall scalar (pieces_content ps).
  Proof.
    unfold pieces_text, pieces_content. induction ps as [|p ps IH]; intros H; [constructor|]. cbn [map concat] in *.
    apply Forall_app in H as [H1 H2]. apply Forall_app. split; [|auto]. destruct p; cbn [piece_content]; auto.
  Qed.
  Lemma first_scalar : forall b w r rs, Forall scalar (item_text (Unit b w (r :: rs))) ->
    Forall scalar (pieces_content (t_pieces r)).
  Proof.
    intros b w r rs H. cbn [item_text] in H. rewrite !Forall_app in H. destruct H as (_ & _ & _ & H & _).
    apply content_scalar. destruct rs as [|r2 rs]; cbn [readings_text] in H.
    - unfold r_text in H. apply Forall_app in H. apply H.
    - apply Forall_app in H as [H _]. unfold r_text in H. apply Forall_app in H. apply H.
  Qed.
  (** One part of the stream *)
  Definition item_word (i : item) : outcome ustr :=
    match i with Unit _ _ (r :: _) => gen_word P m (expected (Some (p_alpha P)) r) | _ => Ok [] end.
  Definition written_item (i : item) (x : ustr) : ustr :=
    match i with
    | Unit b w _ => utf16_text b ++ utf16_text w ++ x
    | Null b => utf16_text b ++ [0]
    end.
  Fixpoint words (l : list item) : outcome ustr :=
    match l with
    | [] => Ok []
    | i :: l => let! x := item_word i in let! rest := words l in Ok (written_item i x ++ rest)
    end.
  (** What the loop does, in terms of the parts *)
  Lemma loop_words : forall l tail, gap true tail -> forall fuel r, Forall item_ok l -> rd_eof r = false ->
    rd_alpha r = Some (p_alpha P) -> rd_add r = false -> (2 + length l <= fuel)%nat ->
    at_text (rd_file r) (stream_text l tail) ->
    gen_loop P fuel m r = let! out := words l in Ok (out ++ utf16_text tail).
  Proof.
    intros l tail Ht. induction l as [|i l IH]; intros fuel r Hl Hr Halpha Hadd Hf Ha.
    - destruct fuel as [|fuel]; [lia|]. cbn [gen_loop]. rewrite Hr. unfold stream_text in Ha. cbn [map concat app] in Ha.
      destruct (tail_read r tail Ht Hr Ha) as (r' & -> & L). cbn [obind].
      injection L as L1 L2 L3 L4 L5 L6. rewrite L1, L2, L3, L5. cbn [obind].
      destruct fuel as [|fuel]; [cbn [length] in Hf; lia|]. cbn [gen_loop]. rewrite L6. cbn [obind words app].
      now rewrite !app_nil_r.
    - destruct fuel as [|fuel]; [cbn [length] in Hf; lia|]. cbn [gen_loop]. rewrite Hr.
      inversion Hl as [|? ? Hi Hl']; subst. rewrite stream_text_cons in Ha.
      destruct (item_read i r _ Hi Hr Ha) as (r' & -> & Er & A' & Eadd & Ealpha & L). cbn [obind].
      assert (Ealpha' : rd_alpha r' = Some (p_alpha P)).
      { rewrite Ealpha, Hadd, Halpha. destruct i; [apply alpha_same|reflexivity]. }
      rewrite Hadd, Halpha in L. rewrite (IH fuel r' Hl' Er Ealpha' (eq_trans Eadd Hadd)); [|cbn [length] in Hf; lia|exact A'].
      cbn [words]. destruct i as [b w [|r0 rs]|b].
      + exfalso. destruct Hi as (_ & _ & _ & Hne). congruence.
      + rewrite alpha_same in L. injection L as L1 L2 L3 L4 L5 L6. rewrite L1, L2, L3, L5. cbn [map item_word].
        destruct (gen_word P m (expected (Some (p_alpha P)) r0)); cbn [obind]; auto.
        destruct (words l); cbn [obind]; auto. f_equal. cbn [written_item app]. now rewrite <- !app_assoc.
      + injection L as L1 L2 L3 L4 L5 L6. rewrite L1, L2, L3, L5. cbn [item_word obind].
        destruct (words l); cbn [obind]; auto. f_equal. cbn [written_item app]. now rewrite <- !app_assoc.
  Qed.
  Lemma generation_words : forall l tail, Forall item_ok l -> gap true tail -> Forall scalar (stream_text l tail) ->
    generation P m (open_file (utf8_text (stream_text l tail))) = let! out := words l in Ok (out ++ utf16_text tail).
  Proof.
    intros l tail Hl Ht Hsc. unfold generation. pose proof (at_text_open _ Hsc) as Ha.
    apply loop_words; auto. pose proof (at_text_size _ _ Ha) as Hz.
    pose proof (items_bound l tail Hl). lia.
  Qed.
  Lemma words_spec : forall l out, Forall item_ok l -> Forall (fun i => Forall scalar (item_text i)) l -> Forall item_calm l ->
    words l = Ok out -> exists outs, Forall2 (item_out P cs m) l outs /\ out = concat outs.
  Proof.
    induction l as [|i l IH]; intros out Hl Hsc Hc H; cbn [words] in H.
    - exists []. split; [constructor|]. cbn. congruence.
    - inversion Hl as [|? ? Hi Hl']; inversion Hsc as [|? ? Si Sl']; inversion Hc as [|? ? Ci Cl']; subst.
      destruct (item_word i) as [x| | | |] eqn:Ex; try discriminate. cbn [obind] in H.
      destruct (words l) as [rest| | | |] eqn:Er; try discriminate. cbn [obind] in H.
      destruct (IH rest Hl' Sl' Cl' eq_refl) as (outs & F & ->).
      exists (written_item i x :: outs). split; [|cbn [concat]; congruence]. constructor; auto.
      destruct i as [b w [|r rs]|b]; cbn [item_out written_item].
      + destruct Hi as (_ & _ & _ & Hne). congruence.
      + exists x. split; [|reflexivity]. apply word_spec; auto.
        * destruct Hi as (_ & _ & Hrs & _). now inversion Hrs.
        * eapply first_scalar; eauto.
      + reflexivity.
  Qed.
  Lemma stream_scalar : forall l tail, Forall scalar (stream_text l tail) -> Forall (fun i => Forall scalar (item_text i)) l.
  Proof.
    intros l tail H. unfold stream_text in H. apply Forall_app in H as [H _]. induction l as [|i l IH]; [constructor|].
    cbn [map concat] in H. apply Forall_app in H as [H1 H2]. constructor; auto.
  Qed.
End Stream.

(** * Termination *)
Section Returns.
  Context (P : processor) (m : gmode) (Ha : eps_acyclic (p_find P)) (Ht : tags_known P).
  Context (Hs : is_sort (p_sort P)) (H0 : p_toupper P 0 = 0) (Hw : p_weights P = false).
  Context (HA : 0 < p_maxAnalyses P) (HC : 0 < p_maxClasses P).
  Lemma gen_choice_plain : forall c b, plain (gen_choice P m c b).
  Proof.
    intros c b. unfold gen_choice, careful_choice, one, two.
    repeat match goal with |- context [if ?x then _ else _] => destruct x end; try apply alternatives_plain;
      intros ov opts E x; try discriminate. now injection E as <- _.
  Qed.
  Lemma gen_steps_named : forall l st r, (forall s, In s st -> named P s) -> gen_steps P m st l = Ok r ->
    forall s, In s r -> named P s.
  Proof.
    induction l as [|c l IH]; intros st r Hn H; cbn [gen_steps] in H.
    - assert (st = r) by congruence. now subst.
    - destruct (gen_step P m c st) as [st1| | | |] eqn:E; try discriminate. cbn [obind] in H.
      eapply IH; [|exact H]. eapply offer_named; [exact Ht|apply gen_choice_plain|exact Hn|exact E].
  Qed.
  Lemma gen_steps_settle : forall l st, exists r, settles (fun n => gen_steps (with_fuel P n) m st l) r.
  Proof.
    induction l as [|c l IH]; intros st; cbn [gen_steps]; [eexists; apply settles_ret|].
    destruct (offer_settles P Ha (gen_choice P m c (beCaseSensitive P st)) st) as (st1 & H1).
    destruct (IH st1) as (r & H2). exists r. eapply (settles_bind _ _ st1); [exact H1|exact H2].
  Qed.
  Lemma named_fuel : forall n s, named (with_fuel P n) s -> named P s.
  Proof. intros n s H. exact H. Qed.
  Lemma forms_defined : forall content st, (forall s, In s st -> named P s) -> isFinal (all_finals P) st = true ->
    exists line, forall n, gen_forms (with_fuel P n) content st = Ok line.
  Proof.
    intros content st Hn Hf.
    assert (K : exists line, gen_forms P content st = Ok line).
    { unfold gen_forms.
      set (up := negb (p_dictionaryCase P) && (1 <? length content)%nat && p_isupper P (nth 1 content 0)).
      set (fu := negb (p_dictionaryCase P) && p_isupper P (nth 0 content 0)).
      unfold filterFinals. rewrite Hw.
      destruct (C37_defined (p_toupper P) (p_sort P) Hs (all_finals P) (p_alpha P) is_escaped false
        (p_maxAnalyses P) (p_maxClasses P) up fu st H0) as (o & E).
      - intros s c w Hin. exact (Hn s Hin c w).
      - discriminate.
      - rewrite E. cbn [obind].
        assert (Hne : o <> []) by (apply (array_nonempty (p_toupper P) (p_sort P) Hs _ _ _ _ _ _ _ _ _ _ _ HA HC E); exact Hf).
        destruct o as [|x o]; [congruence|]. cbn [map concat app]. eauto. }
    destruct K as (line & K). exists line. intros n. exact K.
  Qed.
  Lemma gen_word_settles : forall rd, exists x, settles (fun n => gen_word (with_fuel P n) m rd) x.
  Proof.
    intros rd. unfold gen_word. destruct (gen_skipped m (r_mark rd) (r_content rd)) as [t|]; [eexists; apply settles_ret|].
    destruct (initial_settles P Ha) as (init & Hi). destruct (gen_steps_settle (r_symbols rd) init) as (st & Hst).
    assert (Hn : forall s, In s st -> named P s).
    { destruct Hi as (N1 & Hi), Hst as (N2 & Hst). specialize (Hi (N1 + N2)%nat ltac:(lia)).
      specialize (Hst (N1 + N2)%nat ltac:(lia)).
      assert (Ht' : tags_known (with_fuel P (N1 + N2))) by exact Ht.
      pose proof (initial_named _ Ht' _ Hi) as Hn1. intros s Hin.
      assert (K : forall l st0 r, (forall s, In s st0 -> named (with_fuel P (N1+N2)) s) ->
        gen_steps (with_fuel P (N1+N2)) m st0 l = Ok r -> forall s, In s r -> named (with_fuel P (N1+N2)) s).
      { clear - Ht'. induction l as [|c l IH]; intros st r Hn H; cbn [gen_steps] in H.
        - assert (st = r) by congruence. now subst.
        - destruct (gen_step (with_fuel P (N1+N2)) m c st) as [st1| | | |] eqn:E; try discriminate. cbn [obind] in H.
          eapply IH; [|exact H]. eapply offer_named; [exact Ht'| |exact Hn|exact E].
          exact (gen_choice_plain c (beCaseSensitive P st)). }
      exact (K _ _ _ Hn1 Hst s Hin). }
    assert (K : exists x, settles (fun n => let! t :=
          if isFinal (all_finals (with_fuel P n)) st then
            let! forms := gen_forms (with_fuel P n) (r_content rd) st in
            Ok (if is_tagged_mode m
                then [94] ++ forms ++ [47] ++ writeEscapedWithTags (r_content rd) ++ [36] else forms)
          else Ok (gen_failed m (r_content rd)) in
        Ok ((if r_mark rd =? 61 then [61] else []) ++ t)) x).
    { destruct (isFinal (all_finals P) st) eqn:Ef.
      - destruct (forms_defined (r_content rd) st Hn Ef) as (line & E). eexists. exists 0%nat. intros n _.
        change (all_finals (with_fuel P n)) with (all_finals P). rewrite Ef, E. cbn [obind]. reflexivity.
      - eexists. exists 0%nat. intros n _. change (all_finals (with_fuel P n)) with (all_finals P). rewrite Ef. cbn [obind]. reflexivity. }
    destruct K as (x & K). exists x. eapply (settles_bind _ _ init); [exact Hi|]. eapply (settles_bind _ _ st); [exact Hst|exact K].
  Qed.
  Lemma words_settle : forall l, exists x, settles (fun n => words (with_fuel P n) m l) x.
  Proof.
    induction l as [|i l (rest & IH)]; cbn [words]; [eexists; apply settles_ret|].
    assert (K : exists x, settles (fun n => item_word (with_fuel P n) m i) x).
    { destruct i as [b w [|r rs]|b]; cbn [item_word]; try (eexists; apply settles_ret). exact (gen_word_settles (expected (Some (p_alpha P)) r)). }
    destruct K as (x & K). eexists. eapply (settles_bind _ _ x); [exact K|]. eapply (settles_bind _ _ rest); [exact IH|].
    apply settles_ret.
  Qed.
End Returns.
