(** C69: matching against the automaton built from rules. *)
From Verif Require Import Base CompressionModel AlphabetModel AlphabetProofs TransducerModel TransducerSpec MatchModel MatchProps PatternModel PatternSpec PatternBuildProofs PatternPathProofs PatternRunProofs.
From Coq Require Import Sorted.

Lemma first_least : forall a pats k id, StronglySorted by_id pats -> (exists l, In (id, l) pats /\ marks a (key_of a l) k = true) ->
  exists c, first_id a pats k = Some c /\ c <= id.
Proof.
  intros a pats k id S. induction S as [|[i v] r S IH F]; intros (l & Hi & M); [destruct Hi|]. cbn [first_id]. destruct (marks a (key_of a v) k) eqn:E.
  - exists i. split; [reflexivity|]. destruct Hi as [Hi|Hi]; [injection Hi as -> ->; lia|]. rewrite Forall_forall in F. apply (F _ Hi).
  - destruct Hi as [Hi|Hi]; [injection Hi as -> ->; congruence|]. apply IH. eauto.
Qed.
Lemma first_from : forall a pats k c, first_id a pats k = Some c -> exists l, In (c, l) pats /\ marks a (key_of a l) k = true.
Proof.
  intros a pats k c. induction pats as [|[i v] r IH]; intros E; [discriminate|]. cbn [first_id] in E. destruct (marks a (key_of a v) k) eqn:M.
  - injection E as <-. exists v. split; [now left|exact M].
  - destruct (IH E) as (l & Hl & X). exists l. split; [now right|exact X].
Qed.
Lemma chain_one_queue : forall al, chain al -> one_queue al.
Proof. intros al C x y ->. cbn [app] in C. apply chain_app in C as (_ & C & _). discriminate C. Qed.

Section Match.
  Context (p : plist) (s : store).
  Hypothesis H : state_ok p s.
  Hypothesis Hc : compatible s.
  Notation a := (pl_alpha p).
  Notation Bk := (beginning a s).
  Lemma Hgood : forall id al, In (id, al) s -> good a al.
  Proof. intros id al Hi. apply (st_good _ _ H _ _ Hi). Qed.
  Lemma built_ok : exists ks t ft, buildTransducer p = Ok (t, ft) /\ built a Bk ks (pl_patterns p) t ft.
  Proof.
    pose proof (anys a (st_alpha _ _ H)) as (N1 & N2 & N3). pose proof (anys_ne a (st_alpha _ _ H)) as (D1 & D2 & D3).
    unfold buildTransducer. apply build_ok; auto.
    - apply beg_prefix.
    - apply beg_c1; [apply (st_alpha _ _ H)|apply Hgood].
    - apply beg_c2; [apply (st_alpha _ _ H)|apply Hgood].
    - apply beg_c3; [apply (st_alpha _ _ H)|apply Hgood].
    - apply beg_c4; [apply (st_alpha _ _ H)|apply Hgood|exact Hc].
    - now left.
    - intros id l Hi. destruct (proj1 (st_stored _ _ H) _ _ Hi) as (al & K1 & ->). right. exists id, al, []. rewrite app_nil_r. auto.
  Qed.
  Context (ks : list (list Z)) (t : transducer) (ft : list (nat * Z)).
  Hypothesis HB : built a Bk ks (pl_patterns p) t ft.
  Let T : trie a Bk ks t := proj1 HB.
  Lemma tables_ok : tables (match_exe t).
  Proof.
    pose proof (anys a (st_alpha _ _ H)) as (N1 & N2 & N3). pose proof (anys_ne a (st_alpha _ _ H)) as (D1 & D2 & D3).
    unfold tables. apply Forall_forall. intros sv Hsv. apply (In_nth _ _ []) in Hsv as (q & Hq & <-).
    assert (Hl : length (match_exe t) = nstates t) by (unfold match_exe; apply map_length). rewrite Hl in *.
    assert (E : nth q (match_exe t) [] = map (fun x : arc => (a_tag x, a_dst x)) (arcs_of t q)).
    { unfold match_exe. change (@nil (Z * nat)) with (map (fun x : arc => (a_tag x, a_dst x)) []). rewrite map_nth. reflexivity. }
    destruct (tr_rows _ _ _ _ T q) as (R1 & R2 & R3). rewrite E. split; [|split].
    - clear - R2. unfold arcs_sorted in R2. induction R2 as [|x l R IH F]; cbn [map]; [constructor|]. constructor; [exact IH|]. apply Forall_map. revert F. apply Forall_impl. intros b. unfold by_tag. cbn. auto.
    - destruct (nth_error ks q) as [k|] eqn:Ek; [|apply nth_error_None in Ek; rewrite (tr_len _ _ _ _ T) in Ek; lia].
      assert (U : forall v q1 w1 q2 w2, In (v, (q1, w1)) (arcs_of t q) -> In (v, (q2, w2)) (arcs_of t q) -> (q1, w1) = (q2, w2)).
      { intros v q1 w1 q2 w2 H1 H2. destruct (R3 _ _ _ H1) as [-> _]. destruct (R3 _ _ _ H2) as [-> _]. f_equal.
        assert (XX : q2 = q1); [|congruence]. eapply (arc_unique a) with (B := Bk); eauto.
        - intros. eapply beg_prefix; eauto.
        - apply beg_c1; [apply (st_alpha _ _ H)|apply Hgood].
        - apply beg_c2; [apply (st_alpha _ _ H)|apply Hgood].
        - apply beg_c3; [apply (st_alpha _ _ H)|apply Hgood].
        - apply beg_c4; [apply (st_alpha _ _ H)|apply Hgood|exact Hc]. }
      clear - R1 U. induction (arcs_of t q) as [|[v [q1 w1]] l IH]; cbn [map]; [constructor|]. inversion R1 as [|? ? Hn Hd]; subst. constructor.
      + intros X. rewrite map_map in X. apply in_map_iff in X as ([v2 [q2 w2]] & Ev & X). cbn in Ev. subst v2. apply Hn. rewrite (U v q1 w1 q2 w2); [exact X|now left|now right].
      + apply IH; auto. intros. eapply U; right; eauto.
    - apply Forall_map, Forall_forall. intros [v [d w]] Hx. cbn. now apply (R3 v d w).
  Qed.
  (** * Fitting and being live *)
  Lemma reaches_iff : forall w al, Forall (atom_ok a) al -> Forall sym_ok w -> (reaches a (map (code a) al) (map (step_of a) w) <-> ends_at al w).
  Proof.
    intros w al. pose proof (anys a (st_alpha _ _ H)) as (N1 & N2 & N3). apply reaches_ends; try lia; [intros n; apply tc_neg, (st_alpha _ _ H)|intros n m; apply tc_inj, (st_alpha _ _ H)].
  Qed.
  Lemma fits_live : forall w id al, Forall sym_ok w -> In (id, al) s ->
    (fits al w <-> exists q k, nth_error ks q = Some k /\ marks a (map (code a) al) k = true /\ mpath (match_exe t) 0 (map (step_of a) w) q).
  Proof.
    intros w id al Hw Hi. destruct (Hgood _ _ Hi) as [O St]. assert (Hin : In (map (code a) al) ks).
    { destruct (proj2 (st_stored _ _ H) _ _ Hi) as (l & K1 & K2). rewrite <- K2. pose proof (proj1 (proj2 (proj2 HB))) as P. eapply P; eauto. }
    rewrite fits_ends by (destruct St as (_ & _ & _ & _ & _ & _ & _ & _ & C); now apply chain_one_queue). split.
    - intros [E|(al0 & -> & E)].
      + apply In_nth_error in Hin as [q Hq]. exists q, (map (code a) al). split; [exact Hq|]. split; [apply marks_spec; now left|]. apply (mpath_reaches a Bk ks t T _ _ _ Hq). now apply reaches_iff.
      + rewrite map_app in Hin. cbn [map] in Hin. pose proof (tr_closed _ _ _ _ T _ _ Hin) as Hin0. apply In_nth_error in Hin0 as [q Hq]. exists q, (map (code a) al0). split; [exact Hq|].
        split; [apply marks_spec; right; now rewrite map_app|]. apply (mpath_reaches a Bk ks t T _ _ _ Hq). apply Forall_app in O as [O _]. now apply reaches_iff.
    - intros (q & k & Hq & M & P). apply (mpath_reaches a Bk ks t T _ _ _ Hq) in P. apply marks_spec in M as [<-|M].
      + left. now apply reaches_iff.
      + right. symmetry in M. apply (codes_snoc a) in M as (al0 & x & -> & -> & Ex). apply Forall_app in O as [O Ox]. apply Forall_inv in Ox.
        assert (x = AQueue) as -> by (apply (as_queue a (st_alpha _ _ H)); auto). exists al0. split; [reflexivity|]. now apply reaches_iff.
  Qed.
  Lemma path_node : forall steps q, mpath (match_exe t) 0 steps q -> exists k, nth_error ks q = Some k.
  Proof.
    intros steps q P. destruct (snoc_case steps) as [->|(st & x & ->)].
    - inversion P; subst. exists []. apply (tr_root _ _ _ _ T).
    - apply mpath_snoc in P as (m & v & _ & _ & Hd). apply (node_arc a Bk ks t T) in Hd. destruct (tr_rows _ _ _ _ T m) as (_ & _ & R3). destruct (R3 _ _ _ Hd) as [_ Hl].
      destruct (nth_error ks q) as [k|] eqn:E; [eauto|]. apply nth_error_None in E. rewrite (tr_len _ _ _ _ T) in E. lia.
  Qed.
  Lemma report_ok : forall w L r, (forall id al, In (id, al) s -> id < 2 ^ 31 - 1) -> Forall sym_ok w ->
    (forall q, In q L <-> mpath (match_exe t) 0 (map (step_of a) w) q) -> reported ft [] L r -> answer s w r.
  Proof.
    intros w L r Hid Hw HL Hr.
    assert (C : forall q k, nth_error ks q = Some k -> class_of q ft = first_id a (pl_patterns p) k) by exact (proj1 (proj2 (proj2 (proj2 HB)))).
    assert (F1 : forall c, permitted ft [] L c -> fitting s w c).
    { intros c ((n & Hn & Ec) & _ & _). apply HL in Hn. destruct (path_node _ _ Hn) as (k & Hk). rewrite (C _ _ Hk) in Ec. apply first_from in Ec as (l & Hl & M).
      destruct (proj1 (st_stored _ _ H) _ _ Hl) as (al & K1 & K2). rewrite K2 in M. exists al. split; [exact K1|]. apply (fits_live w c al Hw K1). eauto 6. }
    assert (F2 : forall id, fitting s w id -> exists c, permitted ft [] L c /\ c <= id).
    { intros id (al & Hi & Hf). apply (fits_live w id al Hw Hi) in Hf as (q & k & Hk & M & P). destruct (proj2 (st_stored _ _ H) _ _ Hi) as (l & K1 & K2).
      destruct (first_least a (pl_patterns p) k id (st_sorted _ _ H)) as (c & Ec & Lc); [exists l; split; [exact K1|now rewrite K2]|]. exists c. split; [|exact Lc].
      split; [exists q; split; [now apply HL|now rewrite (C _ _ Hk)]|]. split; [intros []|]. pose proof (Hid _ _ Hi). lia. }
    destruct Hr as [[Hp Hmin]|[-> Hno]]; [left|right].
    - split; [now apply F1|]. intros id Hf. apply F2 in Hf as (c & Hpc & Lc). apply Hmin in Hpc. lia.
    - split; [reflexivity|]. intros id Hf. apply F2 in Hf as (c & Hpc & _). now apply (Hno c).
  Qed.
End Match.
