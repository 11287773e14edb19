(** C82: files of equivalent characters, and what lt-apply-acx makes of them. *)
From Coq Require String Ascii.
From Coq Require Import Sorted.
From Verif Require Import Base CompressionModel StringCodecProofs CodecProps SortedVectorModel AlphabetModel AlphabetProofs TransducerModel TransducerSpec RelabelModel RelabelSpec RelabelProofs FileModel FileProofs
  InputProps CompilerModel CompilerProps DixModel DixSpec ToolsModel ToolsProps CharFileModel CharFileSpec.
Import String.StringSyntax.

Lemma split_utf16 : forall cs, Forall InputProps.scalar cs -> ustring_to_vec32 (flat_map utf16 cs) = cs.
Proof.
  intros cs F. transitivity (ustring_to_vec32 (flat_map utf16_units cs)).
  - reflexivity.
  - apply C44_split_after_append. eapply Forall_impl; [|exact F]. unfold InputProps.scalar, is_scalar. intros c H. lia.
Qed.
Lemma find_valued : forall (l : list (ustr * ustr)) v, NoDup (map fst l) -> In (a_value, v) l -> name_find a_value l = Some v.
Proof.
  intros l v. induction l as [|[k w] l IH]; intros N H; [destruct H|]. cbn [name_find]. cbn [map fst] in N. inversion N as [|? ? Hk N']; subst.
  destruct (ustr_eq_dec a_value k) as [<-|Hne].
  - destruct H as [H|H]; [injection H as ->; reflexivity|]. exfalso. apply Hk. apply in_map_iff. exists (a_value, v). auto.
  - destruct H as [H|H]; [injection H as -> ->; contradiction|]. auto.
Qed.
Lemma get_valued : forall n c, leaf_ok n -> valued n c -> InputProps.scalar c -> get_val n = Ok c.
Proof.
  intros n c [N _] H S. unfold get_val. rewrite (find_valued _ _ N H).
  pose proof (split_utf16 [c] (Forall_cons _ S (Forall_nil _))) as E. cbn [flat_map] in E. rewrite app_nil_r in E. rewrite E.
  destruct (utf16 c); [discriminate E|reflexivity].
Qed.
Lemma get_val_inv : forall n, leaf_ok n -> (exists c, get_val n = Ok c /\ valued n c /\ InputProps.scalar c)
  \/ get_val n = Exit /\ (forall c, InputProps.scalar c -> ~ valued n c).
Proof.
  intros n [N H]. unfold get_val. destruct (name_find a_value (lf_attrs n)) as [s|] eqn:E.
  - pose proof (name_find_in _ _ _ E) as I. destruct (H _ _ I) as (Hne & cs & F & ->). rewrite split_utf16 by assumption.
    destruct cs as [|c [|d cs]]; [contradiction| |].
    + left. exists c. cbn [flat_map] in *. rewrite app_nil_r in *. split; [destruct (utf16 c); [contradiction|reflexivity]|]. split; [exact I|]. now inversion F.
    + right. split; [destruct (flat_map utf16 (c :: d :: cs)); [contradiction|reflexivity]|]. intros x Sx V.
      pose proof (find_valued _ _ N V) as E'. rewrite E in E'. injection E' as E'.
      assert (K : ustring_to_vec32 (flat_map utf16 (c :: d :: cs)) = ustring_to_vec32 (flat_map utf16 [x])) by (cbn [flat_map]; rewrite app_nil_r; f_equal; exact E').
      rewrite !split_utf16 in K by (assumption || (constructor; [assumption|constructor])). discriminate K.
  - right. split; [reflexivity|]. intros x _ V. rewrite (find_valued _ _ N V) in E. discriminate.
Qed.

Lemma inner_read : forall ns xs, acx_inner ns xs -> Forall leaf_ok ns -> forall vec, exists vec', acx_equivs ns vec = Ok vec' /\ forall x, In x vec' <-> In x vec \/ In x xs.
Proof.
  intros ns xs H. induction H as [|n ns xs Hn H IH|n x ns xs Hn Nm V S H IH]; intros W vec; cbn [acx_equivs].
  - exists vec. split; [reflexivity|]. cbn. intuition.
  - inversion W; subst. rewrite Hn. cbn [negb]. auto.
  - inversion W as [|? ? W1 W2]; subst. rewrite Hn. cbn [negb]. unfold leaf_named. rewrite Nm. change (txt "equiv-char") with n_equiv_char.
    destruct (ustr_eq_dec n_equiv_char n_equiv_char) as [_|Hf]; [|contradiction]. cbn [negb]. rewrite (get_valued n x) by assumption. cbn [obind].
    destruct (IH W2 (zset_insert x vec)) as (vec' & E & K). exists vec'. split; [exact E|]. intros y. rewrite K, zset_insert_in. cbn [In]. intuition.
Qed.
Lemma inner_inv : forall ns, Forall leaf_ok ns -> forall vec, (exists vec' xs, acx_equivs ns vec = Ok vec' /\ acx_inner ns xs)
  \/ acx_equivs ns vec = Exit /\ forall xs, ~ acx_inner ns xs.
Proof.
  intros ns W. induction W as [|n ns W1 W2 IH]; intros vec; cbn [acx_equivs].
  - left. exists vec, []. split; [reflexivity|constructor].
  - destruct (lf_element n) eqn:El; cbn [negb].
    2:{ destruct (IH vec) as [(vec' & xs & E & H)|[E H]]; [left; exists vec', xs; split; [exact E|now constructor]|].
        right. split; [exact E|]. intros xs K. inversion K; subst; [eapply H; eassumption|congruence]. }
    unfold leaf_named. destruct (ustr_eq_dec (lf_name n) n_equiv_char) as [Nm|Nm]; cbn [negb].
    2:{ right. split; [reflexivity|]. intros xs K. inversion K; subst; [congruence|]. apply Nm. assumption. }
    destruct (get_val_inv n W1) as [(c & E & V & S)|[E V]]; rewrite E; cbn [obind].
    + destruct (IH (zset_insert c vec)) as [(vec' & xs & E' & H)|[E' H]].
      * left. exists vec', (c :: xs). split; [exact E'|now constructor].
      * right. split; [exact E'|]. intros xs K. inversion K; subst; [congruence|]. eapply H; eassumption.
    + right. split; [reflexivity|]. intros xs K. inversion K; subst; [congruence|]. eapply V; eassumption.
Qed.

(** The table: sorted keys, and what it says *)
Definition keys_sorted (m : acx_table) : Prop := StronglySorted Z.lt (map fst m).
Lemma acx_insert_keys : forall k vec m x, In x (map fst (acx_insert k vec m)) <-> x = k \/ In x (map fst m).
Proof.
  intros k vec m x. induction m as [|[j v] m IH]; cbn [acx_insert]; [cbn; intuition|].
  destruct (k <? j) eqn:E1; [cbn [map fst In]; intuition|]. destruct (k =? j) eqn:E2.
  - apply Z.eqb_eq in E2. subst. cbn [map fst In]. intuition.
  - cbn [map fst In]. rewrite IH. intuition.
Qed.
Lemma acx_insert_sorted : forall k vec m, keys_sorted m -> keys_sorted (acx_insert k vec m).
Proof.
  intros k vec m. unfold keys_sorted. induction m as [|[j v] m IH]; intros S; cbn [acx_insert].
  - repeat constructor.
  - cbn [map fst] in S. inversion S as [|? ? S1 S2]; subst. destruct (k <? j) eqn:E1.
    + cbn [map fst]. constructor; [exact S|]. constructor; [lia|]. eapply Forall_impl; [|exact S2]. cbn. lia.
    + destruct (k =? j) eqn:E2; [exact S|]. cbn [map fst]. constructor; [now apply IH|]. apply Forall_forall. intros x Hx.
      apply acx_insert_keys in Hx as [->|Hx]; [lia|]. rewrite Forall_forall in S2. now apply S2.
Qed.
Lemma acx_insert_in : forall k vec m, keys_sorted m -> forall c l, In (c, l) (acx_insert k vec m) <-> In (c, l) m \/ (c, l) = (k, vec) /\ ~ In k (map fst m).
Proof.
  intros k vec m. unfold keys_sorted. induction m as [|[j v] m IH]; intros S c l; cbn [acx_insert].
  - cbn. intuition.
  - cbn [map fst] in *. inversion S as [|? ? S1 S2]; subst. rewrite Forall_forall in S2. destruct (k <? j) eqn:E1.
    + cbn [In]. split.
      * intros [H|H]; [right; split; [now symmetry|]|now left]. intros [H1|H1]; [lia|]. specialize (S2 _ H1). lia.
      * intros [H|[H _]]; [now right|left; now symmetry].
    + destruct (k =? j) eqn:E2.
      * apply Z.eqb_eq in E2. subst. cbn [In]. split; [now left|]. intros [H|[_ H]]; [exact H|]. destruct H. now left.
      * cbn [In]. rewrite (IH S1). apply Z.eqb_neq in E2. intuition.
Qed.
(** What entries say after earlier ones: the first entry with equivalents counts *)
Definition first_entry (es : list (Z * list Z)) (c x : Z) : Prop :=
  exists before xs after, es = before ++ (c, xs) :: after /\ In x xs /\ forall ys, In (c, ys) before -> ys = [].
Lemma sorted_nodup : forall l, StronglySorted Z.lt l -> NoDup l.
Proof.
  intros l H. induction H as [|a l H IH F]; constructor; auto. intros Hin. rewrite Forall_forall in F. specialize (F _ Hin). lia.
Qed.
Lemma first_entry_cons : forall e xs es c x, first_entry ((e, xs) :: es) c x <->
  c = e /\ In x xs \/ (c = e -> xs = []) /\ first_entry es c x.
Proof.
  intros e xs es c x. split.
  - intros (b & ys & a & E & Hx & N). destruct b as [|[e' zs] b]; cbn [app] in E.
    + injection E as -> -> ->. now left.
    + injection E as -> -> ->. right. split; [intros ->; apply N; now left|]. exists b, ys, a. split; [reflexivity|]. split; [exact Hx|]. intros zs' Hz. apply N. now right.
  - intros [[-> Hx]|[H (b & ys & a & -> & Hx & N)]].
    + exists [], xs, es. split; [reflexivity|]. split; [exact Hx|]. intros ys [].
    + exists ((e, xs) :: b), ys, a. split; [reflexivity|]. split; [exact Hx|]. intros zs [E|E]; [injection E as -> <-; auto|auto].
Qed.
Lemma chars_read : forall bs es, acx_says bs es -> Forall branch_ok bs -> forall m, keys_sorted m -> (forall c l, In (c, l) m -> l <> []) ->
  exists m', acx_chars bs m = Ok m' /\ keys_sorted m' /\ (forall c l, In (c, l) m' -> l <> [])
    /\ forall c x, equivalent m' c x <-> equivalent m c x \/ ~ In c (map fst m) /\ first_entry es c x.
Proof.
  intros bs es H. induction H as [|b bs es Hb H IH|b c xs bs es Hb Nm V S Hi H IH]; intros W m Sm Ne; cbn [acx_chars].
  - exists m. split; [reflexivity|]. split; [exact Sm|]. split; [exact Ne|]. intros c x. split; [now left|]. intros [K|[_ (b & ? & ? & E & _)]]; [exact K|]. destruct b; discriminate E.
  - inversion W; subst. rewrite Hb. cbn [negb]. auto.
  - inversion W as [|? ? [W1 W2] W3]; subst. rewrite Hb. cbn [negb]. unfold leaf_named. rewrite Nm. change (txt "char") with n_char.
    destruct (ustr_eq_dec n_char n_char) as [_|Hf]; [|contradiction]. cbn [negb]. rewrite (get_valued _ c) by assumption. cbn [obind].
    destruct (inner_read _ _ Hi W2 []) as (vec & E & K). rewrite E. cbn [obind].
    assert (Hv : forall x, In x vec <-> In x xs) by (intros x; rewrite K; cbn; intuition). clear K E.
    assert (Hn : vec = [] <-> xs = []).
    { split; intros ->; [destruct xs as [|y xs]|destruct vec as [|y vec]]; try reflexivity; exfalso; apply (Hv y); now left. }
    destruct vec as [|v0 vec].
    + destruct (IH W3 m Sm Ne) as (m' & E & S' & N' & K). exists m'. split; [exact E|]. split; [exact S'|]. split; [exact N'|]. intros d x. rewrite K, first_entry_cons.
      rewrite (proj1 Hn eq_refl). cbn [In]. intuition.
    + assert (Hx : xs <> []) by (intros X; apply Hn in X; discriminate X).
      destruct (IH W3 (acx_insert c (v0 :: vec) m)) as (m' & E & S' & N' & K).
      * now apply acx_insert_sorted.
      * intros d l Hl. apply acx_insert_in in Hl as [Hl|[Hl _]]; [eauto| |exact Sm]. injection Hl as -> ->. discriminate.
      * exists m'. split; [exact E|]. split; [exact S'|]. split; [exact N'|]. intros d x. rewrite K, acx_insert_keys, first_entry_cons.
        assert (Q : equivalent (acx_insert c (v0 :: vec) m) d x <-> equivalent m d x \/ d = c /\ In x xs /\ ~ In c (map fst m)).
        { unfold equivalent. split.
          - intros (l & Hl & Hin). apply acx_insert_in in Hl as [Hl|[Hl Hk]]; [left; eauto| |exact Sm]. injection Hl as -> ->. right. rewrite Hv in Hin. auto.
          - intros [(l & Hl & Hin)|(-> & Hin & Hk)].
            + exists l. split; [|exact Hin]. apply acx_insert_in; auto.
            + exists (v0 :: vec). split; [|now apply Hv]. apply acx_insert_in; auto. }
        rewrite Q. destruct (Z.eq_dec d c) as [->|Hd].
        -- split.
           ++ intros [[P|(_ & P & P')]|[P _]]; [now left|right; auto|exfalso; apply P; now left].
           ++ intros [P|(P & [[_ P']|[P' _]])]; [now left; left|left; right; auto|exfalso; apply Hx; auto].
        -- split.
           ++ intros [[P|(P & _)]|[P P']]; [now left|contradiction|right]. split; [intros X; apply P; now right|]. right. split; [intros; contradiction|exact P'].
           ++ intros [P|(P & [[P' _]|[_ P']])]; [now left; left|contradiction|right]. split; [intros [X|X]; contradiction|exact P'].
Qed.

(** The table read from a file: every character has the equivalents given in its first entry
    that has any; if no character has two entries, exactly those of the file. *)
Theorem C82_file : forall doc es, acx_says doc es -> Forall branch_ok doc ->
  exists t, readACX (Some doc) = Ok t /\ NoDup (map fst t) /\ (forall c x, equivalent t c x <-> first_entry es c x)
    /\ (NoDup (map fst es) -> forall c x, equivalent t c x <-> equivalent es c x).
Proof.
  intros doc es H W. destruct (chars_read doc es H W [] ltac:(constructor) ltac:(intros c l [])) as (t & E & S & _ & K).
  exists t. split; [exact E|]. split; [now apply sorted_nodup|].
  assert (K' : forall c x, equivalent t c x <-> first_entry es c x).
  { intros c x. rewrite K. split; [intros [(l & [] & _)|[_ P]]; exact P|]. intros P. right. split; [intros []|exact P]. }
  split; [exact K'|]. intros N c x. rewrite K'. split.
  - intros (b & xs & a & -> & Hx & _). exists xs. split; [apply in_or_app; right; now left|exact Hx].
  - intros (xs & Hin & Hx). apply in_split in Hin as (b & a & ->). exists b, xs, a. split; [reflexivity|]. split; [exact Hx|].
    intros ys Hy. exfalso. rewrite map_app in N. cbn [map fst] in N. apply NoDup_remove_2 in N. apply N. apply in_or_app. left. apply in_map_iff. exists (c, ys). auto.
Qed.
(** Of the documents whose attributes are not empty exactly those of this form are read; with
    all others, or without a document, the program ends with a message. *)
Theorem C82_accepted : readACX None = Exit /\ forall doc, Forall branch_ok doc ->
  (exists es t, acx_says doc es /\ readACX (Some doc) = Ok t) \/ readACX (Some doc) = Exit /\ forall es, ~ acx_says doc es.
Proof.
  split; [reflexivity|]. intros doc W. unfold readACX. generalize (@nil (Z * list Z)). induction W as [|b bs [W1 W2] W3 IH]; intros m; cbn [acx_chars].
  - left. exists [], m. split; [constructor|reflexivity].
  - destruct (lf_element (br_node b)) eqn:El; cbn [negb].
    2:{ destruct (IH m) as [(es & t & H & E)|[E H]]; [left; exists es, t; split; [now constructor|exact E]|].
        right. split; [exact E|]. intros es K. inversion K; subst; [eapply H; eassumption|congruence]. }
    unfold leaf_named. destruct (ustr_eq_dec (lf_name (br_node b)) n_char) as [Nm|Nm]; cbn [negb].
    2:{ right. split; [reflexivity|]. intros es K. inversion K; subst; [congruence|]. apply Nm. assumption. }
    destruct (get_val_inv _ W1) as [(c & E & V & S)|[E V]]; rewrite E; cbn [obind].
    2:{ right. split; [reflexivity|]. intros es K. inversion K; subst; [congruence|]. eapply V; eassumption. }
    destruct (inner_inv _ W2 []) as [(vec & xs & E' & Hi)|[E' H]]; rewrite E'; cbn [obind].
    2:{ right. split; [reflexivity|]. intros es K. inversion K; subst; [congruence|]. eapply H; eassumption. }
    destruct (IH (match vec with [] => m | _ => acx_insert c vec m end)) as [(es & t & H & E2)|[E2 H]].
    + left. exists ((c, xs) :: es), t. split; [now constructor|exact E2].
    + right. split; [exact E2|]. intros es K. inversion K; subst; [congruence|]. eapply H; eassumption.
Qed.
(** lt-apply-acx with the file: the words of the dictionary, where in reading each character may
    be one the file declares equivalent to it. *)
Theorem C82_dictionary : forall doc es d, acx_says doc es -> Forall branch_ok doc -> NoDup (map fst es) -> coded_ok d ->
  exists t d', readACX (Some doc) = Ok t /\ lt_apply_acx t d = Ok d' /\ (forall name, In name (names d') <-> In name (names d))
    /\ forall name tr' f, coded_words d' name tr' f <-> exists tr, coded_words d name tr f
         /\ Forall2 (fun x x' => snd x' = snd x /\ snd (fst x') = snd (fst x)
              /\ (fst (fst x') = fst (fst x) \/ exists xs, In (fst (fst x), xs) es /\ In (fst (fst x')) xs)) tr tr'.
Proof.
  intros doc es d H W N Hd. destruct (C82_file doc es H W) as (t & E & Nt & _ & K). specialize (K N).
  destruct (C70_acx t d Nt Hd) as (d' & E' & _ & Hn & Hw & _). exists t, d'. split; [exact E|]. split; [exact E'|]. split; [exact Hn|].
  intros name tr' f. rewrite Hw. split; intros (tr & H1 & H2); exists tr; (split; [exact H1|]); clear - H2 K; unfold respelt in *.
  - induction H2 as [|x y l l' (A & B & C) _ IH]; constructor; auto. split; [exact A|]. split; [exact B|]. destruct C as [C|C]; [now left|right]. now apply K in C.
  - induction H2 as [|x y l l' (A & B & C) _ IH]; constructor; auto. split; [exact A|]. split; [exact B|]. destruct C as [C|C]; [now left|right]. now apply K.
Qed.

(** * Concrete cases *)
Definition blank_leaf : leaf := mkLeaf false (txt "text") [].
Definition equiv (v : ustr) : leaf := mkLeaf true (txt "equiv-char") [(txt "value", v)].
Definition entry (v : ustr) (l : list leaf) : branch := mkBranch (mkLeaf true (txt "char") [(txt "value", v)]) l.
(** a: a-grave and U+1D41A; b: nothing *)
Definition acx_sample : list branch :=
  [mkBranch blank_leaf []; entry [97] [blank_leaf; equiv (utf16 119834); blank_leaf; equiv [224]]; mkBranch blank_leaf []; entry [98] []].
Example C82_example : acx_says acx_sample [(97, [119834; 224]); (98, [])] /\ Forall branch_ok acx_sample
  /\ readACX (Some acx_sample) = Ok [(97, [224; 119834])]
  /\ exists d, lt_apply_acx [(97, [224; 119834])] d1 = Ok d /\ coded_words d main_ [((119834, -1), 1); ((98, 98), 4)] 7.
Proof.
  assert (L0 : leaf_ok blank_leaf) by (split; [constructor|intros k v []]).
  assert (L1 : forall e n c, InputProps.scalar c -> leaf_ok (mkLeaf e n [(txt "value", utf16 c)])).
  { intros e n c S. split; [repeat constructor; intros []|]. intros k v [E|[]]. injection E as <- <-. split.
    - unfold utf16. destruct (c <? 65536); discriminate.
    - exists [c]. split; [constructor; [exact S|constructor]|]. cbn [flat_map]. now rewrite app_nil_r. }
  assert (S1 : InputProps.scalar 97) by (split; lia). assert (S2 : InputProps.scalar 98) by (split; lia).
  assert (S3 : InputProps.scalar 224) by (split; lia). assert (S4 : InputProps.scalar 119834) by (split; lia).
  split.
  { apply as_other; [reflexivity|]. apply (as_char _ 97 [119834; 224]); [reflexivity|reflexivity|now left|exact S1| |].
    - apply ai_other; [reflexivity|]. apply ai_char; [reflexivity|reflexivity|now left|exact S4|]. apply ai_other; [reflexivity|].
      apply ai_char; [reflexivity|reflexivity|now left|exact S3|constructor].
    - apply as_other; [reflexivity|]. apply (as_char _ 98 []); [reflexivity|reflexivity|now left|exact S2|constructor|constructor]. }
  split.
  { constructor; [split; [exact L0|constructor]|]. constructor.
    - split; [exact (L1 true (txt "char") 97 S1)|]. constructor; [exact L0|]. constructor; [exact (L1 true (txt "equiv-char") 119834 S4)|].
      constructor; [exact L0|]. constructor; [exact (L1 true (txt "equiv-char") 224 S3)|constructor].
    - constructor; [split; [exact L0|constructor]|]. constructor; [|constructor]. split; [exact (L1 true (txt "char") 98 S2)|constructor]. }
  split; [vm_compute; reflexivity|].
  destruct (C70_acx [(97, [224; 119834])] d1) as (d & E & _ & _ & K & _); [repeat constructor; intros []|apply d1_ok|]. exists d. split; [exact E|].
  apply K. exists [((97, -1), 1); ((98, 98), 4)]. split.
  - exists RelabelProps.tE. split; [now left|]. exists 2%nat. split; [|now left].
    apply (trace_cons _ _ 0 2 _ 1 1%nat); [right; now left|reflexivity|]. apply (trace_cons _ _ 1 3 _ 4 2%nat); [right; now left|reflexivity|]. constructor.
  - constructor; [split; [reflexivity|split; [reflexivity|right; exists [224; 119834]; split; [now left|right; now left]]]|]. constructor; [auto|constructor].
Qed.

(** * What does not hold *)
(** Of two entries of one character the second is left out without a message. *)
Theorem C82_twice_refuted : exists doc es t, acx_says doc es /\ readACX (Some doc) = Ok t
  /\ equivalent es 97 225 /\ ~ equivalent t 97 225.
Proof.
  exists [entry [97] [equiv [224]]; entry [97] [equiv [225]]], [(97, [224]); (97, [225])], [(97, [224])]. split.
  - apply (as_char _ 97 [224]); [reflexivity|reflexivity|now left|split; lia| |].
    + apply ai_char; [reflexivity|reflexivity|now left|split; lia|constructor].
    + apply (as_char _ 97 [225]); [reflexivity|reflexivity|now left|split; lia| |constructor].
      apply ai_char; [reflexivity|reflexivity|now left|split; lia|constructor].
  - split; [vm_compute; reflexivity|]. split; [exists [225]; split; [right; now left|now left]|].
    intros (l & [E|[]] & H). injection E as <-. destruct H as [H|[]]. discriminate H.
Qed.
(** An empty value is not reported: a null pointer is followed. *)
Theorem C82_empty_refuted : readACX (Some [entry [] []]) = UB /\ readACX (Some [entry [97] [equiv []]]) = UB
  /\ readACX (Some [mkBranch (mkLeaf true (txt "char") []) []]) = Exit.
Proof. repeat split; reflexivity. Qed.

Print Assumptions C82_file.
Print Assumptions C82_accepted.
Print Assumptions C82_dictionary.
Print Assumptions C82_twice_refuted.
Print Assumptions C82_empty_refuted.
