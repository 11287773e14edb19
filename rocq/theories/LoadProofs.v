(** Proofs about loaded dictionaries: where the nodes are, what their arcs are, and the runs
    from the root. *)
From Coq Require Import Permutation.
From Verif Require Import Base CompressionModel AlphabetModel AlphabetProofs TransducerModel TransducerSpec TransducerProofs
  MinimizeProofs TrieProofs FileModel FileProofs FileProps StateModel StateSpec FinalsModel CompilerModel CompilerSpec CompilerProofs
  ValidProps ProcessorModel BilingualModel LoadModel.

(** * Names in order *)
Section ByName.
  Context {T : Type}.
  Lemma insert_by_name_perm : forall (x : ustr * T) l, Permutation (x :: l) (insert_by_name x l).
  Proof.
    intros x. induction l as [|y l IH]; cbn [insert_by_name]; [reflexivity|].
    destruct (name_before (fst x) (fst y)); [reflexivity|]. etransitivity; [apply perm_swap|]. now apply perm_skip.
  Qed.
  Lemma by_name_perm : forall l : list (ustr * T), Permutation l (by_name l).
  Proof.
    induction l as [|x l IH]; [reflexivity|]. cbn [by_name fold_right]. etransitivity; [apply perm_skip, IH|]. apply insert_by_name_perm.
  Qed.
  Lemma by_name_in : forall x (l : list (ustr * T)), In x (by_name l) <-> In x l.
  Proof. intros x l. split; apply Permutation_in; [symmetry|]; apply by_name_perm. Qed.
  Lemma by_name_nodup : forall l : list (ustr * T), NoDup (map fst l) -> NoDup (map fst (by_name l)).
  Proof. intros l. apply Permutation_NoDup. apply Permutation_map, by_name_perm. Qed.
  Lemma by_name_length : forall l : list (ustr * T), length (by_name l) = length l.
  Proof. intros l. symmetry. apply Permutation_length, by_name_perm. Qed.
End ByName.

(** * Where the nodes are *)
Definition total (tes : list (ustr * texe)) : nat := fold_right (fun x n => (length (te_nodes (snd x)) + n)%nat) 0%nat tes.
(** The transducer [te] named [name] has its nodes from [b] on. *)
Definition placed (base : nat) (tes : list (ustr * texe)) (b : nat) (name : ustr) (te : texe) : Prop :=
  exists pre post, tes = pre ++ (name, te) :: post /\ b = (base + total pre)%nat.

Lemma placed_nil : forall base b name te, ~ placed base [] b name te.
Proof. intros base b name te ([|] & post & E & _); discriminate. Qed.
Lemma placed_cons : forall base name te r b name' te', placed base ((name, te) :: r) b name' te' <->
  (b = base /\ name' = name /\ te' = te) \/ placed (base + length (te_nodes te)) r b name' te'.
Proof.
  intros base name te r b name' te'. split.
  - intros ([|x pre] & post & E & Hb); cbn [app] in E.
    + injection E as -> -> ->. left. cbn in Hb. split; [lia|auto].
    + injection E as <- ->. right. exists pre, post. split; [reflexivity|]. cbn [total fold_right snd] in Hb. fold (total pre) in Hb. lia.
  - intros [(-> & -> & ->)|(pre & post & -> & ->)].
    + exists [], r. split; [reflexivity|]. cbn. lia.
    + exists ((name, te) :: pre), post. split; [reflexivity|]. cbn [total fold_right snd]. fold (total pre). lia.
Qed.
Lemma placed_in : forall tes base name te, In (name, te) tes -> exists b, placed base tes b name te.
Proof.
  intros tes base name te H. apply in_split in H as (pre & post & ->). exists (base + total pre)%nat, pre, post. auto.
Qed.
Lemma placed_from : forall tes base b name te, placed base tes b name te -> In (name, te) tes /\ (base <= b)%nat.
Proof. intros tes base b name te (pre & post & -> & ->). split; [apply in_elt|lia]. Qed.
Lemma placed_below : forall tes base b name te, placed base tes b name te -> (b + length (te_nodes te) <= base + total tes)%nat.
Proof.
  induction tes as [|[n t] tes IH]; intros base b name te H; [now apply placed_nil in H|]. cbn [total fold_right snd]. fold (total tes).
  apply placed_cons in H as [(-> & -> & ->)|H]; [lia|]. apply IH in H. lia.
Qed.
Lemma placed_unique : forall tes base b1 n1 t1 i1 b2 n2 t2 i2,
  placed base tes b1 n1 t1 -> placed base tes b2 n2 t2 -> (i1 < length (te_nodes t1))%nat -> (i2 < length (te_nodes t2))%nat ->
  (b1 + i1 = b2 + i2)%nat -> b1 = b2 /\ n1 = n2 /\ t1 = t2 /\ i1 = i2.
Proof.
  induction tes as [|[n t] tes IH]; intros base b1 n1 t1 i1 b2 n2 t2 i2 H1 H2 L1 L2 E; [now apply placed_nil in H1|].
  apply placed_cons in H1 as [(-> & -> & ->)|H1]; apply placed_cons in H2 as [(-> & -> & ->)|H2].
  - split; [reflexivity|]. split; [reflexivity|]. split; [reflexivity|lia].
  - apply placed_from in H2 as [_ H2]. lia.
  - apply placed_from in H1 as [_ H1]. lia.
  - exact (IH _ _ _ _ _ _ _ _ _ H1 H2 L1 L2 E).
Qed.

Section Graph.
  Context (zw : weight -> Z).
  Notation nowhere := (fun _ : Z => @nil (Z * (nat * Z))).
  Definition moved (b : nat) (d : dest) : Z * (nat * Z) := (fst d, ((b + fst (snd d))%nat, zw (snd (snd d)))).

  Lemma nodes_length : forall tes base, length (graph_nodes zw base tes) = total tes.
  Proof.
    induction tes as [|[n t] tes IH]; intros base; [reflexivity|]. cbn [graph_nodes total fold_right snd]. fold (total tes).
    now rewrite app_length, map_length, IH.
  Qed.
  Lemma nodes_placed : forall tes base b name te i c, placed base tes b name te -> (i < length (te_nodes te))%nat ->
    nth (b - base + i) (graph_nodes zw base tes) nowhere c = map (moved b) (node_find c (nth i (te_nodes te) [])).
  Proof.
    induction tes as [|[n t] tes IH]; intros base b name te i c H Hi; [now apply placed_nil in H|]. cbn [graph_nodes].
    apply placed_cons in H as [(-> & -> & ->)|H].
    - replace (base - base + i)%nat with i by lia. rewrite app_nth1 by now rewrite map_length.
      set (f := fun (nd : node) (c : Z) => _). rewrite (nth_indep _ nowhere (f [])) by (now rewrite map_length).
      rewrite map_nth. reflexivity.
    - pose proof (placed_from _ _ _ _ _ H) as [_ Hb]. rewrite app_nth2 by (rewrite map_length; lia). rewrite map_length.
      replace (b - base + i - length (te_nodes t))%nat with (b - (base + length (te_nodes t)) + i)%nat by lia. now apply (IH _ _ name).
  Qed.
  Lemma nodes_split : forall tes base n, (n < total tes)%nat -> exists b name te i,
    placed base tes b name te /\ (i < length (te_nodes te))%nat /\ (base + n = b + i)%nat.
  Proof.
    induction tes as [|[nm t] tes IH]; intros base n H; [cbn in H; lia|]. cbn [total fold_right snd] in H. fold (total tes) in H.
    destruct (Nat.lt_ge_cases n (length (te_nodes t))) as [L|L].
    - exists base, nm, t, n. split; [apply placed_cons; auto|]. auto.
    - destruct (IH (base + length (te_nodes t))%nat (n - length (te_nodes t))%nat) as (b & name & te & i & P & Hi & E); [lia|].
      exists b, name, te, i. split; [apply placed_cons; auto|]. split; [exact Hi|lia].
  Qed.

  Lemma find_placed : forall tes b name te i c, placed 1 tes b name te -> (i < length (te_nodes te))%nat ->
    graph_find zw tes (b + i) c = map (moved b) (node_find c (nth i (te_nodes te) [])).
  Proof.
    intros tes b name te i c H Hi. pose proof (placed_from _ _ _ _ _ H) as [_ Hb]. unfold graph_find.
    destruct (b + i)%nat as [|n] eqn:E; [lia|]. cbn [nth]. rewrite <- (nodes_placed tes 1 b name te i c H Hi). f_equal. lia.
  Qed.
  Lemma find_root : forall tes c, graph_find zw tes 0 c = if c =? 0 then root_arcs 1 tes else [].
  Proof. reflexivity. Qed.
  Lemma find_where : forall tes n c x, In x (graph_find zw tes n c) ->
    n = 0%nat \/ exists b name te i, placed 1 tes b name te /\ (i < length (te_nodes te))%nat /\ n = (b + i)%nat.
  Proof.
    intros tes [|n] c x H; [now left|]. right. destruct (Nat.lt_ge_cases n (total tes)) as [L|L].
    - destruct (nodes_split tes 1 n L) as (b & name & te & i & P & Hi & E). exists b, name, te, i. split; [exact P|]. split; [exact Hi|lia].
    - unfold graph_find in H. cbn [nth] in H. rewrite nth_overflow in H by now rewrite nodes_length. destruct H.
  Qed.
  Lemma root_arcs_in : forall tes base x, In x (root_arcs base tes) <->
    exists b name te, placed base tes b name te /\ x = (0, ((b + te_initial te)%nat, 0)).
  Proof.
    induction tes as [|[n t] tes IH]; intros base x; cbn [root_arcs In].
    - split; [intros []|intros (b & name & te & H & _); now apply placed_nil in H].
    - rewrite IH. split.
      + intros [<-|(b & name & te & H & ->)].
        * exists base, n, t. split; [apply placed_cons; auto|reflexivity].
        * exists b, name, te. split; [apply placed_cons; auto|reflexivity].
      + intros (b & name & te & H & ->). apply placed_cons in H as [(-> & -> & ->)|H]; [now left|right; eauto].
  Qed.

  (** * Final nodes *)
  Definition final_at (sel : ustr -> Prop) (base : nat) (tes : list (ustr * texe)) (q : nat) (w : Z) : Prop :=
    exists b name te f fw, placed base tes b name te /\ sel name /\ In (f, fw) (te_finals te) /\ q = (b + f)%nat /\ w = zw fw.
  Lemma node_finals_in : forall base te q w, In (q, w) (node_finals zw base te) <->
    exists f fw, In (f, fw) (te_finals te) /\ q = (base + f)%nat /\ w = zw fw.
  Proof.
    intros base te q w. unfold node_finals. rewrite in_map_iff. split.
    - intros ([f fw] & E & H). injection E as <- <-. eauto.
    - intros (f & fw & H & -> & ->). exists (f, fw). auto.
  Qed.
  Lemma final_cons : forall sel base name te r q w, final_at sel base ((name, te) :: r) q w <->
    (sel name /\ In (q, w) (node_finals zw base te)) \/ final_at sel (base + length (te_nodes te)) r q w.
  Proof.
    intros sel base name te r q w. rewrite node_finals_in. split.
    - intros (b & n & t & f & fw & P & S & H). apply placed_cons in P as [(-> & -> & ->)|P]; [left; eauto|right].
      exists b, n, t, f, fw. auto.
    - intros [(S & f & fw & H)|(b & n & t & f & fw & P & S & H)].
      + exists base, name, te, f, fw. split; [apply placed_cons; auto|auto].
      + exists b, n, t, f, fw. split; [apply placed_cons; auto|auto].
  Qed.
  Lemma final_nil : forall sel base q w, ~ final_at sel base [] q w.
  Proof. intros sel base q w (b & n & t & f & fw & P & _). now apply placed_nil in P. Qed.
  Lemma every_final_in : forall tes base q w, In (q, w) (every_final zw base tes) <-> final_at (fun _ => True) base tes q w.
  Proof.
    induction tes as [|[n t] tes IH]; intros base q w; cbn [every_final].
    - split; [intros []|intros H; now apply final_nil in H].
    - rewrite in_app_iff, IH, final_cons. tauto.
  Qed.

  Definition ends (suffix name : ustr) : Prop := exists stem, name = stem ++ suffix.
  Lemma endswith_iff : forall name suffix, endswith name suffix = true <-> ends suffix name.
  Proof.
    intros name suffix. unfold endswith, ends. rewrite Bool.andb_true_iff, Nat.leb_le. split.
    - intros [L H]. destruct (ustr_eq_dec _ _) as [E|]; [|discriminate]. exists (firstn (length name - length suffix) name).
      rewrite <- E at 2. symmetry. apply firstn_skipn.
    - intros (stem & ->). rewrite app_length. split; [lia|]. replace (length stem + length suffix - length suffix)%nat with (length stem) by lia.
      rewrite skipn_app, skipn_all2, Nat.sub_diag by lia. cbn [skipn app]. now destruct (ustr_eq_dec suffix suffix).
  Qed.
  Lemma endswith_false : forall name suffix, endswith name suffix = false <-> ~ ends suffix name.
  Proof. intros name suffix. rewrite <- endswith_iff. destruct (endswith name suffix); split; congruence. Qed.
  (** No name ends in two of the four ways. *)
  Lemma ends_apart : forall a b name, In a [s_inconditional; s_standard; s_postblank; s_preblank] ->
    In b [s_inconditional; s_standard; s_postblank; s_preblank] -> ends a name -> ends b name -> a = b.
  Proof.
    intros a b name Ha Hb (x & ->) (y & E).
    assert (K : forall n, firstn n (rev (x ++ a)) = firstn n (rev (y ++ b))) by (intros n; now rewrite E).
    specialize (K 7%nat). rewrite !rev_app_distr in K.
    cbn [In] in Ha, Hb. destruct Ha as [<-|[<-|[<-|[<-|[]]]]]; destruct Hb as [<-|[<-|[<-|[<-|[]]]]]; try reflexivity; exfalso; cbn in K; discriminate.
  Qed.
  Definition typed (name : ustr) : Prop :=
    ends s_inconditional name \/ ends s_standard name \/ ends s_postblank name \/ ends s_preblank name.
  Lemma classify_spec : forall tes base k,
    (Forall (fun x => typed (fst x)) tes ->
       exists k', classifyFinals zw base tes k = Ok k'
         /\ forall q w, (In (q, w) (cl_standard k') <-> In (q, w) (cl_standard k) \/ final_at (ends s_standard) base tes q w)
              /\ (In (q, w) (cl_incond k') <-> In (q, w) (cl_incond k) \/ final_at (ends s_inconditional) base tes q w)
              /\ (In (q, w) (cl_postblank k') <-> In (q, w) (cl_postblank k) \/ final_at (ends s_postblank) base tes q w)
              /\ (In (q, w) (cl_preblank k') <-> In (q, w) (cl_preblank k) \/ final_at (ends s_preblank) base tes q w))
    /\ (Exists (fun x => ~ typed (fst x)) tes -> classifyFinals zw base tes k = Exit).
  Proof.
    assert (Ap := ends_apart).
    induction tes as [|[n t] tes IH]; intros base k; cbn [classifyFinals].
    { split; [|intros H; inversion H]. intros _. exists k. split; [reflexivity|]. intros q w.
      pose proof (fun sel => final_nil sel base q w) as N. split; [|split; [|split]]; (split; [auto|]); intros [H|H]; auto; now apply N in H. }
    assert (One : forall a b, In a [s_inconditional; s_standard; s_postblank; s_preblank] ->
      In b [s_inconditional; s_standard; s_postblank; s_preblank] -> ends a n -> a <> b -> ~ ends b n).
    { intros a b Ha Hb Ea Ne Eb. apply Ne. exact (Ap a b n Ha Hb Ea Eb). }
    assert (J1 : In s_inconditional [s_inconditional; s_standard; s_postblank; s_preblank]) by (cbn; auto).
    assert (J2 : In s_standard [s_inconditional; s_standard; s_postblank; s_preblank]) by (cbn; auto).
    assert (J3 : In s_postblank [s_inconditional; s_standard; s_postblank; s_preblank]) by (cbn; auto).
    assert (J4 : In s_preblank [s_inconditional; s_standard; s_postblank; s_preblank]) by (cbn; auto).
    assert (D1 : s_inconditional <> s_standard) by discriminate. assert (D2 : s_inconditional <> s_postblank) by discriminate.
    assert (D3 : s_inconditional <> s_preblank) by discriminate. assert (D4 : s_standard <> s_postblank) by discriminate.
    assert (D5 : s_standard <> s_preblank) by discriminate. assert (D6 : s_postblank <> s_preblank) by discriminate.
    destruct (endswith n s_inconditional) eqn:E1; [|destruct (endswith n s_standard) eqn:E2;
      [|destruct (endswith n s_postblank) eqn:E3; [|destruct (endswith n s_preblank) eqn:E4]]]; cbn [obind];
    rewrite ?endswith_iff, ?endswith_false in *.
    5:{ split; [intros H; inversion H as [|? ? T _]; subst; unfold typed in T; cbn [fst] in T; tauto|reflexivity]. }
    all: match goal with |- context [classifyFinals _ ?b ?t ?k'] => destruct (IH b k') as [I1 I2] end;
      (split; [|intros H; apply I2; inversion H as [? ? T|]; subst; [exfalso; apply T; unfold typed; cbn [fst]; tauto|assumption]]);
      intros H; inversion H as [|? ? _ H']; subst; destruct (I1 H') as (k' & -> & K); exists k'; split; [reflexivity|]; intros q w;
      specialize (K q w); cbn [cl_standard cl_incond cl_postblank cl_preblank] in K; rewrite !in_app_iff in K; rewrite !final_cons.
    - pose proof (One s_inconditional s_standard J1 J2 E1 D1). pose proof (One s_inconditional s_postblank J1 J3 E1 D2).
      pose proof (One s_inconditional s_preblank J1 J4 E1 D3). tauto.
    - pose proof (One s_standard s_postblank J2 J3 E2 D4). pose proof (One s_standard s_preblank J2 J4 E2 D5). tauto.
    - pose proof (One s_postblank s_preblank J3 J4 E3 D6). tauto.
    - tauto.
  Qed.
End Graph.
