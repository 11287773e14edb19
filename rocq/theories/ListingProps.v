(** C74: lt-expand lists the dictionary a document describes. *)
From Coq Require String Ascii.
From Coq Require Import Permutation.
From Verif Require Import Base AlphabetModel ExpanderModel DixModel DixSpec DixProps ListingModel ListingSpec ListingProofs.
From Verif Require ExpanderSpec ExpanderProps EntryFilterProps.
Import String.StringSyntax.

(** * The document is read as the dictionary it describes *)
(** Whatever layout, comments and attributes besides: the paradigms, sections and entries are
    expanded with their elements, in order.  (With C52.) *)
Theorem C74_reading : forall o isspace fails separable ts ns,
  document isspace separable ts ns -> Forall top_scalar ts -> tidy ns ->
  lt_expand o isspace fails ns = expand o (flat_map ExpanderSpec.item_nodes (flat_map listed ts)).
Proof. intros o isspace fails separable ts ns H K T. exact (listing o isspace fails separable ts ns H K T). Qed.

(** From the document to the lines: every entry of a section is listed with exactly its
    expansions. *)
Theorem C74_document : forall o isspace fails separable ts ns Ys,
  document isspace separable ts ns -> Forall top_scalar ts -> tidy ns ->
  ExpanderSpec.dictionary_fine o (fun _ => []) [] (flat_map listed ts) -> ExpanderSpec.dictionary o (fun _ => []) (flat_map listed ts) Ys ->
  exists Zs, Forall2 (@Permutation ExpanderSpec.expansion) Zs Ys
    /\ lt_expand o isspace fails ns = Ok (concat (map (fun Z => concat (map ExpanderSpec.show Z)) Zs)).
Proof.
  intros o isspace fails separable ts ns Ys H K T F D. rewrite (C74_reading o isspace fails separable ts ns H K T).
  exact (ExpanderProps.C52_dictionary o _ Ys F D).
Qed.

(** Two documents of the same dictionary are listed alike; that the reader fails after the end
    of the dictionary makes no difference. *)
Theorem C74_layout : forall o isspace fails fails' separable separable' ts ns ns',
  document isspace separable ts ns -> document isspace separable' ts ns' -> Forall top_scalar ts -> tidy ns -> tidy ns' ->
  lt_expand o isspace fails ns = lt_expand o isspace fails' ns'.
Proof. intros. rewrite (C74_reading o isspace fails separable ts ns), (C74_reading o isspace fails' separable' ts ns'); auto. Qed.

(** * A document *)
(** Checking that a document is tidy *)
Fixpoint texts_apart (ns : list xnode) : bool :=
  match ns with
  | n :: r => negb (named n_text n && match r with m :: _ => named n_text m | [] => false end) && texts_apart r
  | [] => true
  end.
Fixpoint pairs_clean (inside : bool) (ns : list xnode) : bool :=
  match ns with
  | n :: r =>
      if named n_p n then pairs_clean (negb (x_end n) && negb (x_empty n)) r
      else negb (inside && named n_comment n) && pairs_clean inside r
  | [] => true
  end.
Fixpoint ends_clean (seen : option bool) (ns : list xnode) : bool :=
  match ns with
  | n :: r =>
      if named n_par n then ends_clean (Some false) r
      else if named n_text n then ends_clean seen r
      else if named n_comment n then ends_clean (match seen with Some _ => Some true | None => None end) r
      else negb (named n_e n && match seen with Some b => b | None => false end) && ends_clean None r
  | [] => true
  end.
Ltac clash H := vm_compute in H; discriminate H.
Lemma pairs_clean_spec : forall ns inside, pairs_clean inside ns = true ->
  (inside = true -> forall b t c, ns = b ++ comment t :: c -> exists n, In n b /\ x_name n = txt "p")
  /\ forall a at_ b t c, ns = a ++ opening (txt "p") at_ :: b ++ comment t :: c -> exists n, In n b /\ x_name n = txt "p".
Proof.
  induction ns as [|n r IH]; intros inside H.
  - split; [intros _ [|x b] t c E; discriminate|intros [|x a] at_ b t c E; discriminate].
  - cbn [pairs_clean] in H. destruct (named n_p n) eqn:N.
    + destruct (IH _ H) as [H1 H2]. split.
      * intros _ [|x b] t c E; [injection E as -> ->; discriminate|]. injection E as -> E. exists x. split; [now left|]. unfold named, ueq in N. now destruct (ustr_eq_dec (x_name x) n_p).
      * intros [|x a] at_ b t c E; [|injection E as -> E; exact (H2 a at_ b t c E)]. injection E as -> E. exact (H1 eq_refl b t c E).
    + apply andb_prop in H as [H0 H]. destruct (IH _ H) as [H1 H2]. split.
      * intros -> [|x b] t c E; [injection E as -> ->; discriminate|]. injection E as -> E. destruct (H1 eq_refl b t c E) as (m & I & M). exists m. split; [now right|exact M].
      * intros [|x a] at_ b t c E; [injection E as -> E; discriminate|]. injection E as -> E. exact (H2 a at_ b t c E).
Qed.
Lemma ends_clean_spec : forall ns seen, ends_clean seen ns = true ->
  (forall v b at' c, seen = Some v -> ns = b ++ closing (txt "e") at' :: c -> loose b -> v = false /\ forall t, ~ In (comment t) b)
  /\ forall a at_ b at' c, ns = a ++ alone (txt "par") at_ :: b ++ closing (txt "e") at' :: c -> loose b -> forall t, ~ In (comment t) b.
Proof.
  induction ns as [|n r IH]; intros seen H.
  - split; [intros v [|x b] at' c _ E; discriminate|intros [|x a] at_ b at' c E; discriminate].
  - cbn [ends_clean] in H.
    assert (G : forall seen', ends_clean seen' r = true -> (forall at_, n = alone (txt "par") at_ -> exists v, seen' = Some v) ->
      forall a at_ b at' c, n :: r = a ++ alone (txt "par") at_ :: b ++ closing (txt "e") at' :: c -> loose b -> forall t, ~ In (comment t) b).
    { intros seen' H' Hs [|x a] at_ b at' c E L t.
      - injection E as -> E. destruct (Hs at_ eq_refl) as (v & Hv). exact (proj2 (proj1 (IH _ H') v b at' c Hv E L) t).
      - injection E as -> E. exact (proj2 (IH _ H') a at_ b at' c E L t). }
    destruct (named n_par n) eqn:N1; [|destruct (named n_text n) eqn:N2; [|destruct (named n_comment n) eqn:N3]].
    + split; [|apply (G _ H); eauto]. intros v [|x b] at' c _ E L; [injection E as -> E; clash N1|]. injection E as -> E. destruct (Forall_inv L) as (t & [-> | ->]); clash N1.
    + split; [|apply (G _ H); intros at_ ->; clash N1]. intros v [|x b] at' c Hv E L; [injection E as -> E; clash N2|]. injection E as -> E. pose proof (Forall_inv_tail L) as Lb. rewrite Hv in H.
      destruct (proj1 (IH _ H) v b at' c eq_refl E Lb) as [-> K]. split; [reflexivity|]. intros t [-> |I]; [clash N2|exact (K t I)].
    + split; [|apply (G _ H); intros at_ ->; clash N1]. intros v [|x b] at' c Hv E L; [injection E as -> E; clash N3|]. injection E as -> E. pose proof (Forall_inv_tail L) as Lb. rewrite Hv in H.
      destruct (proj1 (IH _ H) true b at' c eq_refl E Lb) as [K _]. discriminate.
    + apply andb_prop in H as [H0 H]. split; [|apply (G _ H); intros at_ ->; clash N1].
      intros v [|x b] at' c -> E L.
      * injection E as -> E. split; [|intros t []]. cbn in H0. now destruct v.
      * injection E as -> E. destruct (Forall_inv L) as (t & [-> | ->]); [clash N2|clash N3].
Qed.

Lemma texts_apart_spec : forall ns, texts_apart ns = true -> forall a s t b, ns <> a ++ text s :: text t :: b.
Proof.
  induction ns as [|n r IH]; intros H a s t b E; [destruct a; discriminate|]. cbn [texts_apart] in H. apply andb_prop in H as [H0 H].
  destruct a as [|x a]; injection E as -> E; [subst r; clash H0|]. exact (IH H a s t b E).
Qed.
Lemma tidy_check : forall ns, texts_apart ns && pairs_clean false ns && ends_clean None ns = true -> tidy ns.
Proof.
  intros ns H. apply andb_prop in H as [H H3]. apply andb_prop in H as [H1 H2]. split; [now apply texts_apart_spec|].
  split; [exact (proj2 (pairs_clean_spec ns false H2))|exact (proj2 (ends_clean_spec ns None H3))].
Qed.
(** The document of C73: its nodes are as required, and it is listed as it says. *)
Example C74_sample : tidy sample_nodes /\ Forall top_scalar (sample_head ++ sample_body).
Proof.
  split; [apply tidy_check; vm_compute; reflexivity|].
  assert (S : forall t, forallb (fun c => (0 <=? c) && (c <? 55296)) t = true -> Forall scalar t).
  { intros t. induction t as [|c t IH]; intros H; [constructor|]. cbn [forallb] in H. apply andb_prop in H as [H0 H]. constructor; [|auto].
    unfold scalar. cbv beta. lia. }
  assert (X : forall c, In c [txt "s"; txt "x"; txt "y"; txt "z"] -> mark_scalar (Letters c)).
  { intros c Hc. apply S. repeat (destruct Hc as [<-|Hc]; [vm_compute; reflexivity|]). destruct Hc. }
  unfold sample_head, sample_body. cbn [app].
  repeat (first [match goal with |- mark_scalar (Letters _) => apply X; cbn; tauto end | exact I | apply Forall_cons | apply Forall_nil | apply conj];
          cbn [top_scalar fst snd]; unfold entry_scalar; cbn [e_elements element_scalar part_scalar]).
Qed.
Example C74_sample_listed : lt_expand no_filters white false sample_nodes
  = Ok (ExpanderProps.nl [txt "x ys:>:x y<n><pl>"; txt "x y:<:x y<n>"]).
Proof. vm_compute. reflexivity. Qed.

(** * What does not hold *)
Notation list_of := (lt_expand no_filters white false).
(** A comment in a pair, or an empty entry, ends the program; lt-comp compiles both. *)
Definition pair_with (g : list xnode) : list xnode :=
  doc (sect (entry [] ([opening (txt "p") []; opening (txt "l") []; text (txt "a"); closing (txt "l") []] ++ g ++
    [opening (txt "r") []; text (txt "b"); closing (txt "r") []; closing (txt "p") []]))).
Theorem C74_comment_refuted : list_of (pair_with [comment (txt "x")]) = Exit /\ list_of (pair_with [line]) = Ok (ExpanderProps.nl [txt "a:b"])
  /\ lt_comp (comp true false) (pair_with [comment (txt "x")]) = lt_comp (comp true false) (pair_with [line])
  /\ exists r, lt_comp (comp true false) (pair_with [line]) = Ok r.
Proof. split; [vm_compute; reflexivity|]. split; [vm_compute; reflexivity|]. split; [vm_compute; reflexivity|]. eexists. vm_compute. reflexivity. Qed.
Theorem C74_empty_entry_refuted : list_of (doc (sect (alone (txt "e") [] :: simple (txt "a")))) = Exit
  /\ exists r, lt_comp (comp true false) (doc (sect (alone (txt "e") [] :: simple (txt "a")))) = Ok r.
Proof. split; [vm_compute; reflexivity|]. eexists. vm_compute. reflexivity. Qed.
(** An empty entry that is left out takes the start of the next one with it, whose elements
    then end the program. *)
Theorem C74_left_out_refuted : list_of (doc (sect (alone (txt "e") [(txt "i", txt "yes")] :: simple (txt "a")))) = Exit
  /\ list_of (doc (sect (entry [(txt "i", txt "yes")] [] ++ simple (txt "a")))) = Ok (ExpanderProps.nl [txt "a:a"]).
Proof. split; vm_compute; reflexivity. Qed.
(** <f/> is refused, and the word boundaries cannot be told apart. *)
Definition boundary (x : xnode) : list xnode := separable_doc (sect (entry [] [opening (txt "i") []; text (txt "a"); x; closing (txt "i") []])).
Theorem C74_boundary_refuted : list_of (boundary (alone (txt "f") [])) = Exit
  /\ (exists r, lt_comp (comp true false) (boundary (alone (txt "f") [])) = Ok r)
  /\ list_of (boundary (alone (txt "d") [])) = Ok (ExpanderProps.nl [txt "a<$>:a<$>"])
  /\ list_of (boundary (alone (txt "d") [(txt "space", txt "yes")])) = Ok (ExpanderProps.nl [txt "a<$>:a<$>"])
  /\ list_of (boundary (alone (txt "d") [(txt "space", txt "no")])) = Ok (ExpanderProps.nl [txt "a<$>:a<$>"]).
Proof.
  split; [vm_compute; reflexivity|]. split; [eexists; vm_compute; reflexivity|]. split; [vm_compute; reflexivity|]. split; vm_compute; reflexivity.
Qed.
(** A comment after a paradigm that has nothing for the entry *)
Definition useless (g : list xnode) : list xnode :=
  doc (opening (txt "pardefs") [] :: opening (txt "pardef") (n_is (txt "x")) :: entry [(txt "r", txt "RL")] (identity (txt "a")) ++ closing (txt "pardef") [] :: closing (txt "pardefs") [] ::
    sect (entry [(txt "r", txt "LR")] (alone (txt "par") (n_is (txt "x")) :: g) ++ simple (txt "b"))).
Theorem C74_useless_refuted : list_of (useless [comment (txt "x")]) = Exit /\ list_of (useless [line]) = Ok (ExpanderProps.nl [txt "b:b"]).
Proof. split; vm_compute; reflexivity. Qed.
(** A document that breaks off between entries is listed so far, as if it was complete. *)
Theorem C74_truncated_refuted : lt_expand no_filters white true broken_off = Ok (ExpanderProps.nl [txt "a:a"])
  /\ lt_expand no_filters white false (doc (sect (simple (txt "a")))) = Ok (ExpanderProps.nl [txt "a:a"]).
Proof. split; vm_compute; reflexivity. Qed.
(** The comment in <re> is taken for the expression. *)
Definition expression (ns : list xnode) : list xnode := doc (sect (entry [] (opening (txt "re") [] :: ns ++ [closing (txt "re") []]))).
Theorem C74_expression_refuted : list_of (expression [comment (txt "x")]) = Ok (ExpanderProps.nl [txt "__REGEXP__x:__REGEXP__x"])
  /\ list_of (expression [comment (txt "x"); text (txt "a")]) = Exit
  /\ list_of (expression [text (txt "a")]) = Ok (ExpanderProps.nl [txt "__REGEXP__a:__REGEXP__a"]).
Proof. split; [|split]; vm_compute; reflexivity. Qed.
(** Symbols need not be declared, while lt-comp refuses them. *)
Theorem C74_undeclared_refuted :
  let ns := doc (sect (entry [] [opening (txt "i") []; text (txt "a"); alone (txt "s") (n_is (txt "n")); closing (txt "i") []])) in
  list_of ns = Ok (ExpanderProps.nl [txt "a<n>:a<n>"]) /\ lt_comp (comp true false) ns = Exit.
Proof. split; vm_compute; reflexivity. Qed.
(** Only what it knows is read, and text in an entry is refused; text elsewhere is passed over. *)
Example C74_unknown : list_of (doc (opening (txt "x") [] :: sect (simple (txt "a")))) = Exit
  /\ list_of (doc (sect (entry [] (text (txt "b") :: identity (txt "a"))))) = Exit
  /\ list_of (doc (sect (text (txt "b") :: simple (txt "a")))) = Ok (ExpanderProps.nl [txt "a:a"]).
Proof. split; [|split]; vm_compute; reflexivity. Qed.

(** <b>, <m>, <j>, <a> and <s> that are not empty and elements that are none are refused, on
    every side; an entry within an entry too. *)
Theorem C74_refused : forall fails u a,
  Forall (fun x => Forall (fun els => lt_expand no_filters white fails (doc (sect (entry [] els))) = Exit) (three_places (side_with (opening x a) (txt "x") u)))
    [txt "b"; txt "m"; txt "j"; txt "a"; txt "s"; txt "z"]
  /\ lt_expand no_filters white fails (doc (sect (entry [] (identity (txt "x") ++ opening (txt "e") a :: identity u)))) = Exit.
Proof.
  intros fails u a. split; [|vm_compute; reflexivity].
  apply Forall_forall. intros x [<- |[<- |[<- |[<- |[<- |[<- |[]]]]]]]; (apply Forall_cons; [|apply Forall_cons; [|apply Forall_cons; [|apply Forall_nil]]]); vm_compute; reflexivity.
Qed.

Print Assumptions C74_reading.
Print Assumptions C74_document.
Print Assumptions C74_layout.
Print Assumptions C74_refused.
Print Assumptions C74_comment_refuted.
Print Assumptions C74_empty_entry_refuted.
Print Assumptions C74_left_out_refuted.
Print Assumptions C74_boundary_refuted.
Print Assumptions C74_useless_refuted.
Print Assumptions C74_truncated_refuted.
Print Assumptions C74_expression_refuted.
Print Assumptions C74_undeclared_refuted.
