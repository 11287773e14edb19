(** Lemmas for DixProps.v *)
From Coq Require String Ascii.
From Verif Require Import Base CompressionModel AlphabetModel TransducerModel TransducerSpec TransducerProofs RegexpModel StringModel ExpanderModel EntryFilterModel
  CompilerModel CompilerSpec UnifiedModel DixModel DixSpec.
From Verif Require StreamProps InputProps EntryFilterProps.
Import String.StringSyntax.

(** * Compiling leaves the tags of the alphabet alone *)
Lemma pair_slexic : forall p a c a', pair_code p a = (c, a') -> slexic a' = slexic a.
Proof. intros p a c a' H. unfold pair_code in H. injection H as _ <-. now destruct (map_find pair_eq_dec p (spair a)). Qed.
Lemma obind_ok : forall {A B} (x : outcome A) (f : A -> outcome B) b, obind x f = Ok b -> exists a, x = Ok a /\ f a = Ok b.
Proof. intros A B [a| | | |] f b H; try discriminate. eauto. Qed.
Ltac peel H := let a := fresh "y" in let E := fresh "E" in
  apply obind_ok in H as (a & E & H); repeat (let u := fresh "y" in let v := fresh "y" in destruct a as [u v]).
Lemma add_chars_slexic : forall cs a t a' t', fold_left add_char cs (a, t) = (a', t') -> slexic a' = slexic a.
Proof.
  induction cs as [|c cs IH]; intros a t a' t' H; cbn [fold_left] in H; [congruence|].
  destruct (add_char (a, t) c) as [a1 t1] eqn:E. rewrite (IH _ _ _ _ H). unfold add_char in E.
  destruct (insertNewSingleTransduction 0 (initial t) 0 t) as [s1 u1]. destruct (pair_code (c, c) a) as [tag a2] eqn:Ep.
  destruct (insertNewSingleTransduction tag s1 0 u1) as [s2 u2]. injection E as <- _. exact (pair_slexic _ _ _ _ Ep).
Qed.
Lemma insert_term_slexic : forall l a t self st s, insert_term l a t self st = Ok s -> rx_a s = a.
Proof. intros l a t self st s H. unfold insert_term in H. apply obind_ok in H as ([[x y] z] & _ & H). now injection H as <-. Qed.
Lemma esp_slexic : forall s s', esp s = Ok s' -> slexic (rx_a s') = slexic (rx_a s).
Proof.
  intros s s' H. unfold esp in H. apply obind_ok in H as ([[l op] cs] & _ & H).
  destruct (fold_left add_char cs (rx_a s, new_transducer)) as [a t] eqn:E. apply obind_ok in H as (t1 & _ & H). apply obind_ok in H as (t2 & _ & H).
  rewrite (insert_term_slexic _ _ _ _ _ _ H). exact (add_chars_slexic _ _ _ _ _ E).
Qed.
Lemma rx_slexic : forall n,
  (forall s s', rS n s = Ok s' -> slexic (rx_a s') = slexic (rx_a s))
  /\ (forall s s', rRExpr n s = Ok s' -> slexic (rx_a s') = slexic (rx_a s))
  /\ (forall s s', rCola n s = Ok s' -> slexic (rx_a s') = slexic (rx_a s))
  /\ (forall s s', rTerm n s = Ok s' -> slexic (rx_a s') = slexic (rx_a s))
  /\ (forall s s', rRExprp n s = Ok s' -> slexic (rx_a s') = slexic (rx_a s)).
Proof.
  induction n as [|n (I1 & I2 & I3 & I4 & I5)]; [repeat split; intros; discriminate|]. repeat split; intros s s' H; cbn [rS rRExpr rCola rTerm rRExprp] in H.
  - destruct (starts (token (rx_in s))); [|discriminate]. apply obind_ok in H as (s1 & E & H). rewrite (I3 _ _ H). exact (I2 _ _ E).
  - destruct (starts (token (rx_in s))); [|discriminate]. apply obind_ok in H as (s1 & E & H). rewrite (I5 _ _ H). exact (I4 _ _ E).
  - destruct ((token (rx_in s) =? FIN_FICHERO) || (token (rx_in s) =? 41)); [congruence|]. destruct (token (rx_in s) =? 124); [|discriminate].
    apply obind_ok in H as (l & _ & H). apply obind_ok in H as (s1 & E1 & H). apply obind_ok in H as (s2 & E2 & H).
    destruct (insertNewSingleTransduction 0 (rx_st s2) 0 (rx_t s2)) as [st t]. apply obind_ok in H as (t' & _ & H). injection H as <-. cbn [rx_a].
    rewrite (I3 _ _ E2). exact (I2 _ _ E1).
  - destruct (negb (isReserved (token (rx_in s))) || (token (rx_in s) =? 92)).
    + apply obind_ok in H as ([letter l] & _ & H). destruct (pair_code (letter, letter) (rx_a s)) as [tag a] eqn:Ep.
      destruct (insertNewSingleTransduction tag (initial new_transducer) 0 new_transducer) as [e t]. apply obind_ok in H as ([op l'] & _ & H).
      apply obind_ok in H as (t' & _ & H). rewrite (insert_term_slexic _ _ _ _ _ _ H). exact (pair_slexic _ _ _ _ Ep).
    + destruct (token (rx_in s) =? 40).
      * apply obind_ok in H as (l & _ & H). apply obind_ok in H as (s1 & E1 & H). apply obind_ok in H as (l' & _ & H).
        apply obind_ok in H as ([op l2] & _ & H). apply obind_ok in H as (t' & _ & H). rewrite (insert_term_slexic _ _ _ _ _ _ H). exact (I1 _ _ E1).
      * destruct (token (rx_in s) =? 91); [|discriminate]. apply obind_ok in H as (l & _ & H). exact (esp_slexic _ _ H).
  - destruct (starts (token (rx_in s))).
    + apply obind_ok in H as (s1 & E & H). rewrite (I5 _ _ H). exact (I4 _ _ E).
    + destruct ((token (rx_in s) =? 124) || (token (rx_in s) =? FIN_FICHERO) || (token (rx_in s) =? 41)); [congruence|discriminate].
Qed.
Lemma rx_compile_slexic : forall a er a' t, rx_compile a er = Ok (a', t) -> slexic a' = slexic a.
Proof.
  intros a er a' t H. unfold rx_compile in H. destruct er as [|x er]; [discriminate|]. apply obind_ok in H as (s & E & H). injection H as <- _.
  exact (proj1 (rx_slexic _) _ _ E).
Qed.
Lemma tag_is_slexic : forall ps tag a b a', tag_is ps tag a = (b, a') -> slexic a' = slexic a.
Proof.
  induction ps as [|p ps IH]; intros tag a b a' H; cbn [tag_is] in H; [congruence|]. destruct (pair_code p a) as [c a1] eqn:E.
  rewrite <- (pair_slexic _ _ _ _ E). destruct (tag =? c); [congruence|]. exact (IH _ _ _ _ H).
Qed.
Lemma loop_back_slexic : forall s tag n a t a' t', loop_back s tag n a t = Ok (a', t') -> slexic a' = slexic a.
Proof.
  intros s tag n a t a' t' H. unfold loop_back in H. destruct (sep s) as [[x y]|]; [|congruence].
  destruct (tag_is _ tag a) as [b1 a1] eqn:E1. rewrite <- (tag_is_slexic _ _ _ _ _ E1). destruct b1; [congruence|].
  destruct (tag_is _ tag a1) as [b2 a2] eqn:E2. rewrite <- (tag_is_slexic _ _ _ _ _ E2). destruct b2; [|congruence].
  apply obind_ok in H as (t1 & _ & H). congruence.
Qed.
Lemma link_acx_slexic : forall cs r st n w a t a' t', link_acx cs r st n w a t = Ok (a', t') -> slexic a' = slexic a.
Proof.
  induction cs as [|c cs IH]; intros r st n w a t a' t' H; cbn [link_acx] in H; [congruence|]. destruct (pair_code (c, r) a) as [tag a1] eqn:E.
  apply obind_ok in H as (t1 & _ & H). rewrite (IH _ _ _ _ _ _ _ _ H). exact (pair_slexic _ _ _ _ E).
Qed.
Lemma match_rounds_slexic : forall s rs w a st t a' st' t', match_rounds s rs w a st t = Ok (a', st', t') -> slexic a' = slexic a.
Proof.
  intros s. induction rs as [|[ol r] rs IH]; intros w a st t a' st' t' H; cbn [match_rounds] in H; [congruence|].
  destruct (pair_code (match ol with Some l => l | None => 0 end, r) a) as [tag a1] eqn:E1.
  destruct (insertSingleTransduction tag st _ t) as [[n|] t1]; [|discriminate]. apply obind_ok in H as ([a2 t2] & E2 & H). apply obind_ok in H as ([a3 t3] & E3 & H).
  rewrite (IH _ _ _ _ _ _ _ H), (link_acx_slexic _ _ _ _ _ _ _ _ _ E3), (loop_back_slexic _ _ _ _ _ _ _ E2). exact (pair_slexic _ _ _ _ E1).
Qed.
Lemma insert_single_slexic : forall s pi pd w x x', insert_single s pi pd w x = Ok x' -> slexic (w_alph x') = slexic (w_alph x).
Proof.
  intros s pi pd w x x' H. unfold insert_single in H. apply obind_ok in H as ([[a e] t] & E & H). injection H as <-. cbn [w_alph].
  unfold matchTransduction in E. destruct (if lr s then (pi, pd) else (pd, pi)) as [ls rs]. destruct pi, pd; try exact (match_rounds_slexic _ _ _ _ _ _ _ _ _ E).
  destruct (insertNewSingleTransduction 0 (w_e x) 0 (w_t x)). congruence.
Qed.
Lemma insert_regexp_slexic : forall er x x', insert_regexp er x = Ok x' -> slexic (w_alph x') = slexic (w_alph x).
Proof.
  intros er x x' H. unfold insert_regexp in H. apply obind_ok in H as ([a r] & E & H). apply obind_ok in H as ([[e t] u] & _ & H). injection H as <-. cbn [w_alph].
  exact (rx_compile_slexic _ _ _ _ E).
Qed.
Lemma insert_paradigm_slexic : forall n x x', insert_paradigm n x = Ok x' -> slexic (w_alph x') = slexic (w_alph x).
Proof. intros n x x' H. unfold insert_paradigm in H. apply obind_ok in H as ([[e t] u] & _ & H). now injection H as <-. Qed.
Lemma paradigm_tokens_slexic : forall s els x x', paradigm_tokens s els x = Ok x' -> slexic (w_alph x') = slexic (w_alph x).
Proof.
  intros s. induction els as [|[pi pd w|n|er] els IH]; intros x x' H; cbn [paradigm_tokens] in H; [congruence| | |];
    apply obind_ok in H as (x1 & E & H); rewrite (IH _ _ H).
  - exact (insert_single_slexic _ _ _ _ _ _ E).
  - exact (insert_paradigm_slexic _ _ _ E).
  - exact (insert_regexp_slexic _ _ _ E).
Qed.
Lemma section_tokens_slexic : forall s els first x k x' k', section_tokens s first els x k = Ok (x', k') -> slexic (w_alph x') = slexic (w_alph x).
Proof.
  intros s. induction els as [|[pi pd w|n|er] els IH]; intros first x k x' k' H; cbn [section_tokens] in H; [congruence| | |].
  - apply obind_ok in H as (x1 & E & H). rewrite (IH _ _ _ _ _ H). exact (insert_single_slexic _ _ _ _ _ _ E).
  - destruct els as [|el els].
    + destruct (name_find n (suffix k)).
      * apply obind_ok in H as (t & _ & H). now injection H as <- _.
      * destruct (insertNewSingleTransduction 0 (w_e x) 0 (w_t x)) as [e t]. apply obind_ok in H as (x1 & E & H). injection H as <- _.
        now rewrite (insert_paradigm_slexic _ _ _ E).
    + destruct first.
      * destruct (name_find n (prefix k)); [exact (IH _ _ _ _ _ H)|]. apply obind_ok in H as (x1 & E & H). rewrite (IH _ _ _ _ _ H). exact (insert_paradigm_slexic _ _ _ E).
      * apply obind_ok in H as (x1 & E & H). rewrite (IH _ _ _ _ _ H). exact (insert_paradigm_slexic _ _ _ E).
  - apply obind_ok in H as (x1 & E & H). rewrite (IH _ _ _ _ _ H). exact (insert_regexp_slexic _ _ _ E).
Qed.
Lemma proc_slexic : forall s ev c c', proc s ev c = Ok c' -> slexic (c_alph c') = slexic (c_alph c).
Proof.
  intros s [n| |n| |els] c c' H; cbn [proc] in H.
  - now injection H as <-.
  - destruct (isEmpty _); [now injection H as <-|]. apply obind_ok in H as (t & _ & H). apply obind_ok in H as (t' & _ & H). now injection H as <-.
  - now injection H as <-.
  - now injection H as <-.
  - apply obind_ok in H as ([|] & _ & H); [|congruence]. unfold insertEntryTokens in H. destruct (current_paradigm c).
    + apply obind_ok in H as ([w k] & E & H). injection H as <-. cbn [c_alph]. exact (section_tokens_slexic _ _ _ _ _ _ _ E).
    + apply obind_ok in H as (w & E & H). injection H as <-. cbn [c_alph]. exact (paradigm_tokens_slexic _ _ _ _ E).
Qed.
Lemma procs_app : forall s evs evs' c, procs s (evs ++ evs') c = let! c := procs s evs c in procs s evs' c.
Proof. intros s. induction evs as [|ev evs IH]; intros evs' c; cbn [procs app]; [reflexivity|]. destruct (proc s ev c); cbn [obind]; auto. Qed.
Lemma procs_slexic : forall s evs c c', procs s evs c = Ok c' -> slexic (c_alph c') = slexic (c_alph c).
Proof.
  intros s. induction evs as [|ev evs IH]; intros c c' H; cbn [procs] in H; [congruence|]. apply obind_ok in H as (c1 & E & H).
  rewrite (IH _ _ H). exact (proc_slexic _ _ _ _ E).
Qed.

(** * Single nodes *)
Lemma value_text : forall t l, Forall InputProps.scalar t -> fold_left append_cp t l = l ++ utf16_text t.
Proof.
  unfold InputProps.utf16_text. induction t as [|c t IH]; intros l H; cbn [fold_left map concat]; [now rewrite app_nil_r|]. inversion H; subst.
  rewrite IH by assumption. rewrite InputProps.append_cp_utf16 by assumption. now rewrite app_assoc.
Qed.
Lemma given_attrib : forall a k v e x val b, given a k v -> attrib k (mkX e x val a b) = v.
Proof.
  intros a k v e x val b [N H]. unfold attrib, name_get. cbn [x_attrs].
  assert (F : name_find k a = if in_dec ustr_eq_dec k (map fst a) then Some v else None).
  { destruct H as [H|[-> H]].
    - induction a as [|[k0 v0] a IH]; [destruct H|]. cbn [name_find map fst] in *. inversion N as [|? ? N1 N2]; subst. destruct H as [[= -> ->]|H].
      + destruct (ustr_eq_dec k k); [|congruence]. destruct (in_dec ustr_eq_dec k (k :: map fst a)) as [|C]; [reflexivity|]. exfalso. apply C. now left.
      + destruct (ustr_eq_dec k k0) as [->|Nk]; [exfalso; apply N1, (in_map fst a (k0, v) H)|]. rewrite IH by assumption.
        destruct (in_dec ustr_eq_dec k (map fst a)) as [I|I]; destruct (in_dec ustr_eq_dec k (k0 :: map fst a)) as [J|J]; try reflexivity.
        * exfalso. apply J. now right.
        * exfalso. apply I, (in_map fst a (k, v) H).
    - destruct (in_dec ustr_eq_dec k (map fst a)) as [|_]; [contradiction|]. clear N. induction a as [|[k0 v0] a IH]; [reflexivity|]. cbn [name_find map fst In] in *.
      destruct (ustr_eq_dec k k0) as [->|]; [exfalso; apply H; now left|]. apply IH. intros K. apply H. now right. }
  transitivity (match name_find k a with Some v0 => v0 | None => [] end); [reflexivity|]. rewrite F.
  destruct (in_dec ustr_eq_dec k (map fst a)) as [I|I]; [reflexivity|]. destruct H as [H|[-> H]]; [|reflexivity].
  exfalso. apply I, (in_map fst a (k, v) H).
Qed.

Lemma slexic_defined : forall a b s, slexic a = slexic b -> isSymbolDefined s a = isSymbolDefined s b.
Proof. intros a b s H. unfold isSymbolDefined. now rewrite H. Qed.
Lemma slexic_code : forall a b s, slexic a = slexic b -> symbol_code s a = symbol_code s b.
Proof. intros a b s H. unfold symbol_code. now rewrite H. Qed.

(** The codes lsx dictionaries use *)
Definition lsx_codes (a : alphabet) : lsx :=
  mkLsx (symbol_code t_any_tag a) (symbol_code t_any_char a) (symbol_code t_boundary a) (symbol_code t_boundary_s a)
    (symbol_code t_boundary_ns a) (symbol_code t_reading a).

Section Q.
  Context (q : request) (separable : bool) (a0 : alphabet) (known : list ustr).
  Hypothesis Quni : q_unified q = false.
  Hypothesis Qver : q_verbose q = false.
  Hypothesis Qmax : q_max q <= 0.
  Hypothesis Hknown : forall s, In s known -> isSymbolDefined s a0 = true.
  Notation k := (if separable then Some (lsx_codes a0) else None).
  Notation code := (fun s => symbol_code s a0).
  Notation keep := (o_keep (q_opts q)).
  Notation s := (settings_of q k).

  Lemma read_mark : forall a m n, slexic a = slexic a0 -> mark_node m n -> mark_known separable known m ->
    readString q k a n = Ok (mark_symbols keep code m).
  Proof.
    intros a m n Ha H K. destruct H; try reflexivity; cbn [mark_known] in K.
    - unfold readString. change (named n_text (alone (txt "s") a1)) with false. change (named n_m (alone (txt "s") a1)) with false.
      change (named n_b (alone (txt "s") a1)) with false. change (named n_j (alone (txt "s") a1)) with false. change (named n_a (alone (txt "s") a1)) with false.
      change (named n_g (alone (txt "s") a1)) with false. change (named n_s (alone (txt "s") a1)) with true. cbn iota.
      change (requireEmpty (alone (txt "s") a1)) with (@Ok unit tt). cbn [obind]. unfold alone. rewrite (given_attrib a1 a_n n); [|exact H].
      change (tag_symbol n) with (bracketed n). rewrite (slexic_defined a a0), Hknown by assumption. cbn [mark_symbols]. now rewrite (slexic_code a a0).
    - rewrite K. reflexivity.
    - rewrite K. reflexivity.
    - rewrite K. change (readString q (Some (lsx_codes a0)) a (alone (txt "d") a1)) with
        (Ok (A := list Z) [if ueq (attrib a_space (alone (txt "d") a1)) yes_val then k_wb_s (lsx_codes a0) else if ueq (attrib a_space (alone (txt "d") a1)) v_no then k_wb_ns (lsx_codes a0) else k_wb (lsx_codes a0)]).
      unfold alone. rewrite (given_attrib a1 a_space v _ _ _ _ H). unfold ueq. destruct (ustr_eq_dec v yes_val) as [E|_]; [exfalso; apply H0; exact E|].
      destruct (ustr_eq_dec v v_no) as [E|_]; [exfalso; apply H1; exact E|]. reflexivity.
    - rewrite K. change (readString q (Some (lsx_codes a0)) a (alone (txt "d") a1)) with
        (Ok (A := list Z) [if ueq (attrib a_space (alone (txt "d") a1)) yes_val then k_wb_s (lsx_codes a0) else if ueq (attrib a_space (alone (txt "d") a1)) v_no then k_wb_ns (lsx_codes a0) else k_wb (lsx_codes a0)]).
      unfold alone. rewrite (given_attrib a1 a_space _ _ _ _ _ H). reflexivity.
    - rewrite K. change (readString q (Some (lsx_codes a0)) a (alone (txt "d") a1)) with
        (Ok (A := list Z) [if ueq (attrib a_space (alone (txt "d") a1)) yes_val then k_wb_s (lsx_codes a0) else if ueq (attrib a_space (alone (txt "d") a1)) v_no then k_wb_ns (lsx_codes a0) else k_wb (lsx_codes a0)]).
      unfold alone. rewrite (given_attrib a1 a_space _ _ _ _ _ H). reflexivity.
    - rewrite K. reflexivity.
  Qed.

  (** * Sides *)
  Definition stops (stop : list ustr) : Prop := incl stop [n_i; n_ig; n_l; n_r].
  Lemma not_stop : forall stop n, stops stop -> named n_i n = false -> named n_ig n = false -> named n_l n = false -> named n_r n = false ->
    existsb (fun x => named x n) stop = false.
  Proof.
    intros stop n H H1 H2 H3 H4. destruct (existsb _ stop) eqn:E; [|reflexivity]. apply existsb_exists in E as (x & Hx & E).
    apply H in Hx. cbn [In] in Hx. destruct Hx as [<-|[<-|[<-|[<-|[]]]]]; congruence.
  Qed.
  Lemma mark_not_stop : forall stop m n, stops stop -> mark_node m n -> existsb (fun x => named x n) stop = false.
  Proof. intros stop m n Hs H. apply not_stop; auto; destruct H; reflexivity. Qed.
  Lemma side_marks : forall stop a ms ns r, stops stop -> slexic a = slexic a0 -> Forall2 mark_node ms ns -> Forall (mark_known separable known) ms ->
    readSide q k a stop (ns ++ r) = let! (t, r) := readSide q k a stop r in Ok (flat_map (mark_symbols keep code) ms ++ t, r).
  Proof.
    intros stop a ms ns r Hs Ha H. induction H as [|m n ms ns Hm H IH]; intros K; cbn [app flat_map].
    { destruct (readSide q k a stop r) as [[t r']| | | |]; reflexivity. }
    inversion K; subst. cbn [readSide]. rewrite (mark_not_stop stop m n Hs Hm), (read_mark a m n Ha Hm) by assumption. cbn [obind].
    rewrite IH by assumption. destruct (readSide q k a stop r) as [[t r']| | | |]; try reflexivity. cbn [obind]. now rewrite app_assoc.
  Qed.
  Lemma side_part : forall stop a p ns r, stops stop -> slexic a = slexic a0 -> part_nodes p ns -> part_known separable known p ->
    readSide q k a stop (ns ++ r) = let! (t, r) := readSide q k a stop r in Ok (part_symbols keep code p ++ t, r).
  Proof.
    intros stop a p ns r Hs Ha H K. destruct H.
    - pose proof (side_marks stop a [m] [n] r Hs Ha ltac:(constructor; [exact H|constructor]) ltac:(constructor; [exact K|constructor])) as Q.
      cbn [flat_map] in Q. rewrite app_nil_r in Q. exact Q.
    - cbn [app readSide]. rewrite not_stop by (exact Hs || reflexivity). change (readString q k a (opening (txt "g") a1)) with (Ok (A := list Z) [35]). cbn [obind].
      rewrite <- app_assoc, (side_marks stop a ms ns _ Hs Ha H K). cbn [app readSide]. rewrite not_stop by (exact Hs || reflexivity).
      change (readString q k a (closing (txt "g") b)) with (Ok (A := list Z) []). cbn [obind]. destruct (readSide q k a stop r) as [[t r']| | | |]; reflexivity.
    - cbn [app readSide]. rewrite not_stop by (exact Hs || reflexivity). change (readString q k a (alone (txt "g") a1)) with (Ok (A := list Z) [35]). cbn [obind].
      destruct (readSide q k a stop r) as [[t r']| | | |]; reflexivity.
  Qed.
  Lemma side_parts : forall stop a ps nss n r, stops stop -> slexic a = slexic a0 -> Forall2 part_nodes ps nss -> Forall (part_known separable known) ps ->
    existsb (fun x => named x n) stop = true -> readSide q k a stop (concat nss ++ n :: r) = Ok (side keep code ps, r).
  Proof.
    intros stop a ps nss n r Hs Ha H. induction H as [|p ns ps nss Hp H IH]; intros K N; cbn [concat app].
    { cbn [readSide]. now rewrite N. }
    inversion K; subst. rewrite <- app_assoc, (side_part stop a p ns _ Hs Ha Hp) by assumption. rewrite IH by assumption. reflexivity.
  Qed.
  (** A whole element with parts, up to the rest *)
  Lemma side_read : forall x stop a ps ns r, stops stop -> slexic a = slexic a0 -> In x stop -> side_nodes x ps ns -> Forall (part_known separable known) ps ->
    exists n r', ns ++ r = n :: r' /\ x_name n = x
      /\ (if x_empty n then Ok ([], r') else readSide q k a stop r') = Ok (side keep code ps, r).
  Proof.
    intros x stop a ps ns r Hs Ha Hx H K. destruct H.
    - exists (alone x a1), r. auto.
    - exists (opening x a1), ((concat nss ++ [closing x b]) ++ r). split; [reflexivity|]. split; [reflexivity|]. cbn [x_empty opening].
      rewrite <- app_assoc. cbn [app]. apply side_parts; auto. apply existsb_exists. exists x. split; [exact Hx|]. unfold named, ueq. cbn [x_name closing].
      destruct (ustr_eq_dec x x); congruence.
  Qed.

  (** * Gaps *)
  Notation gap := (gap (q_isspace q)).
  Notation element_nodes := (element_nodes (q_isspace q)).
  Notation entry_nodes := (entry_nodes (q_isspace q)).
  Lemma blank_blanks : forall t, Forall InputProps.scalar t -> (allBlanks q (text t) = true <-> blank (q_isspace q) t).
  Proof.
    intros t H. unfold allBlanks, readValue, blank. cbn [x_value text]. rewrite value_text by assumption. cbn [app]. rewrite forallb_forall, <- Forall_forall. tauto.
  Qed.
  Lemma skip_gap : forall g r, gap g -> stepSkip q (g ++ r) = stepSkip q r.
  Proof.
    intros g r H. induction H as [|n g (t & [[-> B]| ->]) H IH]; cbn [app]; [reflexivity| |].
    - change (stepSkip q (text t :: g ++ r)) with (if allBlanks q (text t) then stepSkip q (g ++ r) else Exit).
      rewrite (proj2 (blank_blanks t (proj1 B)) B). exact IH.
    - exact IH.
  Qed.
  Lemma skip_solid : forall n r, named n_comment n = false -> named n_text n = false -> stepSkip q (n :: r) = Ok (Some n, r).
  Proof. intros n r H1 H2. cbn [stepSkip]. now rewrite H1, H2. Qed.
  Lemma skip_named : forall x n r, x_name n = x -> x <> n_comment -> x <> n_text -> stepSkip q (n :: r) = Ok (Some n, r).
  Proof. intros x n r <- H1 H2. apply skip_solid; unfold named, ueq; [destruct (ustr_eq_dec (x_name n) n_comment)|destruct (ustr_eq_dec (x_name n) n_text)]; congruence. Qed.
  Lemma skip_elem : forall x g n r, gap g -> x_name n = x -> x <> n_comment -> x <> n_text -> skip q x (g ++ n :: r) = Ok (n, r).
  Proof.
    intros x g n r Hg Hx H1 H2. unfold skip. rewrite skip_gap, (skip_named x) by assumption. cbn [obind]. unfold named, ueq.
    destruct (ustr_eq_dec (x_name n) x); [reflexivity|congruence].
  Qed.
  (** No node is named e. *)
  Definition quiet (ns : list xnode) : Prop := Forall (fun n => named n_e n = false) ns.
  Lemma quiet_app : forall a b, quiet a -> quiet b -> quiet (a ++ b).
  Proof. intros a b Ha Hb. apply Forall_app. auto. Qed.
  Lemma quiet_gap : forall g, gap g -> quiet g.
  Proof. intros g H. induction H as [|n g (t & [[-> B]| ->]) H IH]; constructor; auto. Qed.
  Lemma quiet_marks : forall ms ns, Forall2 mark_node ms ns -> quiet ns.
  Proof. intros ms ns H. induction H as [|m n ms ns Hm H IH]; constructor; auto. now destruct Hm. Qed.
  Lemma quiet_parts : forall ps nss, Forall2 part_nodes ps nss -> quiet (concat nss).
  Proof.
    intros ps nss H. induction H as [|p ns ps nss Hp H IH]; [constructor|]. cbn [concat]. apply quiet_app; auto. destruct Hp.
    - constructor; [|constructor]. now destruct H0.
    - constructor; [reflexivity|]. apply quiet_app; [exact (quiet_marks _ _ H0)|]. constructor; [reflexivity|constructor].
    - constructor; [reflexivity|constructor].
  Qed.
  Lemma quiet_side : forall x ps ns, ueq x n_e = false -> side_nodes x ps ns -> quiet ns.
  Proof.
    intros x ps ns Hx H. destruct H.
    - constructor; [exact Hx|constructor].
    - constructor; [exact Hx|]. apply quiet_app; [exact (quiet_parts _ _ H)|]. constructor; [exact Hx|constructor].
  Qed.
  Lemma quiet_element : forall d ns, element_nodes d ns -> quiet ns.
  Proof.
    intros d ns H. destruct H.
    - exact (quiet_side (txt "i") _ _ eq_refl H).
    - exact (quiet_side (txt "ig") _ _ eq_refl H).
    - constructor; [reflexivity|]. repeat apply quiet_app; auto using quiet_gap.
      + exact (quiet_side (txt "l") _ _ eq_refl H0).
      + exact (quiet_side (txt "r") _ _ eq_refl H2).
      + constructor; [reflexivity|constructor].
    - repeat (constructor; [reflexivity|]). constructor.
    - constructor; [reflexivity|constructor].
  Qed.
  Lemma quiet_elements : forall ds ns, spread gap element_nodes ds ns -> quiet ns.
  Proof. intros ds ns H. induction H as [g Hg|g d ns ds r Hg Hd H IH]; [now apply quiet_gap|]. repeat apply quiet_app; auto using quiet_gap. exact (quiet_element _ _ Hd). Qed.
  Lemma skip_entry : forall ns n r, quiet ns -> named n_e n = true -> skipEntry q (ns ++ n :: r) = Ok r.
  Proof. intros ns n r H Hn. induction H as [|m ns Hm H IH]; cbn [app skipEntry]; [now rewrite Hn|]. now rewrite Hm. Qed.
  Lemma skip_entry_end : forall ns n r, quiet ns -> named n_e n = true -> x_end n = true -> skipEntryEnd q (ns ++ n :: r) = Ok r.
  Proof. intros ns n r H Hn He. induction H as [|m ns Hm H IH]; cbn [app skipEntryEnd]; [now rewrite Hn, He|]. now rewrite Hm. Qed.

  (** * The elements of an entry *)
  Lemma front_ok : forall first side, front q first side = Ok tt.
  Proof. intros first side. unfold front. now rewrite Qver. Qed.
  Notation token := (element_token keep code).
  Definition after_use (c : compiler) (n : ustr) (r : list xnode) (more : outcome (compiler * bool * list xnode)) : outcome (compiler * bool * list xnode) :=
    let! _ := match current_paradigm c with
              | _ :: _ => if ustr_eq_dec n (current_paradigm c) then Exit else Ok tt
              | [] => Ok tt
              end in
    match name_find n (c_pars c) with
    | None => Exit
    | Some t => if isEmpty t then let! r := skipEntryEnd q r in Ok (c, false, r) else more
    end.
  Lemma element_read : forall fuel c w els g d ns r, gap g -> slexic (c_alph c) = slexic a0 -> element_nodes d ns -> element_known separable known d ->
    entryLoop q (S fuel) k c w false els (g ++ ns ++ r)
    = let more := entryLoop q fuel k c w false (els ++ [token w d]) r in
      match d with Use n => after_use c n r more | _ => more end.
  Proof.
    intros fuel c w els g d ns r Hg Ha H K. cbn [entryLoop]. rewrite (skip_gap g) by assumption. destruct H; cbn [element_known] in K.
    - destruct (side_read (txt "i") [n_i; n_ig] (c_alph c) ps ns r) as (n & r' & E & Ex & E'); auto; [intros x Hx; cbn [In] in *; tauto|now left|].
      rewrite E, (skip_named (txt "i")) by (assumption || discriminate). cbn [obind]. rewrite Qver, Bool.andb_false_r.
      unfold named. rewrite Ex. change (ueq (txt "i") n_p) with false. change (ueq (txt "i") n_i) with true. cbn iota. unfold procIdentity. rewrite E'. cbn [obind].
      rewrite front_ok. cbn [obind]. reflexivity.
    - destruct (side_read (txt "ig") [n_i; n_ig] (c_alph c) ps ns r) as (n & r' & E & Ex & E'); auto; [intros x Hx; cbn [In] in *; tauto|right; now left|].
      rewrite E, (skip_named (txt "ig")) by (assumption || discriminate). cbn [obind]. rewrite Qver, Bool.andb_false_r.
      unfold named. rewrite Ex. change (ueq (txt "ig") n_p) with false. change (ueq (txt "ig") n_i) with false. change (ueq (txt "ig") n_ig) with true. cbn iota.
      unfold procIdentity. rewrite E'. cbn [obind]. rewrite front_ok. cbn [obind]. reflexivity.
    - destruct K as [Kl Kr]. cbn [app]. rewrite (skip_named (txt "p")) by (reflexivity || discriminate). cbn [obind]. rewrite Qver, Bool.andb_false_r.
      change (named n_p (opening (txt "p") a)) with true. cbn iota. unfold procTransduction. repeat rewrite <- app_assoc.
      destruct (side_read (txt "l") [n_l] (c_alph c) l ls (g2 ++ rs ++ g3 ++ [closing (txt "p") b] ++ r)) as (n & r1 & E & Ex & E'); auto; [intros x Hx; cbn [In] in *; tauto|now left|].
      rewrite E, (skip_elem n_l) by (assumption || discriminate). cbn [obind]. rewrite E'. cbn [obind]. rewrite front_ok. cbn [obind]. clear n r1 E Ex E'.
      destruct (side_read (txt "r") [n_r] (c_alph c) r0 rs (g3 ++ [closing (txt "p") b] ++ r)) as (n & r1 & E & Ex & E'); auto; [intros x Hx; cbn [In] in *; tauto|now left|].
      rewrite E, (skip_elem n_r) by (assumption || discriminate). cbn [obind]. rewrite E'. cbn [obind app]. rewrite (skip_elem n_p) by (assumption || reflexivity || discriminate).
      reflexivity.
    - cbn [app]. rewrite (skip_named (txt "re")) by (reflexivity || discriminate). cbn [obind]. rewrite Qver, Bool.andb_false_r. reflexivity.
    - cbn [app]. rewrite (skip_named (txt "par")) by (reflexivity || discriminate). cbn [obind]. rewrite Qver, Bool.andb_false_r.
      change (named n_p (alone (txt "par") a)) with false. change (named n_i (alone (txt "par") a)) with false. change (named n_ig (alone (txt "par") a)) with false.
      change (named n_re (alone (txt "par") a)) with false. change (named n_par (alone (txt "par") a)) with true. cbn iota. unfold procPar, after_use, alone.
      rewrite (given_attrib a a_n n) by exact H. cbn zeta.
      destruct (match current_paradigm c with [] => Ok tt | _ :: _ => if ustr_eq_dec n (current_paradigm c) then Exit else Ok tt end) as [[]| | | |]; try reflexivity. cbn [obind].
      destruct (name_find n (c_pars c)) as [t|] eqn:Ef; [|reflexivity]. cbn [obind]. unfold name_get. rewrite Ef. reflexivity.
  Qed.
  Lemma elements_read : forall ds ns, spread gap element_nodes ds ns -> Forall (element_known separable known) ds ->
    forall c w els fuel b r, slexic (c_alph c) = slexic a0 -> (length ds < fuel)%nat ->
    entryLoop q fuel k c w false els (ns ++ closing (txt "e") b :: r)
    = let! kept := scan_entry c (map (token w) ds) in
      if kept then let! c := insertEntryTokens s (els ++ map (token w) ds) c in Ok (c, false, r) else Ok (c, false, r).
  Proof.
    intros ds ns H. induction H as [g Hg|g d ns ds r0 Hg Hd H IH]; intros K c w els fuel b r Ha Hf.
    - destruct fuel as [|fuel]; [cbn in Hf; lia|]. cbn [entryLoop]. rewrite (skip_gap g), (skip_named (txt "e")) by (assumption || reflexivity || discriminate).
      cbn [obind]. rewrite Qver, Bool.andb_false_r. cbn [map scan_entry obind]. rewrite app_nil_r. reflexivity.
    - inversion K; subst. destruct fuel as [|fuel]; [cbn in Hf; lia|]. cbn [length] in Hf. repeat rewrite <- app_assoc.
      rewrite (element_read fuel c w els g d ns) by assumption. cbn zeta. rewrite IH by (assumption || lia). cbn [map]. rewrite <- app_assoc. cbn [app].
      destruct d; cbn [element_token scan_entry]; try reflexivity. unfold after_use.
      rewrite (skip_entry_end r0) by (reflexivity || exact (quiet_elements _ _ H)). cbn [obind].
      destruct (match current_paradigm c with [] => Ok tt | _ :: _ => if ustr_eq_dec n (current_paradigm c) then Exit else Ok tt end) as [[]| | | |]; try reflexivity. cbn [obind].
      destruct (name_find n (c_pars c)) as [t|]; [|reflexivity]. destruct (isEmpty t); reflexivity.
  Qed.
  Lemma spread_length : forall {A} gp (f : A -> list xnode -> Prop) xs ns, (forall x n, f x n -> n <> []) -> spread gp f xs ns -> (length xs <= length ns)%nat.
  Proof.
    intros A gp f xs ns Hn H. induction H as [|g x ns xs r Hg Hx H IH]; cbn [length]; [lia|]. repeat rewrite app_length. apply Hn in Hx. destruct ns; [congruence|]. cbn [length]. lia.
  Qed.
  Lemma element_nonempty : forall d ns, element_nodes d ns -> ns <> [].
  Proof. intros d ns H. destruct H; try discriminate; destruct H; discriminate. Qed.

  (** * The main loop *)
  Definition advances (c : compiler) (l : ustr) (ns : list xnode) (o : outcome (compiler * ustr)) : Prop :=
    forall n fuel r, (length (ns ++ r) <= fuel)%nat -> exists fuel' n', (length r <= fuel')%nat
      /\ nodesLoop q fuel (mkRead c l k n false) (ns ++ r) = let! (c, l) := o in nodesLoop q fuel' (mkRead c l k n' false) r.
  Lemma advances_none : forall c l, advances c l [] (Ok (c, l)).
  Proof. intros c l n fuel r H. exists fuel, n. auto. Qed.
  Lemma advances_app : forall c l ns ns' o f, advances c l ns o -> (forall c' l', o = Ok (c', l') -> advances c' l' ns' (f c' l')) ->
    advances c l (ns ++ ns') (let! (c', l') := o in f c' l').
  Proof.
    intros c l ns ns' o f H1 H2 n fuel r Hf. rewrite <- app_assoc in *. destruct (H1 n fuel (ns' ++ r) Hf) as (f1 & n1 & L1 & E1). rewrite E1.
    destruct o as [[c' l']| | | |]; cbn [obind]; try (exists (length r), n1; split; [lia|reflexivity]).
    exact (H2 c' l' eq_refl n1 f1 r L1).
  Qed.
  (** One node that consumes [ns] *)
  Lemma advances_node : forall c l x ns o, (forall n r, exists n', procNode q (mkRead c l k n false) x (ns ++ r) = let! (c, l) := o in Ok (mkRead c l k n' false, r)) ->
    advances c l (x :: ns) o.
  Proof.
    intros c l x ns o H n fuel r Hf. cbn [app length] in Hf. destruct fuel as [|fuel]; [lia|]. rewrite app_length in Hf. destruct (H n r) as (n' & E). exists fuel, n'. split; [lia|].
    cbn [app nodesLoop]. rewrite E. destruct o as [[c' l']| | | |]; reflexivity.
  Qed.
  Lemma advances_loose : forall c l g, loose g -> advances c l g (Ok (c, l)).
  Proof.
    intros c l g H. induction H as [|x g Hx H IH]; [apply advances_none|]. change (x :: g) with ([x] ++ g).
    apply (advances_app c l [x] g (Ok (c, l)) (fun c l => Ok (c, l))); [|intros c' l' [= <- <-]; exact IH].
    apply advances_node. intros n r. exists n. destruct Hx as (t & [-> | ->]); reflexivity.
  Qed.
  Lemma advances_ignored : forall c l x, (forall n r, procNode q (mkRead c l k n false) x r = Ok (mkRead c l k n false, r)) -> advances c l [x] (Ok (c, l)).
  Proof. intros c l x H. apply advances_node. intros n r. exists n. rewrite H. reflexivity. Qed.

  Lemma advances_entry : forall c l e ns w, slexic (c_alph c) = slexic a0 -> entry_nodes e ns -> entry_known (q_opts q) (q_lr q) separable known e ->
    EntryFilterProps.selected (q_opts q) (q_lr q) (e_attrs e) -> weight_of (q_stod q) e w ->
    advances c l ns (let! c := proc s (Entry (map (token w) (e_elements e))) c in Ok (c, l)).
  Proof.
    intros c l e ns w Ha H K Hs Hw. pose proof (K Hs) as K1. destruct H as [e a b ns (A1 & A2 & A3 & A4 & A5 & A6 & A7) H]. apply advances_node. intros n r.
    change (procNode q (mkRead c l k n false) (opening (txt "e") a) ((ns ++ [closing (txt "e") b]) ++ r))
      with (procEntry q (countEntry q (mkRead c l k n false)) (opening (txt "e") a) ((ns ++ [closing (txt "e") b]) ++ r)).
    assert (Ec : exists n', countEntry q (mkRead c l k n false) = mkRead c l k n' false).
    { unfold countEntry. cbn [r_comp r_entries r_letters r_lsx r_first]. destruct (uempty (current_paradigm c)); [|now exists n].
      replace (0 <? q_max q) with false by lia. cbn [andb]. eexists. reflexivity. }
    destruct Ec as (n' & ->). exists n'. unfold procEntry. cbn [r_comp r_lsx r_letters r_entries r_first]. rewrite Quni. cbn [andb]. unfold attributes_of, opening.
    rewrite (given_attrib a n_r _ _ _ _ _ A1), (given_attrib a n_i _ _ _ _ _ A2), (given_attrib a a_alt _ _ _ _ _ A3), (given_attrib a a_v _ _ _ _ _ A4),
      (given_attrib a a_vl _ _ _ _ _ A5), (given_attrib a a_vr _ _ _ _ _ A6), (given_attrib a n_w _ _ _ _ _ A7).
    destruct (EntryFilterProps.C57_compiled (q_opts q) (q_lr q) (e_attrs e)) as (bb & Eb & Hb). destruct (e_attrs e) as [v1 v2 v3 v4 v5 v6]. cbn [at_r at_ignore at_alt at_v at_vl at_vr] in *.
    rewrite Eb. cbn [obind]. rewrite (proj2 Hb Hs).
    assert (Ew : match e_weight e with [] => Ok 0 | w0 => q_stod q w0 end = Ok w).
    { destruct Hw as [[-> ->]|[Nw E]]; [reflexivity|]. destruct (e_weight e); [congruence|exact E]. }
    rewrite Ew. cbn [obind x_empty]. rewrite <- app_assoc. cbn [app].
    rewrite (elements_read (e_elements e) ns H K1); [|exact Ha|].
    - cbn [app proc]. destruct (scan_entry c _) as [[|]| | | |]; try reflexivity. cbn [obind]. destruct (insertEntryTokens _ _ c); reflexivity.
    - pose proof (spread_length _ _ _ _ element_nonempty H) as L. rewrite app_length. lia.
  Qed.
  Lemma advances_left : forall c l e ns, entry_nodes e ns -> ~ EntryFilterProps.selected (q_opts q) (q_lr q) (e_attrs e) -> advances c l ns (Ok (c, l)).
  Proof.
    intros c l e ns H Hs. destruct H as [e a b ns (A1 & A2 & A3 & A4 & A5 & A6 & A7) H]. apply advances_node. intros n r.
    change (procNode q (mkRead c l k n false) (opening (txt "e") a) ((ns ++ [closing (txt "e") b]) ++ r))
      with (procEntry q (countEntry q (mkRead c l k n false)) (opening (txt "e") a) ((ns ++ [closing (txt "e") b]) ++ r)).
    assert (Ec : exists n', countEntry q (mkRead c l k n false) = mkRead c l k n' false).
    { unfold countEntry. cbn [r_comp r_entries r_letters r_lsx r_first]. destruct (uempty (current_paradigm c)); [|now exists n].
      replace (0 <? q_max q) with false by lia. cbn [andb]. eexists. reflexivity. }
    destruct Ec as (n' & ->). exists n'. unfold procEntry. cbn [r_comp r_lsx r_letters r_entries r_first]. rewrite Quni. cbn [andb]. unfold attributes_of, opening.
    rewrite (given_attrib a n_r _ _ _ _ _ A1), (given_attrib a n_i _ _ _ _ _ A2), (given_attrib a a_alt _ _ _ _ _ A3), (given_attrib a a_v _ _ _ _ _ A4),
      (given_attrib a a_vl _ _ _ _ _ A5), (given_attrib a a_vr _ _ _ _ _ A6).
    destruct (EntryFilterProps.C57_compiled (q_opts q) (q_lr q) (e_attrs e)) as (bb & Eb & Hb). destruct (e_attrs e) as [v1 v2 v3 v4 v5 v6]. cbn [at_r at_ignore at_alt at_v at_vl at_vr] in *.
    rewrite Eb. cbn [obind]. destruct bb; [exfalso; apply Hs, Hb; reflexivity|]. rewrite <- app_assoc. cbn [app].
    rewrite (skip_entry ns) by (reflexivity || exact (quiet_elements _ _ H)). reflexivity.
  Qed.
  Lemma advances_entries : forall es ns, spread loose entry_nodes es ns -> Forall (entry_known (q_opts q) (q_lr q) separable known) es ->
    forall tss, compiled_entries keep code (q_stod q) (q_opts q) (q_lr q) es tss ->
    forall c l, slexic (c_alph c) = slexic a0 -> advances c l ns (let! c := procs s (map Entry tss) c in Ok (c, l)).
  Proof.
    intros es ns H. induction H as [g Hg|g e ns es r Hg He H IH]; intros K tss C c l Ha.
    - inversion C; subst. cbn [map procs obind]. now apply advances_loose.
    - inversion K as [|? ? K1 K2]; subst. apply (advances_app c l g (ns ++ r) (Ok (c, l)) (fun c l => let! c := procs s (map Entry tss) c in Ok (c, l))); [now apply advances_loose|].
      intros c' l' [= <- <-]. inversion C as [|? ? w tss' S1 W1 C1|? ? ? S1 C1]; subst.
      + cbn [map procs].
        pose proof (advances_app c l ns r _ (fun c l => let! c := procs s (map Entry tss') c in Ok (c, l)) (advances_entry c l e ns w Ha He K1 S1 W1)) as Q.
        destruct (proc s (Entry (map (token w) (e_elements e))) c) as [c1| | | |] eqn:E; cbn [obind] in *; apply Q; intros c2 l2 [= <- <-];
          (apply IH; [exact K2|exact C1|]); rewrite (proc_slexic _ _ _ _ E); exact Ha.
      + apply (advances_app c l ns r (Ok (c, l)) (fun c l => let! c := procs s (map Entry tss) c in Ok (c, l))); [exact (advances_left c l e ns He S1)|].
        intros c' l' [= <- <-]. now apply IH.
  Qed.
  (** ** Paradigms and sections *)
  Lemma advances_event : forall c l x ev, (forall n r, procNode q (mkRead c l k n false) x r = let! c := proc s ev c in Ok (mkRead c l k n false, r)) ->
    advances c l [x] (let! c := proc s ev c in Ok (c, l)).
  Proof. intros c l x ev H. apply advances_node. intros n r. exists n. cbn [app]. rewrite H. destruct (proc s ev c); reflexivity. Qed.
  (** A group of entries between two nodes *)
  Lemma advances_block : forall c l x y es ns tss ev ev', slexic (c_alph c) = slexic a0 ->
    advances c l [x] (let! c := proc s ev c in Ok (c, l)) ->
    (forall c, advances c l [y] (let! c := proc s ev' c in Ok (c, l))) ->
    spread loose entry_nodes es ns -> Forall (entry_known (q_opts q) (q_lr q) separable known) es -> compiled_entries keep code (q_stod q) (q_opts q) (q_lr q) es tss ->
    advances c l (x :: ns ++ [y]) (let! c := procs s (ev :: map Entry tss ++ [ev']) c in Ok (c, l)).
  Proof.
    intros c l x y es ns tss ev ev' Ha Hx Hy H K C. change (x :: ns ++ [y]) with ([x] ++ (ns ++ [y])). cbn [procs].
    pose proof (advances_app c l [x] (ns ++ [y]) _ (fun c l => let! c := procs s (map Entry tss ++ [ev']) c in Ok (c, l)) Hx) as Q.
    destruct (proc s ev c) as [c1| | | |] eqn:E; cbn [obind] in *; apply Q; intros c2 l2 [= <- <-].
    assert (Ha1 : slexic (c_alph c1) = slexic a0) by (rewrite (proc_slexic _ _ _ _ E); exact Ha). clear Q.
    rewrite procs_app. pose proof (advances_app c1 l ns [y] _ (fun c l => let! c := procs s [ev'] c in Ok (c, l)) (advances_entries es ns H K tss C c1 l Ha1)) as Q.
    destruct (procs s (map Entry tss) c1) as [c2| | | |]; cbn [obind] in *; apply Q; intros c3 l3 [= <- <-].
    cbn [procs]. pose proof (Hy c2) as R. destruct (proc s ev' c2); exact R.
  Qed.
  Lemma advances_pardef : forall c l d ns tss, slexic (c_alph c) = slexic a0 -> pardef_nodes (q_isspace q) d ns ->
    Forall (entry_known (q_opts q) (q_lr q) separable known) (snd d) -> compiled_entries keep code (q_stod q) (q_opts q) (q_lr q) (snd d) tss ->
    advances c l ns (let! c := procs s (item_events (Pardef (fst d) tss)) c in Ok (c, l)).
  Proof.
    intros c l d ns tss Ha H K C. destruct H as [n es a b ns Hn H]. cbn [fst snd] in *. cbn [item_events].
    apply (advances_block c l (opening (txt "pardef") a) (closing (txt "pardef") b) es ns tss); auto.
    - apply advances_event. intros m r.
      change (procNode q (mkRead c l k m false) (opening (txt "pardef") a) r)
        with (let! c := proc s (PardefStart (attrib a_n (opening (txt "pardef") a))) c in Ok (with_comp c (mkRead c l k m false), r)).
      unfold opening at 1. rewrite (given_attrib a a_n n) by exact Hn. reflexivity.
    - intros c'. apply advances_event. intros m r. destruct separable; reflexivity.
  Qed.
  Lemma advances_pardefs : forall ds ns, spread loose (pardef_nodes (q_isspace q)) ds ns -> Forall (fun d => Forall (entry_known (q_opts q) (q_lr q) separable known) (snd d)) ds ->
    forall is_, Forall2 (fun d i => exists tss, compiled_entries keep code (q_stod q) (q_opts q) (q_lr q) (snd d) tss /\ i = Pardef (fst d) tss) ds is_ ->
    forall c l, slexic (c_alph c) = slexic a0 -> advances c l ns (let! c := procs s (dict_events is_) c in Ok (c, l)).
  Proof.
    intros ds ns H. induction H as [g Hg|g d ns ds r Hg Hd H IH]; intros K is_ F c l Ha.
    - inversion F; subst. cbn [dict_events flat_map procs obind]. now apply advances_loose.
    - inversion F as [|? i ? is' (tss & C & ->) F']; subst. inversion K as [|? ? K1 K2]; subst.
      apply (advances_app c l g (ns ++ r) (Ok (c, l)) (fun c l => let! c := procs s (dict_events (Pardef (fst d) tss :: is')) c in Ok (c, l))); [now apply advances_loose|].
      intros c' l' [= <- <-]. change (dict_events (Pardef (fst d) tss :: is')) with (item_events (Pardef (fst d) tss) ++ dict_events is'). rewrite procs_app.
      pose proof (advances_app c l ns r _ (fun c l => let! c := procs s (dict_events is') c in Ok (c, l)) (advances_pardef c l d ns tss Ha Hd K1 C)) as Q.
      destruct (procs s (item_events (Pardef (fst d) tss)) c) as [c1| | | |] eqn:E; cbn [obind] in *; apply Q; intros c2 l2 [= <- <-].
      apply IH; auto. rewrite (procs_slexic _ _ _ _ E). exact Ha.
  Qed.
  Lemma advances_body : forall ts ns, spread loose (top_nodes (q_isspace q)) ts ns -> Forall (top_known (q_opts q) (q_lr q) separable known) ts ->
    forall items, compiled_tops keep code (q_stod q) (q_opts q) (q_lr q) ts items ->
    forall c l, slexic (c_alph c) = slexic a0 -> advances c l ns (let! c := procs s (dict_events items) c in Ok (c, l)).
  Proof.
    intros ts ns H. induction H as [g Hg|g t ns ts r Hg Ht H IH]; intros K items F c l Ha.
    - inversion F; subst. cbn [dict_events flat_map procs obind]. now apply advances_loose.
    - inversion K as [|? ? K1 K2]; subst.
      apply (advances_app c l g (ns ++ r) (Ok (c, l)) (fun c l => let! c := procs s (dict_events items) c in Ok (c, l))); [now apply advances_loose|].
      intros c' l' [= <- <-]. cbn [top_known] in K1. inversion F as [|ds is_ ? is' F1 F2|id ty es tss ? is' C F2]; subst; inversion Ht; subst.
      + unfold dict_events. rewrite flat_map_app. fold (dict_events is_). fold (dict_events is'). rewrite procs_app.
        assert (A : advances c l (opening (txt "pardefs") a :: l0 ++ [closing (txt "pardefs") b]) (let! c := procs s (dict_events is_) c in Ok (c, l))).
        { change (opening (txt "pardefs") a :: l0 ++ [closing (txt "pardefs") b]) with ([opening (txt "pardefs") a] ++ (l0 ++ [closing (txt "pardefs") b])).
          apply (advances_app c l _ _ (Ok (c, l)) (fun c l => let! c := procs s (dict_events is_) c in Ok (c, l))); [apply advances_ignored; reflexivity|].
          intros c' l' [= <- <-].
          pose proof (advances_app c l l0 [closing (txt "pardefs") b] _ (fun c l => Ok (c, l)) (advances_pardefs ds l0 H1 K1 is_ F1 c l Ha)) as Q.
          destruct (procs s (dict_events is_) c) as [c1| | | |]; cbn [obind] in *; apply Q; intros c2 l2 [= <- <-]. apply advances_ignored. reflexivity. }
        pose proof (advances_app c l _ r _ (fun c l => let! c := procs s (dict_events is') c in Ok (c, l)) A) as Q.
        destruct (procs s (dict_events is_) c) as [c1| | | |] eqn:E; cbn [obind] in *; apply Q; intros c2 l2 [= <- <-].
        apply IH; auto. rewrite (procs_slexic _ _ _ _ E). exact Ha.
      + change (dict_events (Sec (id ++ txt "@" ++ ty) tss :: is')) with (item_events (Sec (id ++ txt "@" ++ ty) tss) ++ dict_events is'). rewrite procs_app.
        assert (A : advances c l (opening (txt "section") a :: l0 ++ [closing (txt "section") b]) (let! c := procs s (item_events (Sec (id ++ txt "@" ++ ty) tss)) c in Ok (c, l))).
        { cbn [item_events]. apply (advances_block c l _ _ es l0 tss); auto.
          - apply advances_node. intros m r'. exists 0. change (procNode q (mkRead c l k m false) (opening (txt "section") a) ([] ++ r'))
              with (let! st := procSection q (mkRead c l k 0 false) (opening (txt "section") a) in Ok (st, r')).
            unfold procSection, opening. cbn [x_end]. rewrite (given_attrib a a_id id), (given_attrib a a_type ty) by assumption.
            destruct id; [congruence|]. destruct ty; [congruence|]. reflexivity.
          - intros c'. apply advances_node. intros m r'. exists 0. destruct separable; reflexivity. }
        pose proof (advances_app c l _ r _ (fun c l => let! c := procs s (dict_events is') c in Ok (c, l)) A) as Q.
        destruct (procs s (item_events (Sec (id ++ txt "@" ++ ty) tss)) c) as [c1| | | |] eqn:E; cbn [obind] in *; apply Q; intros c2 l2 [= <- <-].
        apply IH; auto. rewrite (procs_slexic _ _ _ _ E). exact Ha.
  Qed.

  (** ** Alphabet and symbols *)
  Definition include_all (l : list ustr) (a : alphabet) : alphabet := fold_left (fun a s => includeSymbol s a) l a.
  Lemma advances_symbols : forall ns l0, spread loose symbol_nodes ns l0 -> forall a l,
    advances (new_compiler a) l l0 (Ok (new_compiler (include_all (map bracketed ns) a), l)).
  Proof.
    intros ns l0 H. induction H as [g Hg|g n ns' ns r Hg Hn H IH]; intros a l; [now apply advances_loose|].
    apply (advances_app _ l g (ns' ++ r) (Ok (new_compiler a, l)) (fun _ _ => Ok (new_compiler (include_all (map bracketed (n :: ns)) a), l))); [now apply advances_loose|].
    intros c' l' [= <- <-]. destruct Hn as [n b Hn].
    apply (advances_app _ l [alone (txt "sdef") b] r (Ok (new_compiler (includeSymbol (bracketed n) a), l)) (fun _ _ => Ok (new_compiler (include_all (map bracketed (n :: ns)) a), l))).
    - apply advances_node. intros m r'. exists m. change (procNode q (mkRead (new_compiler a) l k m false) (alone (txt "sdef") b) ([] ++ r'))
        with (Ok (A := reading * list xnode) (add_symbol (tag_symbol (attrib a_n (alone (txt "sdef") b))) (mkRead (new_compiler a) l k m false), r')).
      unfold alone. rewrite (given_attrib b a_n n) by exact Hn. reflexivity.
    - intros c' l' [= <- <-]. apply IH.
  Qed.
  Definition letters_step (l : ustr) (t : top) : ustr :=
    match t with Alphabet t => if allBlanks q (text t) then [] else readValue (text t) | _ => l end.
  Definition symbols_of_tops (ts : list top) : list ustr := flat_map (fun t => match t with Symbols ns => map bracketed ns | _ => [] end) ts.
  Lemma advances_head : forall ts l0, spread loose (top_nodes (q_isspace q)) ts l0 -> Forall is_head ts -> forall a l,
    advances (new_compiler a) l l0 (Ok (new_compiler (include_all (symbols_of_tops ts) a), fold_left letters_step ts l)).
  Proof.
    intros ts l0 H. induction H as [g Hg|g t ns ts r Hg Ht H IH]; intros F a l; [now apply advances_loose|]. inversion F as [|? ? F1 F2]; subst.
    apply (advances_app _ l g (ns ++ r) (Ok (new_compiler a, l)) (fun _ _ => Ok (new_compiler (include_all (symbols_of_tops (t :: ts)) a), fold_left letters_step (t :: ts) l))); [now apply advances_loose|].
    intros c' l' [= <- <-].
    assert (A : advances (new_compiler a) l ns (Ok (new_compiler (include_all (symbols_of_tops [t]) a), letters_step l t))).
    { destruct Ht; try contradiction.
      - change [opening (txt "alphabet") a1; text t; closing (txt "alphabet") b] with ([opening (txt "alphabet") a1; text t] ++ [closing (txt "alphabet") b]).
        apply (advances_app _ l _ _ (Ok (new_compiler a, letters_step l (Alphabet t))) (fun c l => Ok (c, l))).
        + apply advances_node. intros m r'. exists m. reflexivity.
        + intros c' l' [= <- <-]. apply advances_ignored. reflexivity.
      - apply advances_node. intros m r'. exists m. reflexivity.
      - cbn [letters_step]. unfold symbols_of_tops. cbn [flat_map]. rewrite app_nil_r.
        apply (advances_app _ l [opening (txt "sdefs") a1] _ (Ok (new_compiler a, l)) (fun _ _ => Ok (new_compiler (include_all (map bracketed ns) a), l))); [apply advances_ignored; reflexivity|].
        intros c' l' [= <- <-].
        apply (advances_app _ l l0 _ (Ok (new_compiler (include_all (map bracketed ns) a), l)) (fun c l => Ok (c, l))); [now apply advances_symbols|].
        intros c' l' [= <- <-]. apply advances_ignored. reflexivity. }
    pose proof (advances_app _ l ns r _ (fun _ _ => Ok (new_compiler (include_all (symbols_of_tops (t :: ts)) a), fold_left letters_step (t :: ts) l)) A) as Q.
    apply Q. intros c2 l2 [= <- <-]. pose proof (IH F2 (include_all (symbols_of_tops [t]) a) (letters_step l t)) as R.
    assert (E : include_all (symbols_of_tops (t :: ts)) a = include_all (symbols_of_tops ts) (include_all (symbols_of_tops [t]) a)).
    { unfold include_all, symbols_of_tops. cbn [flat_map]. rewrite app_nil_r. now rewrite fold_left_app. }
    rewrite E. exact R.
  Qed.
  Lemma top_scalar : forall t ns, top_nodes (q_isspace q) t ns -> match t with Alphabet t => Forall InputProps.scalar t | _ => True end.
  Proof. intros t ns H. destruct H; auto. Qed.
  Lemma tops_scalar : forall ts ns, spread loose (top_nodes (q_isspace q)) ts ns -> forall t, In (Alphabet t) ts -> Forall InputProps.scalar t.
  Proof.
    intros ts ns H. induction H as [g Hg|g t ns ts r Hg Ht H IH]; intros u Hu; [destruct Hu|]. destruct Hu as [->|Hu]; [exact (top_scalar _ _ Ht)|exact (IH u Hu)].
  Qed.
  Lemma letters_rest : forall us l, (forall t, ~ In (Alphabet t) us) -> fold_left letters_step us l = l.
  Proof.
    induction us as [|u us IH]; intros l H; [reflexivity|]. cbn [fold_left]. rewrite IH by (intros t Ht; apply (H t); now right).
    destruct u; try reflexivity. exfalso. apply (H t). now left.
  Qed.
  Lemma letters_read : forall ts ns v, spread loose (top_nodes (q_isspace q)) ts ns -> letters_of (q_isspace q) ts v -> fold_left letters_step ts [] = v.
  Proof.
    intros ts ns v H L. destruct L as [ts Hn|ts t us v Hn Hv]; [now apply letters_rest|]. rewrite fold_left_app. cbn [fold_left]. rewrite letters_rest by assumption.
    assert (Sc : Forall InputProps.scalar t) by (apply (tops_scalar _ _ H t), in_or_app; right; now left). cbn [letters_step].
    pose proof (blank_blanks t Sc) as B. destruct Hv as [[Hb ->]|[Hb ->]].
    - now rewrite (proj2 B Hb).
    - destruct (allBlanks q (text t)); [exfalso; apply Hb, B; reflexivity|]. unfold readValue. cbn [x_value text]. now rewrite value_text.
  Qed.
  Lemma spread_app : forall {A} (f : A -> list xnode -> Prop) xs ys ns, spread loose f (xs ++ ys) ns ->
    exists n1 n2, ns = n1 ++ n2 /\ spread loose f xs n1 /\ spread loose f ys n2.
  Proof.
    intros A f. induction xs as [|x xs IH]; intros ys ns H.
    - exists [], ns. split; [reflexivity|]. split; [constructor; constructor|exact H].
    - cbn [app] in H. inversion H; subst. destruct (IH ys r H5) as (n1 & n2 & -> & S1 & S2). exists (g ++ ns0 ++ n1), n2. repeat rewrite <- app_assoc.
      split; [reflexivity|]. split; [now constructor|exact S2].
  Qed.
End Q.

(** * A document *)
Lemma include_defined : forall x a, isSymbolDefined x a = true -> includeSymbol x a = a.
Proof. intros x a H. unfold includeSymbol. unfold isSymbolDefined in H. destruct (map_find ustr_eq_dec x (slexic a)); [reflexivity|discriminate]. Qed.
Lemma map_find_set : forall x y v (m : list (ustr * Z)), map_find ustr_eq_dec x (map_set ustr_eq_dec y v m) = if ustr_eq_dec x y then Some v else map_find ustr_eq_dec x m.
Proof.
  intros x y v m. induction m as [|[k0 v0] m IH]; cbn [map_set map_find].
  - destruct (ustr_eq_dec y x), (ustr_eq_dec x y); congruence.
  - repeat (match goal with |- context [ustr_eq_dec ?a ?b] => destruct (ustr_eq_dec a b); subst; cbn [map_find] in * end); try congruence.
Qed.
Lemma defined_include : forall x y a, isSymbolDefined x (includeSymbol y a) = (if ustr_eq_dec x y then true else isSymbolDefined x a).
Proof.
  intros x y a. unfold includeSymbol. destruct (map_find ustr_eq_dec y (slexic a)) eqn:E.
  - destruct (ustr_eq_dec x y) as [->|]; [|reflexivity]. unfold isSymbolDefined. now rewrite E.
  - unfold isSymbolDefined. cbn [slexic]. rewrite map_find_set. now destruct (ustr_eq_dec x y).
Qed.
Lemma code_include : forall x y a, isSymbolDefined x a = true -> symbol_code x (includeSymbol y a) = symbol_code x a.
Proof.
  intros x y a H. unfold includeSymbol. destruct (map_find ustr_eq_dec y (slexic a)) eqn:E; [reflexivity|]. unfold symbol_code. cbn [slexic]. rewrite map_find_set.
  destruct (ustr_eq_dec x y) as [->|]; [|reflexivity]. unfold isSymbolDefined in H. rewrite E in H. discriminate.
Qed.
Lemma all_defined : forall l a x, In x l \/ isSymbolDefined x a = true -> isSymbolDefined x (include_all l a) = true.
Proof.
  induction l as [|y l IH]; intros a x H; cbn [include_all fold_left].
  - destruct H as [[]|H]; exact H.
  - apply (IH (includeSymbol y a)). rewrite defined_include. destruct (ustr_eq_dec x y) as [->|N]; [now right|]. destruct H as [[->|H]|H]; first [congruence|auto].
Qed.
Lemma all_code : forall l a x, isSymbolDefined x a = true -> symbol_code x (include_all l a) = symbol_code x a.
Proof.
  induction l as [|y l IH]; intros a x H; [reflexivity|]. cbn [include_all fold_left]. change (fold_left (fun a s => includeSymbol s a) l (includeSymbol y a)) with (include_all l (includeSymbol y a)).
  rewrite IH; [now apply code_include|]. rewrite defined_include. now destruct (ustr_eq_dec x y).
Qed.
Lemma all_lsx_codes : forall l a, (forall x, In x lsx_symbols -> isSymbolDefined x a = true) -> lsx_codes (include_all l a) = lsx_codes a.
Proof.
  intros l a H. unfold lsx_codes. rewrite !all_code; [reflexivity|..]; apply H; cbn [In lsx_symbols]; tauto.
Qed.
Lemma lsx_codes_slexic : forall a b, slexic a = slexic b -> lsx_codes a = lsx_codes b.
Proof. intros a b H. unfold lsx_codes. now rewrite !(slexic_code a b). Qed.
Lemma include_all_defined : forall l a, (forall x, In x l -> isSymbolDefined x a = true) -> include_all l a = a.
Proof.
  induction l as [|y l IH]; intros a H; [reflexivity|]. cbn [include_all fold_left]. rewrite include_defined by (apply H; now left). apply IH. intros x Hx. apply H. now right.
Qed.
Lemma add_symbols : forall l st, fold_left (fun st s => add_symbol s st) l st
  = mkRead (with_alph (include_all l (c_alph (r_comp st))) (r_comp st)) (r_letters st) (r_lsx st) (r_entries st) (r_first st).
Proof.
  induction l as [|x l IH]; intros [c lt k n f]; cbn [fold_left].
  - cbn [r_comp r_letters r_lsx r_entries r_first]. unfold include_all. cbn [fold_left]. now destruct c.
  - rewrite IH. reflexivity.
Qed.
Lemma dictionary_node : forall b v c l k n f, given b (txt "type") v ->
  (lsx_type v -> procDictionary (mkRead c l k n f) (mkX false (txt "dictionary") [] b false)
     = mkRead (with_alph (include_all lsx_symbols (c_alph c)) c) l (Some (lsx_codes (include_all lsx_symbols (c_alph c)))) n f)
  /\ (~ lsx_type v -> procDictionary (mkRead c l k n f) (mkX false (txt "dictionary") [] b false) = mkRead c l k n f).
Proof.
  intros b v c l k n f H. unfold procDictionary. rewrite (given_attrib b a_type v) by exact H. cbn zeta. unfold ueq. split; intros L.
  - replace ((if ustr_eq_dec v v_separable then true else false) || (if ustr_eq_dec v v_sequential then true else false)) with true.
    + rewrite add_symbols. cbn [r_comp r_letters r_lsx r_entries r_first]. unfold with_alph at 2 3 4 5 6 7. cbn [c_alph]. change [t_any_tag; t_any_char; t_boundary; t_boundary_s; t_boundary_ns; t_reading] with lsx_symbols.
      generalize (include_all lsx_symbols (c_alph c)). intros a. reflexivity.
    + destruct L as [-> | ->]; reflexivity.
  - destruct (ustr_eq_dec v v_separable) as [E|_]; [exfalso; apply L; left; exact E|]. destruct (ustr_eq_dec v v_sequential) as [E|_]; [exfalso; apply L; right; exact E|].
    reflexivity.
Qed.
Lemma with_alph_eta : forall c, with_alph (c_alph c) c = c.
Proof. now intros [a p s ch cp cs]. Qed.

Theorem document_read : forall q separable hs bs ns v items,
  document (q_isspace q) separable (hs ++ bs) ns -> Forall is_head hs ->
  q_unified q = false -> q_verbose q = false -> q_max q <= 0 -> letters_of (q_isspace q) hs v ->
  let a0 := include_all (declared separable hs) new_alphabet in
  let k := if separable then Some (lsx_codes a0) else None in
  Forall (top_known (q_opts q) (q_lr q) separable (declared separable hs)) bs ->
  compiled_tops (o_keep (q_opts q)) (fun s => symbol_code s a0) (q_stod q) (q_opts q) (q_lr q) bs items ->
  exists n, readNodes q ns = let! c := procs (settings_of q k) (dict_events items) (new_compiler a0) in Ok (mkRead c v k n false).
Proof.
  intros q separable hs bs ns v items D Hh Quni Qver Qmax L a0 k K C.
  set (known := declared separable hs) in *.
  assert (Hknown : forall s, In s known -> isSymbolDefined s a0 = true) by (intros s Hs; apply all_defined; now left).
  remember (hs ++ bs) as ts eqn:Ets. destruct D as [g1 a ty ts l b ty' g2 G1 G2 Ga Sa Gb Sb D]. subst ts.
  destruct (spread_app _ hs bs l D) as (n1 & n2 & -> & D1 & D2). rewrite <- app_assoc.
  assert (Ek : forall c n, procNode q (mkRead (new_compiler new_alphabet) [] None n false) (opening (txt "dictionary") a) c
    = Ok (mkRead (new_compiler (include_all (if separable then lsx_symbols else []) new_alphabet)) [] k n false, c)).
  { intros c n. change (procNode q (mkRead (new_compiler new_alphabet) [] None n false) (opening (txt "dictionary") a) c)
      with (Ok (procDictionary (mkRead (new_compiler new_alphabet) [] None n false) (mkX false (txt "dictionary") [] a false), c)).
    destruct (dictionary_node a ty (new_compiler new_alphabet) [] None n false Ga) as [T1 T2]. unfold k. destruct separable.
    - rewrite T1 by (apply Sa; reflexivity). unfold a0, known, declared. cbv iota.
      assert (E : include_all (lsx_symbols ++ flat_map (fun t => match t with Symbols ns => map bracketed ns | _ => [] end) hs) new_alphabet
        = include_all (flat_map (fun t => match t with Symbols ns => map bracketed ns | _ => [] end) hs) (include_all lsx_symbols new_alphabet))
        by (unfold include_all; now rewrite fold_left_app).
      rewrite E, (all_lsx_codes (flat_map _ hs) (include_all lsx_symbols new_alphabet)); [reflexivity|]. intros x Hx. apply all_defined. now left.
    - rewrite T2; [reflexivity|]. intros X. apply Sa in X. discriminate. }
  assert (Ea : include_all (symbols_of_tops hs) (include_all (if separable then lsx_symbols else []) new_alphabet) = a0).
  { unfold a0, known, declared, symbols_of_tops, include_all. rewrite <- fold_left_app. reflexivity. }
  pose proof (advances_app q separable a0 known Hknown _ [] n1 n2 _ (fun c l => let! c := procs (settings_of q k) (dict_events items) c in Ok (c, l))
    (advances_head q separable a0 known Hknown hs n1 D1 Hh (include_all (if separable then lsx_symbols else []) new_alphabet) [])) as A.
  rewrite Ea, (letters_read q hs n1 v D1 L) in A.
  assert (A' : advances q separable a0 (new_compiler (include_all (if separable then lsx_symbols else []) new_alphabet)) [] (n1 ++ n2)
    (let! c := procs (settings_of q k) (dict_events items) (new_compiler a0) in Ok (c, v))).
  { apply A. intros c l [= <- <-]. exact (advances_body q separable a0 known Quni Qver Qmax Hknown bs n2 D2 K items C (new_compiler a0) v eq_refl). }
  clear A. unfold readNodes.
  destruct (advances_loose q false a0 known Hknown (new_compiler new_alphabet) [] g1 G1 0 (length (g1 ++ opening (txt "dictionary") a :: n1 ++ n2 ++ closing (txt "dictionary") b :: g2))
    (opening (txt "dictionary") a :: n1 ++ n2 ++ closing (txt "dictionary") b :: g2) (le_n _)) as (f1 & m1 & L1 & E1).
  cbn iota in E1. rewrite E1. clear E1. cbn [obind]. cbn [length] in L1. destruct f1 as [|f1]; [lia|]. cbn [nodesLoop]. rewrite Ek. cbn [obind].
  destruct (A' m1 f1 (closing (txt "dictionary") b :: g2)) as (f2 & m2 & L2 & E2); [rewrite <- app_assoc; lia|]. fold k in E2. rewrite app_assoc, E2. clear E2 A'.
  destruct (procs (settings_of q k) (dict_events items) (new_compiler a0)) as [c| | | |] eqn:Ep; try (exists 0; reflexivity). cbn [obind].
  cbn [length] in L2. destruct f2 as [|f2]; [lia|]. cbn [nodesLoop]. fold k.
  assert (Ec : procNode q (mkRead c v k m2 false) (closing (txt "dictionary") b) g2 = Ok (mkRead c v k m2 false, g2)).
  { change (procNode q (mkRead c v k m2 false) (closing (txt "dictionary") b) g2)
      with (Ok (procDictionary (mkRead c v k m2 false) (mkX false (txt "dictionary") [] b false), g2)).
    destruct (dictionary_node b ty' c v k m2 false Gb) as [T1 T2].
    destruct (ustr_eq_dec ty' (txt "separable")) as [E1|N1]; [|destruct (ustr_eq_dec ty' (txt "sequential")) as [E1|N1']].
    1,2: assert (X : lsx_type ty') by (unfold lsx_type; tauto); rewrite (T1 X); pose proof (procs_slexic _ _ _ _ Ep) as Sc; cbn [c_alph new_compiler] in Sc;
      change (slexic (c_alph c) = slexic a0) in Sc; assert (Es := Sb X); assert (Ek' : k = Some (lsx_codes a0)) by (unfold k; now rewrite Es); rewrite Ek'; assert (Df : forall x, In x lsx_symbols -> isSymbolDefined x (c_alph c) = true)
        by (intros x Hx; rewrite (slexic_defined _ a0 x Sc); apply Hknown; unfold known, declared; rewrite Es; apply in_or_app; left; exact Hx);
      rewrite (include_all_defined _ _ Df), with_alph_eta, (lsx_codes_slexic _ _ Sc); reflexivity.
    rewrite T2; [reflexivity|]. unfold lsx_type. tauto. }
  rewrite Ec. cbn [obind].
  destruct (advances_loose q separable a0 known Hknown c v g2 G2 m2 f2 []) as (f3 & m3 & L3 & E3); [rewrite app_nil_r; cbn [length] in L2; lia|].
  fold k in E3. rewrite app_nil_r in E3. exists m3. rewrite E3. cbn [obind]. now destruct f3.
Qed.

(** * The end of separable dictionaries *)
Definition kept (t t' : transducer) : Prop :=
  initial t' = initial t /\ (forall p a q w, has_arc t p a q w -> has_arc t' p a q w) /\ (forall p f, final_wt t p f -> final_wt t' p f).
Lemma kept_refl : forall t, kept t t. Proof. intros t. unfold kept. auto. Qed.
Lemma kept_trans : forall t u v, kept t u -> kept u v -> kept t v.
Proof. intros t u v (A & B & C) (A' & B' & C'). unfold kept. split; [congruence|]. split; eauto. Qed.
Lemma kept_path : forall t t' p l q, kept t t' -> path t p l q -> path t' p l q.
Proof. intros t t' p l q (_ & K & _). induction 1; [constructor|]. econstructor; eauto. Qed.
Lemma insert_kept : forall tag s w t e t', insertSingleTransduction tag s w t = (Some e, t') -> kept t t' /\ exists w', has_arc t' s tag e w'.
Proof.
  intros tag s w t e t' H. unfold insertSingleTransduction in H. destruct (Nat.ltb_spec s (nstates t)) as [L|L]; [|discriminate].
  assert (R := equal_range_in tag (arcs_of t s)).
  destruct (equal_range tag (arcs_of t s)) as [|[a1 [d1 w1]] [|[a2 [d2 w2]] [|? ?]]]; try discriminate.
  - destruct (newState_spec t) as (F & N & I & Fi & A). destruct (newState t) as [q u]. cbn [fst snd] in *. injection H as <- <-.
    assert (Lu : (s < nstates u)%nat) by lia. split.
    + split; [exact I|]. split.
      * intros p a q' w' Ha. apply has_arc_add; [exact Lu|]. left. unfold has_arc in *. now rewrite A.
      * intros p f Hf. unfold final_wt in *. cbn [add_arc finals]. now rewrite Fi.
    + exists w. apply has_arc_add; [exact Lu|]. now right.
  - injection H as <- <-. split; [apply kept_refl|]. exists w1. destruct (proj1 (R _) (or_introl eq_refl)) as [X E]. cbn in E. subst a1. exact X.
  - cbn [a_dst fst snd] in H. destruct (negb (d1 =? s)%nat).
    + injection H as <- <-. split; [apply kept_refl|]. exists w1. destruct (proj1 (R _) (or_introl eq_refl)) as [X E]. cbn in E. subst a1. exact X.
    + destruct (negb (d2 =? s)%nat); [|discriminate].
      injection H as <- <-. split; [apply kept_refl|]. exists w2. destruct (proj1 (R _) (or_intror (or_introl eq_refl))) as [X E]. cbn in E. subst a2. exact X.
Qed.
Lemma fin_insert_kept : forall s w l p f, In (p, f) l -> In (p, f) (fin_insert s w l).
Proof.
  induction l as [|[s' w'] l IH]; intros p f H; [destruct H|]. cbn [fin_insert]. destruct (s <? s')%nat; [now right|].
  destruct (s =? s')%nat; [exact H|]. destruct H as [H|H]; [now left|right; auto].
Qed.
Lemma fin_insert_there : forall s w l, exists f, In (s, f) (fin_insert s w l).
Proof.
  induction l as [|[s' w'] l IH]; [exists w; now left|]. cbn [fin_insert]. destruct (s <? s')%nat; [exists w; now left|].
  destruct (Nat.eqb_spec s s') as [->|]; [exists w'; now left|]. destruct IH as (f & H). exists f. now right.
Qed.
Lemma closeFinals_kept : forall fs e t t', closeFinals fs e t = Ok t' -> kept t t'
  /\ forall s f, In (s, f) fs -> exists q w g, has_arc t' s e q w /\ final_wt t' q g.
Proof.
  induction fs as [|[s f] fs IH]; intros e t t' H; cbn [closeFinals] in H.
  - injection H as <-. split; [apply kept_refl|]. intros s f [].
  - destruct (insertSingleTransduction e s 0 t) as [[q|] u] eqn:E; [|discriminate].
    destruct (insert_kept _ _ _ _ _ _ E) as (K & w & Ha). apply IH in H as (K' & H).
    assert (Ks : kept u (setFinal q 0 true u)).
    { split; [reflexivity|]. split; [intros ? ? ? ? X; exact X|]. intros p g X. unfold final_wt in *. cbn [setFinal finals]. now apply fin_insert_kept. }
    split; [exact (kept_trans _ _ _ K (kept_trans _ _ _ Ks K'))|]. intros s' f' [X|X]; [|eauto]. injection X as <- <-.
    destruct (fin_insert_there q 0 (finals u)) as (g & Hg). exists q, w, g. split; [apply K', Ks, Ha|]. now apply K'.
Qed.
Lemma closeFinals_accepts : forall e t t' l f, closeFinals (finals t) e t = Ok t' -> accepts_from t (initial t) l f ->
  accepts_from t' (initial t') l f /\ exists w g, accepts_from t' (initial t') (l ++ [(e, w)]) g.
Proof.
  intros e t t' l f H (q & P & F). destruct (closeFinals_kept _ _ _ _ H) as (K & X). assert (P' := kept_path _ _ _ _ _ K P).
  rewrite (proj1 K). split; [exists q; split; [exact P'|now apply K]|].
  destruct (X q f F) as (r & w & g & Ha & Hg). exists w, g, r. split; [|exact Hg]. eapply path_app; [exact P'|]. econstructor; [exact Ha|constructor].
Qed.
Lemma closeSections_accepts : forall e m m', closeSections m e = Ok m' ->
  Forall2 (fun x y => fst y = fst x /\ forall l f, accepts_from (snd x) (initial (snd x)) l f ->
    accepts_from (snd y) (initial (snd y)) l f /\ exists w g, accepts_from (snd y) (initial (snd y)) (l ++ [(e, w)]) g) m m'.
Proof.
  induction m as [|[n t] m IH]; intros m' H; cbn [closeSections] in H.
  - injection H as <-. constructor.
  - destruct (closeFinals (finals t) e t) as [t'| | | |] eqn:E; try discriminate. cbn [obind] in H.
    destruct (closeSections m e) as [m1| | | |]; try discriminate. cbn [obind] in H. injection H as <-.
    constructor; [|now apply IH]. split; [reflexivity|]. intros l f. now apply closeFinals_accepts.
Qed.
