(** Proofs about lt-restrict: the symbols kept and dropped, and what is left of the sections. *)
From Verif Require Import Base SortedVectorModel SortedVectorProofs AlphabetModel AlphabetProofs StringModel StringProps ExpanderModel EntryFilterProps.
From Verif Require Import AlphabetProps TransducerModel TransducerSpec TransducerProofs ReverseProofs DeterminizeProofs MinimizeProofs RationalProofs
  RelabelModel RelabelSpec RelabelProofs RelabelProps RegexpModel RegexpSpec RegexpProofs RegexpProps TrieProofs
  CompilerModel CompilerSpec CompilerProofs UnifiedModel RestrictSpec RestrictProofs.

(** * Vectors of symbols *)
(** The tags in [vec] are those of the pairs of a code in [K] with itself. *)
Definition holds (vec : list Z) (a : alphabet) (K : Z -> Prop) : Prop :=
  (forall x, In x vec -> exists c, K c /\ decode x a = Ok (c, c))
  /\ (forall c, K c -> exists x, In x vec /\ decode x a = Ok (c, c))
  /\ iset vec.
Lemma holds_extends : forall vec a b K, extends a b -> holds vec a K -> holds vec b K.
Proof.
  intros vec a b K X (H1 & H2 & S). split; [|split; [|exact S]].
  - intros x Hx. destruct (H1 x Hx) as (c & Hc & D). exists c. split; [exact Hc|now apply (extends_decode a b)].
  - intros c Hc. destruct (H2 c Hc) as (x & Hx & D). exists x. split; [exact Hx|now apply (extends_decode a b)].
Qed.
Lemma holds_iff : forall vec a K L, (forall c, K c <-> L c) -> holds vec a K -> holds vec a L.
Proof.
  intros vec a K L E (H1 & H2 & S). split; [|split; [|exact S]].
  - intros x Hx. destruct (H1 x Hx) as (c & Hc & D). exists c. split; [now apply E|exact D].
  - intros c Hc. apply E in Hc. auto.
Qed.
Lemma holds_in : forall vec a K x c, alph_inv a -> holds vec a K -> decode x a = Ok (c, c) -> (In x vec <-> K c).
Proof.
  intros vec a K x c Ha (H1 & H2 & _) D. split.
  - intros Hx. destruct (H1 x Hx) as (d & Hd & D'). assert (d = c) by congruence. now subst.
  - intros Hc. destruct (H2 c Hc) as (y & Hy & D'). now rewrite (decode_unique a x y (c, c) Ha D D').
Qed.
Lemma holds_insert : forall vec a K x c, holds vec a K -> decode x a = Ok (c, c) ->
  holds (sv_insert Z.ltb x vec) a (fun d => K d \/ d = c).
Proof.
  intros vec a K x c (H1 & H2 & S) D. split; [|split].
  - intros y Hy. apply (sv_insert_in _ _ Z_strict_total) in Hy; [|exact S]. destruct Hy as [->|Hy].
    + exists c. auto.
    + destruct (H1 y Hy) as (d & Hd & E). eauto.
  - intros d [Hd| ->].
    + destruct (H2 d Hd) as (y & Hy & E). exists y. split; [|exact E]. apply (sv_insert_in _ _ Z_strict_total); [exact S|now right].
    + exists x. split; [|exact D]. apply (sv_insert_in _ _ Z_strict_total); [exact S|now left].
  - now apply iset_insert_iset.
Qed.

(** The code of a name of the alphabet for which [P] holds. *)
Definition named (names : list ustr) (P : ustr -> Prop) (c : Z) : Prop := exists i t, nth_error names i = Some t /\ c = tag_of i /\ P t.
Lemma pair_names : forall p a, slexicinv (snd (pair_code p a)) = slexicinv a.
Proof. intros p a. unfold pair_code. cbn [snd]. now destruct (map_find pair_eq_dec p (spair a)). Qed.

Lemma get_symbol_ok : forall w p a vec K vec' a', alph_inv0 a -> holds vec a (named (slexicinv a) K) -> get_symbol w p a vec = (vec', a') ->
  alph_inv0 a' /\ extends a a' /\ slexicinv a' = slexicinv a /\ holds vec' a' (named (slexicinv a) (fun t => K t \/ t = filter_tag p w)).
Proof.
  intros w p a vec K vec' a' Ha H E. unfold get_symbol in E. destruct (isSymbolDefined (filter_tag p w) a) eqn:Ed.
  - apply defined_iff in Ed; [|apply Ha]. apply In_nth_error in Ed as (i & Hi). destruct (symbol_code_nth a _ i (proj1 Ha) Hi) as (Ec & _).
    rewrite Ec in E. assert (P := pair_code_ok (tag_of i, tag_of i) a Ha). assert (Pn := pair_names (tag_of i, tag_of i) a).
    destruct (pair_code (tag_of i, tag_of i) a) as [x a1]. destruct P as (Ha1 & X1 & D1 & _). injection E as <- <-. cbn [snd] in Pn.
    split; [exact Ha1|]. split; [exact X1|]. split; [exact Pn|].
    apply (holds_iff _ _ (fun d => named (slexicinv a) K d \/ d = tag_of i)).
    + intros c. unfold named. split.
      * intros [(j & t & Hj & -> & Ht)| ->]; [exists j, t; auto|]. exists i, (filter_tag p w). auto.
      * intros (j & t & Hj & -> & [Ht| ->]); [left; exists j, t; auto|]. right. f_equal.
        apply (proj1 (NoDup_nth_error (slexicinv a))); [apply Ha| |congruence]. apply nth_error_Some. congruence.
    + apply holds_insert; [|exact D1]. now apply (holds_extends _ a).
  - injection E as <- <-. split; [exact Ha|]. split; [apply extends_refl|]. split; [reflexivity|]. apply (holds_iff _ _ _ _) with (2 := H).
    intros c. unfold named. split.
    + intros (j & t & Hj & -> & Ht). exists j, t. auto.
    + intros (j & t & Hj & -> & [Ht| ->]); [exists j, t; auto|]. exfalso. assert (Hin := nth_error_In _ _ Hj).
      apply defined_iff in Hin; [congruence|apply Ha].
Qed.
Lemma get_symbols_ok : forall p ws a vec K vec' a', alph_inv0 a -> holds vec a (named (slexicinv a) K) -> get_symbols ws p a vec = (vec', a') ->
  alph_inv0 a' /\ extends a a' /\ slexicinv a' = slexicinv a
  /\ holds vec' a' (named (slexicinv a) (fun t => K t \/ exists w, In w ws /\ t = filter_tag p w)).
Proof.
  intros p. induction ws as [|w ws IH]; intros a vec K vec' a' Ha H E; cbn [get_symbols] in E.
  - injection E as <- <-. split; [exact Ha|]. split; [apply extends_refl|]. split; [reflexivity|]. apply (holds_iff _ _ _ _) with (2 := H).
    intros c. unfold named. split; intros (i & t & Hi & -> & Ht); exists i, t; repeat split; auto. destruct Ht as [Ht|(w & [] & _)]. exact Ht.
  - destruct (get_symbol w p a vec) as [v1 a1] eqn:E1. destruct (get_symbol_ok w p a vec K v1 a1 Ha H E1) as (Ha1 & X1 & N1 & H1).
    rewrite <- N1 in H1. destruct (IH a1 v1 _ vec' a' Ha1 H1 E) as (Ha2 & X2 & N2 & H2).
    split; [exact Ha2|]. split; [exact (extends_trans _ _ _ X1 X2)|]. split; [congruence|]. rewrite N1 in H2. apply (holds_iff _ _ _ _) with (2 := H2).
    intros c. unfold named. split; intros (i & t & Hi & -> & Ht); exists i, t; repeat split; auto.
    + destruct Ht as [[Ht| ->]|(v & Hv & ->)]; [now left| |]; right; [exists w|exists v]; split; auto; [now left|now right].
    + destruct Ht as [Ht|(v & [<-|Hv] & ->)]; [auto|auto|]. right. exists v. auto.
Qed.
(** The restrictions asked for. *)
Definition asked (r : restriction) (p w : ustr) : Prop :=
  (p = p_r /\ w = upper_direction (r_dir r)) \/ (p = p_v /\ In w (r_var r)) \/ (p = p_alt /\ In w (r_alt r))
  \/ (p = p_vl /\ In w (r_vl r)) \/ (p = p_vr /\ In w (r_vr r)).
Definition asked_tag (r : restriction) (t : ustr) : Prop := exists p w, asked r p w /\ t = filter_tag p w.
Lemma kept_symbols_ok : forall r a vec' a', alph_inv0 a -> kept_symbols r a = (vec', a') ->
  alph_inv0 a' /\ extends a a' /\ slexicinv a' = slexicinv a /\ holds vec' a' (named (slexicinv a) (asked_tag r)).
Proof.
  intros r a vec' a' Ha E. unfold kept_symbols in E.
  destruct (get_symbol (upper_direction (r_dir r)) p_r a []) as [v1 a1] eqn:E1.
  destruct (get_symbols (r_var r) p_v a1 v1) as [v2 a2] eqn:E2.
  destruct (get_symbols (r_alt r) p_alt a2 v2) as [v3 a3] eqn:E3.
  destruct (get_symbols (r_vl r) p_vl a3 v3) as [v4 a4] eqn:E4.
  assert (H0 : holds [] a (named (slexicinv a) (fun _ => False))).
  { split; [intros x []|]. split; [intros c (i & t & _ & _ & [])|constructor]. }
  destruct (get_symbol_ok _ _ _ _ _ _ _ Ha H0 E1) as (Ha1 & X1 & N1 & H1).
  rewrite <- N1 in H1. destruct (get_symbols_ok _ _ _ _ _ _ _ Ha1 H1 E2) as (Ha2 & X2 & N2 & H2).
  rewrite <- N2 in H2. destruct (get_symbols_ok _ _ _ _ _ _ _ Ha2 H2 E3) as (Ha3 & X3 & N3 & H3).
  rewrite <- N3 in H3. destruct (get_symbols_ok _ _ _ _ _ _ _ Ha3 H3 E4) as (Ha4 & X4 & N4 & H4).
  rewrite <- N4 in H4. destruct (get_symbols_ok _ _ _ _ _ _ _ Ha4 H4 E) as (Ha5 & X5 & N5 & H5).
  split; [exact Ha5|]. split; [exact (extends_trans _ _ _ X1 (extends_trans _ _ _ X2 (extends_trans _ _ _ X3 (extends_trans _ _ _ X4 X5))))|].
  split; [congruence|]. replace (slexicinv a4) with (slexicinv a) in H5 by congruence. apply (holds_iff _ _ _ _) with (2 := H5).
  intros c. unfold named, asked_tag, asked. split; intros (i & t & Hi & -> & Ht); exists i, t; repeat split; auto.
  - destruct Ht as [[[[[[]|Ht]|(w & Hw & ->)]|(w & Hw & ->)]|(w & Hw & ->)]|(w & Hw & ->)].
    + exists p_r, (upper_direction (r_dir r)). auto 8.
    + exists p_v, w. auto 8.
    + exists p_alt, w. auto 8.
    + exists p_vl, w. auto 8.
    + exists p_vr, w. auto 8.
  - destruct Ht as (p & w & [[-> ->]|[[-> Hw]|[[-> Hw]|[[-> Hw]|[-> Hw]]]]] & ->); eauto 9.
Qed.

Definition flagged (has_var : bool) (t : ustr) : bool :=
  prefixed p_r t || (has_var && prefixed p_v t) || prefixed p_alt t || prefixed p_vl t || prefixed p_vr t.
Lemma sort_symbols_ok : forall hv names j a keep drop K Dr keep' drop' a', alph_inv0 a -> names = skipn j (slexicinv a) ->
  holds keep a K -> holds drop a Dr -> sort_symbols hv names (Z.of_nat j + 1) a keep drop = (keep', drop', a') ->
  alph_inv0 a' /\ extends a a' /\ slexicinv a' = slexicinv a
  /\ holds keep' a' (fun c => K c \/ exists i t, nth_error names i = Some t /\ c = tag_of (j + i) /\ flagged hv t = false /\ hv = false /\ prefixed p_v t = true)
  /\ holds drop' a' (fun c => Dr c \/ exists i t, nth_error names i = Some t /\ c = tag_of (j + i) /\ flagged hv t = true /\ ~ K c).
Proof.
  intros hv. induction names as [|t names IH]; intros j a keep drop K Dr keep' drop' a' Ha En Hk Hd E; cbn [sort_symbols] in E.
  - injection E as <- <- <-. split; [exact Ha|]. split; [apply extends_refl|]. split; [reflexivity|].
    split; [apply (holds_iff _ _ _ _) with (2 := Hk)|apply (holds_iff _ _ _ _) with (2 := Hd)]; intros c;
      (split; [auto|]); intros [H|(i & t & Hi & _)]; auto; destruct i; discriminate.
  - assert (En2 : names = skipn (S j) (slexicinv a)).
    { change (S j) with (1 + j)%nat. rewrite Nat.add_comm. clear - En. revert En. generalize (slexicinv a) as l. intros l. revert l.
      induction j as [|j IHj]; intros [|x l] En; cbn in *; try discriminate; [now injection En as _ ->|]. rewrite (IHj l En). reflexivity. }
    replace (- (Z.of_nat j + 1)) with (tag_of j) in E by reflexivity. replace (Z.of_nat j + 1 + 1) with (Z.of_nat (S j) + 1) in E by lia.
    fold (flagged hv t) in E.
    assert (Tj : forall i, tag_of (S j + i) <> tag_of j) by (intros i; unfold tag_of; lia).
    destruct (flagged hv t) eqn:Ef.
    + assert (P := pair_code_ok (tag_of j, tag_of j) a Ha). assert (Pn := pair_names (tag_of j, tag_of j) a).
      destruct (pair_code (tag_of j, tag_of j) a) as [x a1]. destruct P as (Ha1 & X1 & D1 & _). cbn [snd] in Pn.
      assert (Hk1 := holds_extends _ _ _ _ X1 Hk). assert (Hd1 := holds_extends _ _ _ _ X1 Hd).
      assert (Hm := holds_in keep a1 K x (tag_of j) (proj1 Ha1) Hk1 D1).
      assert (Hdr : holds (if existsb (Z.eqb x) keep then drop else sv_insert Z.ltb x drop) a1 (fun c => Dr c \/ c = tag_of j /\ ~ K c)).
      { destruct (existsb (Z.eqb x) keep) eqn:Ex.
        - apply existsb_exists in Ex as (y & Hy & Exy). apply Z.eqb_eq in Exy. subst y. apply Hm in Hy.
          apply (holds_iff _ _ _ _) with (2 := Hd1). intros c. split; [auto|]. intros [H|[-> H]]; [exact H|contradiction].
        - assert (Nk : ~ K (tag_of j)). { intros H. apply Hm in H. assert (existsb (Z.eqb x) keep = true); [|congruence].
            apply existsb_exists. exists x. split; [exact H|apply Z.eqb_refl]. }
          apply (holds_iff _ _ (fun d => Dr d \/ d = tag_of j)); [|now apply holds_insert]. intros c. split; intros [H|H]; auto.
          + subst c. auto.
          + right. apply H. }
      rewrite <- Pn in En2. destruct (IH (S j) a1 _ _ K _ keep' drop' a' Ha1 En2 Hk1 Hdr E) as (Ha2 & X2 & N2 & K2 & D2).
      split; [exact Ha2|]. split; [exact (extends_trans _ _ _ X1 X2)|]. split; [congruence|]. split.
      * apply (holds_iff _ _ _ _) with (2 := K2). intros c. split.
        -- intros [H|(i & s & Hi & -> & R)]; [auto|]. right. exists (S i), s. split; [exact Hi|]. split; [f_equal; lia|exact R].
        -- intros [H|([|i] & s & Hi & -> & R)]; [auto| |].
           ++ cbn in Hi. injection Hi as ->. destruct R as (R & _). congruence.
           ++ right. exists i, s. split; [exact Hi|]. split; [f_equal; lia|exact R].
      * apply (holds_iff _ _ _ _) with (2 := D2). intros c. split.
        -- intros [[H|[-> H]]|(i & s & Hi & -> & R)]; [auto| |].
           ++ right. exists 0%nat, t. split; [reflexivity|]. split; [f_equal; lia|]. auto.
           ++ right. exists (S i), s. split; [exact Hi|]. split; [f_equal; lia|exact R].
        -- intros [H|([|i] & s & Hi & Ec & R)]; [auto| |].
           ++ left. right. rewrite Nat.add_0_r in Ec. split; [exact Ec|apply R].
           ++ right. exists i, s. split; [exact Hi|]. split; [rewrite Ec; f_equal; lia|exact R].
    + destruct (negb hv && prefixed p_v t) eqn:Ev.
      * apply andb_true_iff in Ev as [Eh Ep]. apply negb_true_iff in Eh.
        assert (P := pair_code_ok (tag_of j, tag_of j) a Ha). assert (Pn := pair_names (tag_of j, tag_of j) a).
        destruct (pair_code (tag_of j, tag_of j) a) as [x a1]. destruct P as (Ha1 & X1 & D1 & _). cbn [snd] in Pn.
        assert (Hk1 := holds_insert _ _ _ _ _ (holds_extends _ _ _ _ X1 Hk) D1). assert (Hd1 := holds_extends _ _ _ _ X1 Hd).
        rewrite <- Pn in En2. destruct (IH (S j) a1 _ _ _ _ keep' drop' a' Ha1 En2 Hk1 Hd1 E) as (Ha2 & X2 & N2 & K2 & D2).
        split; [exact Ha2|]. split; [exact (extends_trans _ _ _ X1 X2)|]. split; [congruence|]. split.
        -- apply (holds_iff _ _ _ _) with (2 := K2). intros c. split.
           ++ intros [[H| ->]|(i & s & Hi & -> & R)]; [auto| |].
              ** right. exists 0%nat, t. split; [reflexivity|]. split; [f_equal; lia|]. auto.
              ** right. exists (S i), s. split; [exact Hi|]. split; [f_equal; lia|exact R].
           ++ intros [H|([|i] & s & Hi & Ec & R)]; [auto| |].
              ** left. right. now rewrite Nat.add_0_r in Ec.
              ** right. exists i, s. split; [exact Hi|]. split; [rewrite Ec; f_equal; lia|exact R].
        -- apply (holds_iff _ _ _ _) with (2 := D2). intros c. split.
           ++ intros [H|(i & s & Hi & -> & R1 & R2)]; [auto|]. right. exists (S i), s. split; [exact Hi|]. split; [f_equal; lia|]. auto.
           ++ intros [H|([|i] & s & Hi & Ec & R1 & R2)]; [auto| |].
              ** cbn in Hi. injection Hi as ->. congruence.
              ** right. exists i, s. split; [exact Hi|]. assert (Ec' : c = tag_of (S j + i)) by (rewrite Ec; f_equal; lia).
                 split; [exact Ec'|]. split; [exact R1|]. intros [H|H]; [contradiction|]. apply (Tj i). congruence.
      * destruct (IH (S j) a _ _ _ _ keep' drop' a' Ha En2 Hk Hd E) as (Ha2 & X2 & N2 & K2 & D2).
        split; [exact Ha2|]. split; [exact X2|]. split; [exact N2|]. split.
        -- apply (holds_iff _ _ _ _) with (2 := K2). intros c. split.
           ++ intros [H|(i & s & Hi & -> & R)]; [auto|]. right. exists (S i), s. split; [exact Hi|]. split; [f_equal; lia|exact R].
           ++ intros [H|([|i] & s & Hi & Ec & R)]; [auto| |].
              ** cbn in Hi. injection Hi as ->. destruct R as (_ & -> & R). rewrite R in Ev. discriminate.
              ** right. exists i, s. split; [exact Hi|]. split; [rewrite Ec; f_equal; lia|exact R].
        -- apply (holds_iff _ _ _ _) with (2 := D2). intros c. split.
           ++ intros [H|(i & s & Hi & -> & R1 & R2)]; [auto|]. right. exists (S i), s. split; [exact Hi|]. split; [f_equal; lia|]. auto.
           ++ intros [H|([|i] & s & Hi & Ec & R1 & R2)]; [auto| |].
              ** cbn in Hi. injection Hi as ->. congruence.
              ** right. exists i, s. split; [exact Hi|]. split; [rewrite Ec; f_equal; lia|]. auto.
Qed.

(** ** All of it *)
Definition has_variants (r : restriction) : bool := match r_var r with [] => false | _ => true end.
(** A name whose symbol is taken for nothing, and one whose symbol must not occur. *)
Definition wanted (r : restriction) (t : ustr) : Prop := asked_tag r t \/ (r_var r = [] /\ prefixed p_v t = true).
Definition unwanted (r : restriction) (t : ustr) : Prop := flagged (has_variants r) t = true /\ ~ asked_tag r t.
Lemma prefix_apart : forall p q t, ~ In 58 p -> ~ In 58 q -> prefixed p t = true -> prefixed q t = true -> p = q.
Proof.
  intros p q t Hp Hq H1 H2. unfold prefixed in *. apply (proj1 (C51_affixes _ _)) in H1 as (s1 & E1). apply (proj1 (C51_affixes _ _)) in H2 as (s2 & E2).
  rewrite E1 in E2. rewrite <- !app_assoc in E2. cbn [app] in E2. injection E2 as E2. clear E1 t. revert q Hq E2.
  induction p as [|x p IH]; intros [|y q] Hq E2; cbn in *; [reflexivity| | |].
  - injection E2 as <- _. exfalso. auto.
  - injection E2 as -> _. exfalso. auto.
  - injection E2 as -> E2. f_equal. apply IH; auto.
Qed.
Lemma symbols_ok : forall r a keep drop a1 a2, alph_inv0 a ->
  (let '(k, b) := kept_symbols r a in (let '(x, y, z) := sort_symbols (has_variants r) (slexicinv b) 1 b k [] in (b, x, y, z))) = (a1, keep, drop, a2) ->
  alph_inv0 a2 /\ extends a a2 /\ slexicinv a2 = slexicinv a
  /\ holds keep a2 (named (slexicinv a) (wanted r)) /\ holds drop a2 (named (slexicinv a) (unwanted r)).
Proof.
  intros r a keep drop a1 a2 Ha E. destruct (kept_symbols r a) as [k b] eqn:Ek. destruct (kept_symbols_ok r a k b Ha Ek) as (Hb & X1 & N1 & H1).
  destruct (sort_symbols (has_variants r) (slexicinv b) 1 b k []) as [[x y] z] eqn:Es. injection E as <- <- <- <-.
  assert (H0 : holds [] b (fun _ => False)). { split; [intros ? []|]. split; [intros ? []|constructor]. }
  destruct (sort_symbols_ok (has_variants r) (slexicinv b) 0 b k [] _ _ x y z Hb eq_refl H1 H0 Es) as (Hz & X2 & N2 & K2 & D2).
  split; [exact Hz|]. split; [exact (extends_trans _ _ _ X1 X2)|]. split; [congruence|].
  assert (Nd : NoDup (slexicinv a)) by apply Ha.
  split; [apply (holds_iff _ _ _ _) with (2 := K2)|apply (holds_iff _ _ _ _) with (2 := D2)]; intros c; rewrite N1; unfold named, wanted, unwanted; split.
  - intros [(i & t & Hi & -> & Ht)|(i & t & Hi & -> & _ & Hv & Hp)]; exists i, t; (split; [exact Hi|]); (split; [reflexivity|]); [auto|].
    right. split; [|exact Hp]. unfold has_variants in Hv. now destruct (r_var r).
  - intros (i & t & Hi & -> & [Ht|[Hv Hp]]); [left; exists i, t; auto|]. right. exists i, t. split; [exact Hi|]. split; [reflexivity|].
    unfold has_variants. rewrite Hv. split; [|auto]. unfold flagged. cbn [andb].
    destruct (prefixed p_r t) eqn:E1; [apply (prefix_apart p_v p_r t) in E1; auto; [discriminate|..]; cbn; intuition discriminate|].
    destruct (prefixed p_alt t) eqn:E2; [apply (prefix_apart p_v p_alt t) in E2; auto; [discriminate|..]; cbn; intuition discriminate|].
    destruct (prefixed p_vl t) eqn:E3; [apply (prefix_apart p_v p_vl t) in E3; auto; [discriminate|..]; cbn; intuition discriminate|].
    destruct (prefixed p_vr t) eqn:E4; [apply (prefix_apart p_v p_vr t) in E4; auto; [discriminate|..]; cbn; intuition discriminate|].
    reflexivity.
  - intros [[]|(i & t & Hi & -> & Hf & Hn)]. exists i, t. split; [exact Hi|]. split; [reflexivity|]. split; [exact Hf|].
    intros H. apply Hn. exists i, t. auto.
  - intros (i & t & Hi & -> & Hf & Hn). right. exists i, t. split; [exact Hi|]. split; [reflexivity|]. split; [exact Hf|].
    intros (k' & s & Hk & Et & Hs). apply Hn. assert (k' = i). { unfold tag_of in Et. lia. } subst k'. assert (s = t) by congruence. now subst.
Qed.

(** * What is left of a section *)
(** ** The pairs in the words *)
Section Classed.
  Variables (N : Z) (n0 : nat) (code : ustr -> Z) (all : list rentry).
  Hypothesis HN : N = Z.of_nat n0.
  Definition flag_pair (p : Z * Z) : Prop :=
    exists at_ els g c, In (at_, els) all /\ at_ignore at_ <> yes_val /\ In g (groups code at_) /\ In c g /\ p = (c, c).
  Definition classed (X : pset) : Prop := forall w p, X w -> In p w -> - N <= fst p \/ flag_pair p.
  Lemma classed_cat : forall X Y, classed X -> classed Y -> classed (cat X Y).
  Proof using. intros X Y HX HY w p (x & y & -> & Hx & Hy) Hp. apply in_app_or in Hp as [Hp|Hp]; eauto. Qed.
  Lemma classed_entry : forall env D, (forall n, In n D -> classed (env n)) -> forall els, Forall (written n0) els -> uses D els ->
    classed (entry_set true env els).
  Proof using HN.
    intros env D HE. induction els as [|el els IH]; intros W U; cbn [entry_set].
    - intros w p -> [].
    - apply classed_cat; [|apply IH; [exact (Forall_inv_tail W)|intros n Hn; apply U; now right]].
      destruct el as [l r wt|n|er].
      + intros w p Hw Hp. left. apply (element_low N n0 HN env _ w (Forall_inv W)); [congruence|exact Hw|exact Hp].
      + apply HE. apply U. now left.
      + intros w p Hw Hp. left. apply (element_low N n0 HN env _ w (Forall_inv W)); [congruence|exact Hw|exact Hp].
  Qed.
  Lemma classed_chosen : forall env D es, (forall n, In n D -> classed (env n)) -> incl es all ->
    (forall at_ els, In (at_, els) es -> at_ignore at_ <> yes_val -> Forall (written n0) els /\ uses D els) -> classed (uchosen code env es).
  Proof using HN.
    intros env D es HE Hin HO w p (at_ & els & He & Hi & Hw). destruct (HO at_ els He Hi) as [W U].
    revert w p Hw. apply classed_cat; [|now apply (classed_entry env D)].
    intros w p (cs & F & ->) Hp. right. apply in_map_iff in Hp as (c & <- & Hc). clear - F Hc Hin He Hi.
    assert (exists g, In g (groups code at_) /\ In c g) as (g & Hg & Hcg).
    { induction F as [|x g cs gs Hx F IH]; [destruct Hc|]. destruct Hc as [<-|Hc]; [exists g; split; [now left|exact Hx]|].
      destruct (IH Hc) as (g' & H1 & H2). exists g'. split; [now right|exact H2]. }
    exists at_, els, g, c. auto.
  Qed.
  Lemma classed_section : forall items env D, (forall n, In n D -> classed (env n)) -> incl (all_entries items) all ->
    (forall at_ els, In (at_, els) (all_entries items) -> at_ignore at_ <> yes_val -> Forall (written n0) els) -> uses_ok D items ->
    forall name, classed (usection code env items name).
  Proof using HN.
    induction items as [|[n es|n es] items IH]; intros env D HE Hin HO U name; cbn [usection].
    - intros w p [].
    - destruct U as [U1 U2]. apply (IH _ (n :: D)).
      + intros m Hm. unfold define. destruct (ustr_eq_dec m n) as [->|Ne].
        * apply (classed_chosen env D); [exact HE| |].
          -- intros e He. apply Hin. apply in_or_app. auto.
          -- intros at_ els He Hi. split; [apply (HO at_); [apply in_or_app; auto|exact Hi]|eauto].
        * apply HE. destruct Hm; [congruence|assumption].
      + intros e He. apply Hin. apply in_or_app. auto.
      + intros at_ els He. apply HO. apply in_or_app. auto.
      + exact U2.
    - destruct U as [U1 U2]. intros w p [[_ Hw]|Hw] Hp.
      + revert w p Hw Hp. apply (classed_chosen env D); [exact HE| |].
        * intros e He. apply Hin. apply in_or_app. auto.
        * intros at_ els He Hi. split; [apply (HO at_); [apply in_or_app; auto|exact Hi]|eauto].
      + revert w p Hw Hp. apply (IH env D HE).
        * intros e He. apply Hin. apply in_or_app. auto.
        * intros at_ els He. apply HO. apply in_or_app. auto.
        * exact U2.
  Qed.
End Classed.

(** ** Deleting and taking for nothing *)
Lemma filter_le : forall {A} (f : A -> bool) l, (length (filter f l) <= length l)%nat.
Proof. intros A f. induction l as [|x l IH]; [cbn; lia|]. cbn [filter]. destruct (f x); cbn [length]; lia. Qed.
Lemma decode_zero : forall a, alph_inv0 a -> decode 0 a = Ok (0, 0).
Proof. intros a [Ha H]. now destruct (pair_code_nth a (0, 0) 0 Ha H) as [_ E]. Qed.
Lemma word_of_in : forall eps l x, In x (word_of eps l) <-> x <> eps /\ exists y, In y l /\ fst y = x.
Proof.
  intros eps l x. unfold word_of, visible. rewrite in_map_iff. split.
  - intros (y & <- & Hy). apply filter_In in Hy as [Hy E]. apply negb_true_iff, Z.eqb_neq in E. split; [exact E|]. exists y. auto.
  - intros [E (y & Hy & <-)]. exists y. split; [reflexivity|]. apply filter_In. split; [exact Hy|]. now apply negb_true_iff, Z.eqb_neq.
Qed.
Lemma delete_lang : forall syms t u, ~ In 0 syms -> (lang (deleteSymbols syms t) 0 u <-> lang t 0 u /\ forall x, In x u -> ~ In x syms).
Proof.
  intros syms t u H0. destruct (C27_delete syms t) as (_ & _ & _ & A). split.
  - intros (c & l & f & Hl & <- & Hc). apply A in Hl as [Hl Hn]. split; [exists c, l, f; auto|].
    intros x Hx. apply word_of_in in Hx as (_ & y & Hy & <-). auto.
  - intros [(c & l & f & Hl & <- & Hc) Hn]. exists c, l, f. split; [|auto]. apply A. split; [exact Hl|].
    intros x Hx Hs. apply (Hn (fst x)); [|exact Hs]. apply word_of_in. split; [|eauto]. intros E. rewrite E in Hs. contradiction.
Qed.
Lemma delete_arcs : forall syms t p, (length (arcs_of (deleteSymbols syms t) p) <= length (arcs_of t p))%nat.
Proof.
  intros syms t p. unfold arcs_of, deleteSymbols. cbn [trans].
  change (@nil arc) with (fold_left (fun l sym => mm_erase sym l) [] (@nil arc)) at 1.
  assert (E : forall s (l : list arc), (length (fold_left (fun l sym => mm_erase sym l) s l) <= length l)%nat).
  { induction s as [|x s IH]; intros l; cbn [fold_left]; [lia|]. specialize (IH (mm_erase x l)).
    assert (length (mm_erase x l) <= length l)%nat; [|lia]. unfold mm_erase. apply filter_le. }
  destruct (Nat.lt_ge_cases p (length (trans t))) as [L|G].
  - rewrite (nth_indep _ _ (fold_left (fun l sym => mm_erase sym l) syms [])) by (rewrite map_length; exact L). rewrite map_nth. apply E.
  - rewrite nth_overflow by (rewrite map_length; exact G). cbn. lia.
Qed.
Lemma eps_lang : forall fuel syms t, wf t -> ~ In 0 syms -> (forall p, (length (arcs_of t p) <= fuel)%nat) ->
  exists t', epsilonizeSymbols fuel syms t = Ok t' /\ wf t'
    /\ (forall p tag q w, has_arc t' p tag q w -> tag = 0 \/ has_arc t p tag q w)
    /\ forall u, lang t' 0 u <-> exists u0, lang t 0 u0 /\ u = filter (fun a => negb (existsb (Z.eqb a) syms)) u0.
Proof.
  intros fuel syms t W H0 F. destruct (C27_epsilonize fuel syms t W H0 F) as (t' & E & _ & W' & P & L). exists t'.
  split; [exact E|]. split; [exact W'|]. split.
  - intros p tag q w H. assert (Hp : path t' p [(tag, w)] q) by (econstructor; [exact H|constructor]).
    apply P in Hp as (l & Hp & F2). inversion F2 as [|[x w'] y l1 l2 [Ew [[_ Ex]|[_ Ex]]] F3]; subst; cbn in *; [now left|]. subst.
    inversion F3; subst. inversion Hp as [|? ? ? ? ? ? Ha Hr]; subst. inversion Hr; subst. now right.
  - intros u. unfold lang. split.
    + intros (c & H). apply L in H as (u0 & H & ->). eauto.
    + intros (u0 & (c & H) & ->). exists c. apply L. eauto.
Qed.
Lemma delete_has_arc : forall syms t p tag q w, has_arc (deleteSymbols syms t) p tag q w -> has_arc t p tag q w.
Proof.
  intros syms t p tag q w H. destruct (C27_delete syms t) as (_ & _ & P & _).
  assert (Hp : path (deleteSymbols syms t) p [(tag, w)] q) by (econstructor; [exact H|constructor]).
  apply P in Hp as [Hp _]. inversion Hp as [|? ? ? ? ? ? Ha Hr]; subst. inversion Hr; subst. exact Ha.
Qed.

(** In a minimised transducer each tag occurs in an accepted word. *)
Lemma minimized_tags : forall a t0 t X, alph_inv0 a -> minimized 0 t0 t -> wf t -> (forall u, lang t 0 u <-> Tg a X u) -> tags_in t a.
Proof.
  intros a t0 t X Ha M W L p tag q w H.
  assert (Lp : (p < nstates t)%nat).
  { unfold has_arc, arcs_of in H. destruct (Nat.lt_ge_cases p (nstates t)) as [|G]; [assumption|]. rewrite nth_overflow in H by exact G. destruct H. }
  assert (Lq : (q < nstates t)%nat) by exact (wf_arcs t W _ _ _ _ H).
  destruct (minimized_minimal 0 t0 t M) as (_ & _ & A & _). destruct (A p Lp) as (l1 & P1).
  destruct (minimized_coaccessible 0 t0 t q M Lq) as (l2 & f & r & P2 & F).
  destruct (Z.eq_dec tag 0) as [->|Nz]; [exists (0, 0); now apply decode_zero|].
  assert (Hl : lang t 0 (word_of 0 (l1 ++ (tag, w) :: l2))).
  { exists (cost_of (l1 ++ (tag, w) :: l2) + f), (l1 ++ (tag, w) :: l2), f. split; [|auto]. exists r. split; [|exact F].
    eapply path_app; [exact P1|]. econstructor; eauto. }
  apply L in Hl as (v & _ & R).
  assert (Hin : In tag (word_of 0 (l1 ++ (tag, w) :: l2))).
  { apply word_of_in. split; [exact Nz|]. exists (tag, w). split; [apply in_or_app; right; now left|reflexivity]. }
  clear - R Hin. induction R as [|x y u v Hx R IH]; [destruct Hin|]. destruct Hin as [->|Hin]; [eauto|auto].
Qed.

(** ** The other direction *)
Definition swap_word (w : list (Z * Z)) : list (Z * Z) := map (fun p => (snd p, fst p)) w.
Definition swap_set (X : pset) : pset := fun w => X (swap_word w).
Lemma swap_swap : forall w, swap_word (swap_word w) = w.
Proof. intros w. unfold swap_word. rewrite map_map. rewrite <- (map_id w) at 2. apply map_ext. now intros [x y]. Qed.
Lemma trace_path : forall a t p tr q, alph_inv0 a -> trace (as_pair a) t p tr q ->
  exists l, path t p l q /\ reads a (map fst l) (map fst tr) /\ map snd l = map snd tr.
Proof.
  intros a t p tr q Ha H. induction H as [p|p x y w q tr r Hx Hd H IH]; [exists []; split; [constructor|split; [constructor|reflexivity]]|].
  destruct IH as (l & P & R & S). exists ((x, w) :: l). split; [econstructor; eauto|]. split; [constructor; [exact Hd|exact R]|cbn; congruence].
Qed.
Lemma path_trace : forall a t p l q, tags_in t a -> path t p l q -> exists tr, trace (as_pair a) t p tr q /\ reads a (map fst l) (map fst tr).
Proof.
  intros a t p l q T H. induction H as [p|p x w q l r Hx H IH]; [exists []; split; constructor|].
  destruct IH as (tr & P & R). destruct (T _ _ _ _ Hx) as (y & Hy). exists ((y, w) :: tr). split; [econstructor; eauto|]. now constructor.
Qed.
Definition solid (p : Z * Z) : bool := if pair_eq_dec p (0, 0) then false else true.
Lemma reads_visible : forall a l v, alph_inv0 a -> reads a (map fst l) v -> reads a (word_of 0 l) (filter solid v).
Proof.
  intros a l v Ha. revert v. induction l as [|[x w] l IH]; intros v R; inversion R as [|? y ? v' Hx R']; subst; [constructor|].
  assert (H0 : decode 0 a = Ok (0, 0)) by now apply decode_zero.
  unfold word_of, visible. cbn [filter fst]. unfold solid at 1. destruct (Z.eqb_spec x 0) as [->|Nz]; cbn [negb].
  - assert (y = (0, 0)) by congruence. subst y. cbn [filter]. unfold solid at 1. destruct (pair_eq_dec (0, 0) (0, 0)) as [_|n]; [|congruence].
    now apply IH.
  - cbn [filter]. unfold solid at 1. destruct (pair_eq_dec y (0, 0)) as [->|_].
    + exfalso. apply Nz. exact (decode_unique a x 0 (0, 0) (proj1 Ha) Hx H0).
    + cbn [map fst]. constructor; [exact Hx|]. now apply IH.
Qed.
Lemma reads_fun : forall a u v w, reads a u v -> reads a u w -> v = w.
Proof.
  intros a u v w H. revert w. induction H as [|x y u v Hx H IH]; intros w R; inversion R; subst; [reflexivity|]. f_equal; [congruence|auto].
Qed.
Lemma solid_swap : forall w, filter solid (swap_word w) = swap_word (filter solid w).
Proof.
  induction w as [|[x y] w IH]; [reflexivity|]. cbn [swap_word map filter fst snd]. fold (swap_word w).
  assert (E : solid (y, x) = solid (x, y)).
  { unfold solid. destruct (pair_eq_dec (y, x) (0, 0)), (pair_eq_dec (x, y) (0, 0)); congruence. }
  rewrite E. destruct (solid (x, y)); [|exact IH]. cbn [swap_word map fst snd]. fold (swap_word (filter solid w)). now rewrite IH.
Qed.
Lemma invert_lang : forall a t X, alph_inv0 a -> wf t -> tags_in t a -> cov a X -> (forall u, lang t 0 u <-> Tg a X u) ->
  exists t' a', invert t a = Ok (t', a') /\ alph_inv0 a' /\ extends a a' /\ wf t' /\ cov a' (swap_set X)
    /\ forall u, lang t' 0 u <-> Tg a' (swap_set X) u.
Proof.
  intros a t X Ha W T C L. destruct (invert_spec t a (proj1 Ha) T) as (t1 & a1 & E1 & _ & X1 & _).
  destruct (C25_traces t a (proj1 Ha) T) as (t' & a' & E & F & T' & Ha' & W' & _ & A). rewrite E in E1. injection E1 as <- <-.
  assert (Ha0 : alph_inv0 a'). { split; [exact Ha'|]. destruct X1 as (_ & l & ->). destruct Ha as [_ H0]. destruct (spairinv a); [discriminate|exact H0]. }
  exists t', a'. split; [exact E|]. split; [exact Ha0|]. split; [exact X1|]. split; [auto|].
  assert (Sw : forall tr : list ((Z * Z) * Z), map fst (map (fun x => ((snd (fst x), fst (fst x)), snd x)) tr) = swap_word (map fst tr)).
  { intros tr. unfold swap_word. rewrite !map_map. reflexivity. }
  assert (Back : forall v, swap_set X v -> exists u, lang t' 0 u /\ reads a' u v).
  { intros v Hv. unfold swap_set in Hv. destruct (Tg_some a X (swap_word v) C Hv) as (u0 & Hu0 & R0).
    apply L in Hu0 as (c & l0 & f & (q & P & Fq) & <- & _). destruct (path_trace a t _ _ _ T P) as (tr0 & Tr0 & Rt).
    assert (Es := reads_fun _ _ _ _ R0 (reads_visible a l0 _ Ha Rt)).
    assert (Acc : accepts_trace (as_pair a') t' (map (fun x => ((snd (fst x), fst (fst x)), snd x)) tr0) f). { apply A. exists q. auto. }
    destruct Acc as (q1 & Tr1 & Fq1). destruct (trace_path a' t' _ _ _ Ha0 Tr1) as (l & P1 & R1 & _). rewrite Sw in R1.
    exists (word_of 0 l). split.
    - exists (cost_of l + f), l, f. split; [exists q1; auto|auto].
    - assert (R2 := reads_visible a' l _ Ha0 R1). rewrite solid_swap, <- Es, swap_swap in R2. exact R2. }
  split.
  - intros v p Hv Hp. destruct (Back v Hv) as (u & _ & R). split.
    + intros ->. apply (proj1 (C (swap_word v) (0, 0) Hv (in_map (fun p => (snd p, fst p)) v (0, 0) Hp))). reflexivity.
    + clear - R Hp. induction R as [|x y u v Hx R IH]; [destruct Hp|]. destruct Hp as [<-|Hp]; [|auto].
      apply decode_nth in Hx as [_ Hx]. exact (nth_error_In _ _ Hx).
  - intros u. split.
    + intros (c & l & f & (q & P & Fq) & <- & _). destruct (path_trace a' t' _ _ _ T' P) as (tr & Tr & R).
      set (tr0 := map (fun x : (Z * Z) * Z => ((snd (fst x), fst (fst x)), snd x)) tr).
      assert (Et : tr = map (fun x => ((snd (fst x), fst (fst x)), snd x)) tr0).
      { unfold tr0. rewrite map_map. rewrite <- (map_id tr) at 1. apply map_ext. now intros [[x y] z]. }
      assert (Acc : accepts_trace (as_pair a) t tr0 f). { apply A. rewrite <- Et. exists q. auto. }
      destruct Acc as (q0 & Tr0 & Fq0). destruct (trace_path a t _ _ _ Ha Tr0) as (l0 & P0 & R0 & _).
      assert (Hl : lang t 0 (word_of 0 l0)). { exists (cost_of l0 + f), l0, f. split; [exists q0; auto|auto]. }
      apply L in Hl as (v & Hv & Rv). assert (R0' := reads_visible a l0 _ Ha R0). assert (v = filter solid (map fst tr0)) by exact (reads_fun _ _ _ _ Rv R0').
      exists (swap_word v). split; [unfold swap_set; now rewrite swap_swap|]. subst v. rewrite <- solid_swap. rewrite <- Sw. rewrite <- Et.
      now apply reads_visible.
    + intros (v & Hv & R). destruct (Back v Hv) as (u' & Hu & R'). now rewrite (reads_unique a' u u' v Ha' R R').
Qed.

(** ** One section *)
Lemma image_cov : forall a N K X, cov a X -> cov a (image N K X).
Proof. intros a N K X C w p (u & Hu & _ & <-) Hp. apply filter_In in Hp as [Hp _]. exact (C u p Hu Hp). Qed.
Lemma filtered_lang : forall a N K Dr keep drop U t0 t fuel, alph_inv0 a -> 0 <= N -> holds keep a K -> holds drop a Dr ->
  (forall c, K c -> c < - N) -> (forall c, Dr c -> c < - N) -> (forall c, K c -> ~ Dr c) ->
  wf t -> minimized 0 t0 t -> cov a U -> (forall u, lang t 0 u <-> Tg a U u) ->
  (forall w p, U w -> In p w -> - N <= fst p \/ exists c, p = (c, c) /\ (K c \/ Dr c)) ->
  (forall p, (length (arcs_of t p) <= fuel)%nat) ->
  exists t2, epsilonizeSymbols fuel keep (deleteSymbols drop t) = Ok t2 /\ wf t2 /\ tags_in t2 a
    /\ forall u, lang t2 0 u <-> Tg a (image N K U) u.
Proof.
  intros a N K Dr keep drop U t0 t fuel Ha HN Hk Hd LK LD Dis W M C L Cl F.
  assert (Z0 := decode_zero a Ha).
  assert (Nk : ~ In 0 keep). { intros H. destruct Hk as (H1 & _). destruct (H1 0 H) as (c & Hc & D). assert (c = 0) by congruence. apply LK in Hc. lia. }
  assert (Nd : ~ In 0 drop). { intros H. destruct Hd as (H1 & _). destruct (H1 0 H) as (c & Hc & D). assert (c = 0) by congruence. apply LD in Hc. lia. }
  destruct (C27_delete drop t) as (_ & W1 & _). specialize (W1 W).
  destruct (eps_lang fuel keep (deleteSymbols drop t) W1 Nk) as (t2 & E & W2 & A2 & L2).
  { intros p. assert (G := delete_arcs drop t p). specialize (F p). lia. }
  exists t2. split; [exact E|]. split; [exact W2|]. split.
  { intros p tag q w H. destruct (A2 _ _ _ _ H) as [->|H']; [eauto|]. apply delete_has_arc in H'. exact (minimized_tags a t0 t U Ha M W L p tag q w H'). }
  assert (Kx : forall x p w, U w -> In p w -> decode x a = Ok p -> (In x drop <-> fst p < - N /\ ~ K (fst p)) /\ (In x keep <-> fst p < - N /\ K (fst p))).
  { intros x p w Hw Hp D. destruct (Cl w p Hw Hp) as [Lo|(c & -> & Hc)].
    - split; (split; [|intros [H _]; lia]); intros H; exfalso.
      + destruct Hd as (H1 & _). destruct (H1 x H) as (c & Hc & D'). assert (p = (c, c)) by congruence. subst p. apply LD in Hc. cbn in Lo. lia.
      + destruct Hk as (H1 & _). destruct (H1 x H) as (c & Hc & D'). assert (p = (c, c)) by congruence. subst p. apply LK in Hc. cbn in Lo. lia.
    - cbn [fst]. rewrite (holds_in drop a Dr x c (proj1 Ha) Hd D), (holds_in keep a K x c (proj1 Ha) Hk D). split; split.
      + intros H. split; [now apply LD|]. intros H'. exact (Dis c H' H).
      + intros [_ H]. destruct Hc; [contradiction|assumption].
      + intros H. split; [now apply LK|exact H].
      + now intros [_ H]. }
  assert (Rd : forall u w, U w -> reads a u w -> ((forall x, In x u -> ~ In x drop) <-> passes N K w)
    /\ (passes N K w -> reads a (filter (fun x => negb (existsb (Z.eqb x) keep)) u) (erase N w))).
  { intros u w Hw R. assert (Hin : forall x p, In (x, p) (combine u w) -> In p w) by (intros x p H; exact (in_combine_r _ _ _ _ H)).
    assert (Hx : forall x, In x u -> exists p, In p w /\ decode x a = Ok p).
    { clear - R. induction R as [|x p u w D R IH]; [intros ? []|]. intros y [<-|Hy]; [exists p; split; [now left|exact D]|].
      destruct (IH y Hy) as (q & Hq & E). exists q. split; [now right|exact E]. }
    assert (Hp : forall p, In p w -> exists x, In x u /\ decode x a = Ok p).
    { clear - R. induction R as [|x p u w D R IH]; [intros ? []|]. intros y [<-|Hy]; [exists x; split; [now left|exact D]|].
      destruct (IH y Hy) as (q & Hq & E). exists q. split; [now right|exact E]. }
    split; [split|].
    - intros H p Hpw Lp. destruct (Hp p Hpw) as (x & Hxu & D). destruct (Cl w p Hw Hpw) as [Lo|(c & -> & [Hc|Hc])]; [lia|exact Hc|].
      exfalso. apply (H x Hxu). now apply (holds_in drop a Dr x c (proj1 Ha) Hd D).
    - intros P x Hxu Hxd. destruct (Hx x Hxu) as (p & Hpw & D). destruct (Kx x p w Hw Hpw D) as [Kd _]. destruct (proj1 Kd Hxd) as [H1 H2].
      apply H2. now apply P.
    - intros P.
      assert (Kk : forall x p, In p w -> decode x a = Ok p -> negb (existsb (Z.eqb x) keep) = (- N <=? fst p)).
      { intros x p Hpw D. destruct (Kx x p w Hw Hpw D) as [_ Kk]. destruct (existsb (Z.eqb x) keep) eqn:Ex; cbn [negb]; symmetry.
        - apply existsb_exists in Ex as (y & Hy & Exy). apply Z.eqb_eq in Exy. subst y. destruct (proj1 Kk Hy) as [H _]. now apply Z.leb_gt.
        - apply Z.leb_le. destruct (Z.lt_ge_cases (fst p) (- N)) as [Lt|Ge]; [|exact Ge]. exfalso.
          assert (Hk' : In x keep) by (apply Kk; split; [exact Lt|now apply P]).
          assert (existsb (Z.eqb x) keep = true); [|congruence]. apply existsb_exists. exists x. split; [exact Hk'|apply Z.eqb_refl]. }
      clear - R Kk. induction R as [|x p u w D R IH]; [constructor|]. cbn [filter erase]. rewrite (Kk x p (or_introl eq_refl) D).
      fold (erase N w). destruct (- N <=? fst p).
      + constructor; [exact D|]. apply IH. intros y q Hq. apply Kk. now right.
      + apply IH. intros y q Hq. apply Kk. now right. }
  intros u. rewrite L2. split.
  - intros (u0 & Hu & ->). apply (delete_lang drop t u0 Nd) in Hu as [Hu Hn]. apply L in Hu as (w & Hw & R).
    destruct (Rd u0 w Hw R) as [R1 R2]. apply R1 in Hn. exists (erase N w). split; [|auto]. exists w. auto.
  - intros (v & (w & Hw & P & <-) & R). destruct (Tg_some a U w C Hw) as (u0 & Hu0 & R0). destruct (Rd u0 w Hw R0) as [R1 R2].
    exists u0. split.
    + apply (delete_lang drop t u0 Nd). split; [now apply L|now apply R1].
    + exact (reads_unique a _ _ _ (proj1 Ha) R (R2 P)).
Qed.

(** ** All sections *)
Lemma minimized_wf : forall eps t m, minimized eps t m -> wf m.
Proof. intros eps t m [(j1 & u1 & Q2 & t2 & j3 & t3 & Q4 & _ & _ & _ & _ & _ & _ & S4 & _)]. exact (sa_wf _ _ _ _ S4). Qed.
Definition turned (rl : bool) (X : pset) : pset := if rl then swap_set X else X.
Definition right_left (r : restriction) : bool := if ustr_eq_dec (upper_direction (r_dir r)) RL_val then true else false.
Lemma cov_extends : forall a b X, extends a b -> cov a X -> cov b X.
Proof. intros a b X E C w p Hw Hp. destruct (C w p Hw Hp) as [H1 H2]. split; [exact H1|]. now apply (in_extends a b). Qed.
Lemma restrict_ok : forall fuel r N (K Dr : Z -> Prop) keep drop (U : ustr -> pset), 0 <= N ->
  (forall c, K c -> c < - N) -> (forall c, Dr c -> c < - N) -> (forall c, K c -> ~ Dr c) ->
  (forall n w p, U n w -> In p w -> - N <= fst p \/ exists c, p = (c, c) /\ (K c \/ Dr c)) ->
  forall m a, alph_inv0 a -> holds keep a K -> holds drop a Dr ->
  (forall n t, In (n, t) m -> wf t /\ (exists t0, minimized 0 t0 t) /\ cov a (U n) /\ (forall u, lang t 0 u <-> Tg a (U n) u)
     /\ (forall p, (length (arcs_of t p) <= fuel)%nat) /\ (r_min r = true -> exists w, image N K (U n) w)) ->
  exists m' a', restrict_sections fuel r keep drop m a = Ok (m', a') /\ alph_inv0 a' /\ extends a a' /\ map fst m' = map fst m
    /\ forall n t, In (n, t) m' -> wf t /\ cov a' (turned (right_left r) (image N K (U n)))
         /\ forall u, lang t 0 u <-> Tg a' (turned (right_left r) (image N K (U n))) u.
Proof.
  intros fuel r N K Dr keep drop U HN LK LD Dis Cl. induction m as [|[n t] m IH]; intros a Ha Hk Hd Hm; cbn [restrict_sections].
  - exists [], a. split; [reflexivity|]. split; [exact Ha|]. split; [apply extends_refl|]. split; [reflexivity|]. intros n t [].
  - destruct (Hm n t (or_introl eq_refl)) as (W & (t0 & M) & C & L & F & Ne).
    destruct (filtered_lang a N K Dr keep drop (U n) t0 t fuel Ha HN Hk Hd LK LD Dis W M C L (Cl n) F) as (t2 & E2 & W2 & T2 & L2).
    rewrite E2. cbn [obind]. set (V := turned (right_left r) (image N K (U n))).
    assert (Hi : exists t3 a3, (if ustr_eq_dec (upper_direction (r_dir r)) RL_val then invert t2 a else Ok (t2, a)) = Ok (t3, a3)
      /\ alph_inv0 a3 /\ extends a a3 /\ wf t3 /\ cov a3 V /\ forall u, lang t3 0 u <-> Tg a3 V u).
    { unfold V, right_left. destruct (ustr_eq_dec (upper_direction (r_dir r)) RL_val) as [_|_]; cbn [turned].
      - apply (invert_lang a t2 _ Ha W2 T2); [now apply image_cov|exact L2].
      - exists t2, a. split; [reflexivity|]. split; [exact Ha|]. split; [apply extends_refl|]. split; [exact W2|]. split; [now apply image_cov|exact L2]. }
    destruct Hi as (t3 & a3 & E3 & Ha3 & X3 & W3 & C3 & L3). rewrite E3. cbn [obind].
    assert (Hn : exists t4, (if r_min r then minimize 0 t3 else Ok t3) = Ok t4 /\ wf t4 /\ forall u, lang t4 0 u <-> Tg a3 V u).
    { destruct (r_min r) eqn:Er; [|exists t3; auto]. destruct (Ne eq_refl) as (w & Hw).
      assert (exists v, V v) as (v & Hv). { unfold V, turned, swap_set. destruct (right_left r); [|eauto]. exists (swap_word w). now rewrite swap_swap. }
      destruct (Tg_some a3 V v C3 Hv) as (u & Hu & _). apply L3 in Hu as (c & l & f & Hl & _).
      destruct (minimize_spec t3 0 W3) as (t4 & E4 & M4). { exists (visible 0 l), l, f. auto. }
      exists t4. split; [exact E4|]. split; [exact (minimized_wf 0 t3 t4 M4)|]. intros x. rewrite (minimized_lang 0 t3 t4 x W3 M4). apply L3. }
    destruct Hn as (t4 & E4 & W4 & L4). rewrite E4. cbn [obind].
    destruct (IH a3 Ha3 (holds_extends _ _ _ _ X3 Hk) (holds_extends _ _ _ _ X3 Hd)) as (m' & a' & E' & Ha' & X' & K' & H').
    { intros n1 t1 H1. destruct (Hm n1 t1 (or_intror H1)) as (W1 & M1 & C1 & L1 & F1 & N1). split; [exact W1|]. split; [exact M1|].
      split; [exact (cov_extends _ _ _ X3 C1)|]. split; [|auto]. intros u. rewrite L1. symmetry. apply Tg_extends; [apply Ha3|exact X3|exact C1]. }
    rewrite E'. cbn [obind]. exists ((n, t4) :: m'), a'. split; [reflexivity|]. split; [exact Ha'|]. split; [exact (extends_trans _ _ _ X3 X')|].
    split; [cbn; now rewrite K'|]. intros n1 t1 [E|H1]; [|now apply H']. injection E as <- <-. split; [exact W4|].
    split; [exact (cov_extends _ _ _ X' C3)|]. intros u. rewrite L4. symmetry. apply Tg_extends; [apply Ha'|exact X'|exact C3].
Qed.

(** * The entries kept *)
Lemma some_groups : forall (good : Z -> Prop) gs,
  (exists cs, Forall2 (@In Z) cs (filter some_z gs) /\ Forall good cs) <-> forall g, In g gs -> g = [] \/ exists c, In c g /\ good c.
Proof.
  intros good. induction gs as [|g gs IH]; cbn [filter].
  - split; [intros _ g []|]. intros _. exists []. split; constructor.
  - destruct g as [|x g]; cbn [some_z].
    + rewrite IH. split; intros H g' Hg; [destruct Hg as [<-|Hg]; auto|apply H; now right].
    + split.
      * intros (cs & F & G). inversion F as [|c ? cs' ? Hc F']; subst. inversion G; subst. intros g' [<-|Hg]; [eauto|].
        apply (proj1 IH); [exists cs'; auto|exact Hg].
      * intros H. destruct (H (x :: g) (or_introl eq_refl)) as [E|(c & Hc & Gc)]; [discriminate|].
        destruct (proj2 IH) as (cs & F & G); [intros g' Hg; apply H; now right|]. exists (c :: cs). split; constructor; assumption.
Qed.
Lemma prefixes_clean : forall p, In p [p_r; p_alt; p_v; p_vl; p_vr] -> ~ In 58 p.
Proof. intros p [<-|[<-|[<-|[<-|[<-|[]]]]]]; cbn; intuition discriminate. Qed.
Lemma filter_tag_inj : forall p q v w, ~ In 58 p -> ~ In 58 q -> filter_tag p v = filter_tag q w -> p = q /\ v = w.
Proof.
  intros p q v w Hp Hq E. unfold filter_tag in E. cbn [app] in E. injection E as E. revert q Hq E.
  induction p as [|x p IH]; intros [|y q] Hq E; cbn [app] in E.
  - injection E as E. apply app_inj_tail in E as [-> _]. auto.
  - injection E as <- _. exfalso. apply Hq. now left.
  - injection E as -> _. exfalso. apply Hp. now left.
  - injection E as -> E. destruct (IH (fun H => Hp (or_intror H)) q (fun H => Hq (or_intror H)) E) as [-> ->]. auto.
Qed.
Lemma prefixed_tag : forall p q w, ~ In 58 p -> ~ In 58 q -> (prefixed p (filter_tag q w) = true <-> p = q).
Proof.
  intros p q w Hp Hq. assert (S : prefixed q (filter_tag q w) = true).
  { unfold prefixed. apply (proj1 (C51_affixes _ _)). exists (w ++ [62]). unfold filter_tag. now rewrite <- !app_assoc. }
  split; [|now intros ->]. intros H. exact (prefix_apart p q _ Hp Hq H S).
Qed.
Lemma asked_prefix : forall r p w, asked r p w -> In p [p_r; p_alt; p_v; p_vl; p_vr].
Proof. intros r p w [[-> _]|[[-> _]|[[-> _]|[[-> _]|[-> _]]]]]; cbn; auto 10. Qed.
Lemma asked_tag_iff : forall r p w, In p [p_r; p_alt; p_v; p_vl; p_vr] -> (asked_tag r (filter_tag p w) <-> asked r p w).
Proof.
  intros r p w Hp. split; [|intros H; exists p, w; auto]. intros (q & v & Ha & E).
  apply filter_tag_inj in E as [-> ->]; [exact Ha|now apply prefixes_clean|exact (prefixes_clean _ (asked_prefix r q v Ha))].
Qed.
Lemma wanted_iff : forall r p w, In p [p_r; p_alt; p_v; p_vl; p_vr] -> (wanted r (filter_tag p w) <-> asked r p w \/ (r_var r = [] /\ p = p_v)).
Proof.
  intros r p w Hp. unfold wanted. rewrite asked_tag_iff by exact Hp.
  rewrite (prefixed_tag p_v p w (prefixes_clean p_v ltac:(cbn; auto)) (prefixes_clean p Hp)). intuition.
Qed.
Lemma asked_dec : forall r p w, asked r p w \/ ~ asked r p w.
Proof.
  intros r p w. unfold asked.
  assert (Dp : forall q (P : Prop), P \/ ~ P -> (p = q /\ P) \/ ~ (p = q /\ P)) by (intros q P [H|H]; destruct (ustr_eq_dec p q); tauto).
  assert (Di : forall l, In w l \/ ~ In w l) by (intros l; destruct (in_dec ustr_eq_dec w l); auto).
  assert (De : w = upper_direction (r_dir r) \/ w <> upper_direction (r_dir r)) by (destruct (ustr_eq_dec w (upper_direction (r_dir r))); auto).
  destruct (Dp p_r _ De), (Dp p_v _ (Di (r_var r))), (Dp p_alt _ (Di (r_alt r))), (Dp p_vl _ (Di (r_vl r))), (Dp p_vr _ (Di (r_vr r))); tauto.
Qed.
Lemma flagged_tag : forall r p w, In p [p_r; p_alt; p_v; p_vl; p_vr] -> wanted r (filter_tag p w) \/ unwanted r (filter_tag p w).
Proof.
  intros r p w Hp. destruct (asked_dec r p w) as [H|H]; [left; left; now apply asked_tag_iff|]. rewrite <- (asked_tag_iff r p w Hp) in H.
  destruct (r_var r) as [|x l] eqn:Ev.
  - destruct (ustr_eq_dec p p_v) as [->|Np]; [left; apply wanted_iff; [exact Hp|right; auto]|]. right. split; [|exact H]. unfold flagged.
    assert (S := proj2 (prefixed_tag p p w (prefixes_clean p Hp) (prefixes_clean p Hp)) eq_refl).
    destruct Hp as [<-|[<-|[<-|[<-|[<-|[]]]]]]; try rewrite S; rewrite ?orb_true_r; try reflexivity. congruence.
  - right. split; [|exact H]. unfold flagged, has_variants. rewrite Ev.
    assert (S := proj2 (prefixed_tag p p w (prefixes_clean p Hp) (prefixes_clean p Hp)) eq_refl).
    destruct Hp as [<-|[<-|[<-|[<-|[<-|[]]]]]]; rewrite S; rewrite ?orb_true_r; reflexivity.
Qed.
Lemma wanted_unwanted : forall r t, wanted r t -> ~ unwanted r t.
Proof.
  intros r t [H|[Hv Hp]] [Hf Hn]; [contradiction|]. unfold flagged, has_variants in Hf. rewrite Hv in Hf. cbn [andb] in Hf.
  assert (P : forall q, In q [p_r; p_alt; p_vl; p_vr] -> prefixed q t = false).
  { intros q Hq. destruct (prefixed q t) eqn:E; [|reflexivity]. exfalso.
    assert (Hq' : In q [p_r; p_alt; p_v; p_vl; p_vr]) by (cbn in *; intuition).
    apply (prefix_apart p_v q t) in E; [|apply prefixes_clean; cbn; auto|now apply prefixes_clean|exact Hp]. subst q.
    cbn in Hq. intuition discriminate. }
  rewrite !P in Hf by (cbn; auto). discriminate.
Qed.
Lemma restricting_of : forall r t, wanted r t \/ unwanted r t -> restricting t.
Proof.
  assert (P : forall p t, In p [p_r; p_alt; p_v; p_vl; p_vr] -> prefixed p t = true -> restricting t).
  { intros p t Hp H. unfold prefixed in H. apply (proj1 (C51_affixes _ _)) in H as (s & ->). exists p, s. split; [exact Hp|]. now rewrite <- !app_assoc. }
  intros r t [[(p & w & Ha & ->)|[_ H]]|[H _]].
  - apply filter_tag_restricting. exact (asked_prefix r p w Ha).
  - apply (P p_v); [cbn; auto|exact H].
  - unfold flagged in H. apply orb_true_iff in H as [H|H]; [|apply (P p_vr); [cbn; auto 10|exact H]].
    apply orb_true_iff in H as [H|H]; [|apply (P p_vl); [cbn; auto 10|exact H]].
    apply orb_true_iff in H as [H|H]; [|apply (P p_alt); [cbn; auto 10|exact H]].
    apply orb_true_iff in H as [H|H]; [apply (P p_r); [cbn; auto 10|exact H]|].
    apply andb_true_iff in H as [_ H]. apply (P p_v); [cbn; auto 10|exact H].
Qed.

Lemma direction_upper : forall lr r, direction lr r -> upper_direction (r_dir r) = if lr then LR_val else RL_val.
Proof. intros [] r [->| ->]; reflexivity. Qed.

Lemma kept_groups : forall lr r code at_ a, alph_inv a -> agrees code a -> flags_in at_ a -> direction lr r ->
  (kept lr r at_ <-> at_ignore at_ <> yes_val
     /\ exists cs, Forall2 (@In Z) cs (groups code at_) /\ Forall (named (slexicinv a) (wanted r)) cs).
Proof.
  intros lr r code at_ a Ha Hc Hf Hd. unfold groups. rewrite some_groups.
  assert (G : forall p v, In (p, v) (attr_list at_) ->
    ((group code (p, v) = [] \/ exists c, In c (group code (p, v)) /\ named (slexicinv a) (wanted r) c)
     <-> ((forall f, ~ has_word v f) \/ exists f, has_word v f /\ (asked r p f \/ (r_var r = [] /\ p = p_v))))).
  { intros p v Hpv. assert (Hp := attr_prefix at_ p v Hpv).
    assert (Nm : forall w, In w (vwords v) -> (named (slexicinv a) (wanted r) (code (filter_tag p w)) <-> wanted r (filter_tag p w))).
    { intros w Hw. assert (Hi := Hf p v w Hpv Hw). apply In_nth_error in Hi as (i & Hi). rewrite (Hc i _ Hi). split.
      - intros (j & t & Hj & Et & Ht). assert (j = i) by (unfold tag_of in Et; lia). subst j. assert (t = filter_tag p w) by congruence. now subst.
      - intros H. exists i, (filter_tag p w). auto. }
    unfold group. cbn [fst snd]. split.
    - intros [E|(c & Hin & Gc)].
      + left. intros f H. apply vwords_spec in H. destruct (vwords v); [destruct H|discriminate].
      + apply in_map_iff in Hin as (w & <- & Hw). right. exists w. split; [now apply vwords_spec|]. apply wanted_iff; [exact Hp|]. now apply Nm.
    - intros [H|(f & H & W)].
      + left. destruct (vwords v) as [|w ws] eqn:E; [reflexivity|]. exfalso. apply (H w). apply vwords_spec. rewrite E. now left.
      + right. apply vwords_spec in H. exists (code (filter_tag p f)). split; [now apply (in_map (fun w => code (filter_tag p w)))|].
        apply Nm; [exact H|]. now apply wanted_iff. }
  assert (Up := direction_upper lr r Hd).
  unfold kept. split.
  - intros (Hi & H1 & H2 & H3 & H4 & H5). split; [exact Hi|]. intros g Hg. apply in_map_iff in Hg as ([p v] & <- & Hpv). apply (G p v Hpv).
    unfold admitted in *.
    destruct Hpv as [E|[E|[E|[E|[E|[]]]]]]; injection E as <- <-.
    + destruct H1 as [H|(f & [<-|[]] & H)]; [now left|]. right. eexists. split; [exact H|]. left. left. auto.
    + destruct H2 as [H|(f & Hin & H)]; [now left|]. right. exists f. split; [exact H|]. left. unfold asked. auto.
    + destruct H3 as [Hv|[H|(f & Hin & H)]]; [|now left|].
      * destruct (vwords (at_v at_)) as [|f fs] eqn:E; [left; intros f H; apply vwords_spec in H; rewrite E in H; destruct H|].
        right. exists f. split; [apply vwords_spec; rewrite E; now left|]. auto.
      * right. exists f. split; [exact H|]. left. unfold asked. auto.
    + destruct H4 as [H|(f & Hin & H)]; [now left|]. right. exists f. split; [exact H|]. left. unfold asked. auto 8.
    + destruct H5 as [H|(f & Hin & H)]; [now left|]. right. exists f. split; [exact H|]. left. unfold asked. auto 8.
  - intros [Hi H]. split; [exact Hi|].
    assert (H' : forall p v, In (p, v) (attr_list at_) -> (forall f, ~ has_word v f) \/ exists f, has_word v f /\ (asked r p f \/ (r_var r = [] /\ p = p_v))).
    { intros p v Hpv. apply (G p v Hpv). apply H. apply (in_map (group code) _ (p, v) Hpv). }
    clear G H. unfold admitted, asked in *. repeat split.
    + destruct (H' p_r (at_r at_)) as [H|(f & Hw & [[[_ ->]|[[E _]|[[E _]|[[E _]|[E _]]]]]|[_ E]])]; try discriminate; [cbn; auto|now left|].
      right. exists (upper_direction (r_dir r)). split; [rewrite Up; now left|exact Hw].
    + destruct (H' p_alt (at_alt at_)) as [H|(f & Hw & [[[E _]|[[E _]|[[_ Hin]|[[E _]|[E _]]]]]|[_ E]])]; try discriminate; [cbn; auto|now left|]. eauto.
    + destruct (H' p_v (at_v at_)) as [H|(f & Hw & [[[E _]|[[_ Hin]|[[E _]|[[E _]|[E _]]]]]|[Hv _]])]; try discriminate; [cbn; auto|right; now left| |now left].
      right. right. eauto.
    + destruct (H' p_vl (at_vl at_)) as [H|(f & Hw & [[[E _]|[[E _]|[[E _]|[[_ Hin]|[E _]]]]]|[_ E]])]; try discriminate; [cbn; auto|now left|]. eauto.
    + destruct (H' p_vr (at_vr at_)) as [H|(f & Hw & [[[E _]|[[E _]|[[E _]|[[E _]|[_ Hin]]]]]|[_ E]])]; try discriminate; [cbn; auto 10|now left|]. eauto.
Qed.

(** * Both directions *)
Lemma align_nil : forall ls, align ls [] = map (fun x => (x, 0)) ls.
Proof. induction ls as [|x ls IH]; [reflexivity|]. cbn [align map]. now rewrite IH. Qed.
Lemma swap_align : forall ls rs, swap_word (align ls rs) = align rs ls.
Proof.
  induction ls as [|x ls IH]; intros [|y rs]; cbn [align swap_word map fst snd]; [reflexivity| | |].
  - rewrite align_nil. f_equal. unfold swap_word. rewrite map_map. reflexivity.
  - f_equal. rewrite align_nil. unfold swap_word. rewrite map_map. reflexivity.
  - f_equal. apply IH.
Qed.
Lemma swap_same : forall cs, swap_word (same_pairs cs) = same_pairs cs.
Proof. intros cs. unfold swap_word, same_pairs. rewrite map_map. reflexivity. Qed.
Lemma swap_eq : forall v w, swap_word v = w <-> v = swap_word w.
Proof. intros v w. split; [intros <-|intros ->]; now rewrite swap_swap. Qed.
Lemma swap_app : forall v w, swap_word (v ++ w) = swap_word v ++ swap_word w.
Proof. intros. apply map_app. Qed.
Lemma swap_cat : forall X Y w, cat (swap_set X) (swap_set Y) w <-> swap_set (cat X Y) w.
Proof.
  intros X Y w. unfold swap_set. split.
  - intros (x & y & -> & Hx & Hy). exists (swap_word x), (swap_word y). split; [apply swap_app|auto].
  - intros (x & y & E & Hx & Hy). apply swap_eq in E. rewrite swap_app in E. exists (swap_word x), (swap_word y). rewrite !swap_swap. auto.
Qed.
Lemma swap_entry : forall env env' els w, (forall n w, env' n w <-> swap_set (env n) w) ->
  (entry_set false env' els w <-> swap_set (entry_set true env els) w).
Proof.
  intros env env' els w HE. revert w. induction els as [|el els IH]; intros w; cbn [entry_set].
  - unfold swap_set. split; [now intros ->|]. intros E. apply swap_eq in E. exact E.
  - rewrite <- swap_cat. apply cat_iff; [|exact IH]. intros v. unfold swap_set. destruct el as [l r wt|n|er]; cbn [element_set].
    + rewrite swap_eq, swap_align. reflexivity.
    + apply HE.
    + split; intros (r & cs & G & Ch & Hd & E); exists r, cs; repeat split; auto; [rewrite E; apply swap_same|].
      apply swap_eq in E. now rewrite swap_same in E.
Qed.
Lemma swap_chosen : forall sel env env' es w, (forall n w, env' n w <-> swap_set (env n) w) ->
  (chosen_set sel false env' es w <-> swap_set (chosen_set sel true env es) w).
Proof.
  intros sel env env' es w HE. unfold chosen_set, swap_set. split; intros (at_ & els & Hin & Hs & Hw); exists at_, els; repeat split; auto;
    now apply (swap_entry env env' els w HE).
Qed.
Lemma swap_section : forall sel items env env' name w, (forall n w, env' n w <-> swap_set (env n) w) ->
  (chosen_section sel false env' items name w <-> swap_set (chosen_section sel true env items name) w).
Proof.
  intros sel. induction items as [|[n es|n es] items IH]; intros env env' name w HE; cbn [chosen_section].
  - reflexivity.
  - apply IH. intros m v. unfold define. destruct (ustr_eq_dec m n); [|apply HE]. now apply swap_chosen.
  - unfold join_sets. rewrite (IH env env' name w HE), (swap_chosen sel env env' es w HE). reflexivity.
Qed.

Lemma chosen_set_more : forall (sel sel' : attributes -> Prop) lr (env env' : ustr -> pset) es w, (forall at_, sel at_ -> sel' at_) ->
  (forall n w, env n w -> env' n w) -> chosen_set sel lr env es w -> chosen_set sel' lr env' es w.
Proof.
  intros sel sel' lr env env' es w Hs HE (at_ & els & Hin & Hsel & Hw). exists at_, els. split; [exact Hin|]. split; [auto|]. clear Hin. revert w Hw.
  induction els as [|el els IH]; intros w Hw; cbn [entry_set] in *; [exact Hw|]. destruct Hw as (x & y & -> & Hx & Hy). exists x, y.
  split; [reflexivity|]. split; [|auto]. destruct el; cbn [element_set] in *; auto.
Qed.
Lemma chosen_section_more : forall (sel sel' : attributes -> Prop) lr, (forall at_, sel at_ -> sel' at_) -> forall items (env env' : ustr -> pset) name w,
  (forall n w, env n w -> env' n w) -> chosen_section sel lr env items name w -> chosen_section sel' lr env' items name w.
Proof.
  intros sel sel' lr Hs. induction items as [|[n es|n es] items IH]; intros env env' name w HE; cbn [chosen_section].
  - auto.
  - apply IH. intros m v. unfold define. destruct (ustr_eq_dec m n); [|apply HE]. now apply chosen_set_more.
  - intros [[E H]|H]; [left; split; [exact E|]; revert H; now apply chosen_set_more|right; revert H; now apply IH].
Qed.
(** * lt-restrict after unified compilation *)
Lemma dict_uses : forall items lr env D, dict_ok lr env D (bare items) -> uses_ok D items.
Proof.
  induction items as [|[n es|n es] items IH]; intros lr env D H; cbn [bare map bare_item dict_ok uses_ok] in *; [exact I| |].
  - destruct H as (_ & _ & Ho & _ & H). split; [|now apply (IH lr) in H]. rewrite Forall_forall in Ho.
    intros at_ els Hin Hi. apply (ok_uses env). apply Ho. now apply (bare_in at_).
  - destruct H as [Ho H]. split; [|now apply (IH lr) in H]. rewrite Forall_forall in Ho.
    intros at_ els Hin Hi. apply (ok_uses env). apply Ho. now apply (bare_in at_).
Qed.
Lemma find_in_iff : forall {B} n (m : list (ustr * B)) t, NoDup (map fst m) -> (In (n, t) m <-> name_find n m = Some t).
Proof.
  intros B n m t Nd. split; [now apply name_in_find|].
  clear Nd. unfold name_find. induction m as [|[k b] m IH]; cbn; [discriminate|]. destruct (ustr_eq_dec n k) as [->|Ne].
  - intros E. injection E as ->. now left.
  - intros E. right. auto.
Qed.
Lemma lt_restrict_ok : forall a items lr r, alph_inv0 a -> restrictable (slexicinv a) items -> direction lr r ->
  exists a1 m1, compile_unified a (ritem_events items) = Ok (a1, m1) /\ extends a a1 /\ NoDup (map fst m1)
    /\ (forall n, In n (map fst m1) <-> exists w, chosen_section (fun at_ => at_ignore at_ <> yes_val) true (fun _ => no_words) items n w)
    /\ forall fuel, (forall n t, In (n, t) m1 -> forall p, (length (arcs_of t p) <= fuel)%nat) ->
       (r_min r = true -> forall n, In n (map fst m1) -> exists w, chosen_section (kept lr r) true (fun _ => no_words) items n w) ->
       exists a2 m2, lt_restrict fuel r a1 m1 = Ok (a2, m2) /\ alph_inv0 a2 /\ extends a1 a2 /\ map fst m2 = map fst m1
         /\ forall n t, In (n, t) m2 -> wf t /\ cov a2 (chosen_section (kept lr r) lr (fun _ => no_words) items n)
              /\ forall u, lang t 0 u <-> Tg a2 (chosen_section (kept lr r) lr (fun _ => no_words) items n) u.
Proof.
  intros a items lr r Ha Rs Hdir. destruct (unified_ok a items Ha Rs) as (a1 & m1 & Ec & Ha1 & X1 & Nd & Fl & L1).
  set (code := fun t => symbol_code t a1). assert (Hcode : agrees code a1) by (apply agrees_own; apply Ha1).
  set (n0 := length (slexicinv a)). set (N := Z.of_nat n0). set (U := usection code (auto_env items code) items).
  assert (Hu : uses_ok [] items) by exact (dict_uses items _ _ _ (rs_dict _ _ Rs)).
  assert (Wr : forall at_ els, In (at_, els) (all_entries items) -> at_ignore at_ <> yes_val -> Forall (written n0) els).
  { intros at_ els Hin _. exact (rs_entries _ _ Rs at_ els Hin). }
  assert (Below : forall at_ els, In (at_, els) (all_entries items) -> at_ignore at_ <> yes_val ->
    forall g c, In g (groups code at_) -> In c g -> c < - N).
  { intros at_ els Hin Hi. apply (flag_below items a (rs_names _ _ Rs) (rs_entries _ _ Rs) code at_ a1 X1 (Fl at_ els Hin Hi) Hcode). }
  assert (Im : forall good sel, (forall at_ els, In (at_, els) (all_entries items) -> at_ignore at_ <> yes_val ->
      (sel at_ <-> at_ignore at_ <> yes_val /\ exists cs, Forall2 (@In Z) cs (groups code at_) /\ Forall good cs)) ->
      (forall at_, sel at_ -> at_ignore at_ <> yes_val) ->
      forall n w, image N good (U n) w <-> chosen_section sel true (fun _ => no_words) items n w).
  { intros good sel Hs Hsel n w. apply (usection_image N good n0 eq_refl code sel items (auto_env items code) (fun _ => no_words) []).
    - intros m [].
    - intros at_ els Hin Hi. split; [|now apply (Wr at_)]. split; [exact (Below at_ els Hin Hi)|exact (Hs at_ els Hin Hi)].
    - exact Hsel.
    - exact Hu. }
  exists a1, m1. split; [exact Ec|]. split; [exact X1|]. split; [exact Nd|].
  assert (Ks : forall n t, In (n, t) m1 -> wf t /\ (exists t0, minimized 0 t0 t) /\ cov a1 (U n) /\ (exists w, U n w) /\ forall u, lang t 0 u <-> Tg a1 (U n) u).
  { intros n t Hin. apply (find_in_iff n m1 t Nd) in Hin. destruct (L1 code Hcode n) as [C H]. rewrite Hin in H.
    destruct H as (W & M & S & L). auto 6. }
  split.
  { intros n. assert (E : (exists w, chosen_section (fun at_ => at_ignore at_ <> yes_val) true (fun _ => no_words) items n w) <-> exists w, U n w).
    { split.
      - intros (w & Hw). apply (Im (fun _ => True) (fun at_ => at_ignore at_ <> yes_val)) in Hw as (u & Hu' & _); [eauto| |auto].
        intros at_ els Hin Hi. split; [|now intros [Hni _]]. intros _. split; [exact Hi|].
        assert (Lg := flags_low code at_ a1 (Fl at_ els Hin Hi) Hcode). unfold low_groups in Lg. clear - Lg.
        induction Lg as [|g gs [Hg _] _ (cs & F & G)]; [exists []; split; constructor|]. destruct g as [|c g]; [congruence|].
        exists (c :: cs). split; constructor; auto. now left.
      - intros (w & Hw). exists (erase N w). apply (Im (fun _ => True) (fun at_ => at_ignore at_ <> yes_val)).
        + intros at_ els Hin Hi. split; [|now intros [Hni _]]. intros _. split; [exact Hi|].
          assert (Lg := flags_low code at_ a1 (Fl at_ els Hin Hi) Hcode). unfold low_groups in Lg. clear - Lg.
          induction Lg as [|g gs [Hg _] _ (cs & F & G)]; [exists []; split; constructor|]. destruct g as [|c g]; [congruence|].
          exists (c :: cs). split; constructor; auto. now left.
        + auto.
        + exists w. split; [exact Hw|]. split; [intros p _ _; exact I|reflexivity]. }
    rewrite E. destruct (L1 code Hcode n) as [_ H]. destruct (name_find n m1) as [t|] eqn:Ef.
    - split; [intros _; apply H|]. intros _. apply (find_in_iff n m1 t Nd) in Ef. exact (in_map fst m1 (n, t) Ef).
    - split; [|intros (w & Hw); contradiction (H w Hw)]. intros Hin. apply in_map_iff in Hin as ([n' t] & <- & Hin). cbn [fst] in Ef.
      apply (find_in_iff n' m1 t Nd) in Hin. congruence. }
  intros fuel Hfuel Hmin. unfold lt_restrict. fold (has_variants r).
  destruct (kept_symbols r a1) as [k b] eqn:Ek. destruct (sort_symbols (has_variants r) (slexicinv b) 1 b k []) as [[keep drop] a2] eqn:Es.
  destruct (symbols_ok r a1 keep drop b a2 Ha1) as (Ha2 & X2 & _ & Hk & Hd). { now rewrite Ek, Es. }
  set (K := named (slexicinv a1) (wanted r)). set (Dr := named (slexicinv a1) (unwanted r)).
  assert (Low : forall i t, nth_error (slexicinv a1) i = Some t -> restricting t -> tag_of i < - N).
  { intros i t Hi Ht. destruct X1 as ((l & El) & _). destruct (Nat.lt_ge_cases i n0) as [Lt|Ge]; [|unfold tag_of, N; lia].
    exfalso. rewrite El in Hi. rewrite nth_error_app1 in Hi by exact Lt. apply nth_error_In in Hi. exact (rs_names _ _ Rs t Hi Ht). }
  assert (Sel : forall at_ els, In (at_, els) (all_entries items) -> at_ignore at_ <> yes_val ->
      (kept lr r at_ <-> at_ignore at_ <> yes_val /\ exists cs, Forall2 (@In Z) cs (groups code at_) /\ Forall K cs)).
  { intros at_ els Hin Hi. exact (kept_groups lr r code at_ a1 (proj1 Ha1) Hcode (Fl at_ els Hin Hi) Hdir). }
  assert (ImK := Im K (kept lr r) Sel (fun at_ H => proj1 H)).
  assert (Cl : forall n w p, U n w -> In p w -> - N <= fst p \/ exists c, p = (c, c) /\ (K c \/ Dr c)).
  { intros n w p Hw Hp. destruct (classed_section N n0 code (all_entries items) eq_refl items (auto_env items code) [] (fun m (H : In m []) => match H with end)
      (incl_refl _) Wr Hu n w p Hw Hp) as [H|(at_ & els & g & c & Hin & Hi & Hg & Hc & ->)]; [now left|]. right. exists c. split; [reflexivity|].
    destruct (groups_in code at_ g c Hg Hc) as (q & v & x & Hq & Hx & ->). assert (Hi' := Fl at_ els Hin Hi q v x Hq Hx).
    apply In_nth_error in Hi' as (i & Hi'). rewrite (Hcode i _ Hi').
    destruct (flagged_tag r q x (attr_prefix at_ q v Hq)) as [H|H]; [left|right]; exists i, (filter_tag q x); auto. }
  destruct (restrict_ok fuel r N K Dr keep drop U) with (m := m1) (a := a2) as (m2 & a3 & E3 & Ha3 & X3 & K3 & H3).
  - unfold N. lia.
  - intros c (i & t & Hi & -> & Ht). apply (Low i t Hi). apply (restricting_of r). now left.
  - intros c (i & t & Hi & -> & Ht). apply (Low i t Hi). apply (restricting_of r). now right.
  - intros c (i & t & Hi & -> & Ht) (j & s & Hj & Ej & Hs). assert (j = i) by (unfold tag_of in Ej; lia). subst j.
    assert (s = t) by congruence. subst s. exact (wanted_unwanted r t Ht Hs).
  - exact Cl.
  - exact Ha2.
  - exact Hk.
  - exact Hd.
  - intros n t Hin. destruct (Ks n t Hin) as (W & M & C & _ & L). split; [exact W|]. split; [exact M|]. split; [exact (cov_extends _ _ _ X2 C)|].
    split; [intros u; rewrite L; symmetry; apply Tg_extends; [apply Ha2|exact X2|exact C]|]. split; [exact (Hfuel n t Hin)|].
    intros Hm. destruct (Hmin Hm n (in_map fst m1 (n, t) Hin)) as (w & Hw). exists w. now apply ImK.
  - rewrite E3. cbn [obind]. exists a3, m2. split; [reflexivity|]. split; [exact Ha3|]. split; [exact (extends_trans _ _ _ X2 X3)|]. split; [exact K3|].
    assert (Fin : forall n w, turned (right_left r) (image N K (U n)) w <-> chosen_section (kept lr r) lr (fun _ => no_words) items n w).
    { intros n w. unfold right_left. rewrite (direction_upper lr r Hdir). destruct lr; cbn [turned].
      - destruct (ustr_eq_dec LR_val RL_val) as [E|_]; [discriminate|]. cbn [turned]. apply ImK.
      - destruct (ustr_eq_dec RL_val RL_val) as [_|E]; [|congruence]. cbn [turned]. unfold swap_set at 1. rewrite ImK.
        symmetry. apply (swap_section (kept false r) items (fun _ => no_words) (fun _ => no_words) n w). intros m v. reflexivity. }
    intros n t Hin. destruct (H3 n t Hin) as (W & C & L). split; [exact W|]. split.
    + intros w p Hw Hp. apply Fin in Hw. exact (C w p Hw Hp).
    + intros u. rewrite L. apply Tg_iff. apply Fin.
Qed.
