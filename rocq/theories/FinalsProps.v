(** C37: what is reported for a word. *)
From Verif Require Import Base CompressionModel AlphabetModel StateModel StateSpec StateProofs
  StatePathProofs StateProps FinalsModel StringModel StringProps.
From Coq Require Import Permutation Sorting.

(** * Specification *)
(** std::sort with the order of the weights: a permutation in non-decreasing order; nothing
    is said about the order of equal weights. *)
Definition by_weight (x y : ustr * Z) : Prop := snd x <= snd y.
Definition is_sort (sort : list (ustr * Z) -> list (ustr * Z)) : Prop :=
  forall l, Permutation l (sort l) /\ StronglySorted by_weight (sort l).

(** The text of an output sequence: tags by name, characters as they are or in upper case,
    epsilon as nothing, reserved characters behind a backslash. *)
Inductive spelled (u_toupper : Z -> Z) (a : alphabet) (escaped : Z -> bool) (upper : bool)
  : list Z -> ustr -> Prop :=
| sp_nil : spelled u_toupper a escaped upper [] []
| sp_cons : forall c l x t,
    ((c = 0 /\ x = [])
     \/ (c < 0 /\ nth_error (slexicinv a) (Z.to_nat (- c - 1)) = Some x)
     \/ (c > 0 /\ x = append_cp [] (if upper then u_toupper c else c))) ->
    spelled u_toupper a escaped upper l t ->
    spelled u_toupper a escaped upper (c :: l) ((if escaped c then [92] else []) ++ x ++ t).
(** Upper case for the unit at [k], or the next one after a post-generation mark '~'. *)
Definition capitalised (u_toupper : Z -> Z) (k : nat) (t t' : ustr) : Prop :=
  exists k', k' = (if nth k t 0 =? 126 then S k else k) /\ length t' = length t /\
    forall i, nth i t' 0 = if (i =? k')%nat && (i <? length t)%nat
                           then u_toupper (nth i t 0) mod 2 ^ 16 else nth i t 0.
(** [s] is a final analysis with text [t] and weight [c]. *)
Definition reports (u_toupper : Z -> Z) (fins : list (nat * Z)) (a : alphabet) (escaped : Z -> bool)
    (uppercase firstupper : bool) (firstchar : nat) (s : vns (W:=Z)) (t : ustr) (c : Z) : Prop :=
  exists fw t0, final_weight (v_where s) fins = Some fw
  /\ c = fw + fold_right Z.add 0 (map snd (v_seq s))
  /\ spelled u_toupper a escaped (v_dirty s && uppercase) (map fst (v_seq s)) t0
  /\ if v_dirty s && firstupper then capitalised u_toupper firstchar t0 t else t = t0.


(** * Proofs *)
Lemma put_nth_nth : forall (l : list Z) k x i, nth i (put_nth k x l) 0 =
  if (i =? k)%nat && (i <? length l)%nat then x else nth i l 0.
Proof.
  induction l as [|y l IH]; intros [|k] x [|i]; cbn [put_nth nth length]; auto.
  - cbn. now rewrite andb_false_r.
  - rewrite IH. reflexivity.
Qed.

Lemma take_prefix : forall l a b, exists r, l = take_finals a b l ++ r.
Proof.
  induction l as [|x l IH]; intros a b; cbn [take_finals]; [exists []; auto|].
  destruct ((0 <? a) && (0 <? b)); [|exists (x :: l); auto].
  destruct (IH (a - 1) (if 0 =? snd x then b else b - 1)) as (r & E). exists r. cbn. now f_equal.
Qed.
Lemma take_length : forall l a b, Z.of_nat (length (take_finals a b l)) <= Z.max 0 a.
Proof.
  induction l as [|x l IH]; intros a b; cbn [take_finals]; [cbn; lia|].
  destruct (0 <? a) eqn:E; cbn [andb]; [|cbn; lia]. destruct (0 <? b); [|cbn; lia].
  cbn [length]. specialize (IH (a - 1) (if 0 =? snd x then b else b - 1)). lia.
Qed.
Lemma take_weighted : forall l a b,
  Z.of_nat (length (filter (fun x => negb (snd x =? 0)) (take_finals a b l))) <= Z.max 0 b.
Proof.
  induction l as [|x l IH]; intros a b; cbn [take_finals]; [cbn; lia|].
  destruct (0 <? a); cbn [andb]; [|cbn; lia]. destruct (0 <? b) eqn:E; [|cbn; lia].
  cbn [filter]. rewrite (Z.eqb_sym (snd x) 0).
  destruct (0 =? snd x); cbn [negb length]; [apply IH|].
  specialize (IH (a - 1) (b - 1)). lia.
Qed.
Lemma take_all : forall l a b, Z.of_nat (length l) <= a -> Z.of_nat (length l) <= b -> take_finals a b l = l.
Proof.
  induction l as [|x l IH]; intros a b Ha Hb; cbn [take_finals length] in *; auto.
  replace (0 <? a) with true by lia. replace (0 <? b) with true by lia. cbn [andb]. f_equal.
  apply IH; [lia|]. destruct (0 =? snd x); lia.
Qed.

Lemma unseen_spec : forall l seen,
  NoDup (map fst (unseen seen l))
  /\ (forall x, In x (unseen seen l) -> In x l /\ ~ In (fst x) seen)
  /\ (forall (R : ustr * Z -> ustr * Z -> Prop), StronglySorted R l -> StronglySorted R (unseen seen l))
  /\ (length (unseen seen l) <= length l)%nat.
Proof.
  induction l as [|x l IH]; intros seen; cbn [unseen].
  - split; [constructor|]. split; [intros x []|]. split; auto.
  - destruct (in_dec ustr_eq_dec (fst x) seen) as [Hs|Hs].
    + destruct (IH seen) as (A & B & C & D). split; auto. split.
      * intros y Hy. apply B in Hy as [Hy1 Hy2]. split; auto. now right.
      * split; [|cbn; lia]. intros R HR. apply C. inversion HR; auto.
    + destruct (IH (fst x :: seen)) as (A & B & C & D). split; [|split; [|split]].
      * cbn [map]. constructor; auto. intros Hin. apply in_map_iff in Hin as (y & E & Hy).
        apply B in Hy as [_ Hy]. apply Hy. left. auto.
      * intros y [<- | Hy]; [split; auto; now left|]. apply B in Hy as [Hy1 Hy2].
        split; [now right|]. intros Hin. apply Hy2. now right.
      * intros R HR. inversion HR as [|? ? H1 H2]; subst. constructor; auto.
        apply Forall_forall. intros y Hy. apply B in Hy as [Hy _].
        rewrite Forall_forall in H2. auto.
      * cbn. lia.
Qed.

Lemma unseen_filter : forall f l seen,
  (length (filter f (unseen seen l)) <= length (filter f l))%nat.
Proof.
  intros f. induction l as [|x l IH]; intros seen; cbn [unseen filter]; auto.
  destruct (in_dec ustr_eq_dec (fst x) seen).
  - specialize (IH seen). destruct (f x); cbn [length]; lia.
  - specialize (IH (fst x :: seen)). cbn [filter]. destruct (f x); cbn [length]; lia.
Qed.

(** Nothing unseen is lost: for sorted input the kept copy has the least weight. *)
Lemma unseen_complete : forall l seen t c, StronglySorted by_weight l -> In (t, c) l -> ~ In t seen ->
  exists c', In (t, c') (unseen seen l) /\ c' <= c.
Proof.
  induction l as [|x l IH]; intros seen t c S Hin Hn; [destruct Hin|].
  inversion S as [|? ? S1 S2]; subst. cbn [unseen].
  destruct (in_dec ustr_eq_dec (fst x) seen) as [Hs|Hs].
  - destruct Hin as [-> | Hin]; [contradiction|]. apply IH; auto.
  - destruct (ustr_eq_dec (fst x) t) as [E|E].
    + exists (snd x). split; [left; destruct x; cbn in *; now subst|].
      destruct Hin as [-> | Hin]; [cbn; lia|]. rewrite Forall_forall in S2.
      specialize (S2 _ Hin). exact S2.
    + destruct Hin as [-> | Hin]; [cbn in E; congruence|].
      destruct (IH (fst x :: seen) t c S1 Hin) as (c' & H1 & H2).
      { intros [H|H]; auto. }
      exists c'. split; auto. now right.
Qed.

(** * The width of a shown weight *)
Lemma digits_length : forall fuel n k, 0 <= n -> (Z.to_nat (Z.log2 n) < fuel)%nat ->
  10 ^ Z.of_nat k <= n -> (k < length (digits fuel n))%nat.
Proof.
  induction fuel as [|fuel IH]; intros n k Hn Hf Hk; [lia|]. cbn [digits].
  destruct (n <? 10) eqn:E.
  - destruct k; [cbn; lia|]. rewrite Nat2Z.inj_succ, Z.pow_succ_r in Hk by lia.
    assert (0 < 10 ^ Z.of_nat k) by (apply Z.pow_pos_nonneg; lia). lia.
  - rewrite app_length. cbn [length]. destruct k; [lia|].
    assert (k < length (digits fuel (n / 10)))%nat; [|lia]. apply IH.
    + apply Z.div_pos; lia.
    + pose proof (Z.log2_nonneg n). pose proof (Z.log2_nonneg (n / 10)).
      assert (Z.log2 (n / 10) < Z.log2 n); [|lia].
      assert (P : 0 < n / 10) by (apply Z.div_str_pos; lia).
      apply Z.log2_lt_pow2; auto. destruct (Z.log2_spec n ltac:(lia)) as [_ L].
      rewrite Z.pow_succ_r in L by apply Z.log2_nonneg.
      apply Z.div_lt_upper_bound; lia.
    + rewrite Nat2Z.inj_succ, Z.pow_succ_r in Hk by lia. apply Z.div_le_lower_bound; lia.
Qed.
Lemma digits_short : forall fuel n k, 0 <= n -> n < 10 ^ Z.of_nat (S k) ->
  (length (digits fuel n) <= S k)%nat.
Proof.
  induction fuel as [|fuel IH]; intros n k Hn Hk; cbn [digits length]; [lia|].
  destruct (n <? 10) eqn:E; [cbn; lia|]. rewrite app_length. cbn [length].
  destruct k; [change (10 ^ Z.of_nat 1) with 10 in Hk; lia|].
  assert (length (digits fuel (n / 10)) <= S k)%nat; [|lia]. apply IH.
  - apply Z.div_pos; lia.
  - rewrite Nat2Z.inj_succ, Z.pow_succ_r in Hk by lia. apply Z.div_lt_upper_bound; lia.
Qed.
Lemma weight_text_length : forall w,
  length (weight_text w) = (11 + (if (w <? 0)%Z then 1 else 0) + length (decimal (Z.abs w / 1000000)))%nat.
Proof.
  intros w. unfold weight_text, micro. rewrite !app_length, map_length. cbn [length].
  destruct (w <? 0)%Z; cbn [length]; lia.
Qed.
Lemma weight_text_fits : forall w, -1000000000 < w < 10000000000 -> (length (weight_text w) <= 15)%nat.
Proof.
  intros w Hw. rewrite weight_text_length. unfold decimal. destruct (w <? 0)%Z eqn:E.
  - pose proof (digits_short (S (Z.to_nat (Z.log2 (Z.abs w / 1000000)))) (Z.abs w / 1000000) 2).
    assert (Z.abs w / 1000000 < 1000) by (apply Z.div_lt_upper_bound; lia).
    assert (0 <= Z.abs w / 1000000) by (apply Z.div_pos; lia).
    change (10 ^ Z.of_nat 3) with 1000 in H. specialize (H ltac:(assumption) ltac:(assumption)). lia.
  - pose proof (digits_short (S (Z.to_nat (Z.log2 (Z.abs w / 1000000)))) (Z.abs w / 1000000) 3).
    assert (Z.abs w / 1000000 < 10000) by (apply Z.div_lt_upper_bound; lia).
    assert (0 <= Z.abs w / 1000000) by (apply Z.div_pos; lia).
    change (10 ^ Z.of_nat 4) with 10000 in H. specialize (H ltac:(assumption) ltac:(assumption)). lia.
Qed.
Lemma weight_text_wide : forall w, 10000000000 <= w \/ w <= -1000000000 -> (16 <= length (weight_text w))%nat.
Proof.
  intros w Hw. rewrite weight_text_length. unfold decimal.
  set (n := Z.abs w / 1000000). assert (H0 : 0 <= n) by (apply Z.div_pos; lia).
  destruct Hw as [Hw|Hw].
  - assert (10000 <= n) by (apply Z.div_le_lower_bound; lia).
    pose proof (digits_length (S (Z.to_nat (Z.log2 n))) n 4 H0 ltac:(lia) ltac:(assumption)).
    destruct (w <? 0)%Z; lia.
  - assert (1000 <= n) by (apply Z.div_le_lower_bound; lia).
    pose proof (digits_length (S (Z.to_nat (Z.log2 n))) n 3 H0 ltac:(lia) ltac:(assumption)).
    replace (w <? 0)%Z with true by lia. lia.
Qed.

Section Finals.
  Context (u_toupper : Z -> Z).

  Lemma symbol_text : forall c up a x, getSymbolCase u_toupper c up a = Ok x <->
    ((c = 0 /\ x = [])
     \/ (c < 0 /\ nth_error (slexicinv a) (Z.to_nat (- c - 1)) = Some x)
     \/ (c > 0 /\ x = append_cp [] (if up then u_toupper c else c))).
  Proof.
    intros c up a x. unfold getSymbolCase, getSymbol.
    destruct (0 <? c) eqn:E1; [destruct up; cbn [andb]|]; cbn [andb].
    - split; [intros H; injection H as <-; right; right; split; auto; lia|].
      intros [[H _]|[[H _]|[_ ->]]]; try lia. reflexivity.
    - replace (c =? 0) with false by lia. replace (c <? 0) with false by lia.
      split; [intros H; injection H as <-; right; right; split; auto; lia|].
      intros [[H _]|[[H _]|[_ ->]]]; try lia. reflexivity.
    - destruct (c =? 0) eqn:E2.
      + split; [intros H; injection H as <-; left; split; auto; lia|].
        intros [[_ ->]|[[H _]|[H _]]]; try lia. reflexivity.
      + replace (c <? 0) with true by lia.
        destruct (nth_error (slexicinv a) (Z.to_nat (- c - 1))) as [y|].
        * split; [intros H; injection H as <-; right; left; split; auto; lia|].
          intros [[H _]|[[_ H]|[H _]]]; try lia. congruence.
        * split; [discriminate|]. intros [[H _]|[[_ H]|[H _]]]; try lia. discriminate.
  Qed.

  Lemma spell_spec : forall a esc up seq t cost, spell u_toupper a esc up seq = Ok (t, cost) <->
    spelled u_toupper a esc up (map fst seq) t /\ cost = fold_right Z.add 0 (map snd seq).
  Proof.
    intros a esc up. induction seq as [|[c w] seq IH]; intros t cost; cbn [spell map fst snd fold_right].
    - split.
      + intros H. injection H as <- <-. split; constructor.
      + intros [H ->]. inversion H. reflexivity.
    - split.
      + intros H. destruct (getSymbolCase u_toupper c up a) as [x| | | |] eqn:E; try discriminate.
        cbn [obind] in H. destruct (spell u_toupper a esc up seq) as [[t1 c1]| | | |] eqn:E1; try discriminate.
        cbn [obind] in H. injection H as <- <-. apply symbol_text in E.
        destruct (proj1 (IH t1 c1) eq_refl) as [H1 ->]. split; auto. now constructor.
      + intros [H ->]. inversion H as [|? ? x t1 Hx Ht]; subst. apply symbol_text in Hx. rewrite Hx.
        cbn [obind]. rewrite (proj2 (IH t1 _) (conj Ht eq_refl)). reflexivity.
  Qed.

  Lemma first_up_spec : forall k t t', first_up u_toupper k t = Ok t' -> capitalised u_toupper k t t'.
  Proof.
    intros k t t' H. unfold first_up in H. destruct (length t <? k)%nat eqn:E; [discriminate|].
    set (loc := if nth k t 0 =? 126 then S k else k) in *.
    exists loc. split; auto. destruct (loc <? length t)%nat eqn:El.
    - injection H as <-. split; [apply length_put|]. intros i. rewrite put_nth_nth.
      destruct (Nat.eqb_spec i loc) as [-> |]; auto.
    - destruct (u_toupper (nth loc t 0) mod 2 ^ 16 =? 0); [|discriminate]. injection H as <-.
      split; auto. intros i. destruct (Nat.eqb_spec i loc) as [-> |]; auto. now rewrite El.
  Qed.

  Lemma responses_spec : forall fins a esc up fu fc st l,
    responses u_toupper fins a esc up fu fc st = Ok l ->
    (forall t c, In (t, c) l -> exists s, In s st /\ reports u_toupper fins a esc up fu fc s t c)
    /\ (forall s, In s st -> final_weight (v_where s) fins <> None ->
          exists t c, In (t, c) l /\ reports u_toupper fins a esc up fu fc s t c)
    /\ length l = length (filter (fun s => match final_weight (v_where s) fins with Some _ => true | None => false end) st).
  Proof.
    intros fins a esc up fu fc. induction st as [|s st IH]; intros l H; cbn [responses] in H.
    - injection H as <-. split; [intros t c []|]. split; [intros s []|]. reflexivity.
    - cbn [filter]. destruct (final_weight (v_where s) fins) as [fw|] eqn:Ef.
      + destruct (spell u_toupper a esc (v_dirty s && up) (v_seq s)) as [[t0 cost]| | | |] eqn:Es; try discriminate.
        cbn [obind] in H.
        destruct (if v_dirty s && fu then first_up u_toupper fc t0 else Ok t0) as [t1| | | |] eqn:Eu; try discriminate.
        cbn [obind] in H.
        destruct (responses u_toupper fins a esc up fu fc st) as [l1| | | |] eqn:E1; try discriminate.
        cbn [obind] in H. injection H as <-. destruct (IH l1 eq_refl) as (A & B & C).
        assert (R : reports u_toupper fins a esc up fu fc s t1 (fw + cost)).
        { apply spell_spec in Es as [Es ->]. exists fw, t0. split; auto. split; auto. split; auto.
          destruct (v_dirty s && fu); [now apply first_up_spec|congruence]. }
        split; [|split].
        * intros t c [E|Hin]; [injection E as <- <-; exists s; split; auto; now left|].
          destruct (A t c Hin) as (s' & Hs & Hr). exists s'. split; auto. now right.
        * intros s' [<- | Hin] Hf; [exists t1, (fw + cost); split; auto; now left|].
          destruct (B s' Hin Hf) as (t & c & H1 & H2). exists t, c. split; auto. now right.
        * cbn. now f_equal.
      + destruct (IH l H) as (A & B & C). split; [|split]; auto.
        * intros t c Hin. destruct (A t c Hin) as (s' & Hs & Hr). exists s'. split; auto. now right.
        * intros s' [<- | Hin] Hf; [congruence|]. auto.
  Qed.

  Lemma display_spec : forall l out, display false l = Ok out -> out = map fst l.
  Proof.
    induction l as [|[t w] l IH]; intros out H; cbn [display obind] in H; [now injection H as <-|].
    destruct (display false l) as [o| | | |]; try discriminate. cbn [obind] in H. injection H as <-.
    cbn. f_equal. now apply IH.
  Qed.
  Lemma display_weights_spec : forall l out, display true l = Ok out ->
    out = map (fun x => fst x ++ weight_text (snd x)) l.
  Proof.
    induction l as [|[t w] l IH]; intros out H; cbn [display obind] in H; [now injection H as <-|].
    destruct (16 <? S (length (weight_text w)))%nat; [discriminate|]. cbn [obind] in H.
    destruct (display true l) as [o| | | |]; try discriminate. cbn [obind] in H. injection H as <-.
    cbn. f_equal. now apply IH.
  Qed.

  Context (sort : list (ustr * Z) -> list (ustr * Z)) (Hsort : is_sort sort).
  Notation array := (filterFinalsArray u_toupper sort).

  (** For every sorting routine, every live state, alphabet and setting: the reported texts
      come, in the order of their weights, from final analyses, are distinct, not more than
      allowed, and not more of them have a non-zero weight than the number of weight
      classes. *)
  Theorem C37_reported : forall fins a esc dw maxA maxC up fu fc st out,
    array fins a esc dw maxA maxC up fu fc st = Ok out ->
    exists rep : list (ustr * Z),
      out = map (fun x => fst x ++ if dw then weight_text (snd x) else []) rep
      /\ NoDup (map fst rep)
      /\ StronglySorted by_weight rep
      /\ Z.of_nat (length rep) <= Z.max 0 maxA
      /\ Z.of_nat (length (filter (fun x => negb (snd x =? 0)) rep)) <= Z.max 0 maxC
      /\ (forall t c, In (t, c) rep -> exists s, In s st /\ reports u_toupper fins a esc up fu fc s t c).
  Proof.
    intros fins a esc dw maxA maxC up fu fc st out H. unfold filterFinalsArray in H.
    destruct (responses u_toupper fins a esc up fu fc st) as [resp| | | |] eqn:Er; try discriminate.
    cbn [obind] in H. destruct (responses_spec _ _ _ _ _ _ _ _ Er) as (A & _ & _).
    destruct (Hsort resp) as [P S].
    destruct (take_prefix (sort resp) maxA maxC) as (rest & Et). unfold NFinals in H.
    set (tk := take_finals maxA maxC (sort resp)) in *.
    assert (Stk : StronglySorted by_weight tk).
    { rewrite Et in S. clear - S. induction tk as [|x tk IH]; [constructor|].
      inversion S as [|? ? S1 S2]; subst. constructor; auto. apply Forall_app in S2. tauto. }
    destruct (unseen_spec tk []) as (U1 & U2 & U3 & U4).
    exists (unseen [] tk). split; [|split; [|split; [|split; [|split]]]]; auto.
    - destruct dw.
      + now apply display_weights_spec.
      + apply display_spec in H. rewrite H. apply map_ext. intros x. now rewrite app_nil_r.
    - pose proof (take_length (sort resp) maxA maxC). fold tk in H0. lia.
    - pose proof (take_weighted (sort resp) maxA maxC) as Hw. fold tk in Hw.
      pose proof (unseen_filter (fun x => negb (snd x =? 0)) tk []). lia.
    - intros t c Hin. apply U2 in Hin as [Hin _]. apply A.
      eapply Permutation_in; [apply Permutation_sym; exact P|]. rewrite Et. apply in_or_app; auto.
  Qed.

  (** If the limits leave room for all, every final analysis is reported, once, with the
      least weight of any analysis of the same text. *)
  Theorem C37_complete : forall fins a esc dw maxA maxC up fu fc st out,
    array fins a esc dw maxA maxC up fu fc st = Ok out ->
    Z.of_nat (length st) <= maxA -> Z.of_nat (length st) <= maxC ->
    exists rep : list (ustr * Z),
      out = map (fun x => fst x ++ if dw then weight_text (snd x) else []) rep
      /\ NoDup (map fst rep) /\ StronglySorted by_weight rep
      /\ (forall t c, In (t, c) rep -> exists s, In s st /\ reports u_toupper fins a esc up fu fc s t c)
      /\ forall s, In s st -> final_weight (v_where s) fins <> None ->
           exists t c least, reports u_toupper fins a esc up fu fc s t c
             /\ In (t, least) rep /\ least <= c.
  Proof.
    intros fins a esc dw maxA maxC up fu fc st out H HA HC. unfold filterFinalsArray in H.
    destruct (responses u_toupper fins a esc up fu fc st) as [resp| | | |] eqn:Er; try discriminate.
    cbn [obind] in H. destruct (responses_spec _ _ _ _ _ _ _ _ Er) as (A & B & C).
    destruct (Hsort resp) as [P S].
    assert (L : (length (sort resp) <= length st)%nat).
    { rewrite <- (Permutation_length P), C. clear. induction st as [|x st IH]; cbn; auto.
      destruct (final_weight (v_where x) fins); cbn; lia. }
    unfold NFinals in H. rewrite take_all in H by lia.
    destruct (unseen_spec (sort resp) []) as (U1 & U2 & U3 & U4).
    exists (unseen [] (sort resp)). split; [|split; [auto|split; [auto|split]]].
    - destruct dw.
      + now apply display_weights_spec.
      + apply display_spec in H. rewrite H. apply map_ext. intros x. now rewrite app_nil_r.
    - intros t c Hin. apply U2 in Hin as [Hin _]. apply A.
      eapply Permutation_in; [apply Permutation_sym; exact P|]. auto.
    - intros s Hs Hf. destruct (B s Hs Hf) as (t & c & Hin & Hr).
      destruct (unseen_complete (sort resp) [] t c S) as (c' & Hin' & Hc).
      { eapply Permutation_in; eauto. }
      { intros []. }
      exists t, c, c'. auto.
  Qed.

  (** When it is defined: tags known, upper-casing the first unit stays inside, and weights
      fit the buffer. *)
  Lemma spell_defined : forall a esc up seq,
    (forall c w, In (c, w) seq -> c < 0 -> - c <= Z.of_nat (length (slexicinv a))) ->
    exists t cost, spell u_toupper a esc up seq = Ok (t, cost).
  Proof.
    intros a esc up. induction seq as [|[c w] seq IH]; intros H; cbn [spell]; eauto.
    assert (E : exists x, getSymbolCase u_toupper c up a = Ok x).
    { destruct (Z.lt_trichotomy c 0) as [Hc|[-> | Hc]].
      - destruct (nth_error (slexicinv a) (Z.to_nat (- c - 1))) as [x|] eqn:E.
        + exists x. apply symbol_text. right. left. auto.
        + apply nth_error_None in E. specialize (H c w (or_introl eq_refl) Hc). lia.
      - exists []. apply symbol_text. auto.
      - eexists. apply symbol_text. right. right. split; [lia|reflexivity]. }
    destruct E as (x & ->). cbn [obind].
    destruct IH as (t & cost & ->); [intros c' w' Hi; apply (H c' w'); now right|]. cbn. eauto.
  Qed.

  (** [fu] with [fc] beyond the text is the caller's error; the callers pass the position of
      the first letter, 0 for a word without initial blank. *)
  Theorem C37_defined : forall fins a esc dw maxA maxC up fu st, u_toupper 0 = 0 ->
    (forall s c w, In s st -> In (c, w) (v_seq s) -> c < 0 -> - c <= Z.of_nat (length (slexicinv a))) ->
    (forall s fw, dw = true -> In s st -> final_weight (v_where s) fins = Some fw ->
       -1000000000 < fw + fold_right Z.add 0 (map snd (v_seq s)) < 10000000000) ->
    exists out, array fins a esc dw maxA maxC up fu 0 st = Ok out.
  Proof.
    intros fins a esc dw maxA maxC up fu st H0 Ht Hw. unfold filterFinalsArray.
    assert (E : exists resp, responses u_toupper fins a esc up fu 0 st = Ok resp).
    { clear Hw. induction st as [|s st IH]; cbn [responses]; eauto.
      destruct IH as (l & El); [intros s' c w Hi; apply (Ht s' c w); now right|].
      destruct (final_weight (v_where s) fins) as [fw|]; eauto.
      destruct (spell_defined a esc (v_dirty s && up) (v_seq s)) as (t & c & ->).
      { intros c w Hi. apply (Ht s c w); auto. now left. }
      cbn [obind].
      assert (F : exists t', (if v_dirty s && fu then first_up u_toupper 0 t else Ok t) = Ok t').
      { destruct (v_dirty s && fu); eauto. unfold first_up.
        replace (length t <? 0)%nat with false by (symmetry; apply Nat.ltb_ge; lia). cbv zeta.
        match goal with |- context [(?l <? length t)%nat] => destruct (l <? length t)%nat eqn:El1 end; eauto.
        apply Nat.ltb_ge in El1. rewrite nth_overflow by auto. rewrite H0. cbn. eauto. }
      destruct F as (t' & ->). cbn [obind]. rewrite El. cbn. eauto. }
    destruct E as (resp & E). rewrite E. cbn [obind].
    destruct (responses_spec _ _ _ _ _ _ _ _ E) as (A & _ & _). destruct (Hsort resp) as [P _].
    assert (F : forall t w, dw = true -> In (t, w) (unseen [] (NFinals sort resp maxA maxC)) ->
              -1000000000 < w < 10000000000).
    { intros t w Hd Hi. apply unseen_spec in Hi as [Hi _]. unfold NFinals in Hi.
      destruct (take_prefix (sort resp) maxA maxC) as (r & Er).
      assert (Hi' : In (t, w) resp).
      { apply Permutation_sym in P. apply (Permutation_in _ P). rewrite Er. apply in_or_app; auto. }
      destruct (A t w Hi') as (s & Hs & fw & t0 & Hf & -> & _). eauto. }
    revert F. generalize (unseen [] (NFinals sort resp maxA maxC)). intros l.
    induction l as [|[t w] l IH]; intros F; cbn [display]; eauto.
    destruct IH as (o & IH); [intros t' w' Hd Hi; apply (F t' w'); auto; now right|].
    destruct dw; cbn [obind]; rewrite IH; cbn [obind]; eauto.
    pose proof (weight_text_fits w (F t w eq_refl (or_introl eq_refl))) as L.
    replace (16 <? S (length (weight_text w)))%nat with false by (symmetry; apply Nat.ltb_ge; lia).
    cbn [obind]. eauto.
  Qed.
End Finals.

(** * End to end: init, step, report *)
Theorem C37_words : forall find isupper tolower toupper sort fuel m before k n ops l w fins a esc out,
  is_sort sort -> (k < m)%nat -> calls_on k ops = map SStep l ->
  exec_all find isupper tolower fuel (fresh_world m) (before ++ (k, SInit n) :: ops) = Ok w ->
  let st := nth k (views w) [] in
  filterFinalsArray toupper sort fins a esc false (2 ^ 31 - 1) (2 ^ 31 - 1) false false 0 st = Ok out ->
  Z.of_nat (length st) < 2 ^ 31 ->
  NoDup out /\ forall t, In t out <->
    exists q s fw, rpath find n l s q /\ final_weight q fins = Some fw
      /\ spelled toupper a esc false (map fst s) t.
Proof.
  intros find isupper tolower toupper sort fuel m before k n ops l w fins a esc out Hs Hk Hc H st Ho Hl.
  assert (Hin := C35_steps find isupper tolower fuel m before k n ops l w Hk Hc H). fold st in Hin.
  destruct (C37_complete toupper sort Hs _ _ _ _ _ _ _ _ _ _ _ Ho ltac:(lia) ltac:(lia))
    as (rep & E & N & _ & R & Q).
  assert (E' : out = map fst rep) by (rewrite E; apply map_ext; intros; apply app_nil_r).
  clear E. split; [now rewrite E'|]. intros t. split.
  - rewrite E', in_map_iff. intros ([t1 c] & Et & Hr). cbn in Et. subst t1.
    destruct (R t c Hr) as ([q s d] & Hst & fw & t0 & Hf & _ & Hsp & Ht).
    cbn [v_where v_seq v_dirty] in *. rewrite andb_false_r in *. subst t0.
    apply Hin in Hst as [_ Hp]. exists q, s, fw. auto.
  - intros (q & s & fw & Hp & Hf & Hsp).
    assert (Hst : In (mkV q s false) st) by (apply Hin; auto).
    destruct (Q _ Hst) as (t' & c & c' & (fw' & t0 & _ & _ & Hsp' & Ht) & Hin' & _); [cbn; congruence|].
    apply (in_map fst) in Hin'. rewrite <- E' in Hin'.
    cbn [v_where v_seq v_dirty andb] in *. subst t0.
    replace t with t'; auto. clear - Hsp Hsp'. revert t' Hsp'.
    induction Hsp as [|c l x t Hx _ IH]; intros t' H'; inversion H' as [|? ? x' t'' Hx' Ht']; subst; auto.
    f_equal. assert (x' = x) as ->.
    { destruct Hx as [[? ->]|[[? E1]|[? ->]]], Hx' as [[? ->]|[[? E2]|[? ->]]]; auto; try lia.
      congruence. }
    f_equal. now apply IH.
Qed.

(** isFinal says whether some run over the word ends in a final state. *)
Theorem C37_is_final : forall find isupper tolower fuel m before k n ops l w fins,
  (k < m)%nat -> calls_on k ops = map SStep l ->
  exec_all find isupper tolower fuel (fresh_world m) (before ++ (k, SInit n) :: ops) = Ok w ->
  (isFinal fins (nth k (views w) []) = true
   <-> exists q s fw, rpath find n l s q /\ final_weight q fins = Some fw).
Proof.
  intros find isupper tolower fuel m before k n ops l w fins Hk Hc H.
  assert (Hin := C35_steps find isupper tolower fuel m before k n ops l w Hk Hc H).
  unfold isFinal. rewrite existsb_exists. split.
  - intros ([q s d] & Hi & Hf). cbn [v_where] in Hf. apply Hin in Hi as [_ Hp].
    destruct (final_weight q fins) as [fw|] eqn:E; [|discriminate]. eauto.
  - intros (q & s & fw & Hp & Hf). exists (mkV q s false). split; [apply Hin; auto|].
    cbn [v_where]. now rewrite Hf.
Qed.

(** ** The output line *)
Lemma guarded_plain : forall x, ~ In 47 x -> ~ In 92 x -> guarded 47 x.
Proof.
  induction x as [|c x IH]; intros H1 H2; [constructor|]. apply g_char.
  - intros ->. apply H2. now left.
  - intros ->. apply H1. now left.
  - apply IH; intros X; [apply H1|apply H2]; now right.
Qed.
Lemma append_cp_units : forall c, 0 < c < 1114112 -> exists u r, append_cp [] c = u :: r
  /\ guarded 47 r /\ (c = u /\ r = [] \/ u >= 55296).
Proof.
  intros c Hc. unfold append_cp. destruct (c <=? 65535) eqn:E.
  - apply Z.leb_le in E. rewrite Z.mod_small by lia. exists c, []. repeat split; auto. constructor.
  - apply Z.leb_gt in E. cbn [app].
    assert (H1 : 0 <= Z.shiftr (c - 65536) 10 < 1024).
    { rewrite Z.shiftr_div_pow2 by lia. split; [apply Z.div_pos; lia|].
      apply Z.div_lt_upper_bound; lia. }
    assert (H2 : 0 <= Z.land c 1023 < 1024).
    { change 1023 with (Z.ones 10). rewrite Z.land_ones by lia. apply Z.mod_pos_bound. lia. }
    rewrite !Z.mod_small by lia. eexists _, _. split; [reflexivity|]. split; [|right; lia].
    apply g_char; [lia|lia|constructor].
Qed.
Lemma spelled_guarded : forall up a esc l t, spelled up a esc false l t ->
  esc 47 = true -> esc 92 = true -> (forall c, esc c = true -> 0 < c) ->
  Forall (fun x => ~ In 47 x /\ ~ In 92 x) (slexicinv a) -> Forall (fun c => c < 1114112) l ->
  guarded 47 t.
Proof.
  intros up a esc l t H H47 H92 Hpos Ha. induction H as [|c l x t Hx _ IH]; intros Hl; [constructor|].
  inversion Hl as [|? ? Hc Hl']; subst. specialize (IH Hl').
  destruct Hx as [[-> ->]|[[Hn Hx]|[Hp ->]]].
  - destruct (esc 0) eqn:E; [apply Hpos in E; lia|]. exact IH.
  - destruct (esc c) eqn:E; [apply Hpos in E; lia|]. cbn [app].
    rewrite Forall_forall in Ha. destruct (Ha x) as [A B]; [eapply nth_error_In; eauto|].
    apply guarded_app; auto. now apply guarded_plain.
  - destruct (append_cp_units c) as (u & r & Eu & Hr & Hu); [lia|]. rewrite Eu.
    destruct (esc c) eqn:E; cbn [app].
    + apply g_esc. now apply guarded_app.
    + apply g_char; [| |now apply guarded_app].
      * destruct Hu as [[<- _]|Hu]; [congruence|lia].
      * destruct Hu as [[<- _]|Hu]; [congruence|lia].
Qed.

(** The line written for a word can be taken apart again: cut at the slashes that are not
    escaped, it gives the texts of the runs that end in a final state, each once. *)
Theorem C37_line : forall find isupper tolower toupper sort fuel m before k n ops l w fins a esc line,
  is_sort sort -> (k < m)%nat -> calls_on k ops = map SStep l ->
  exec_all find isupper tolower fuel (fresh_world m) (before ++ (k, SInit n) :: ops) = Ok w ->
  let st := nth k (views w) [] in
  filterFinals toupper sort fins a esc false (2 ^ 31 - 1) (2 ^ 31 - 1) false false 0 st = Ok line ->
  Z.of_nat (length st) < 2 ^ 31 ->
  esc 47 = true -> esc 92 = true -> (forall c, esc c = true -> 0 < c) ->
  Forall (fun x => ~ In 47 x /\ ~ In 92 x) (slexicinv a) ->
  (forall s q, rpath find n l s q -> Forall (fun c => fst c < 1114112) s) ->
  NoDup (split_escaped line 47) /\ forall t, In t (split_escaped line 47) <->
    t <> [] /\ exists q s fw, rpath find n l s q /\ final_weight q fins = Some fw
      /\ spelled toupper a esc false (map fst s) t.
Proof.
  intros find isupper tolower toupper sort fuel m before k n ops l w fins a esc line Hs Hk Hc H st Ho Hl
    H47 H92 Hpos Ha Hcp.
  unfold filterFinals in Ho.
  destruct (filterFinalsArray toupper sort fins a esc false (2 ^ 31 - 1) (2 ^ 31 - 1) false false 0 st)
    as [out| | | |] eqn:Eo; try discriminate Ho.
  cbn [obind] in Ho. assert (line = concat (map (fun t => 47 :: t) out)) as -> by congruence. clear Ho.
  destruct (C37_words find isupper tolower toupper sort fuel m before k n ops l w fins a esc out Hs Hk Hc H Eo Hl)
    as [N W].
  assert (G : Forall (guarded 47) out).
  { apply Forall_forall. intros t Ht. apply W in Ht as (q & s & fw & Hp & _ & Hsp).
    eapply spelled_guarded; eauto. apply Forall_forall. intros c Hi. apply in_map_iff in Hi as (x & <- & Hi).
    specialize (Hcp s q Hp). rewrite Forall_forall in Hcp. now apply Hcp. }
  assert (E : split_escaped (concat (map (fun t => 47 :: t) out)) 47 = filter non_empty out).
  { destruct (C51_split_escaped (concat (map (fun t => 47 :: t) out)) 47) as (ps & -> & L & B).
    rewrite (cut_escaped_unique 47 ps ([] :: out)); auto; [lia| |].
    - clear - G. destruct out as [|t out]; [left; constructor|]. split; [constructor|].
      revert t G. induction out as [|t' out IH]; intros t G; inversion G; subst; [now left|].
      split; auto.
    - rewrite B, between_concat. reflexivity. }
  rewrite E. split; [now apply NoDup_filter|]. intros t. rewrite filter_In, W.
  destruct t; cbn [non_empty]; split; intros [A B]; split; auto; try discriminate; congruence.
Qed.

(** * Witnesses *)
Fixpoint ins (x : ustr * Z) (l : list (ustr * Z)) : list (ustr * Z) :=
  match l with [] => [x] | y :: r => if snd x <=? snd y then x :: l else y :: ins x r end.
Definition isort (l : list (ustr * Z)) : list (ustr * Z) := fold_right ins [] l.
Lemma isort_is_sort : is_sort isort.
Proof.
  intros l. unfold isort. induction l as [|x l [P S]]; cbn [fold_right]; [split; constructor|]. split.
  - transitivity (x :: fold_right ins [] l); [now constructor|]. generalize (fold_right ins [] l).
    induction l0 as [|y l0 IH]; cbn; auto. destruct (snd x <=? snd y); auto.
    rewrite perm_swap. now constructor.
  - revert S. generalize (fold_right ins [] l). induction l0 as [|y l0 IH]; intros S; cbn.
    + repeat constructor.
    + inversion S as [|? ? S1 S2]; subst. destruct (snd x <=? snd y) eqn:E.
      * constructor; auto. constructor; [unfold by_weight; lia|].
        apply Forall_forall. intros z Hz. rewrite Forall_forall in S2. specialize (S2 z Hz).
        unfold by_weight in *. lia.
      * constructor; auto. apply Forall_forall. intros z Hz.
        assert (Hz' : In z (x :: l0)).
        { clear - Hz. induction l0 as [|v l0 IH]; cbn in *; auto. destruct (snd x <=? snd v); cbn in *; tauto. }
        destruct Hz' as [<- | Hz']; [unfold by_weight; lia|]. rewrite Forall_forall in S2. auto.
Qed.

Definition up97 (c : Z) : Z := if (97 <=? c) && (c <=? 122) then c - 32 else c.
Definition esc37 (c : Z) : bool := (c =? 47) || (c =? 60).
(** Alphabet with one tag <n> = -1. *)
Definition a37 : alphabet := includeSymbol [60; 110; 62] new_alphabet.
Definition st37 : list (vns (W:=Z)) :=
  [mkV 1 [(99, 2000000); (-1, 0)] true; mkV 2 [(120, 0)] false; mkV 1 [(47, 1500000); (0, 0)] false;
   mkV 1 [(99, 500000); (-1, 0)] true].
(** "C<n>" twice, "\/" once, the unfinished one not; capitalised when dirty. *)
Example C37_example :
  filterFinalsArray up97 isort [(1%nat, 1000000)] a37 esc37 true 10 10 false true 0 st37
  = Ok [[67; 60; 110; 62; 60; 87; 58; 49; 46; 53; 48; 48; 48; 48; 48; 62];
        [92; 47; 60; 87; 58; 50; 46; 53; 48; 48; 48; 48; 48; 62]]
  /\ filterFinals up97 isort [(1%nat, 1000000)] a37 esc37 false 10 10 false true 0 st37
  = Ok [47; 67; 60; 110; 62; 47; 92; 47].
Proof. split; vm_compute; reflexivity. Qed.

(** "a" and "/b" in one line, cut again. *)
Example C37_line_example :
  filterFinals up97 isort [(1%nat, 0)] a37 esc37 false 10 10 false false 0
    [mkV 1 [(97, 0); (-1, 0)] false; mkV 1 [(47, 0); (98, 1)] false]
  = Ok [47; 97; 60; 110; 62; 47; 92; 47; 98]
  /\ split_escaped [47; 97; 60; 110; 62; 47; 92; 47; 98] 47 = [[97; 60; 110; 62]; [92; 47; 98]]
  /\ isFinal [(1%nat, 0)] [mkV 2 [(97, 0)] false; mkV 1 [(47, 0)] (false : bool)] = true
  /\ isFinal [(1%nat, 0)] [mkV 2 [(97, 0)] false; mkV 3 [(47, 0)] (false : bool)] = false.
Proof. repeat split; vm_compute; reflexivity. Qed.

Definition one_each (l : list (Z * Z)) : list (vns (W:=Z)) :=
  map (fun x => mkV 1 [(fst x, snd x * 1000000)] false) l.
(** Weight classes are not what limits the output.  With one class allowed, of two
    analyses of the same weight 1 only one is reported; with two allowed, analyses of the
    three weights 0, 1, 2 are. *)
Theorem C37_weight_classes_refuted :
  filterFinalsArray up97 isort [(1%nat, 0)] a37 esc37 false 10 1 false false 0
    (one_each [(97, 1); (98, 1)]) = Ok [[97]]
  /\ filterFinalsArray up97 isort [(1%nat, 0)] a37 esc37 false 10 2 false false 0
    (one_each [(97, 0); (98, 1); (99, 2)]) = Ok [[97]; [98]; [99]].
Proof. split; vm_compute; reflexivity. Qed.

(** Repeated texts use up the allowance: two are allowed, two different ones exist, one is
    reported. *)
Theorem C37_repeats_count_refuted :
  filterFinalsArray up97 isort [(1%nat, 0)] a37 esc37 false 2 10 false false 0
    (one_each [(97, 0); (97, 1); (98, 2)]) = Ok [[97]].
Proof. vm_compute. reflexivity. Qed.

(** Showing a weight of 10000 or more overruns the buffer, so does one of -1000 or less. *)
Theorem C37_wide_weight_refuted : forall w, 10000000000 <= w \/ w <= -1000000000 ->
  filterFinalsArray up97 isort [(1%nat, w)] a37 esc37 true 10 10 false false 0
    [mkV 1 [(97, 0)] false] = UB.
Proof.
  intros w Hw. unfold filterFinalsArray.
  replace (responses up97 [(1%nat, w)] a37 esc37 false false 0 [mkV 1 [(97, 0)] false])
    with (Ok [([97], w + 0)]) by reflexivity.
  cbn [obind]. rewrite Z.add_0_r.
  replace (unseen [] (NFinals isort [([97], w)] 10 10)) with [([97], w)] by reflexivity.
  cbn [display]. pose proof (weight_text_wide w Hw).
  replace (16 <? S (length (weight_text w)))%nat with true by (symmetry; apply Nat.ltb_lt; lia).
  reflexivity.
Qed.

Print Assumptions C37_reported.
Print Assumptions C37_complete.
Print Assumptions C37_defined.
Print Assumptions C37_words.
Print Assumptions C37_is_final.
Print Assumptions C37_line.
Print Assumptions C37_weight_classes_refuted.
Print Assumptions C37_repeats_count_refuted.
Print Assumptions C37_wide_weight_refuted.
