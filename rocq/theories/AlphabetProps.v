(** Properties C08, C09 and C10: alphabets. *)
From Verif Require Import Base CompressionModel StringCodecProofs SerialiserModel
  AlphabetModel AlphabetProofs.

(** The alphabet after a history of calls on a fresh one. *)
Notation after ops := (aruns ops new_alphabet).

Lemma after_inv : forall ops, alph_inv0 (after ops).
Proof.
  intros ops. destruct (aruns_inv ops new_alphabet (proj1 new_inv)) as [H1 H2].
  exact (inv0_extends _ _ new_inv H1 H2).
Qed.

(** * C08 *)
(** A tag, once defined, has a negative code that means it for ever. *)
Theorem C08_tag_code_stable : forall ops s ops',
  let a := includeSymbol s (after ops) in
  let c := symbol_code s a in
  c < 0
  /\ symbol_code s (aruns ops' a) = c
  /\ getSymbol c (aruns ops' a) = Ok s
  /\ includeSymbol s (aruns ops' a) = aruns ops' a.
Proof.
  intros ops s ops' a c. assert (H := proj1 (after_inv ops)).
  assert (Ha := include_inv s _ H). fold a in Ha. destruct (aruns_inv ops' a Ha) as [Hb He].
  assert (Hin := include_in s _ H). fold a in Hin. apply In_nth_error in Hin as [i Hi].
  destruct (symbol_code_nth a s i Ha Hi) as (E1 & _).
  assert (Hi' := proj1 (extends_nth _ _ He) i s Hi).
  destruct (symbol_code_nth _ s i Hb Hi') as (E2 & _ & E3). subst c. rewrite E1.
  split; [unfold tag_of; lia|]. split; [exact E2|]. split; [exact E3|].
  destruct (include_cases s _ Hb) as [[_ E]|[Hn _]]; [exact E|].
  exfalso. apply Hn. eapply nth_error_In; eauto.
Qed.

Theorem C08_tag_codes_distinct : forall ops s t,
  isSymbolDefined s (after ops) = true -> isSymbolDefined t (after ops) = true ->
  symbol_code s (after ops) = symbol_code t (after ops) -> s = t.
Proof.
  intros ops s t Hs Ht E. assert (H := proj1 (after_inv ops)).
  apply defined_iff in Hs; [|exact H]. apply defined_iff in Ht; [|exact H].
  apply In_nth_error in Hs as [i Hi]. apply In_nth_error in Ht as [j Hj].
  rewrite (proj1 (symbol_code_nth _ s i H Hi)), (proj1 (symbol_code_nth _ t j H Hj)) in E.
  unfold tag_of in E. assert (i = j) by lia. congruence.
Qed.

(** Exactly the included tags are defined. *)
Theorem C08_defined_iff_included : forall ops s,
  isSymbolDefined s (after ops) = true <-> In (OpInclude s) ops.
Proof.
  intros ops s. rewrite (defined_iff _ s (proj1 (after_inv ops))).
  induction ops as [|o ops IH] using rev_ind; cbn; [tauto|].
  unfold aruns. rewrite fold_left_app. cbn [fold_left]. fold (aruns ops new_alphabet).
  assert (H := proj1 (after_inv ops)). rewrite in_app_iff. cbn [In].
  destruct o as [t|p|t|k]; cbn [arun].
  - destruct (include_cases t _ H) as [[Hi ->]|[Hn ->]]; cbn [slexicinv].
    + rewrite IH. split; [auto|]. intros [G|[G|[]]]; [exact G|]. injection G as ->. now apply IH.
    + rewrite in_app_iff, IH. cbn [In]. split; intros [G|[G|[]]]; auto; right; left; congruence.
  - destruct (pair_cases p _ H) as [[Hi ->]|[Hn ->]]; cbn [slexicinv]; rewrite IH;
      (split; [auto|intros [G|[G|[]]]; [exact G|discriminate]]).
  - rewrite IH. split; [auto|intros [G|[G|[]]]; [exact G|discriminate]].
  - rewrite IH. split; [auto|intros [G|[G|[]]]; [exact G|discriminate]].
Qed.

(** A pair, once asked for, has a non-negative code that decodes to it for ever, and
    asking again changes nothing. *)
Theorem C08_pair_code_stable : forall ops p ops',
  let c := fst (pair_code p (after ops)) in
  let a := aruns ops' (snd (pair_code p (after ops))) in
  0 <= c /\ decode c a = Ok p /\ pair_code p a = (c, a).
Proof.
  intros ops p ops' c a. assert (H := proj1 (after_inv ops)).
  assert (Ha := pair_inv p _ H). destruct (aruns_inv ops' _ Ha) as [Hb He]. fold a in Hb, He.
  assert (Hin := pair_in p _ H). apply In_nth_error in Hin as [i Hi].
  assert (Ec : c = Z.of_nat i) by now apply pair_code_fst.
  assert (Hi' := proj2 (extends_nth _ _ He) i p Hi).
  destruct (pair_code_nth a p i Hb Hi') as [E1 E2]. rewrite Ec. split; [lia|]. auto.
Qed.

Theorem C08_pair_codes_distinct : forall ops p q ops', p <> q ->
  fst (pair_code q (aruns ops' (snd (pair_code p (after ops)))))
  <> fst (pair_code p (after ops)).
Proof.
  intros ops p q ops' Hpq E.
  destruct (C08_pair_code_stable ops p (ops' ++ [OpPair q])) as (_ & D & _).
  rewrite aruns_app in D. cbn [aruns fold_left arun] in D.
  set (b := aruns ops' (snd (pair_code p (after ops)))) in *.
  assert (Hb : alph_inv b).
  { apply aruns_inv. apply pair_inv. apply (after_inv ops). }
  assert (Hin := pair_in q b Hb). apply In_nth_error in Hin as [i Hi].
  assert (Ei := pair_code_fst b q i Hb Hi).
  destruct (pair_code_nth _ q i (pair_inv q b Hb) Hi) as [_ D2].
  rewrite <- E, Ei, D2 in D. congruence.
Qed.

(** Tag definitions do not disturb pair codes nor the other way round: covered by the
    [ops'] above.  The pair of two epsilons always has code 0. *)
Theorem C08_epsilon_pair : forall ops, pair_code (0, 0) (after ops) = (0, after ops).
Proof.
  intros ops. destruct (after_inv ops) as [H H0].
  exact (proj1 (pair_code_nth _ _ 0%nat H H0)).
Qed.

Example C08_example :
  let ops := [OpInclude [60; 110; 62]; OpPair (97, -1); OpInclude [60; 118; 62];
              OpInclude [60; 110; 62]; OpPair (97, -1); OpPair (0, -2)] in
  slexicinv (after ops) = [[60; 110; 62]; [60; 118; 62]]
  /\ spairinv (after ops) = [(0, 0); (97, -1); (0, -2)]
  /\ symbol_code [60; 118; 62] (after ops) = -2
  /\ fst (pair_code (0, -2) (after ops)) = 2.
Proof. repeat split; reflexivity. Qed.

(** [setSymbol], which renames a tag, is outside the histories above: it leaves the old
    name defined and the new one undefined. *)
Theorem C08_setSymbol_refuted : exists ops s,
  match setSymbol (-1) s (after ops) with
  | Ok a => getSymbol (-1) a = Ok s /\ isSymbolDefined s a = false
  | _ => False
  end.
Proof. exists [OpInclude [60; 110; 62]], [60; 118; 62]. split; reflexivity. Qed.

(** * C09 *)
(** Everything fits the number format: bracketed tags, and symbols between the last tag
    and 2^30 - (number of tags). *)
Theorem C09_file_roundtrip : forall ops rest,
  let a := after ops in
  let n := Z.of_nat (length (slexicinv a)) in
  n < 2 ^ 30 -> Z.of_nat (length (spairinv a)) < 2 ^ 30 ->
  (forall s, isSymbolDefined s a = true ->
     exists body, s = [60] ++ body ++ [62] /\ Forall (fun u => 0 <= u < 65536) body
                  /\ Z.of_nat (length body) < 2 ^ 30) ->
  (forall x y, In (x, y) (spairinv a) -> - n <= x < 2 ^ 30 - n /\ - n <= y < 2 ^ 30 - n) ->
  exists bs, alphabet_write a = Ok bs /\ alphabet_read (bs ++ rest) = (a, rest).
Proof.
  intros ops rest a n H1 H2 H3 H4. assert (H := proj1 (after_inv ops)). fold a in H.
  destruct (alphabet_roundtrip a H) as (bs & E1 & E2).
  - repeat split; auto.
    + apply Forall_forall. intros s Hs. apply (H3 s). now apply defined_iff.
    + apply Forall_forall. intros [x y] Hxy. exact (H4 x y Hxy).
  - exists bs. auto.
Qed.

Example C09_example :
  let a := after [OpInclude [60; 110; 62]; OpPair (97, -1); OpPair (0x1F600, 0)] in
  alphabet_write a = Ok [1; 1; 64; 110; 3; 1; 1; 64; 98; 0; 129; 246; 1; 1]
  /\ alphabet_read ([1; 1; 64; 110; 3; 1; 1; 64; 98; 0; 129; 246; 1; 1] ++ [5]) = (a, [5]).
Proof. split; reflexivity. Qed.

(** Without the brackets the name is not restored. *)
Example C09_brackets_needed :
  let a := after [OpInclude [110; 111; 117]] in
  match alphabet_write a with
  | Ok bs => slexicinv (fst (alphabet_read bs)) = [[60; 111; 62]]
  | _ => False
  end.
Proof. reflexivity. Qed.

(** * C10: false of the code, which fills the pair map up to the number of tags. *)
Theorem C10_refuted : exists ops p a,
  In (OpPair p) ops
  /\ alphabet_deserialise (alphabet_serialise (after ops)) = Ok (a, [])
  /\ fst (pair_code p a) <> fst (pair_code p (after ops)).
Proof.
  exists [OpPair (97, 97)], (97, 97). eexists. split; [now left|]. split; [reflexivity|].
  discriminate.
Qed.

(** With more tags than pairs the loop reads outside the vector. *)
Theorem C10_out_of_bounds_refuted : exists ops,
  alphabet_deserialise (alphabet_serialise (after ops)) = UB.
Proof. exists [OpInclude [60; 110; 62]; OpInclude [60; 118; 62]]. reflexivity. Qed.

(** What holds: with 7-bit tags and no more tags than pairs, all tags, all decodings and
    the codes of as many pairs as there are tags are restored. *)
Theorem C10_restored_partial : forall ops,
  let a := after ops in
  Z.of_nat (length (spairinv a)) < 2 ^ 64 ->
  (length (slexicinv a) <= length (spairinv a))%nat ->
  (forall s, isSymbolDefined s a = true ->
     Forall (fun u => 0 <= u < 128) s /\ Z.of_nat (length s) < 2 ^ 64) ->
  (forall x y, In (x, y) (spairinv a) -> - 2 ^ 31 <= x < 2 ^ 31 /\ - 2 ^ 31 <= y < 2 ^ 31) ->
  exists a', alphabet_deserialise (alphabet_serialise a) = Ok (a', [])
    /\ (forall s, symbol_code s a' = symbol_code s a)
    /\ (forall c, getSymbol c a' = getSymbol c a)
    /\ (forall c, decode c a' = decode c a)
    /\ (forall c p, 0 <= c < Z.of_nat (length (slexicinv a)) -> decode c a = Ok p ->
          pair_code p a' = (c, a')).
Proof.
  intros ops a L2 Hle Ht Hp. assert (H := proj1 (after_inv ops)). fold a in H.
  rewrite alphabet_deserialise_result; auto; [|lia| |].
  - replace (length (slexicinv a) <=? length (spairinv a))%nat with true by lia.
    eexists. split; [reflexivity|]. split; [reflexivity|]. split; [reflexivity|].
    split; [reflexivity|]. intros c p Hc Hd. unfold decode in Hd.
    replace (c <? 0) with false in Hd by lia.
    destruct (nth_error (spairinv a) (Z.to_nat c)) as [q|] eqn:E; [|discriminate].
    injection Hd as ->. destruct H as (_ & _ & _ & H4).
    assert (E' : nth_error (firstn (length (slexicinv a)) (spairinv a)) (Z.to_nat c) = Some p).
    { rewrite <- E. rewrite <- (firstn_skipn (length (slexicinv a)) (spairinv a)) at 2.
      rewrite nth_error_app1; [reflexivity|]. rewrite firstn_length. lia. }
    assert (N : NoDup (firstn (length (slexicinv a)) (spairinv a))).
    { rewrite <- (firstn_skipn (length (slexicinv a)) (spairinv a)) in H4.
      revert H4. generalize (skipn (length (slexicinv a)) (spairinv a)).
      generalize (firstn (length (slexicinv a)) (spairinv a)). intros l1 l2 Hn.
      induction l1 as [|z l1 IH]; [constructor|]. cbn in Hn. inversion Hn as [|? ? Hz Hn2]; subst.
      constructor; [|auto]. intros G. apply Hz. apply in_or_app. now left. }
    unfold pair_code. cbn [spair].
    rewrite (find_zidx_nth Z.of_nat pair_eq_dec _ 0 p _ N E'). cbn [spair Nat.add].
    rewrite (find_zidx_nth Z.of_nat pair_eq_dec _ 0 p _ N E'). cbn [Nat.add]. f_equal. lia.
  - apply Forall_forall. intros s Hs. apply Ht. now apply defined_iff.
  - apply Forall_forall. intros [x y] Hxy. exact (Hp x y Hxy).
Qed.

Example C10_example :
  let a := after [OpInclude [60; 110; 62]; OpPair (97, -1)] in
  alphabet_deserialise (alphabet_serialise a)
  = Ok (mkAlphabet (slexic a) (slexicinv a) [((0, 0), 0)] (spairinv a), []).
Proof. reflexivity. Qed.

Print Assumptions C08_tag_code_stable.
Print Assumptions C08_tag_codes_distinct.
Print Assumptions C08_defined_iff_included.
Print Assumptions C08_pair_code_stable.
Print Assumptions C08_pair_codes_distinct.
Print Assumptions C08_epsilon_pair.
Print Assumptions C08_setSymbol_refuted.
Print Assumptions C09_file_roundtrip.
Print Assumptions C10_refuted.
Print Assumptions C10_out_of_bounds_refuted.
Print Assumptions C10_restored_partial.
