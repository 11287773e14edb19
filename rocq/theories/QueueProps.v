(** C72: looking a word up together with the part of it that is left over. *)
From Coq Require String Ascii.
From Coq Require Import Sorted.
From Verif Require Import Base CompressionModel AlphabetModel StateModel StateSpec StatePathProofs StateProps
  FinalsModel FinalsProps StringModel StringProps InputModel StreamModel ProcessorModel BufferModel
  ProcessorProofs CompoundProofs CompoundProps LookupProps AnalysisSpec AnalysisProofs AnalysisProps
  QueueModel QueueSpec QueueProofs.
From Verif Require StreamProps.
Notation txt := StreamProps.txt.
Import String.StringSyntax.

Lemma symbols_none : forall w l, symbols_of w l -> w = [] -> l = [].
Proof.
  intros w l H. induction H as [| |c r l Hc _ IH|t r l _ _ IH|r l _ _ IH|c r l Hc _ _ _ IH]; auto; try discriminate.
  destruct Hc as [(x & -> & _)|(x & y & -> & _)]; discriminate.
Qed.
(** Fewer than 65536 analyses are alive at a time: the processor folds case as it was told. *)
Definition small_states (P : processor) (vs : list Z) : Prop :=
  p_caseSensitive P = false -> forall n k st, state_of (with_fuel P n) (firstn k vs) = Ok st -> Z.of_nat (length st) < 65536.

(** The answer to a word: the translations of its longest beginning in the dictionary, each
    with the symbols from the one on where the dictionary can read no further, and the length
    of that rest.  [c] is the unit left out, as in C39_output; [l] are the symbols of the word
    and [vs] their numbers. *)
Theorem C72_answer : forall P w c (delim mark : bool) l vs,
  let open : ustr := if delim then [94] else [] in
  let close : ustr := if delim then [36] else [] in
  let m : ustr := if mark then [61] else [] in
  is_sort (p_sort P) -> p_toupper P 0 = 0 -> p_weights P = false -> tags_known P -> eps_acyclic (p_find P) ->
  0 < p_maxAnalyses P -> 0 < p_maxClasses P -> NoDup (map fst (slexic (p_alpha P))) ->
  hd 0 w <> 42 -> (mark = false -> hd 0 w <> 61) -> Z.of_nat (length w) < 2 ^ 31 -> c <> 92 -> is_lead c = false ->
  symbols_of w l -> l <> [] -> Forall2 (names (p_alpha P)) l vs -> small_states P vs ->
  exists r N,
    (forall n, (N <= n)%nat -> biltransWithQueue (with_fuel P n) (open ++ m ++ w ++ [c] ++ close) delim = Ok r)
    /\ queue_answer P (p_caseSensitive P) l vs
         (p_isupper P (hd 0 w) && p_isupper P (hd 0 (tl w ++ [c]))) (p_isupper P (hd 0 w))
         (open ++ m) close (open ++ [64] ++ m ++ w ++ [c] ++ close) r.
Proof.
  intros P w c delim mark l vs open close m Hs H0 Hw Ht Ha HA HC Hn H42 H61 Hlen Hc Hcl Hsy Hne Hnm Hsm.
  assert (Hwne : w <> []) by (intros K; apply Hne; exact (symbols_none w l Hsy K)).
  pose proof (piece_names P l Hn vs Hnm) as Evs.
  pose proof (pieces_symbols c close w l Hc Hcl Hsy) as Ep.
  set (up := p_isupper P (hd 0 w) && p_isupper P (hd 0 (tl w ++ [c]))). set (fu := p_isupper P (hd 0 w)).
  destruct (looked_up_settles P Hs H0 Hw Ht Ha up fu delim mark (open ++ [64] ++ m ++ w ++ [c] ++ close) l) as (r & N1 & E1).
  destruct (good_from P (p_caseSensitive P) vs Ha) as (N2 & G2).
  { intros n st k E. unfold beCaseSensitive. destruct (p_caseSensitive P) eqn:Ec; [reflexivity|].
    unfold max_case_insensitive_state_size. pose proof (Hsm Ec n k st E). replace (Z.of_nat (length st) <? 65536) with true by lia. reflexivity. }
  exists r, (N1 + N2)%nat. split.
  - intros n Hn'. rewrite <- (E1 n) by lia.
    exact (queue_input (with_fuel P n) w c delim mark l Hwne H42 H61 Hlen Ep).
  - apply (answer_fuel P (N1 + N2)). rewrite Evs.
    apply (looked_up_answer (with_fuel P (N1 + N2)) (p_caseSensitive P) up fu delim mark (open ++ [64] ++ m ++ w ++ [c] ++ close) l r);
      auto.
    + exact (symbols_nonempty w l Hsy).
    + specialize (G2 (N1 + N2)%nat ltac:(lia)). rewrite Evs in G2. exact G2.
    + apply E1. lia.
Qed.
(** A marked word is returned as it is. *)
Theorem C72_marked : forall P w (delim : bool),
  biltransWithQueue P ((if delim then [94] else []) ++ 42 :: w) delim = Ok ((if delim then [94] else []) ++ 42 :: w, 0).
Proof.
  intros P w delim. unfold biltransWithQueue. destruct delim; cbn [app length].
  - replace (_ <=? 1) with false by (cbn [length]; lia). reflexivity.
  - replace (_ <=? 0) with false by lia. reflexivity.
Qed.

(** Only one of the four answers fits a word. *)
Lemma entry_unique : forall P cs vs k k', last_entry P cs vs k -> last_entry P cs vs k' -> k = k'.
Proof.
  intros P cs vs k k' (H1 & H2 & H3) (H1' & H2' & H3'). destruct (lt_eq_lt_dec k k') as [[L|L]|L]; auto; exfalso.
  - exact (H3 k' ltac:(lia) H2').
  - exact (H3' k ltac:(lia) H2).
Qed.
Lemma read_unique : forall P cs vs m m', last_read P cs vs m -> last_read P cs vs m' -> m = m'.
Proof.
  intros P cs vs k k' (H1 & H2 & H3) (H1' & H2' & H3'). destruct (lt_eq_lt_dec k k') as [[L|L]|L]; auto; exfalso.
  - exact (H3 k' ltac:(lia) H2').
  - exact (H3' k ltac:(lia) H2).
Qed.
(** The number is that of the units left over, whatever the order of the translations. *)
Theorem C72_number : forall P cs l vs up fu open close unknown r r',
  queue_answer P cs l vs up fu open close unknown r -> queue_answer P cs l vs up fu open close unknown r' ->
  snd r = snd r'.
Proof.
  intros P cs l vs up fu open close unknown r r' H H'.
  destruct H as [k m res H1 H2 H3 H4|k H1 H2 H3|m H1 H2 H3|H1 H2 H3]; destruct H' as [k' m' res' H1' H2' H3' H4'|k' H1' H2' H3'|m' H1' H2' H3'|H1' H2' H3']; cbn [snd]; auto;
  try (exfalso; (exact (H1 _ H1') || exact (H1' _ H1))).
  - now rewrite (read_unique _ _ _ _ _ H2 H2').
  - rewrite (entry_unique _ _ _ _ _ H1 H1') in H3. destruct H3; [contradiction|lia].
  - rewrite (entry_unique _ _ _ _ _ H1' H1) in H3'. destruct H3'; [contradiction|lia].
Qed.

(** * What does not hold *)
(** The last unit of the word is left out: words that differ only there are answered alike. *)
Theorem C72_last_unit_refuted : forall P w c c' out out' k k',
  hd 0 w <> 42 -> hd 0 w <> 61 -> (2 <= length w)%nat -> Z.of_nat (length w) < 2 ^ 31 ->
  c <> 92 -> is_lead c = false -> c' <> 92 -> is_lead c' = false ->
  biltransWithQueue P (94 :: w ++ [c; 36]) true = Ok (out, k) ->
  biltransWithQueue P (94 :: w ++ [c'; 36]) true = Ok (out', k') ->
  (out, k) = (out', k') \/ (out = 94 :: 64 :: w ++ [c; 36] /\ out' = 94 :: 64 :: w ++ [c'; 36] /\ k = 0 /\ k' = 0).
Proof.
  intros P w c c' out out' k k' H42 H61 Hl2 Hlen Hc Hlc Hc' Hlc' H H'.
  destruct (C50_symbols w c [36] Hc Hlc) as (l & E & Hsy). change (pieces [c; 36] w = Ok l) in E.
  pose proof (pieces_symbols c' [36] w l Hc' Hlc' Hsy) as E'.
  assert (Hne : w <> []) by (intros ->; cbn in Hl2; lia).
  pose proof (queue_input P w c true false l Hne H42 (fun _ => H61) Hlen E) as Q.
  pose proof (queue_input P w c' true false l Hne H42 (fun _ => H61) Hlen E') as Q'.
  cbv zeta in Q, Q'. cbn [app] in Q, Q'. rewrite H in Q. rewrite H' in Q'.
  assert (Hd : hd 0 (tl w ++ [c]) = hd 0 (tl w ++ [c'])) by (destruct w as [|a [|b w]]; cbn [length] in Hl2; try lia; reflexivity).
  rewrite Hd in Q. unfold looked_up in Q, Q'. destruct (initial_state P) as [init| | | |]; try discriminate. cbn [obind] in Q, Q'.
  destruct (queue_loop P _ _ init [] [] false l) as [[[st [res [queue seen]]]|]| | | |]; try discriminate; cbn [obind] in Q, Q'.
  2: { right. repeat split; congruence. }
  destruct (if seen then Ok [0] else _) as [[|z f]| | | |]; try discriminate; cbn [obind] in Q, Q'.
  - right. repeat split; congruence.
  - left. congruence.
Qed.
(** The states of concrete words *)
Lemma states_good : forall P vs, p_caseSensitive P = true ->
  forallb (fun k => match state_of P (firstn k vs) with Ok _ => true | _ => false end) (seq 0 (S (length vs))) = true -> good P true vs.
Proof.
  intros P vs Hc H k. rewrite forallb_forall in H.
  assert (K : exists j, (j <= length vs)%nat /\ firstn k vs = firstn j vs).
  { destruct (le_lt_dec k (length vs)); [now exists k|]. exists (length vs). split; auto. rewrite !firstn_all2; auto. lia. }
  destruct K as (j & Hj & ->). specialize (H j). destruct (state_of P (firstn j vs)) as [st| | | |];
  [|discriminate H; apply in_seq; lia ..]. exists st. split; auto. unfold beCaseSensitive. now rewrite Hc.
Qed.
Definition entryb (P : processor) (vs : list Z) (k : nat) : bool :=
  match state_of P (firstn k vs) with Ok st => isFinal (all_finals P) st | _ => false end.
Definition aliveb (P : processor) (vs : list Z) (k : nat) : bool :=
  match state_of P (firstn k vs) with Ok (_ :: _) => true | _ => false end.
Lemma entryb_iff : forall P vs k, good P true vs -> (entryb P vs k = true <-> accepting P true (all_finals P) (firstn k vs)).
Proof.
  intros P vs k G. destruct (G k) as (st & E & _). unfold entryb. rewrite E. exact (state_accepting P true _ _ _ (good_firstn P true vs k G) E).
Qed.
Lemma aliveb_iff : forall P vs k, good P true vs -> (aliveb P vs k = true <-> living P true (firstn k vs)).
Proof.
  intros P vs k G. destruct (G k) as (st & E & _). unfold aliveb. rewrite E.
  rewrite <- (state_living P true _ _ (good_firstn P true vs k G) E). destruct st; split; congruence.
Qed.
Lemma entry_by : forall P vs k, good P true vs -> (0 < k <= length vs)%nat -> entryb P vs k = true ->
  forallb (fun j => negb (entryb P vs j)) (seq (S k) (length vs - k)) = true -> last_entry P true vs k.
Proof.
  intros P vs k G Hk H1 H2. split; [exact Hk|]. split; [now apply entryb_iff|]. intros j Hj K. apply (entryb_iff _ _ _ G) in K.
  rewrite forallb_forall in H2. specialize (H2 j ltac:(apply in_seq; lia)). rewrite K in H2. discriminate.
Qed.
Lemma read_by : forall P vs m, good P true vs -> (m <= length vs)%nat -> aliveb P vs m = true ->
  forallb (fun j => negb (aliveb P vs j)) (seq (S m) (length vs - m)) = true -> last_read P true vs m.
Proof.
  intros P vs k G Hk H1 H2. split; [exact Hk|]. split; [now apply aliveb_iff|]. intros j Hj K. apply (aliveb_iff _ _ _ G) in K.
  rewrite forallb_forall in H2. specialize (H2 j ltac:(apply in_seq; lia)). rewrite K in H2. discriminate.
Qed.

(** The symbols between the known beginning and the point where the dictionary gives up are
    lost: here the 'b' of the word abd<n>, of which a is known. *)
Theorem C72_gap_refuted : exists P vs, p_caseSensitive P = true
  /\ Forall2 (names (p_alpha P)) [[97]; [98]; [100]; txt "<n>"] vs /\ symbols_of (txt "abd<n>") [[97]; [98]; [100]; txt "<n>"]
  /\ last_entry P true vs 1 /\ last_read P true vs 2 /\ translated_as P true (firstn 1 vs) false false [txt "x"]
  /\ biltransWithQueue P (txt "^abd<n>.$") true = Ok (txt "^xd<n>$", 4).
Proof.
  exists (small_dix true), [97; 98; 100; -3]. split; [reflexivity|]. split.
  { constructor; [left; eauto|]. constructor; [left; eauto|]. constructor; [left; eauto|]. constructor; [|constructor].
    right. left. split; [discriminate|now left]. }
  split.
  { assert (F : forall c r, is_lead c = false -> first_cp [c] r).
    { intros c r H. left. exists c. split; auto. intros [K _]. congruence. }
    change (txt "abd<n>") with ([97] ++ [98] ++ [100] ++ 60 :: [110] ++ 62 :: []).
    apply so_char; [now apply F|discriminate|discriminate|].
    apply so_char; [now apply F|discriminate|discriminate|].
    apply so_char; [now apply F|discriminate|discriminate|].
    apply (so_tag [110] [] []); [cbn; lia|constructor]. }
  assert (G : good (small_dix true) true [97; 98; 100; -3]) by (apply states_good; vm_compute; reflexivity).
  split; [apply entry_by; [exact G|cbn; lia|vm_compute; reflexivity|vm_compute; reflexivity]|].
  split; [apply read_by; [exact G|cbn; lia|vm_compute; reflexivity|vm_compute; reflexivity]|].
  split; [|vm_compute; reflexivity].
  assert (K : exists st, state_of (small_dix true) [97] = Ok st /\ isFinal (all_finals (small_dix true)) st = true
     /\ finals_array (small_dix true) false false st = Ok [txt "x"]).
  { eexists. split; [vm_compute; reflexivity|]. split; vm_compute; reflexivity. }
  destruct K as (st & E1 & E2 & E3).
  apply (state_translated (small_dix true) true isort_is_sort ltac:(reflexivity) ltac:(reflexivity) false false [97] st); auto.
  exact (good_firstn _ _ _ 1 G).
Qed.

(** A word with tags that the dictionary can read to its end but does not have is answered
    with nothing at all, instead of the mark '@'. *)
Definition deep_dix : processor :=
  sample [(0%nat, 97, 120, 1%nat); (1%nat, -3, -3, 2%nat); (2%nat, 98, 121, 3%nat)] [3%nat] true.
Theorem C72_nothing_refuted : exists P vs, p_caseSensitive P = true
  /\ Forall2 (names (p_alpha P)) [[97]; txt "<n>"] vs
  /\ (forall k, ~ last_entry P true vs k)
  /\ biltransWithQueue P (txt "^a<n>.$") true = Ok (txt "^$", 0)
  /\ biltransWithQueue P (txt "^ac<n>.$") true = Ok (txt "^@ac<n>.$", 0).
Proof.
  exists deep_dix, [97; -3]. split; [reflexivity|]. split.
  { constructor; [left; eauto|]. constructor; [|constructor]. right. left. split; [discriminate|now left]. }
  assert (G : good deep_dix true [97; -3]) by (apply states_good; vm_compute; reflexivity).
  split; [|split; vm_compute; reflexivity].
  apply no_entry. intros k Hk K. apply (entryb_iff _ _ _ G) in K. cbn [length] in Hk.
  destruct k as [|[|[|k]]]; [lia| | |lia]; vm_compute in K; discriminate K.
Qed.

(** A letter outside the basic plane counts as a tag: the beginning of a word without tags is
    translated. *)
Theorem C72_astral_refuted : exists P,
  biltransWithQueue P (txt "^abe.$") true = Ok (txt "^@abe.$", 0)
  /\ biltransWithQueue P (txt "^a" ++ [55357; 56832] ++ txt "e.$") true = Ok (txt "^x" ++ [55357; 56832] ++ txt "e$", 3).
Proof. exists (small_dix true). split; vm_compute; reflexivity. Qed.

(** Without delimiters the unit behind the end of a word of one upper-case letter is looked
    at, and that behind a lone '='. *)
Theorem C72_single_refuted : forall P c, p_isupper P c = true -> c <> 42 -> c <> 61 ->
  biltransWithQueue P [c] false = UB /\ biltransWithQueue P [61] false = UB /\ biltransWithQueue P [61; c] false = UB.
Proof.
  intros P c Hc H1 H2. assert (E1 : (c =? 42) = false) by lia. assert (E2 : (c =? 61) = false) by lia.
  assert (Q0 : queue_case P [c] 0 = UB) by (unfold queue_case; cbn [skipn]; now rewrite Hc).
  assert (Q1 : queue_case P [61; c] 1 = UB) by (unfold queue_case; cbn [skipn]; now rewrite Hc).
  split; [|split; [reflexivity|]].
  - unfold biltransWithQueue. change (Z.of_nat (length [c]) <=? 0) with false. change (nth (Z.to_nat 0) [c] 0) with c.
    rewrite E1, E2. change (Z.to_nat 0) with 0%nat. rewrite Q0. reflexivity.
  - unfold biltransWithQueue. change (Z.of_nat (length [61; c]) <=? 0) with false. change (nth (Z.to_nat 0) [61; c] 0) with 61.
    change (61 =? 42) with false. change (61 =? 61) with true. cbv iota. change (Z.to_nat (0 + 1)) with 1%nat. rewrite Q1. reflexivity.
Qed.
Example C72_single_example : p_isupper (small_dix true) 65 = true /\ biltransWithQueue (small_dix true) [65] false = UB.
Proof. split; reflexivity. Qed.

(** * Examples *)
Lemma small_known : forall b, tags_known (small_dix b).
Proof.
  intros b n i o q w H Ho. change (p_find (small_dix b)) with (arcs_find small) in H. apply arcs_in in H. cbn in H.
  repeat (destruct H as [H|H]; [injection H as <- <- <- <-; cbn; lia|]). destruct H.
Qed.
Example C72_answer_example : let P := small_dix false in
  is_sort (p_sort P) /\ tags_known P /\ eps_acyclic (p_find P)
  /\ biltransWithQueue P (txt "^Abc<n>de.$") true = Ok (txt "^Xyz<n>de$", 2)
  /\ biltransWithQueue P (txt "=ABC<n>.") false = Ok (txt "=XYZ<n>", 0)
  /\ biltransWithQueue P (txt "^abcd<n>.$") true = Ok (txt "^xd<n>$", 4)
  /\ biltransWithQueue P (txt "^abcd.$") true = Ok (txt "^@abcd.$", 0)
  /\ biltransWithQueue P (txt "^=bcd<n>.$") true = Ok (txt "^@=bcd<n>.$", 0).
Proof.
  cbv zeta. split; [exact isort_is_sort|]. split; [apply small_known|]. split.
  { exists (fun n => (10 - n)%nat). intros n o q w H. change (p_find (small_dix false)) with (arcs_find small) in H. apply arcs_in in H. cbn in H.
    repeat (destruct H as [H|H]; [discriminate H|]). destruct H. }
  repeat split; vm_compute; reflexivity.
Qed.
Example C72_marked_example : biltransWithQueue (small_dix true) (txt "^*abc$") true = Ok (txt "^*abc$", 0).
Proof. reflexivity. Qed.
Example C72_last_unit_example :
  biltransWithQueue (small_dix true) (txt "^abc<n>xp$") true = Ok (txt "^xyz<n>x$", 1)
  /\ biltransWithQueue (small_dix true) (txt "^abc<n>xq$") true = Ok (txt "^xyz<n>x$", 1).
Proof. split; vm_compute; reflexivity. Qed.

Print Assumptions C72_answer.
Print Assumptions C72_marked.
Print Assumptions C72_number.
Print Assumptions C72_last_unit_refuted.
Print Assumptions C72_gap_refuted.
Print Assumptions C72_nothing_refuted.
Print Assumptions C72_astral_refuted.
Print Assumptions C72_single_refuted.
