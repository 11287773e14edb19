(** C85, C86 and C87: command lines, what lt-proc does, and the files the programs use. *)
From Verif Require Import Base GenerationModel CliModel CliSpec CliProofs CliProcProofs.
From Coq Require String Ascii.
Import String.StringSyntax.

(** * C85: reading a command line *)
(** The tables of all programs *)
Definition programs : list (list copt) :=
  [proc_opts; comp_opts; expand_opts; merge_opts; append_opts; compose_opts; invert_opts; paradigm_opts;
   print_opts; restrict_opts; tmxproc_opts; trim_opts; acx_opts].
Fixpoint distinct {A : Type} (dec : forall a b : A, {a = b} + {a <> b}) (l : list A) : bool :=
  match l with [] => true | a :: r => negb (if in_dec dec a r then true else false) && distinct dec r end.
Lemma distinct_sound : forall (A : Type) dec (l : list A), distinct dec l = true -> NoDup l.
Proof.
  intros A dec. induction l as [|a l IH]; intro H; [constructor|]. cbn [distinct] in H.
  apply andb_prop in H. destruct H as [H1 H2]. constructor; [|now apply IH].
  destruct (in_dec dec a l); [discriminate H1|assumption].
Qed.
Theorem C85_tables : Forall table_ok programs.
Proof.
  assert (F : forall os, distinct Z.eq_dec (map short os) = true -> distinct (list_eq_dec Z.eq_dec) (map long os) = true ->
          forallb (fun o => negb (short o =? 45) && negb (arg_eqb (long o) []) && negb (existsb (Z.eqb 61) (long o))) os = true ->
          table_ok os).
  { intros os D1 D2 G. split; [now apply distinct_sound in D1|]. split; [now apply distinct_sound in D2|].
    apply Forall_forall. intros o I. rewrite forallb_forall in G. specialize (G o I).
    apply andb_prop in G. destruct G as [G G3]. apply andb_prop in G. destruct G as [G1 G2].
    repeat apply conj.
    - intro E. rewrite E in G1. discriminate G1.
    - intro E. rewrite E in G2. discriminate G2.
    - intro E. rewrite (proj2 (existsb_exists (Z.eqb 61) (long o))) in G3; [discriminate G3|]. now exists 61. }
  unfold programs. repeat (apply Forall_cons; [apply F; vm_compute; reflexivity|]). apply Forall_nil.
Qed.

(** A command line of any form is read as it is meant: the options given are set, each has its
    values in order, and the operands are the files, filled up with empty names. *)
Theorem C85_read : forall os fs args ws,
  table_ok os -> line os args ws -> calm ws ->
  ((required fs <= length (wished_files ws) <= length fs)%nat ->
   exists t, parse_args os fs args = Ok (Parsed t)
    /\ (forall o, In o os -> is_set (long o) t = true <-> In (Flag o) ws)
    /\ (forall o, In o os -> wished_values o ws (find_strs (long o) (strs t)))
    /\ length (operands t) = length fs
    /\ (forall n, file_at n t = nth n (wished_files ws) []))
  /\ (~ (required fs <= length (wished_files ws) <= length fs)%nat -> parse_args os fs args = Ok (Usage false)).
Proof.
  intros os fs args ws K L C. destruct (line_scan os K args ws L C) as [t [E (HB & HV & HF)]].
  assert (M : min_file_args fs = required fs).
  { clear. unfold min_file_args, required. induction fs as [|[] fs IH]; cbn; auto. }
  unfold parse_args. rewrite E. cbn [obind]. rewrite HF, M. split; intro R.
  - destruct ((length (wished_files ws) <? required fs)%nat || (length fs <? length (wished_files ws))%nat) eqn:X; [lia|].
    eexists. split; [reflexivity|]. split; [exact HB|]. split; [exact HV|]. cbn [operands]. split.
    + rewrite app_length, repeat_length. lia.
    + intro n. unfold file_at. cbn [operands].
      destruct (Nat.lt_ge_cases n (length (wished_files ws))) as [J|J]; [now rewrite app_nth1|].
      rewrite app_nth2, (nth_overflow (wished_files ws)) by lia.
      generalize (n - length (wished_files ws))%nat. generalize (length fs - length (wished_files ws))%nat.
      clear. induction n as [|n IH]; intros [|k]; cbn; auto.
  - destruct ((length (wished_files ws) <? required fs)%nat || (length fs <? length (wished_files ws))%nat) eqn:X; [reflexivity|lia].
Qed.

(** The first option that ends the program ends it, whatever follows; otherwise the first
    mistake does, with the usage. *)
Theorem C85_ends : forall os fs args ws w r us rest,
  table_ok os -> items os args (ws ++ w :: us) -> calm ws -> wish_ends w r ->
  parse_args os fs (args ++ rest) = Ok r.
Proof.
  intros os fs args ws w r us rest K L C X.
  pose proof (items_proper os args _ L) as Pr. apply Forall_app in Pr. destruct Pr as [Pw Pr].
  inversion Pr as [|w' us' Pw' _]; subst.
  destruct (do_all_holds os K ws [] _ Pw C (holds_nil os)) as [t [E _]].
  unfold parse_args. rewrite (items_scan os K args _ L), do_all_app, E. cbn [do_all].
  assert (D : do1 os w t = inr r).
  { destruct w as [o|o v|x]; cbn [do1 wish_ends proper] in *; [| |destruct X];
      apply (ends_answer os K); auto; apply Pw'. }
  rewrite D. cbn [obind]. destruct r; auto. destruct w as [o|o v|x]; inversion X.
Qed.
Theorem C85_refused : forall os fs args ws bad vs,
  table_ok os -> items os args ws -> calm ws -> wrong os bad vs -> calm vs ->
  parse_args os fs (args ++ bad) = Ok (Usage false).
Proof.
  intros os fs args ws bad vs K L C W Cv.
  destruct (do_all_holds os K ws [] _ (items_proper os args ws L) C (holds_nil os)) as [t [E H]].
  assert (Pv : Forall (proper os) vs).
  { destruct W as [cs vs c x rest F _ _|cs vs o F _|o _|o v rest _]; try apply Forall_nil; now apply (flags_proper os) with cs. }
  destruct (do_all_holds os K vs _ _ Pv Cv H) as [u [E' _]].
  unfold parse_args. rewrite (items_scan os K args ws L), E, (wrong_scan os K bad vs W), E'. reflexivity.
Qed.

(** A long option that is not written out in full (cut short, mistyped or unknown) is looked up
    behind the end of the table. *)
Theorem C85_names_refuted : forall os fs args ws name rest,
  table_ok os -> os <> [] -> items os args ws -> calm ws ->
  name <> [] -> (forall n v, name = n \/ name = n ++ [61] ++ v -> ~ In 61 n -> ~ In n (map long os)) ->
  parse_args os fs (args ++ ([45; 45] ++ name) :: rest) = UB.
Proof.
  intros os fs args ws name rest K N L C Nn Un.
  destruct (do_all_holds os K ws [] _ (items_proper os args ws L) C (holds_nil os)) as [t [E _]].
  unfold parse_args. rewrite (items_scan os K args ws L), E, (name_scan os name rest t Nn N).
  destruct (in_dec Z.eq_dec 61 name) as [I|I].
  - assert (D : exists n v, name = n ++ [61] ++ v /\ ~ In 61 n).
    { clear - I. induction name as [|c name IH]; [destruct I|]. destruct (Z.eq_dec c 61) as [->|D].
      - exists [], name. split; [reflexivity|auto].
      - destruct I as [I|I]; [congruence|]. destruct (IH I) as [n [v [-> J]]]. exists (c :: n), v. split; [reflexivity|].
        intros [X|X]; [congruence|auto]. }
    destruct D as [n [v [D J]]]. rewrite D, (to_equals_some n v J), (by_long_out os n); [reflexivity|].
    apply (Un n v); auto.
  - rewrite (to_equals_none name I), (by_long_out os name); [reflexivity|]. apply (Un name []); auto.
Qed.

(** lt-comp lr -jm a.dix --var-right nl -- -out *)
Example C85_read_example :
  match parse_args comp_opts comp_files
      [str "lr"; str "-jm"; str "a.dix"; str "--var-right"; str "nl"; str "-vx"; str "--var=y"; str "--"; str "-out"] with
  | Ok (Parsed t) =>
      ([is_set (str "jobs") t; is_set (str "keep-boundaries") t; is_set (str "debug") t],
       find_strs (str "var-right") (strs t), find_strs (str "var") (strs t), operands t)
      = ([true; true; false], [str "nl"], [str "x"; str "y"], [str "lr"; str "a.dix"; str "-out"; []])
  | _ => False
  end.
Proof. vm_compute. reflexivity. Qed.
Example C85_read_nontrivial :
  exists ws, line comp_opts [str "lr"; str "-jm"; str "a.dix"; str "--var-right"; str "nl"; str "--"; str "-out"] ws
    /\ calm ws /\ wished_files ws = [str "lr"; str "a.dix"; str "-out"].
Proof.
  exists ([Operand (str "lr")] ++ [Flag (B 106 "jobs"); Flag (B 109 "keep-boundaries")] ++ [Operand (str "a.dix")]
          ++ [Value (S_ 114 "var-right") (str "nl")] ++ [] ++ map Operand [str "-out"]).
  split; [|split; [|reflexivity]].
  - apply (ln_dashes comp_opts ([str "lr"] ++ [str "-jm"] ++ [str "a.dix"] ++ [str "--var-right"; str "nl"] ++ [])
             ([Operand (str "lr")] ++ [Flag (B 106 "jobs"); Flag (B 109 "keep-boundaries")] ++ [Operand (str "a.dix")]
              ++ [Value (S_ 114 "var-right") (str "nl")] ++ []) [str "-out"]).
    apply is_more; [apply it_operand; right; right; discriminate|].
    apply is_more; [apply (it_flags comp_opts [106; 109]); [discriminate|]|].
    { apply (fl_one comp_opts (B 106 "jobs")); [split; [cbn; auto 20|reflexivity]|].
      apply (fl_one comp_opts (B 109 "keep-boundaries")); [split; [cbn; auto 20|reflexivity]|]. apply fl_none. }
    apply is_more; [apply it_operand; right; right; discriminate|].
    apply is_more; [apply (it_long_next comp_opts (S_ 114 "var-right")); split; [cbn; auto 20|reflexivity]|]. apply is_none.
  - repeat (apply Forall_cons || apply Forall_nil); intros r X; cbn [wish_ends] in X; inversion X; discriminate.
Qed.
(** lt-expand --help, lt-proc --gen, lt-proc -h, lt-proc -zvq, lt-proc -zq, lt-comp -v *)
Example C85_ends_example :
  parse_args expand_opts expand_files [str "--help"] = UB
  /\ parse_args proc_opts proc_files [str "--gen"; str "x.bin"] = UB
  /\ parse_args proc_opts proc_files [str "-h"; str "--gen"] = Ok (Usage true)
  /\ parse_args proc_opts proc_files [str "-zvq"] = Ok Version
  /\ parse_args proc_opts proc_files [str "-zq"; str "x.bin"] = Ok (Usage false)
  /\ parse_args comp_opts comp_files [str "lr"; str "a"; str "b"; str "-v"] = Ok (Usage false)
  /\ parse_args acx_opts [false; true; true] [str "--help"] = Ok (Usage false).
Proof. vm_compute. auto 10. Qed.

(** * C86: what lt-proc does *)
Theorem C86_task : forall args ws,
  line proc_opts args ws -> calm ws -> (1 <= length (wished_files ws) <= 3)%nat ->
  (at_odds ws -> lt_proc_begin args = Ok (Stops (Usage false)))
  /\ (~ at_odds ws -> forall n l m,
      limited (S_ 78 "analyses") ws n -> limited (S_ 76 "weight-classes") ws l ->
      limited (S_ 77 "compound-max-elements") ws m ->
      exists j, lt_proc_begin args = Ok (Runs j) /\ decided ws (task_of j)
        /\ (j_surface j = true <-> In (Flag (B 111 "surf-bilingual")) ws)
        /\ (j_keep j = true <-> In (Flag (B 79 "surf-bilingual-keep")) ws)
        /\ (j_case j = true <-> In (Flag (B 99 "case-sensitive")) ws)
        /\ (j_weights j = true <-> In (Flag (B 87 "show-weights")) ws)
        /\ (j_flush j = true <-> In (Flag (B 122 "null-flush")) ws)
        /\ (j_dictcase j = true <-> In (Flag (B 119 "dictionary-case")) ws)
        /\ wished_values (S_ 105 "ignored-chars") ws (j_icx j)
        /\ wished_values (S_ 114 "restore-chars") ws (j_rcx j)
        /\ (j_default j = true <-> ~ In (Flag (B 73 "no-default-ignore")) ws /\ wished_values (S_ 114 "restore-chars") ws [])
        /\ (j_analyses j, j_classes j, j_elements j) = (n, l, m)
        /\ (j_fst j, j_in j, j_out j)
           = (nth 0 (wished_files ws) [], nth 1 (wished_files ws) [], nth 2 (wished_files ws) [])).
Proof.
  intros args ws L C R.
  assert (K : table_ok proc_opts) by (pose proof C85_tables as T; inversion T; assumption).
  destruct (proj1 (C85_read proc_opts proc_files args ws K L C) R) as [t (E & HB & HV & _ & HF)].
  assert (H : holds proc_opts ws (mkTaken (bools t) (strs t) (wished_files ws))).
  { split; [exact HB|]. split; [exact HV|reflexivity]. }
  assert (A : forall c, asked ws c <-> cb t c = true).
  { intro c. rewrite (asked_iff ws _ H c). reflexivity. }
  assert (O : at_odds ws <-> odd_pair (cb t)).
  { unfold at_odds, odd_pair. split; intros (c & d & Ac & Ad & X); exists c, d; apply A in Ac; apply A in Ad; auto. }
  assert (Q : choose t = match main_f (cb t) with
                         | None => None
                         | Some x => Some (kind_of (is_set (str "debugged-gen") t) (is_set (str "tagged-gen") t)
                             (is_set (str "tagged-nm-gen") t) (is_set (str "non-marked-gen") t) (is_set (str "careful-case") t) x)
                         end).
  { rewrite (choose_7 t). reflexivity. }
  unfold lt_proc_begin. rewrite E. cbn [obind]. unfold proc_job. rewrite Q. split.
  - intro X. apply O in X. now rewrite (odd_none _ X).
  - intros X n l m Ln Ll Lm.
    destruct (even_some (cb t)) as [x [Y W]]; [intro Z; apply X, O, Z|]. rewrite Y.
    destruct (kind_strongest ws _ H) as [v [V Kv]]. cbv zeta in Kv. specialize (Kv x).
    unfold is_set in Kv at 1 2 3 4 5. cbn [bools] in Kv. fold (is_set (str "debugged-gen") t) in Kv.
    fold (is_set (str "tagged-gen") t) in Kv. fold (is_set (str "tagged-nm-gen") t) in Kv.
    fold (is_set (str "non-marked-gen") t) in Kv. fold (is_set (str "careful-case") t) in Kv. rewrite Kv.
    assert (In78 : In (S_ 78 "analyses") proc_opts) by (cbn; auto 40).
    assert (In76 : In (S_ 76 "weight-classes") proc_opts) by (cbn; auto 40).
    assert (In77 : In (S_ 77 "compound-max-elements") proc_opts) by (cbn; auto 40).
    pose proof (limit_ok _ _ _ _ _ H In78 Ln) as E1. pose proof (limit_ok _ _ _ _ _ H In76 Ll) as E2.
    pose proof (limit_ok _ _ _ _ _ H In77 Lm) as E3.
    assert (G1 : limit (str "analyses") t = Ok n) by exact E1.
    assert (G2 : limit (str "weight-classes") t = Ok l) by exact E2.
    assert (G3 : limit (str "compound-max-elements") t = Ok m) by exact E3.
    rewrite G1, G2, G3. cbn [obind]. eexists. split; [reflexivity|].
    assert (HB' : forall c s, In (B c s) proc_opts -> is_set (str s) t = true <-> In (Flag (B c s)) ws) by (intros c s; apply (HB (B c s))).
    split.
    { unfold task_of. cbn [j_cmd j_mode].
      destruct W as [N|T G|T G|T G|T|T|T|T|T]; cbn [fst snd].
      - assert (N' : forall c, ~ asked ws c) by (intros c Ac; apply A in Ac; rewrite N in Ac; discriminate Ac).
        destruct v as [k|]; [exact (dc_kind ws k N' V)|exact (dc_default ws N' V)].
      - assert (Z : decided ws (Transfers (or_mode v gm_unknown))).
        { apply dc_transfer; [now apply A| |exact V]. intro Y'. apply A in Y'. congruence. }
        now destruct v.
      - assert (Z : decided ws (Transfers (or_mode v gm_bilgen))) by (apply dc_bilgen; [now apply A|now apply A|exact V]).
        now destruct v.
      - assert (Z : decided ws (Generates (or_mode v gm_unknown))).
        { apply dc_generation; [now apply A| |exact V]. intro Y'. apply A in Y'. congruence. }
        now destruct v.
      - apply A in T. destruct v; exact (dc_analysis ws T).
      - apply A in T. destruct v; exact (dc_decomposition ws T).
      - apply A in T. destruct v; exact (dc_postgeneration ws T).
      - apply A in T. destruct v; exact (dc_transliteration ws T).
      - apply A in T. destruct v; exact (dc_annotation ws T). }
    cbn [j_surface j_keep j_case j_weights j_flush j_dictcase j_icx j_rcx j_default j_analyses j_classes j_elements j_fst j_in j_out].
    split; [apply HB'; cbn; auto 40|]. split; [apply HB'; cbn; auto 40|]. split; [apply HB'; cbn; auto 40|].
    split; [apply HB'; cbn; auto 40|]. split; [apply HB'; cbn; auto 40|]. split; [apply HB'; cbn; auto 40|].
    assert (V1 : wished_values (S_ 105 "ignored-chars") ws (find_strs (str "ignored-chars") (strs t))) by (apply (HV (S_ 105 "ignored-chars")); cbn; auto 40).
    assert (V2 : wished_values (S_ 114 "restore-chars") ws (find_strs (str "restore-chars") (strs t))) by (apply (HV (S_ 114 "restore-chars")); cbn; auto 40).
    split; [exact V1|]. split; [exact V2|]. split; [|split; [reflexivity|now rewrite !HF]].
    rewrite <- (HB' 73 "no-default-ignore"%string) by (cbn; auto 40).
    destruct (find_strs (str "restore-chars") (strs t)) as [|f fs].
    + destruct (is_set (str "no-default-ignore") t); cbn [negb]; split; intro Z.
      * discriminate Z.
      * destruct Z as [Z _]. now exfalso.
      * split; [intro Z'; discriminate Z'|exact V2].
      * reflexivity.
    + split; intro Z; [discriminate Z|]. destruct Z as [_ Z]. pose proof (values_unique _ _ _ Z _ V2) as Z'. discriminate Z'.
Qed.
(** There is one thing to do, unless commands are at odds. *)
Lemma strongest_unique : forall ws l v, strongest ws l v -> forall u, strongest ws l u -> u = v.
Proof.
  intros ws l v H. induction H as [|o m r I|o m r x N H IH]; intros u G; inversion G; subst; auto; contradiction.
Qed.
Theorem C86_one : forall ws a b, ~ at_odds ws -> decided ws a -> decided ws b -> a = b.
Proof.
  intros ws a b N A B'.
  assert (O : forall c d, asked ws c -> asked ws d -> c = d \/ (c = Transfer /\ d = Generation) \/ (c = Generation /\ d = Transfer)).
  { intros c d Ac Ad. destruct c, d; auto; exfalso; apply N; eexists; eexists; split; try exact Ac; split; try exact Ad;
      (split; [intro X; discriminate X|split; intros [X Y]; first [discriminate X|discriminate Y]]). }
  assert (U : forall v u, strongest ws kinds v -> strongest ws kinds u -> u = v) by (intros; eapply strongest_unique; eauto).
  destruct A, B';
    repeat match goal with
           | V : strongest ws kinds ?v, W : strongest ws kinds ?u |- _ =>
               first [is_var u; pose proof (U v u V W); subst u; clear W|pose proof (U v u V W) as Z; clear W; try discriminate Z; try (injection Z as Z; subst)]
           end;
    try reflexivity; try contradiction;
    try (exfalso; match goal with X : forall c, ~ asked ws c, Y : asked ws ?d |- _ => exact (X d Y) end);
    try (exfalso; match goal with X : asked ws ?c, Y : asked ws ?d |- _ =>
           destruct (O c d X Y) as [E|[[E F]|[E F]]]; first [discriminate E|discriminate F] end).
Qed.
Example C86_task_example :
  let job_of l := match lt_proc_begin l with Ok (Runs j) => Some (task_of j, j_analyses j, j_flush j, j_fst j, j_in j) | _ => None end in
  job_of [str "-zgb"; str "x.bin"; str "-N5"; str "--analyses=12"; str "in"]
    = Some (Transfers gm_bilgen, Some 12, true, str "x.bin", str "in")
  /\ job_of [str "x.bin"; str "-n"] = Some (Generates gm_clean, None, false, str "x.bin", [])
  /\ job_of [str "-W"; str "x.bin"] = Some (Analyses, None, false, str "x.bin", [])
  /\ lt_proc_begin [str "-ap"; str "x.bin"] = Ok (Stops (Usage false))
  /\ lt_proc_begin [str "-N0"; str "x.bin"] = Exit.
Proof. vm_compute. auto 10. Qed.

(** Options that contradict each other are not refused: kinds of generation given with another
    command are ignored, and of two kinds one is ignored, whatever their order. *)
Theorem C86_kinds_refuted :
  let task l := match lt_proc_begin l with Ok (Runs j) => Some (task_of j) | _ => None end in
  task [str "-a"; str "-n"; str "x.bin"] = Some Analyses
  /\ task [str "-p"; str "--debugged-gen"; str "x.bin"] = Some Postgenerates
  /\ task [str "-n"; str "-d"; str "x.bin"] = Some (Generates gm_clean)
  /\ task [str "-d"; str "-n"; str "x.bin"] = Some (Generates gm_clean)
  /\ task [str "-g"; str "-b"; str "-l"; str "x.bin"] = Some (Transfers gm_tagged).
Proof. vm_compute. auto 10. Qed.
(** Limits that are no numbers: what follows the digits is ignored; too large a number is
    undefined behaviour. *)
Theorem C86_numbers_refuted : forall rest, 
  (forall c r, rest = c :: r -> c < 48 \/ 57 < c) ->
  match lt_proc_begin [str "-N"; str "7" ++ rest; str "x.bin"] with
  | Ok (Runs j) => j_analyses j = Some 7 /\ task_of j = Analyses
  | _ => False
  end
  /\ lt_proc_begin [str "-N"; str "2147483648"; str "x.bin"] = UB.
Proof.
  intros rest N. split; [|vm_compute; reflexivity].
  assert (E : atoi (str "7" ++ rest) = Ok 7).
  { change (atoi (48 + 7 :: rest) = Ok 7). rewrite digit_atoi by lia. cbv zeta.
    assert (D : digits (48 + 7 :: rest) 0 = 7).
    { change (digits rest 7 = 7). destruct rest as [|c r]; [reflexivity|]. cbn [digits].
      specialize (N c r eq_refl). now replace ((48 <=? c) && (c <=? 57)) with false by lia. }
    rewrite D. reflexivity. }
  assert (P : exists t, parse_args proc_opts proc_files [str "-N"; str "7" ++ rest; str "x.bin"] = Ok (Parsed t)
              /\ t = mkTaken [] [(str "analyses", [str "7" ++ rest])] [str "x.bin"; []; []]).
  { eexists. split; [vm_compute; reflexivity|reflexivity]. }
  destruct P as [t [P T]]. unfold lt_proc_begin. rewrite P. cbn [obind]. unfold proc_job.
  assert (Ch : choose t = Some (0, gm_unknown)) by (subst t; vm_compute; reflexivity). rewrite Ch.
  assert (L1 : limit (str "analyses") t = Ok (Some 7)).
  { unfold limit. replace (find_strs (str "analyses") (strs t)) with [str "7" ++ rest] by (subst t; vm_compute; reflexivity).
    cbn [last]. rewrite E. reflexivity. }
  assert (L2 : limit (str "weight-classes") t = Ok None) by (subst t; vm_compute; reflexivity).
  assert (L3 : limit (str "compound-max-elements") t = Ok None) by (subst t; vm_compute; reflexivity).
  rewrite L1, L2, L3. split; reflexivity.
Qed.

(** * C87: the files named *)
(** lt-proc reads the dictionary and writes the output where it should *)
Theorem C87_proc : forall args ws j,
  line proc_opts args ws -> calm ws -> lt_proc_begin args = Ok (Runs j) ->
  (forall f, In f (wished_files ws) -> f <> []) ->
  exists d i o, proc_streams j = (d, i, o)
    /\ meant (wished_files ws) 0 d /\ meant (wished_files ws) 2 o
    /\ (nth_error (wished_files ws) 1 <> Some [45] -> meant (wished_files ws) 1 i).
Proof.
  intros args ws j L C Bj NE.
  assert (K : table_ok proc_opts) by (pose proof C85_tables as T; inversion T; assumption).
  destruct (C85_read proc_opts proc_files args ws K L C) as [R1 R2].
  assert (R : (1 <= length (wished_files ws) <= 3)%nat).
  { destruct (le_dec 1 (length (wished_files ws))); [destruct (le_dec (length (wished_files ws)) 3); [lia|]|];
      exfalso; unfold lt_proc_begin in Bj; rewrite R2 in Bj by (cbn; lia); discriminate Bj. }
  destruct (R1 R) as [t (E & _ & _ & _ & HF)].
  assert (J : (j_fst j, j_in j, j_out j) = (file_at 0 t, file_at 1 t, file_at 2 t)).
  { unfold lt_proc_begin in Bj. rewrite E in Bj. cbn [obind] in Bj. unfold proc_job in Bj.
    destruct (choose t) as [[cmd md]|]; [|discriminate Bj].
    destruct (limit (str "analyses") t); try discriminate Bj. cbn [obind] in Bj.
    destruct (limit (str "weight-classes") t); try discriminate Bj. cbn [obind] in Bj.
    destruct (limit (str "compound-max-elements") t); try discriminate Bj. cbn [obind] in Bj.
    injection Bj as <-. reflexivity. }
  injection J as J0 J1 J2. unfold proc_streams. rewrite J0, J1, J2, !HF.
  assert (M : forall n, meant (wished_files ws) n (bin_or_out (nth n (wished_files ws) []))).
  { intro n. destruct (nth_error (wished_files ws) n) as [f|] eqn:F.
    - assert (Z : nth n (wished_files ws) [] = f) by (apply nth_error_nth; exact F). rewrite Z.
      pose proof (NE f (nth_error_In _ _ F)) as Nf.
      destruct (list_eq_dec Z.eq_dec f [45]) as [->|Nd]; [now apply mt_dash|].
      assert (X : bin_or_out f = Named f).
      { destruct f as [|c [|d f]]; [congruence| |]; cbn [bin_or_out]; destruct c as [|p|p]; try reflexivity;
          do 6 (destruct p; try reflexivity). congruence. }
      rewrite X. now apply mt_named.
    - apply nth_error_None in F. rewrite nth_overflow by lia. now apply mt_missing. }
  eexists. eexists. eexists. split; [reflexivity|]. split; [apply M|]. split; [apply M|].
  intro D. specialize (M 1%nat). destruct (nth_error (wished_files ws) 1) as [f|] eqn:F.
  - assert (Z : nth 1 (wished_files ws) [] = f) by (apply nth_error_nth; exact F). rewrite Z.
    pose proof (NE f (nth_error_In _ _ F)) as Nf.
    assert (X : text_in f = Named f) by (destruct f; [congruence|reflexivity]). rewrite X.
    apply mt_named; [exact F|exact Nf|]. intro Y. apply D. now rewrite Y.
  - apply nth_error_None in F. rewrite nth_overflow by lia. now apply mt_missing.
Qed.
(** ... but a text "-" is a file of that name, though "-" is the standard output *)
Theorem C87_dash_refuted :
  match lt_proc_begin [str "x.bin"; str "-"; str "-"] with
  | Ok (Runs j) => proc_streams j = (Named (str "x.bin"), Named (str "-"), Std)
  | _ => False
  end.
Proof. vm_compute. reflexivity. Qed.
(** lt-merge with two files, or none *)
Theorem C87_merge : forall args ws,
  line merge_opts args ws -> calm ws -> (length (wished_files ws) <= 2)%nat ->
  length (wished_files ws) <> 1%nat -> (forall f, In f (wished_files ws) -> f <> [] /\ f <> [45]) ->
  exists u i o, lt_merge_begin args = Ok (inr (u, i, o))
    /\ (u = true <-> In (Flag (B 117 "unmerge")) ws)
    /\ meant (wished_files ws) 0 i /\ meant (wished_files ws) 1 o.
Proof.
  intros args ws L C R N1 NE.
  assert (K : table_ok merge_opts).
  { pose proof C85_tables as T. rewrite Forall_forall in T. apply T. unfold programs. cbn [In]. auto 10. }
  destruct (proj1 (C85_read merge_opts merge_files args ws K L C)) as [t (E & HB & _ & _ & HF)]; [cbn; lia|].
  unfold lt_merge_begin. rewrite E. cbn [obind]. rewrite !HF.
  eexists. eexists. eexists. split; [reflexivity|]. split; [apply (HB (B 117 "unmerge")); cbn; auto|].
  destruct (wished_files ws) as [|f [|g [|h r]]]; cbn [length] in *; try lia; cbn [nth].
  - split; apply mt_missing; cbn; lia.
  - destruct (NE f (or_introl eq_refl)) as [F1 F2]. destruct (NE g (or_intror (or_introl eq_refl))) as [G1 G2].
    assert (X : bin_or_out g = Named g).
    { destruct g as [|c [|d g]]; [congruence| |]; cbn [bin_or_out]; destruct c as [|p|p]; try reflexivity;
        do 6 (destruct p; try reflexivity). congruence. }
    rewrite X. destruct g as [|c g]; [congruence|]. split; apply mt_named; auto.
Qed.
(** With one file, lt-merge does not read it but the standard input. *)
Theorem C87_merge_refuted : forall f, hd 0 f <> 45 ->
  lt_merge_begin [f] = Ok (inr (false, Std, Std)).
Proof.
  intros f H. unfold lt_merge_begin, parse_args. rewrite operand_scan by auto. reflexivity.
Qed.
Example C87_merge_example :
  lt_merge_begin [str "-u"; str "a.txt"; str "b.txt"] = Ok (inr (true, Named (str "a.txt"), Named (str "b.txt")))
  /\ lt_merge_begin [str "a.txt"; str "-"] = Ok (inr (false, Named (str "a.txt"), Std))
  /\ lt_merge_begin [] = Ok (inr (false, Std, Std)).
Proof. vm_compute. auto. Qed.

Print Assumptions C85_tables.
Print Assumptions C85_read.
Print Assumptions C85_ends.
Print Assumptions C85_refused.
Print Assumptions C85_names_refuted.
Print Assumptions C86_task.
Print Assumptions C86_one.
Print Assumptions C86_kinds_refuted.
Print Assumptions C86_numbers_refuted.
Print Assumptions C87_proc.
Print Assumptions C87_dash_refuted.
Print Assumptions C87_merge.
Print Assumptions C87_merge_refuted.
