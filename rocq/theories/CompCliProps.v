(** C89 and C90: the command lines of lt-comp and lt-tmxcomp. *)
From Verif Require Import Base GenerationModel CliModel CliSpec CliProofs CliProcProofs CliProps CompCliModel.
From Coq Require String Ascii.
Import String.StringSyntax.

(** * Specification of lt-comp *)
(** what is compiled, by the direction, the kind of file, and the file of equivalent characters *)
Inductive compiled (files : list arg) : beginning -> source -> Prop :=
| cd_lr : nth_error files 0 = Some (str "lr") -> nth_error files 3 = None -> compiled files Markup (Dix LR None)
| cd_lr_acx x : nth_error files 0 = Some (str "lr") -> nth_error files 3 = Some x -> x <> [] ->
    compiled files Markup (Dix LR (Some x))
| cd_lr_noname : nth_error files 0 = Some (str "lr") -> nth_error files 3 = Some [] -> compiled files Markup (Dix LR None)
| cd_rl : nth_error files 0 = Some (str "rl") -> compiled files Markup (Dix RL None)
| cd_u : nth_error files 0 = Some (str "u") -> compiled files Markup (Dix U None)
| cd_att d : nth_error files 0 = Some d -> d = str "lr" \/ d = str "u" -> compiled files NoMarkup (Att false)
| cd_att_rl : nth_error files 0 = Some (str "rl") -> compiled files NoMarkup (Att true).
(** what is refused: no direction; the variant of the side that is not generated *)
Inductive improper (ws : list wish) : Prop :=
| im_mode d : nth_error (wished_files ws) 0 = Some d -> ~ In d [str "lr"; str "rl"; str "u"] -> improper ws
| im_left v : nth_error (wished_files ws) 0 = Some (str "lr") -> In (Value (S_ 108 "var-left") v) ws -> improper ws
| im_right v : nth_error (wished_files ws) 0 = Some (str "rl") -> In (Value (S_ 114 "var-right") v) ws -> improper ws.
(** the first value of an option *)
Inductive first_wish (o : copt) (ws : list wish) : option arg -> Prop :=
| fw_none : (forall v, ~ In (Value o v) ws) -> first_wish o ws None
| fw_some a v b : ws = a ++ [Value o v] ++ b -> (forall x, ~ In (Value o x) a) -> first_wish o ws (Some v).
(** sections are compiled in parallel by -j or if LT_JOBS has a value that does not begin with n *)
Definition in_parallel (ws : list wish) (lt_jobs : option arg) : Prop :=
  In (Flag (B 106 "jobs")) ws \/ exists v, lt_jobs = Some v /\ forall r, v <> 110 :: r.
Inductive section_size (ws : list wish) (lt_jobs : option arg) : option arg -> Z -> Prop :=
| ss_parallel : in_parallel ws lt_jobs -> section_size ws lt_jobs None 50000
| ss_whole : ~ in_parallel ws lt_jobs -> section_size ws lt_jobs None 0
| ss_said v n : decimal v n -> n < 2 ^ 63 -> section_size ws lt_jobs (Some v) n.

Lemma first_of_values : forall o ws l, wished_values o ws l -> first_wish o ws (hd_error l).
Proof.
  intros o ws l H. induction H as [|v ws l H IH|w ws l N H IH].
  - apply fw_none. intros v [].
  - apply (fw_some o _ [] v ws); [reflexivity|]. intros x [].
  - inversion IH as [F E|a v b E F G]; subst.
    + destruct l; [|discriminate]. apply fw_none. intros v [I|I]; [now apply (N v)|now apply (F v)].
    + destruct l as [|x l]; [discriminate|]. injection G as ->. apply (fw_some o _ (w :: a) x b); [reflexivity|].
      intros y [I|I]; [now apply (N y)|now apply (F y)].
Qed.
Lemma value_first : forall o ws l v, wished_values o ws l -> In (Value o v) ws -> l <> [].
Proof.
  intros o ws l v H. induction H as [|u ws l H IH|w ws l N H IH]; intros I; [destruct I|discriminate|].
  destruct I as [I|I]; [now destruct (N v)|auto].
Qed.
Lemma first_value_in : forall o ws l v, wished_values o ws (v :: l) -> In (Value o v) ws.
Proof.
  intros o ws l v H. remember (v :: l) as k eqn:E. induction H as [|u ws k H IH|w ws k N H IH]; [discriminate| |].
  - injection E as -> ->. now left.
  - right. auto.
Qed.
Lemma digit_stol : forall d r, 0 <= d < 10 ->
  stol (48 + d :: r) = (let n := 1 * digits (48 + d :: r) 0 in if (- 2 ^ 63 <=? n) && (n <? 2 ^ 63) then Ok n else Throw).
Proof.
  intros d r H. assert (C : d = 0 \/ d = 1 \/ d = 2 \/ d = 3 \/ d = 4 \/ d = 5 \/ d = 6 \/ d = 7 \/ d = 8 \/ d = 9) by lia.
  repeat (destruct C as [->|C]; [reflexivity|]). subst d. reflexivity.
Qed.
Lemma decimal_nonneg : forall v n, decimal v n -> 0 <= n.
Proof. intros v n H. induction H; lia. Qed.
Lemma decimal_stol : forall v n, decimal v n -> n < 2 ^ 63 -> stol v = Ok n.
Proof.
  intros v n H L. pose proof (decimal_nonneg v n H) as P.
  pose proof (decimal_digits v n H [] 0) as D. rewrite app_nil_r in D. cbn [digits] in D. rewrite Z.mul_0_l, Z.add_0_l in D.
  destruct (decimal_head v n H) as (d & r & -> & R). rewrite digit_stol by exact R. cbv zeta. rewrite D, Z.mul_1_l.
  assert (2 ^ 63 = 9223372036854775808) by reflexivity.
  destruct ((- 2 ^ 63 <=? n) && (n <? 2 ^ 63)) eqn:E; [reflexivity|lia].
Qed.
Lemma jobs_right : forall flag ws j, (flag = true <-> In (Flag (B 106 "jobs")) ws) ->
  (jobs_wanted flag j = true <-> in_parallel ws j).
Proof.
  intros flag ws j H. unfold jobs_wanted, in_parallel. rewrite orb_true_iff, H. split; (intros [I|I]; [now left|right]).
  - destruct j as [v|]; [|discriminate]. exists v. split; [reflexivity|]. intros r ->. discriminate I.
  - destruct I as (v & -> & N). destruct v as [|c v]; [reflexivity|]. cbn [hd]. destruct (Z.eqb_spec c 110) as [->|]; [now destruct (N v)|reflexivity].
Qed.

Theorem C89_build : forall look lt_jobs lt_max n args ws f d,
  line comp_opts args ws -> calm ws -> (3 <= length (wished_files ws) <= 4)%nat ->
  nth_error (wished_files ws) 1 = Some f -> d = look f -> d <> NoFile -> section_size ws lt_jobs lt_max n ->
  (improper ws -> lt_comp_begin look lt_jobs lt_max args = Ok (inl (Usage false)))
  /\ (~ improper ws ->
      exists b, lt_comp_begin look lt_jobs lt_max args = Ok (inr b)
        /\ compiled (wished_files ws) d (b_source b)
        /\ first_wish (S_ 118 "var") ws (b_var b) /\ first_wish (S_ 97 "alt") ws (b_alt b)
        /\ first_wish (S_ 108 "var-left") ws (b_left b) /\ first_wish (S_ 114 "var-right") ws (b_right b)
        /\ (b_debug b = true <-> In (Flag (B 100 "debug")) ws)
        /\ (b_boundaries b = true <-> In (Flag (B 109 "keep-boundaries")) ws)
        /\ (b_verbose b = true <-> In (Flag (B 86 "verbose")) ws)
        /\ (b_hfst b = true <-> In (Flag (B 72 "hfst")) ws)
        /\ (b_split b = true <-> ~ In (Flag (B 83 "no-split")) ws)
        /\ (b_jobs b = true <-> in_parallel ws lt_jobs)
        /\ b_max b = n
        /\ b_in b = f /\ (nth 2 (wished_files ws) [] <> [] -> meant (wished_files ws) 2 (b_out b))).
Proof.
  intros look lt_jobs lt_max n args ws f d L C R Ef Ed Nd Hn.
  assert (K : table_ok comp_opts).
  { pose proof C85_tables as T. rewrite Forall_forall in T. apply T. unfold programs. cbn [In]. auto 20. }
  destruct (proj1 (C85_read comp_opts comp_files args ws K L C)) as [t (E & HB & HV & _ & HF)]; [exact R|].
  unfold lt_comp_begin. rewrite E. cbn [obind]. unfold comp_build.
  assert (J := jobs_right (is_set (str "jobs") t) ws lt_jobs (HB (B 106 "jobs") ltac:(cbn; auto 20))).
  set (jobs := jobs_wanted (is_set (str "jobs") t) lt_jobs) in *.
  assert (M : max_entries jobs lt_max = Ok n).
  { destruct Hn as [P|P|v n D Ln]; cbn [max_entries].
    - apply J in P. now rewrite P.
    - destruct jobs; [|reflexivity]. destruct P. now apply J.
    - rewrite (decimal_stol v n D Ln). cbn [obind]. rewrite Z.mod_small; [reflexivity|].
      pose proof (decimal_nonneg v n D). assert (2 ^ 63 < 2 ^ 64) by reflexivity. lia. }
  rewrite M. cbn [obind].
  assert (VL : wished_values (S_ 108 "var-left") ws (find_strs (str "var-left") (strs t))) by (apply (HV (S_ 108 "var-left")); cbn; auto 20).
  assert (VR : wished_values (S_ 114 "var-right") ws (find_strs (str "var-right") (strs t))) by (apply (HV (S_ 114 "var-right")); cbn; auto 20).
 
  assert (VV : wished_values (S_ 118 "var") ws (find_strs (str "var") (strs t))) by (apply (HV (S_ 118 "var")); cbn; auto 20).
  assert (VA : wished_values (S_ 97 "alt") ws (find_strs (str "alt") (strs t))) by (apply (HV (S_ 97 "alt")); cbn; auto 20).
 
  assert (F1 : file_at 1 t = f) by (rewrite HF; now apply nth_error_nth).
  rewrite F1, <- Ed.
  destruct (wished_files ws) as [|opc r0] eqn:W; [cbn in R; lia|].
  assert (F0 : file_at 0 t = opc) by (rewrite HF; reflexivity). rewrite F0. clear F0.
  assert (F3 := HF 3%nat). assert (F2 := HF 2%nat).
  assert (PL : present (first_value (str "var-left") t) = true <-> exists v, In (Value (S_ 108 "var-left") v) ws).
  { unfold first_value. split.
    - destruct (find_strs (str "var-left") (strs t)) as [|v l] eqn:X; [discriminate|]. intros _. exists v.
      exact (first_value_in _ _ l _ VL).
    - intros [v I]. pose proof (value_first _ _ _ v VL I) as Nn. 
      destruct (find_strs (str "var-left") (strs t)); [congruence|reflexivity]. }
  assert (PR : present (first_value (str "var-right") t) = true <-> exists v, In (Value (S_ 114 "var-right") v) ws).
  { unfold first_value. split.
    - destruct (find_strs (str "var-right") (strs t)) as [|v l] eqn:X; [discriminate|]. intros _. exists v.
      exact (first_value_in _ _ l _ VR).
    - intros [v I]. pose proof (value_first _ _ _ v VR I) as Nn. 
      destruct (find_strs (str "var-right") (strs t)); [congruence|reflexivity]. }
  set (hl := present (first_value (str "var-left") t)) in *. set (hr := present (first_value (str "var-right") t)) in *.
  assert (SO : (improper ws -> forall att, source_of att hl hr opc (file_at 3 t) = None)
            /\ (~ improper ws -> exists s, source_of (match d with NoMarkup => true | _ => false end) hl hr opc (file_at 3 t) = Some s
                                  /\ compiled (opc :: r0) d s)).
  { unfold source_of. split.
    - intros I att. destruct I as [x H1 H2|v H1 H2|v H1 H2]; rewrite W in H1; injection H1 as H1.
      + subst x. rewrite !arg_eqb_neq; [reflexivity| | |]; intros ->; apply H2; cbn; auto.
      + assert (Y : hl = true) by (apply PL; eauto). rewrite Y. subst opc. reflexivity.
      + assert (Y : hr = true) by (apply PR; eauto). rewrite Y. subst opc. reflexivity.
    - intros I. destruct (arg_eqb opc (str "lr")) eqn:X1; [apply arg_eqb_eq in X1; subst opc|].
      { destruct hl eqn:Y; [exfalso; destruct (proj1 PL eq_refl) as [v V]; apply I; apply (im_left ws v); [now rewrite W|exact V]|].
        eexists. split; [reflexivity|]. destruct d; [congruence| |].
        - rewrite F3. destruct r0 as [|a [|b [|c [|e r0]]]]; cbn [length] in R; try lia; cbn [nth].
          + apply cd_lr; reflexivity.
          + destruct c; [apply cd_lr_noname; reflexivity|apply cd_lr_acx; [reflexivity|reflexivity|discriminate]].
        - apply (cd_att _ (str "lr")); [reflexivity|now left]. }
      destruct (arg_eqb opc (str "rl")) eqn:X2; [apply arg_eqb_eq in X2; subst opc|].
      { destruct hr eqn:Y; [exfalso; destruct (proj1 PR eq_refl) as [v V]; apply I; apply (im_right ws v); [now rewrite W|exact V]|].
        eexists. split; [reflexivity|]. destruct d; [congruence| |]; [apply cd_rl|apply cd_att_rl]; reflexivity. }
      destruct (arg_eqb opc (str "u")) eqn:X3; [apply arg_eqb_eq in X3; subst opc|].
      { eexists. split; [reflexivity|]. destruct d; [congruence|apply cd_u; reflexivity|]. apply (cd_att _ (str "u")); [reflexivity|now right]. }
      exfalso. apply I. apply (im_mode ws opc); [now rewrite W|]. intros [Q|[Q|[Q|[]]]]; subst opc; rewrite arg_eqb_refl in *; discriminate. }
  destruct SO as [S1 S2]. split; intro I.
  - destruct d; [congruence| |]; now rewrite (S1 I).
  - destruct (S2 I) as (s & Es & Cs). clear S1 S2.
    assert (G : exists b, (match d with NoFile => Exit
        | Markup => match source_of false hl hr opc (file_at 3 t) with None => Ok (inl (Usage false)) | Some s => Ok (inr (mkBuild s (first_value (str "var") t) (first_value (str "alt") t) (first_value (str "var-left") t) (first_value (str "var-right") t)
          (is_set (str "debug") t) (is_set (str "keep-boundaries") t) (is_set (str "verbose") t)
          (is_set (str "hfst") t) (negb (is_set (str "no-split") t)) jobs n f (bin_or_out (file_at 2 t)))) end
        | NoMarkup => match source_of true hl hr opc (file_at 3 t) with None => Ok (inl (Usage false)) | Some s => Ok (inr (mkBuild s (first_value (str "var") t) (first_value (str "alt") t) (first_value (str "var-left") t) (first_value (str "var-right") t)
          (is_set (str "debug") t) (is_set (str "keep-boundaries") t) (is_set (str "verbose") t)
          (is_set (str "hfst") t) (negb (is_set (str "no-split") t)) jobs n f (bin_or_out (file_at 2 t)))) end end : outcome (reply + build)) = Ok (inr b)
       /\ b = mkBuild s (first_value (str "var") t) (first_value (str "alt") t) (first_value (str "var-left") t) (first_value (str "var-right") t)
          (is_set (str "debug") t) (is_set (str "keep-boundaries") t) (is_set (str "verbose") t)
          (is_set (str "hfst") t) (negb (is_set (str "no-split") t)) jobs n f (bin_or_out (file_at 2 t))).
    { destruct d; [congruence| |]; rewrite Es; eexists; split; reflexivity. }
    destruct G as (b & Gb & ->). eexists. split; [exact Gb|].
    cbn [b_source b_var b_alt b_left b_right b_debug b_boundaries b_verbose b_hfst b_split b_jobs b_max b_in b_out].
    split; [exact Cs|]. unfold first_value.
    split; [exact (first_of_values _ _ _ VV)|]. split; [exact (first_of_values _ _ _ VA)|].
    split; [exact (first_of_values _ _ _ VL)|]. split; [exact (first_of_values _ _ _ VR)|].
    split; [apply (HB (B 100 "debug")); cbn; auto 20|]. split; [apply (HB (B 109 "keep-boundaries")); cbn; auto 20|].
    split; [apply (HB (B 86 "verbose")); cbn; auto 20|]. split; [apply (HB (B 72 "hfst")); cbn; auto 20|].
    split.
    { pose proof (HB (B 83 "no-split") ltac:(cbn; auto 20)) as Hs. change (long (B 83 "no-split")) with (str "no-split") in Hs.
      rewrite negb_true_iff, <- Hs. destruct (is_set (str "no-split") t); split; congruence. }
    split; [exact J|]. split; [reflexivity|]. split; [reflexivity|].
    rewrite F2. intro Ne. destruct r0 as [|a [|o r0]]; cbn [length] in R; try lia. cbn [nth] in *.
    destruct (list_eq_dec Z.eq_dec o [45]) as [->|Nq]; [now apply mt_dash|].
    assert (X : bin_or_out o = Named o).
    { destruct o as [|c [|e o]]; [congruence| |]; cbn [bin_or_out]; destruct c as [|p|p]; try reflexivity;
        do 6 (destruct p; try reflexivity). congruence. }
    rewrite X. now apply mt_named.
Qed.
(** A dictionary that cannot be opened ends the program, whatever else is wrong. *)
Theorem C89_missing : forall look lt_jobs args ws f,
  line comp_opts args ws -> calm ws -> (3 <= length (wished_files ws) <= 4)%nat ->
  nth_error (wished_files ws) 1 = Some f -> look f = NoFile -> lt_comp_begin look lt_jobs None args = Exit.
Proof.
  intros look lt_jobs args ws f L C R Ef Ed.
  assert (K : table_ok comp_opts).
  { pose proof C85_tables as T. rewrite Forall_forall in T. apply T. unfold programs. cbn [In]. auto 20. }
  destruct (proj1 (C85_read comp_opts comp_files args ws K L C)) as [t (E & _ & _ & _ & HF)]; [exact R|].
  unfold lt_comp_begin. rewrite E. cbn [obind]. unfold comp_build. cbn [max_entries obind].
  assert (F1 : file_at 1 t = f) by (rewrite HF; now apply nth_error_nth). rewrite F1, Ed. reflexivity.
Qed.
Example C89_example :
  let look f := if arg_eqb f (str "a.att") then NoMarkup else if arg_eqb f (str "a.dix") then Markup else NoFile in
  lt_comp_begin look (Some (str "no")) None [str "-mr"; str "br"; str "--alt=x"; str "lr"; str "a.dix"; str "-"; str "a.acx"]
    = Ok (inr (mkBuild (Dix LR (Some (str "a.acx"))) None (Some (str "x")) None (Some (str "br"))
        false true false false true false 0 (str "a.dix") Std))
  /\ lt_comp_begin look (Some (str "yes")) (Some (str "120")) [str "-HS"; str "rl"; str "a.att"; str "b.bin"]
    = Ok (inr (mkBuild (Att true) None None None None false false false true false true 120 (str "a.att") (Named (str "b.bin"))))
  /\ lt_comp_begin look None None [str "-l"; str "x"; str "lr"; str "a.dix"; str "b.bin"] = Ok (inl (Usage false))
  /\ lt_comp_begin look None None [str "LR"; str "a.dix"; str "b.bin"] = Ok (inl (Usage false))
  /\ lt_comp_begin look None None [str "lr"; str "c.dix"; str "b.bin"] = Exit.
Proof. vm_compute. auto 10. Qed.

(** Nothing given is left unused or refused - this is false.  A file of equivalent characters is
    not looked at for rl and u, nor for a text in AT&T format; whether it exists does not matter. *)
Theorem C89_acx_refuted : forall look lt_jobs lt_max d f o x,
  hd 0 f <> 45 -> hd 0 o <> 45 -> hd 0 x <> 45 ->
  d = str "rl" \/ d = str "u" \/ (d = str "lr" /\ look f = NoMarkup) ->
  lt_comp_begin look lt_jobs lt_max [d; f; o; x] = lt_comp_begin look lt_jobs lt_max [d; f; o].
Proof.
  intros look lt_jobs lt_max d f o x Hf Ho Hx D.
  assert (Hd : hd 0 d <> 45) by (destruct D as [->|[->|[-> _]]]; discriminate).
  unfold lt_comp_begin, parse_args. rewrite !operand_scan by auto. cbn [scan operand app operands bools strs obind length].
  cbn. unfold comp_build, file_at. cbn [operands nth first_value].
  destruct (max_entries _ _) as [n| | | |]; cbn [obind]; try reflexivity.
  destruct D as [->|[->|[-> E]]]; [| |rewrite E; reflexivity]; destruct (look f); reflexivity.
Qed.
(** Of several variants only the first counts, without a word about the others. *)
Theorem C89_variants_refuted : forall look lt_jobs lt_max d f o v w,
  hd 0 d <> 45 -> hd 0 f <> 45 -> hd 0 o <> 45 ->
  lt_comp_begin look lt_jobs lt_max [str "-v"; v; str "-v"; w; d; f; o]
    = lt_comp_begin look lt_jobs lt_max [str "-v"; v; d; f; o].
Proof.
  intros look lt_jobs lt_max d f o v w Hd Hf Ho. unfold lt_comp_begin, parse_args.
  change (scan comp_opts [str "-v"; v; str "-v"; w; d; f; o] (mkTaken [] [] []))
    with (scan comp_opts [d; f; o] (mkTaken [] [(str "var", [v; w])] [])).
  change (scan comp_opts [str "-v"; v; d; f; o] (mkTaken [] [] []))
    with (scan comp_opts [d; f; o] (mkTaken [] [(str "var", [v])] [])).
  rewrite !operand_scan by auto. reflexivity.
Qed.
(** An LT_MAX_SECTION_ENTRIES that is no number is an exception nobody catches. *)
Theorem C89_number_refuted : forall look lt_jobs c r d f o,
  hd 0 d <> 45 -> hd 0 f <> 45 -> hd 0 o <> 45 -> 65 <= c <= 122 ->
  lt_comp_begin look lt_jobs (Some (c :: r)) [d; f; o] = Throw.
Proof.
  intros look lt_jobs c r d f o Hd Hf Ho Hc. unfold lt_comp_begin, parse_args. rewrite !operand_scan by auto.
  cbn [scan operand app operands bools strs obind length]. cbn. unfold comp_build, max_entries.
  assert (X : stol (c :: r) = Throw).
  { unfold stol. cbn [skip_spaces]. replace (c_space c) with false by (unfold c_space; lia).
    assert (Y : (match c :: r with 45 :: r => (-1, r) | 43 :: r => (1, r) | r => (1, r) end) = (1, c :: r)).
    { destruct c as [|p|p]; try lia. do 6 (destruct p; try reflexivity; try lia). }
    rewrite Y. cbn [number_begins]. replace ((48 <=? c) && (c <=? 57)) with false by lia. reflexivity. }
  rewrite X. reflexivity.
Qed.

(** * lt-tmxcomp *)
Lemma option_head : forall a, is_operand a = false -> hd 0 a = 45.
Proof.
  intros a H. destruct a as [|c [|d a]]; cbn [is_operand] in H; [discriminate| |].
  - destruct c as [|p|p]; try discriminate H. do 6 (destruct p; try discriminate H).
  - destruct c as [|p|p]; try discriminate H. do 6 (destruct p; try discriminate H). reflexivity.
Qed.
Lemma tmx_scan_opts : forall k args codes opts ops c o p, (length args <= k)%nat ->
  tmx_scan args codes opts ops = Some (c, o, p) ->
  (opts <> [] -> exists more, o = opts ++ more)
  /\ (opts = [] -> (o = [] /\ c = codes /\ p = ops ++ args /\ Forall (fun a => is_operand a = true) args) \/ hd 0 (hd [] o) = 45).
Proof.
  induction k as [|k IH]; intros [|a rest] codes opts ops c o p Hk E; cbn [length] in Hk; try lia; cbn [tmx_scan] in E.
  1, 2: injection E as <- <- <-; split; [intros _; exists []; now rewrite app_nil_r|intros ->; left; rewrite app_nil_r; auto].
  destruct (is_operand a) eqn:Ia.
  { destruct (IH rest codes opts (ops ++ [a]) c o p ltac:(lia) E) as [H1 H2]. split; [exact H1|]. intros Ho.
    destruct (H2 Ho) as [(A1 & A2 & A3 & A4)|A]; [left|now right]. rewrite <- app_assoc in A3. auto. }
  pose proof (option_head a Ia) as Ha.
  destruct (arg_eqb a [45; 45]).
  { injection E as <- <- <-. split; [intros _; now exists [a]|intros ->; right; exact Ha]. }
  destruct (tmx_option a) as [[x [v|]]|]; [| |discriminate E].
  - destruct (IH rest _ (opts ++ [a]) ops c o p ltac:(lia) E) as [H1 _]. destruct H1 as [more ->]; [now destruct opts|].
    split; [intros _; exists ([a] ++ more); now rewrite app_assoc|intros ->; right; exact Ha].
  - destruct rest as [|v rest]; [discriminate E|]. cbn [length] in Hk.
    destruct (IH rest _ (opts ++ [a; v]) ops c o p ltac:(lia) E) as [H1 _]. destruct H1 as [more ->]; [now destruct opts|].
    split; [intros _; exists ([a; v] ++ more); now rewrite app_assoc|intros ->; right; exact Ha].
Qed.
Lemma to_hyphen_spec : forall a, match to_hyphen a with
  | (x, Some y) => a = x ++ [45] ++ y /\ ~ In 45 x
  | (x, None) => x = a /\ ~ In 45 a
  end.
Proof.
  induction a as [|c a IH]; cbn [to_hyphen]; [split; [reflexivity|intros []]|].
  destruct (Z.eqb_spec c 45) as [->|N]; [split; [reflexivity|intros []]|].
  destruct (to_hyphen a) as [x [y|]]; destruct IH as [-> IH]; (split; [reflexivity|]); intros [I|I]; auto.
Qed.
Lemma to_hyphen_pair : forall x y, ~ In 45 x -> to_hyphen (x ++ [45] ++ y) = (x, Some y).
Proof.
  induction x as [|c x IH]; intros y N; cbn [app to_hyphen]; [reflexivity|].
  destruct (Z.eqb_spec c 45) as [->|Nc]; [destruct N; now left|].
  assert (T : to_hyphen (x ++ [45] ++ y) = (x, Some y)) by (apply IH; intro I; apply N; now right).
  cbn [app] in T. rewrite T. reflexivity.
Qed.
Lemma tmx_operands : forall l codes ops, Forall (fun a => is_operand a = true) l -> tmx_scan l codes [] ops = Some (codes, [], ops ++ l).
Proof.
  induction l as [|a l IH]; intros codes ops F; cbn [tmx_scan]; [now rewrite app_nil_r|].
  inversion F as [|? ? H1 H2]; subst. rewrite H1, IH by exact H2. now rewrite <- app_assoc.
Qed.
Lemma name_operand : forall a, a = [] \/ hd 0 a <> 45 -> is_operand a = true.
Proof. intros a H. destruct (is_operand a) eqn:E; [reflexivity|]. apply option_head in E. destruct H as [->|H]; [discriminate|congruence]. Qed.

(** Two languages with a hyphen between them, a memory and an output. *)
Theorem C90_plain : forall x y f o, x <> [] -> y <> [] -> ~ In 45 x -> hd 0 f <> 45 -> hd 0 o <> 45 ->
  lt_tmxcomp_begin [x ++ [45] ++ y; f; o] = Some (mkMemory [] x y f o).
Proof.
  intros x y f o Hx Hy N Hf Ho. unfold lt_tmxcomp_begin. cbn [length Nat.eqb negb].
  assert (Hp : hd 0 (x ++ [45] ++ y) <> 45).
  { destruct x as [|c x]; [congruence|]. cbn. intros ->. apply N. now left. }
  rewrite tmx_operands.
  - cbn [app nth]. unfold languages. pose proof (to_hyphen_pair x y N) as T. cbn [app] in T. unfold arg in *. rewrite T.
    destruct x; [congruence|]. destruct y; [congruence|]. reflexivity.
  - repeat (apply Forall_cons; [apply name_operand; now right|]). apply Forall_nil.
Qed.
(** Nothing else is accepted but a single language; in particular a number of arguments other
    than three, and empty languages, are refused. *)
Theorem C90_only : forall args m, lt_tmxcomp_begin args = Some m ->
  exists pair, args = [pair; m_in m; m_out m] /\ m_from m <> [] /\ m_to m <> []
    /\ ((pair = m_from m ++ [45] ++ m_to m /\ ~ In 45 (m_from m)) \/ (m_from m = pair /\ m_to m = pair /\ ~ In 45 pair)).
Proof.
  intros args m E. unfold lt_tmxcomp_begin in E. destruct args as [|a [|b [|c [|d args]]]]; try discriminate E. cbn [length Nat.eqb negb] in E.
  destruct (tmx_scan [a; b; c] [] [] []) as [[[codes opts] ops]|] eqn:Es; [|discriminate E].
  destruct (proj2 (tmx_scan_opts 3 [a; b; c] _ _ _ _ _ _ (le_n 3) Es) eq_refl) as [(-> & -> & -> & F)|H].
  - cbn [app nth] in E. unfold languages in E. pose proof (to_hyphen_spec a) as T.
    destruct (to_hyphen a) as [x [y|]].
    + destruct x as [|x0 x]; [discriminate E|]. destruct y as [|y0 y]; [discriminate E|]. injection E as <-.
      exists a. cbn [m_from m_to m_in m_out]. split; [reflexivity|]. split; [discriminate|]. split; [discriminate|]. left. exact T.
    + destruct T as [_ T]. destruct a as [|a0 a]; [discriminate E|]. injection E as <-. exists (a0 :: a). cbn [m_from m_to m_in m_out].
      split; [reflexivity|]. split; [discriminate|]. split; [discriminate|]. right. auto.
  - destruct opts as [|x opts]; [discriminate H|]. cbn [hd] in H. destruct x as [|h x]; [discriminate H|]. cbn [hd] in H. subst h.
    cbn [app nth] in E. unfold languages in E. cbn [to_hyphen] in E. replace (45 =? 45) with true in E by reflexivity. discriminate E.
Qed.
(** The options -o and -m announced by the program cannot be given: no command line that is
    accepted sets a code, and any with an option of its own and three operands is refused. *)
Theorem C90_options_refuted :
  (forall args m, lt_tmxcomp_begin args = Some m -> m_codes m = [])
  /\ (forall opts p f o, opts <> [] -> lt_tmxcomp_begin (opts ++ [p; f; o]) = None).
Proof.
  split.
  - intros args m E. unfold lt_tmxcomp_begin in E. destruct args as [|a [|b [|c [|d args]]]]; try discriminate E. cbn [length Nat.eqb negb] in E.
    destruct (tmx_scan [a; b; c] [] [] []) as [[[codes opts] ops]|] eqn:Es; [|discriminate E].
    destruct (proj2 (tmx_scan_opts 3 [a; b; c] _ _ _ _ _ _ (le_n 3) Es) eq_refl) as [(-> & -> & -> & F)|H].
    + destruct (languages _) as [lo lm]. destruct lo; [discriminate E|]. destruct lm; [discriminate E|]. now injection E as <-.
    + destruct opts as [|x opts]; [discriminate H|]. cbn [hd] in H. destruct x as [|h x]; [discriminate H|]. cbn [hd] in H. subst h.
      cbn [app nth] in E. unfold languages in E. cbn [to_hyphen] in E. replace (45 =? 45) with true in E by reflexivity. discriminate E.
  - intros opts p f o N. unfold lt_tmxcomp_begin. rewrite app_length. destruct opts as [|a opts]; [congruence|]. cbn [length].
    replace (S (length opts) + 3 =? 3)%nat with false; [reflexivity|]. symmetry. apply Nat.eqb_neq. lia.
Qed.
(** A single language is not refused but taken for both. *)
Theorem C90_single_refuted : forall x f o, x <> [] -> ~ In 45 x -> hd 0 f <> 45 -> hd 0 o <> 45 ->
  lt_tmxcomp_begin [x; f; o] = Some (mkMemory [] x x f o).
Proof.
  intros x f o Hx N Hf Ho. unfold lt_tmxcomp_begin. cbn [length Nat.eqb negb].
  assert (Hp : hd 0 x <> 45).
  { destruct x as [|c x]; [congruence|]. cbn. intros ->. apply N. now left. }
  rewrite tmx_operands.
  - cbn [app nth]. unfold languages. pose proof (to_hyphen_spec x) as T. destruct (to_hyphen x) as [a [b|]].
    + destruct T as [-> _]. destruct N. apply in_or_app. right. now left.
    + destruct x; [congruence|]. reflexivity.
  - repeat (apply Forall_cons; [apply name_operand; now right|]). apply Forall_nil.
Qed.
Example C90_example :
  lt_tmxcomp_begin [str "es-en-GB"; str "a.tmx"; str "a.bin"] = Some (mkMemory [] (str "es") (str "en-GB") (str "a.tmx") (str "a.bin"))
  /\ lt_tmxcomp_begin [str "-o"; str "ES"; str "es-en"; str "a.tmx"; str "a.bin"] = None
  /\ lt_tmxcomp_begin [str "-oES"; str "es-en"; str "a.tmx"] = None
  /\ lt_tmxcomp_begin [str "es"; str "a.tmx"; str "a.bin"] = Some (mkMemory [] (str "es") (str "es") (str "a.tmx") (str "a.bin"))
  /\ lt_tmxcomp_begin [str "es-"; str "a.tmx"; str "a.bin"] = None
  /\ tmx_scan [str "x"; str "--orig=ES"; str "-m"; str "EN"] [] [] [] = Some ([(111, str "ES"); (109, str "EN")], [str "--orig=ES"; str "-m"; str "EN"], [str "x"]).
Proof. vm_compute. auto 10. Qed.

Print Assumptions C89_build.
Print Assumptions C89_missing.
Print Assumptions C89_acx_refuted.
Print Assumptions C89_variants_refuted.
Print Assumptions C89_number_refuted.
Print Assumptions C90_plain.
Print Assumptions C90_only.
Print Assumptions C90_options_refuted.
Print Assumptions C90_single_refuted.
