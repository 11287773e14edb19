(** C80: characters that lt-proc is told to ignore make no difference to the analysis. *)
From Coq Require String Ascii.
From Verif Require Import Base CompressionModel AlphabetModel StateModel StateSpec BufferModel InputModel InputProps StreamModel StreamProps
  FileModel FileProofs CompilerModel ProcessorModel AnalysisSpec AnalysisProofs AnalysisProps DixModel DixSpec DixProofs CharFileModel CharFileSpec IgnoreProofs.
Import String.StringSyntax.

(** What is printed, whatever is left of the input *)
Definition shown (o : outcome (ustr * source)) : outcome ustr := let! (t, _) := o in Ok t.
Definition input (T : list Z) : source := new_source (open_file (utf8_text T)).

Lemma item_scalar : forall ig i, item_ok ig i -> Forall InputProps.scalar (item_text i).
Proof.
  assert (A : forall c, 0 <= c < 128 -> InputProps.scalar c) by (intros c H; apply ascii_scalar; lia).
  intros ig [c|c|b|b] H; cbn [item_text item_ok] in *.
  - constructor; [tauto|constructor].
  - constructor; [apply A; lia|constructor; [tauto|constructor]].
  - constructor; [apply A; lia|]. apply Forall_app. split; [tauto|]. constructor; [apply A; lia|constructor].
  - constructor; [apply A; lia|]. constructor; [apply A; lia|]. apply Forall_app. split; [tauto|]. constructor; [apply A; lia|constructor; [apply A; lia|constructor]].
Qed.
Lemma thinned_scalar : forall ig T T', thinned ig T T' -> Forall InputProps.scalar T /\ Forall InputProps.scalar T'.
Proof.
  intros ig T T' H. induction H as [|c T T' Hc Hs He Hn H [I1 I2]|i T T' Hi H [I1 I2]|T T' H [I1 I2]].
  - split; constructor.
  - split; [constructor; assumption|exact I2].
  - split; apply Forall_app; (split; [eapply item_scalar; eauto|assumption]).
  - split; (constructor; [apply ascii_scalar; lia|assumption]).
Qed.
Lemma sound_new : forall f, sound (s_buf (new_source f)).
Proof. intros f. split; [reflexivity|]. split; [apply repeat_length|cbn; lia]. Qed.
Lemma input_same : forall P T T', thinned (p_ignored P) T T' -> same P (input T) (input T').
Proof.
  intros P T T' H. destruct (thinned_scalar _ _ _ H) as [S1 S2]. split; [reflexivity|]. split; [reflexivity|]. split; [apply sound_new|].
  left. exists T, T'. split; [now apply at_text_open|]. split; [now apply at_text_open|exact H].
Qed.
Lemma alike_shown : forall P (o o' : outcome (ustr * source)), alike P o o' -> shown o = shown o'.
Proof. intros P [[x s]| | | |] [[x' s']| | | |] H; cbn in *; try contradiction; try reflexivity. destruct H as [-> _]. reflexivity. Qed.

(** Whatever the dictionary and the options: the text with the ignored characters is analysed
    as the text without them is by a program that ignores fewer characters, or none. *)
Theorem C80_text : forall P few rounds T T', p_ignored P 0 = false -> p_ignored P 91 = false -> p_ignored P 92 = false ->
  (forall c, few c = true -> p_ignored P c = true) -> thinned (p_ignored P) T T' ->
  shown (analysis P rounds (input T)) = shown (analysis (with_chars few (p_rcx P) P) rounds (input T'))
  /\ forall n, shown (null_flush P rounds n (input T)) = shown (null_flush (with_chars few (p_rcx P) P) rounds n (input T')).
Proof.
  intros P few rounds T T' H0 H91 H92 F H. pose proof (input_same P T T' H) as S. split; [|intros n]; apply (alike_shown P).
  - now apply analysis_same.
  - now apply flush_same.
Qed.

(** * The file *)
Lemma icx_app : forall a b ig, icx_nodes (a ++ b) ig = let! ig := icx_nodes a ig in icx_nodes b ig.
Proof.
  induction a as [|n a IH]; intros b ig; cbn [app icx_nodes obind]; [reflexivity|].
  destruct (procNodeICX n ig); cbn [obind]; auto.
Qed.
Lemma stray_icx : forall l ig, Forall stray l -> icx_nodes l ig = Ok ig.
Proof. intros l ig H. induction H as [|n l Hn _ IH]; [reflexivity|]. cbn [icx_nodes]. destruct Hn; exact IH. Qed.
Definition bmp (c : Z) : Prop := 0 < c < 65536.
Lemma value_first : forall a c e x v b, given a (txt "value") (utf16 c) -> bmp c -> first_unit (mkX e x v a b) = c.
Proof.
  intros a c e x v b G B. unfold first_unit. rewrite (given_attrib a a_value (utf16 c)) by exact G.
  unfold utf16. unfold bmp in B. replace (c <? 65536) with true by lia. reflexivity.
Qed.
Lemma icx_body_reads : forall ns cs, icx_body ns cs -> Forall bmp cs -> forall ig, exists ig', icx_nodes ns ig = Ok ig'
  /\ forall c, In c ig' <-> In c ig \/ In c cs.
Proof.
  intros ns cs H. induction H as [|n ns cs Hn H IH|a c inner e ns cs G Hi He H IH]; intros B ig.
  - exists ig. split; [reflexivity|]. cbn. intuition.
  - cbn [icx_nodes]. replace (procNodeICX n ig) with (Ok ig) by (destruct Hn; reflexivity). cbn [obind]. now apply IH.
  - inversion B as [|? ? Bc Bs]; subst. rewrite icx_app.
    assert (E : exists ig1, icx_nodes e ig = Ok ig1 /\ forall x, In x ig1 <-> x = c \/ In x ig).
    { destruct He as [|inner].
      - exists (zset_insert c ig). split; [|intros x; apply zset_insert_in]. cbn [icx_nodes].
        change (procNodeICX (DixSpec.alone (txt "char") a) ig) with (Ok (zset_insert (first_unit (DixSpec.alone (txt "char") a)) ig)).
        unfold DixSpec.alone. now rewrite (value_first a c) by assumption.
      - exists (zset_insert c (zset_insert c ig)). split; [|intros x; rewrite !zset_insert_in; intuition]. cbn [icx_nodes].
        change (procNodeICX (opening (txt "char") a) ig) with (Ok (zset_insert (first_unit (opening (txt "char") a)) ig)). cbn [obind].
        unfold opening. rewrite (value_first a c) by assumption. rewrite icx_app, stray_icx by assumption. cbn [obind icx_nodes].
        change (procNodeICX (closing (txt "char") a) (zset_insert c ig)) with (Ok (zset_insert (first_unit (closing (txt "char") a)) (zset_insert c ig))).
        unfold closing. now rewrite (value_first a c) by assumption. }
    destruct E as (ig1 & -> & E). cbn [obind]. destruct (IH Bs ig1) as (ig2 & -> & K). exists ig2. split; [reflexivity|].
    intros x. rewrite K, E. cbn [In]. intuition.
Qed.
Lemma icx_file_reads : forall l cs ig, icx_says l cs -> Forall bmp cs -> exists ig', icx_nodes l ig = Ok ig' /\ forall c, In c ig' <-> In c ig \/ In c cs.
Proof.
  intros l cs ig (body & B & (before & a & e & after & Sb & Sa & He & ->)) Hc. rewrite icx_app, stray_icx by assumption. cbn [obind]. rewrite icx_app.
  assert (E : exists ig', icx_nodes e ig = Ok ig' /\ forall c, In c ig' <-> In c ig \/ In c cs).
  { destruct He as [|body].
    - apply (icx_body_reads [] cs B Hc ig).
    - cbn [icx_nodes]. change (procNodeICX (opening (txt "ignored-chars") a) ig) with (Ok ig). cbn [obind]. rewrite icx_app.
      destruct (icx_body_reads body cs B Hc ig) as (ig' & -> & K). exists ig'. split; [reflexivity|exact K]. }
  destruct E as (ig' & -> & K). cbn [obind]. rewrite stray_icx by assumption. eauto.
Qed.
Lemma icx_files_read : forall files css, Forall2 (fun f cs => icx_says (cf_nodes f) cs) files css -> Forall bmp (concat css) ->
  forall ig, ig <> [] -> exists ig', parse_icx_files (map Some files) (true, ig) = Ok (true, ig') /\ forall c, In c ig' <-> In c ig \/ In c (concat css).
Proof.
  intros files css H. induction H as [|f cs files css Hf H IH]; intros B ig N.
  - exists ig. split; [reflexivity|]. cbn. intuition.
  - cbn [concat] in B. apply Forall_app in B as [B1 B2]. cbn [map parse_icx_files parseICX].
    destruct (icx_file_reads _ cs ig Hf B1) as (ig1 & -> & K1). cbn [obind].
    assert (N1 : ig1 <> []). { intros ->. destruct ig as [|x ig]; [easy|]. destruct (proj2 (K1 x)). left. now left. }
    destruct (IH B2 ig1 N1) as (ig2 & E & K2). exists ig2. split.
    + destruct ig1; [easy|exact E].
    + intros c. rewrite K2, K1. cbn [concat]. rewrite in_app_iff. intuition.
Qed.
Lemma mem_In : forall c l, existsb (Z.eqb c) l = true <-> In c l.
Proof.
  intros c l. rewrite existsb_exists. split; [intros (x & Hx & E); apply Z.eqb_eq in E; now subst|].
  intros H. exists c. split; [exact H|apply Z.eqb_refl].
Qed.
(** With -i: the characters listed in the files are ignored, and the soft hyphen. *)
Theorem C80_file : forall no_default files css, Forall2 (fun f cs => icx_says (cf_nodes f) cs) files css -> Forall bmp (concat css) ->
  exists ig rc, lt_proc_chars no_default (Some (map Some files)) None = Ok (ig, rc)
    /\ (forall c, ig c = true <-> In c (concat css) \/ c = 173) /\ forall c, rc c = None.
Proof.
  intros nd files css H B. unfold lt_proc_chars.
  destruct (icx_files_read files css H B [173] ltac:(discriminate)) as (ig & -> & K). cbn [obind]. do 2 eexists. split; [reflexivity|].
  split; [|reflexivity]. intros c. cbn [orb andb]. rewrite mem_In, K. cbn. intuition.
Qed.
(** Without -i: the soft hyphen, unless there is -I. *)
Theorem C80_default : forall no_default, exists ig rc, lt_proc_chars no_default None None = Ok (ig, rc)
  /\ (forall c, ig c = true <-> no_default = false /\ c = 173) /\ forall c, rc c = None.
Proof.
  intros nd. unfold lt_proc_chars. cbn [obind]. do 2 eexists. split; [reflexivity|]. split; [|reflexivity].
  intros c. cbn [orb existsb]. rewrite orb_false_r. destruct nd; cbn [negb andb]; [split; [discriminate|intros []; discriminate]|].
  rewrite Z.eqb_eq. intuition.
Qed.
(** A node that does not belong there ends the program. *)
Theorem C80_invalid : forall no_default rcx f n before after, cf_nodes f = before ++ n :: after ->
  ~ In (x_name n) [txt "#text"; txt "#comment"; txt "ignored-chars"; txt "char"] ->
  (forall m, In m before -> In (x_name m) [txt "#text"; txt "#comment"; txt "ignored-chars"; txt "char"]) ->
  lt_proc_chars no_default (Some [Some f]) rcx = Exit /\ lt_proc_chars no_default (Some [None]) rcx = Exit.
Proof.
  intros nd rcx f n before after E Hn Hb. split; [|reflexivity]. unfold lt_proc_chars. cbn [parse_icx_files parseICX]. rewrite E, icx_app.
  assert (K : forall l ig, (forall m, In m l -> In (x_name m) [txt "#text"; txt "#comment"; txt "ignored-chars"; txt "char"]) -> exists ig', icx_nodes l ig = Ok ig').
  { induction l as [|m l IH]; intros ig H; [eexists; reflexivity|]. cbn [icx_nodes].
    assert (M : exists ig1, procNodeICX m ig = Ok ig1).
    { unfold procNodeICX, is_named. repeat (destruct (ustr_eq_dec (x_name m) _); [eexists; reflexivity|]). exfalso.
      destruct (H m (or_introl eq_refl)) as [X|[X|[X|[X|[]]]]]; symmetry in X; contradiction. }
    destruct M as (ig1 & ->). cbn [obind]. apply IH. intros x Hx. apply H. now right. }
  destruct (K before [173] Hb) as (ig & ->). cbn [obind icx_nodes].
  assert (M : procNodeICX n ig = Exit).
  { unfold procNodeICX, is_named. repeat (destruct (ustr_eq_dec (x_name n) _) as [X|_]; [exfalso; apply Hn; rewrite X; cbn; auto 6|]). reflexivity. }
  rewrite M. reflexivity.
Qed.

(** lt-proc -i on a text, and lt-proc that ignores nothing on the text without the characters *)
Theorem C80_ltproc : forall P no_default files css rounds n T T', Forall2 (fun f cs => icx_says (cf_nodes f) cs) files css ->
  Forall bmp (concat css) -> ~ In 91 (concat css) -> ~ In 92 (concat css) ->
  (forall ig, (forall c, ig c = true <-> In c (concat css) \/ c = 173) -> thinned ig T T') ->
  exists ig rc, lt_proc_chars no_default (Some (map Some files)) None = Ok (ig, rc)
    /\ shown (analysis (with_chars ig rc P) rounds (input T)) = shown (analysis (with_chars (fun _ => false) rc P) rounds (input T'))
    /\ shown (null_flush (with_chars ig rc P) rounds n (input T)) = shown (null_flush (with_chars (fun _ => false) rc P) rounds n (input T')).
Proof.
  intros P nd files css rounds n T T' H B N91 N92 Th. destruct (C80_file nd files css H B) as (ig & rc & E & K & _). exists ig, rc. split; [exact E|].
  assert (F : forall c, ~ In c (concat css) -> c <> 173 -> ig c = false).
  { intros c H1 H2. destruct (ig c) eqn:X; auto. apply K in X as [X|X]; contradiction. }
  destruct (C80_text (with_chars ig rc P) (fun _ => false) rounds T T') as [A1 A2].
  - apply F; [|lia]. intros X. rewrite Forall_forall in B. apply B in X. unfold bmp in X. lia.
  - apply F; [exact N91|lia].
  - apply F; [exact N92|lia].
  - discriminate.
  - apply Th. exact K.
  - split; [exact A1|apply A2].
Qed.

(** * A concrete case *)
Definition listed (v : ustr) : xnode := DixSpec.alone (txt "char") [(txt "value", v)].
Definition icx (ns : list xnode) : char_file := mkCF (opening (txt "ignored-chars") [] :: ns ++ [closing (txt "ignored-chars") []]) false.
(** The zero-width non-joiner, and '|' with a closing tag *)
Definition icx_sample : char_file :=
  icx [DixSpec.text [10]; listed [8204]; DixSpec.comment (txt " bar "); opening (txt "char") [(txt "value", txt "|")]; closing (txt "char") [(txt "value", txt "|")]; DixSpec.text [10]].
Lemma icx_sample_says : icx_says (cf_nodes icx_sample) [8204; 124].
Proof.
  exists [DixSpec.text [10]; listed [8204]; DixSpec.comment (txt " bar "); opening (txt "char") [(txt "value", txt "|")]; closing (txt "char") [(txt "value", txt "|")]; DixSpec.text [10]].
  assert (G : forall v, given [(txt "value", v)] (txt "value") v).
  { intros v. split; [repeat constructor; intros []|left; now left]. }
  split.
  - apply ib_stray; [constructor|]. apply (ib_char [(txt "value", [8204])] 8204 [] [listed [8204]]); [apply G|constructor|constructor|].
    apply ib_stray; [constructor|]. apply (ib_char [(txt "value", txt "|")] 124 [] [opening (txt "char") [(txt "value", txt "|")]; closing (txt "char") [(txt "value", txt "|")]]);
      [apply G|constructor|exact (el_pair (txt "char") [(txt "value", txt "|")] [])|].
    apply ib_stray; constructor.
  - eexists [], [], _, []. split; [constructor|]. split; [constructor|]. split; [apply el_pair|reflexivity].
Qed.
Definition barred : list Z := txt "|a" ++ [8204] ++ txt "b ||[ |]a|b, |" ++ [0] ++ txt "\|" ++ [173; 10].
Definition unbarred : list Z := txt "ab [ |]ab, " ++ [0] ++ txt "\|" ++ [10].
Ltac thin := repeat first
  [ apply th_end
  | apply th_nul
  | match goal with
    | |- thinned _ (91 :: 32 :: 124 :: 93 :: ?T) (91 :: 32 :: 124 :: 93 :: ?U) => apply (th_item _ (Superblank [32; 124]) T U)
    | |- thinned _ (92 :: ?c :: ?T) (92 :: ?c :: ?U) => apply (th_item _ (Escaped c) T U)
    | |- thinned _ (?c :: ?T) (?c :: ?U) => apply (th_item _ (Plain c) T U)
    | |- thinned _ (?c :: ?T) ?U => apply th_skip
    end ].
Example C80_example :
  exists ig rc, lt_proc_chars false (Some [Some icx_sample]) None = Ok (ig, rc)
    /\ thinned ig barred unbarred
    /\ shown (null_flush (with_chars ig rc (town_dix true)) 100 2 (input barred))
       = Ok (txt "^ab/ab<n>$ [ |]^ab/ab<n>$^,/,<c>$ " ++ [0] ++ txt "|" ++ [10; 0])
    /\ shown (null_flush (with_chars (fun _ => false) rc (town_dix true)) 100 2 (input unbarred))
       = Ok (txt "^ab/ab<n>$ [ |]^ab/ab<n>$^,/,<c>$ " ++ [0] ++ txt "|" ++ [10; 0]).
Proof.
  do 2 eexists. split; [reflexivity|]. split.
  - change barred with [124; 97; 8204; 98; 32; 124; 124; 91; 32; 124; 93; 97; 124; 98; 44; 32; 124; 0; 92; 124; 173; 10].
    change unbarred with [97; 98; 32; 91; 32; 124; 93; 97; 98; 44; 32; 0; 92; 124; 10]. thin.
    all: try reflexivity; try discriminate; try (split; lia).
    all: cbn [item_ok]; try (split; [split; lia|split; [lia|split; [unfold U_EOF; lia|split; [intros M; apply meta_iff in M; vm_compute in M; discriminate M|reflexivity]]]]).
    all: try (split; [split; lia|split; [lia|split; [unfold U_EOF; lia|lia]]]).
    split; [scalars|]. split; [|cbn; lia]. repeat (apply bb_char; [lia|lia|lia|]). apply bb_nil.
  - split; vm_compute; reflexivity.
Qed.

(** * What does not hold *)
(** -I together with -i: the soft hyphen is still ignored. *)
Theorem C80_default_refuted : exists f ig rc, icx_says (cf_nodes f) [124] /\ lt_proc_chars true (Some [Some f]) None = Ok (ig, rc) /\ ig 173 = true.
Proof.
  exists (icx [listed [124]]). do 2 eexists. split; [|split; [reflexivity|reflexivity]].
  exists [listed [124]]. split.
  - apply (ib_char [(txt "value", [124])] 124 [] [listed [124]]); [|constructor|constructor|constructor].
    split; [repeat constructor; intros []|left; now left].
  - eexists [], [], _, []. split; [constructor|]. split; [constructor|]. split; [apply el_pair|reflexivity].
Qed.
(** A character beyond U+FFFF in the file is not ignored. *)
Theorem C80_astral_refuted : exists f ig rc, icx_says (cf_nodes f) [128512] /\ lt_proc_chars false (Some [Some f]) None = Ok (ig, rc) /\ ig 128512 = false.
Proof.
  exists (icx [listed (utf16 128512)]). do 2 eexists. split; [|split; [reflexivity|reflexivity]].
  exists [listed (utf16 128512)]. split.
  - apply (ib_char [(txt "value", utf16 128512)] 128512 [] [listed (utf16 128512)]); [|constructor|constructor|constructor].
    split; [repeat constructor; intros []|left; now left].
  - eexists [], [], _, []. split; [constructor|]. split; [constructor|]. split; [apply el_pair|reflexivity].
Qed.
(** A <char> without a value is accepted and makes the NULs disappear that separate texts. *)
Theorem C80_value_refuted : exists ig rc, lt_proc_chars false (Some [Some (icx [DixSpec.alone (txt "char") []])]) None = Ok (ig, rc)
  /\ shown (null_flush (with_chars ig rc (town_dix true)) 100 5 (input (txt "ab" ++ [10; 0] ++ txt "ab" ++ [10]))) = Ok (txt "^ab/ab<n>$" ++ [10] ++ txt "^ab/ab<n>$" ++ [10; 0])
  /\ shown (null_flush (town_dix true) 100 5 (input (txt "ab" ++ [10; 0] ++ txt "ab" ++ [10]))) = Ok (txt "^ab/ab<n>$" ++ [10; 0] ++ txt "^ab/ab<n>$" ++ [10; 0]).
Proof. do 2 eexists. split; [reflexivity|]. split; vm_compute; reflexivity. Qed.
(** Of a file the XML parser gives up on the part before is used without a word. *)
Theorem C80_broken_refuted : exists ig rc,
  lt_proc_chars false (Some [Some (mkCF [opening (txt "ignored-chars") []; listed (txt "|")] true)]) None = Ok (ig, rc) /\ ig 124 = true.
Proof. do 2 eexists. split; reflexivity. Qed.
(** An ignored character at the end of the input is printed as U+FFFF. *)
Theorem C80_end_refuted : exists ig rc, lt_proc_chars false None None = Ok (ig, rc)
  /\ shown (analysis (with_chars ig rc (town_dix true)) 100 (input (txt "ab" ++ [10; 173]))) = Ok (txt "^ab/ab<n>$" ++ [10; 65535]).
Proof. do 2 eexists. split; [reflexivity|]. vm_compute. reflexivity. Qed.

Print Assumptions C80_text.
Print Assumptions C80_file.
Print Assumptions C80_default.
Print Assumptions C80_invalid.
Print Assumptions C80_ltproc.
Print Assumptions C80_default_refuted.
Print Assumptions C80_astral_refuted.
Print Assumptions C80_value_refuted.
Print Assumptions C80_broken_refuted.
Print Assumptions C80_end_refuted.
