(** C81: diacritics restored by lt-proc -r. *)
From Coq Require String Ascii.
From Coq Require Import Sorted.
From Verif Require LookupProps.
From Verif Require Import Base CompressionModel AlphabetModel StateModel StateSpec StatePathProofs StateProps FinalsModel FinalsProps BufferModel InputModel InputProps StreamModel StreamProps
  FileModel FileProofs CompilerModel ProcessorModel ProcessorProofs CompoundProps AnalysisSpec AnalysisProofs AnalysisProps DixModel DixSpec DixProofs CharFileModel CharFileSpec IgnoreProofs IgnoreProps.
Import String.StringSyntax.

(** * The file *)
Lemma rcx_app : forall a b st, rcx_nodes (a ++ b) st = let! st := rcx_nodes a st in rcx_nodes b st.
Proof.
  induction a as [|n a IH]; intros b st; cbn [app rcx_nodes obind]; [reflexivity|].
  destruct (procNodeRCX n st); cbn [obind]; auto.
Qed.
Lemma stray_rcx : forall l st, Forall stray l -> rcx_nodes l st = Ok st.
Proof. intros l st H. induction H as [|n l Hn _ IH]; [reflexivity|]. cbn [rcx_nodes]. destruct Hn; exact IH. Qed.
(** The pairs a map holds; no set is empty. *)
Definition holds_pairs (m : rcx_table) (R : Z -> Z -> Prop) : Prop :=
  (forall c l, rcx_find c m = Some l -> l <> []) /\ forall c x, (exists l, rcx_find c m = Some l /\ In x l) <-> R c x.
Lemma rcx_insert_find : forall c x m d, rcx_find d (rcx_insert c x m) =
  if d =? c then Some (match rcx_find c m with Some l => zset_insert x l | None => [x] end) else rcx_find d m.
Proof.
  intros c x m d. induction m as [|[k l] m IH]; cbn [rcx_insert rcx_find]; [destruct (d =? c); reflexivity|].
  destruct (c =? k) eqn:E; cbn [rcx_find].
  - apply Z.eqb_eq in E. subst k. destruct (d =? c) eqn:E; reflexivity.
  - rewrite IH. destruct (d =? k) eqn:E1; [|reflexivity]. apply Z.eqb_eq in E1. subst k.
    replace (d =? c) with false; [reflexivity|]. rewrite Z.eqb_sym. now rewrite E.
Qed.
Lemma holds_insert : forall m R c x, holds_pairs m R -> holds_pairs (rcx_insert c x m) (fun d y => R d y \/ (d, y) = (c, x)).
Proof.
  intros m R c x [N H]. split.
  - intros d l. rewrite rcx_insert_find. destruct (d =? c); [|apply N]. intros E. injection E as <-. destruct (rcx_find c m) as [l|]; [|discriminate].
    intros E. assert (X : In x (zset_insert x l)) by (apply zset_insert_in; now left). rewrite E in X. destruct X.
  - intros d y. rewrite rcx_insert_find. destruct (d =? c) eqn:E.
    + apply Z.eqb_eq in E. subst d. split.
      * intros (l & E & Hy). injection E as <-. destruct (rcx_find c m) as [l|] eqn:F.
        -- apply zset_insert_in in Hy as [->|Hy]; [now right|]. left. apply H. eauto.
        -- destruct Hy as [<-|[]]. now right.
      * intros [Hy|Hy].
        -- apply H in Hy as (l & F & Hy). rewrite F. eexists. split; [reflexivity|]. apply zset_insert_in. now right.
        -- injection Hy as ->. eexists. split; [reflexivity|]. destruct (rcx_find c m); [apply zset_insert_in; now left|now left].
    + apply Z.eqb_neq in E. rewrite H. split; [now left|]. intros [Hy|Hy]; [exact Hy|]. injection Hy as -> _. contradiction.
Qed.
Lemma holds_ext : forall m R R', (forall c x, R c x <-> R' c x) -> holds_pairs m R -> holds_pairs m R'.
Proof. intros m R R' E [N H]. split; [exact N|]. intros c x. now rewrite H. Qed.

Lemma inner_reads : forall ns xs, rcx_inner ns xs -> Forall bmp xs -> forall c m R, holds_pairs m R ->
  exists m', rcx_nodes ns (Some c, m) = Ok (Some c, m') /\ holds_pairs m' (fun d y => R d y \/ d = c /\ In y xs).
Proof.
  intros ns xs H. induction H as [|n ns xs Hn H IH|a x inner e ns xs G Hi He H IH]; intros B c m R Hm.
  - exists m. split; [reflexivity|]. apply (holds_ext m R); [|exact Hm]. intros d y. cbn. intuition.
  - cbn [rcx_nodes]. replace (procNodeRCX n (Some c, m)) with (Ok (Some c, m)) by (destruct Hn; reflexivity). cbn [obind]. now apply IH.
  - inversion B as [|? ? Bx Bs]; subst. rewrite rcx_app.
    assert (E : exists m1, rcx_nodes e (Some c, m) = Ok (Some c, m1) /\ holds_pairs m1 (fun d y => R d y \/ (d, y) = (c, x))).
    { destruct He as [|inner].
      - exists (rcx_insert c x m). split; [|now apply holds_insert]. cbn [rcx_nodes].
        change (procNodeRCX (DixSpec.alone (txt "restore-char") a) (Some c, m)) with (Ok (Some c, rcx_insert c (first_unit (DixSpec.alone (txt "restore-char") a)) m)).
        unfold DixSpec.alone. now rewrite (value_first a x) by assumption.
      - exists (rcx_insert c x (rcx_insert c x m)). split.
        + cbn [rcx_nodes]. change (procNodeRCX (opening (txt "restore-char") a) (Some c, m)) with (Ok (Some c, rcx_insert c (first_unit (opening (txt "restore-char") a)) m)). cbn [obind].
          unfold opening. rewrite (value_first a x) by assumption. rewrite rcx_app, stray_rcx by assumption. cbn [obind rcx_nodes].
          change (procNodeRCX (closing (txt "restore-char") a) (Some c, rcx_insert c x m)) with (Ok (Some c, rcx_insert c (first_unit (closing (txt "restore-char") a)) (rcx_insert c x m))).
          unfold closing. now rewrite (value_first a x) by assumption.
        + eapply holds_ext; [|apply holds_insert, holds_insert; exact Hm]. cbn. intuition. }
    destruct E as (m1 & -> & Hm1). cbn [obind]. destruct (IH Bs c m1 _ Hm1) as (m2 & -> & Hm2). exists m2. split; [reflexivity|].
    eapply holds_ext; [|exact Hm2]. intros d y. cbn. split.
    + intros [[K|K]|[-> K]]; auto. injection K as -> ->. auto.
    + intros [K|[-> [<-|K]]]; auto.
Qed.
Lemma body_reads : forall ns ps, rcx_body ns ps -> Forall (fun p => bmp (fst p) /\ bmp (snd p)) ps -> forall cur m R, holds_pairs m R ->
  exists cur' m', rcx_nodes ns (cur, m) = Ok (cur', m') /\ holds_pairs m' (fun d y => R d y \/ In (d, y) ps).
Proof.
  intros ns ps H. induction H as [|n ns ps Hn H IH|a c inner xs e ns ps G Hi He H IH]; intros B cur m R Hm.
  - exists cur, m. split; [reflexivity|]. apply (holds_ext m R); [|exact Hm]. intros d y. cbn. intuition.
  - cbn [rcx_nodes]. replace (procNodeRCX n (cur, m)) with (Ok (cur, m)) by (destruct Hn; reflexivity). cbn [obind]. now apply IH.
  - apply Forall_app in B as [B1 B2]. rewrite rcx_app.
    assert (Bx : Forall bmp xs). { apply Forall_forall. intros x Hx. rewrite Forall_forall in B1. exact (proj2 (B1 (c, x) (in_map _ _ _ Hx))). }
    assert (V : xs <> [] -> forall e x v b, first_unit (mkX e x v a b) = c).
    { intros N e0 x v b. apply value_first; [exact G|]. destruct xs as [|y xs]; [easy|]. rewrite Forall_forall in B1. exact (proj1 (B1 (c, y) (or_introl eq_refl))). }
    assert (E : exists cur1 m1, rcx_nodes e (cur, m) = Ok (cur1, m1) /\ holds_pairs m1 (fun d y => R d y \/ d = c /\ In y xs)).
    { destruct He as [|inner].
      - assert (xs = []) as ->.
        { inversion Hi as [|? ? ? K1 K2|? ? ? e0 ? ? ? ? He0 ? He1]; [reflexivity|]. destruct He0; discriminate. }
        eexists _, m. split; [reflexivity|]. eapply holds_ext; [|exact Hm]. cbn. intuition.
      - cbn [rcx_nodes]. change (procNodeRCX (opening (txt "char") a) (cur, m)) with (@Ok (option Z * rcx_table) (Some (first_unit (opening (txt "char") a)), m)). cbn [obind].
        rewrite rcx_app. destruct (inner_reads inner xs Hi Bx (first_unit (opening (txt "char") a)) m R Hm) as (m1 & -> & Hm1). cbn [obind rcx_nodes].
        eexists _, m1. split; [reflexivity|]. eapply holds_ext; [|exact Hm1]. intros d y. cbn beta. destruct xs as [|z xs]; [cbn; intuition|].
        unfold opening. rewrite V by discriminate. reflexivity. }
    destruct E as (cur1 & m1 & -> & Hm1). cbn [obind]. destruct (IH B2 cur1 m1 _ Hm1) as (cur2 & m2 & -> & Hm2). exists cur2, m2. split; [reflexivity|].
    eapply holds_ext; [|exact Hm2]. intros d y. cbn beta. rewrite in_app_iff, in_map_iff. split.
    + intros [[K|[-> K]]|K]; eauto.
    + intros [K|[(z & K & Hz)|K]]; auto. injection K as -> ->. auto.
Qed.
Lemma rcx_file_reads : forall l ps cur m R, rcx_says l ps -> Forall (fun p => bmp (fst p) /\ bmp (snd p)) ps -> holds_pairs m R ->
  exists cur' m', rcx_nodes l (cur, m) = Ok (cur', m') /\ holds_pairs m' (fun d y => R d y \/ In (d, y) ps).
Proof.
  intros l ps cur m R (body & B & (before & a & e & after & Sb & Sa & He & ->)) Hc Hm. rewrite rcx_app, stray_rcx by assumption. cbn [obind]. rewrite rcx_app.
  assert (E : exists cur' m', rcx_nodes e (cur, m) = Ok (cur', m') /\ holds_pairs m' (fun d y => R d y \/ In (d, y) ps)).
  { destruct He as [|body].
    - destruct (body_reads [] ps B Hc cur m R Hm) as (cur' & m' & E & K). cbn [rcx_nodes] in E. injection E as <- <-. eexists _, m. split; [reflexivity|exact K].
    - cbn [rcx_nodes]. change (procNodeRCX (opening (txt "restore-chars") a) (cur, m)) with (@Ok (option Z * rcx_table) (cur, m)). cbn [obind]. rewrite rcx_app.
      destruct (body_reads body ps B Hc cur m R Hm) as (cur' & m' & -> & K). eexists _, m'. split; [reflexivity|exact K]. }
  destruct E as (cur' & m' & -> & K). cbn [obind]. rewrite stray_rcx by assumption. eauto.
Qed.
(** With -r: every character has the set of characters the files give for it; the soft hyphen
    is not ignored any more, unless there are files of characters to be ignored. *)
Theorem C81_file : forall no_default icx css files pss,
  match icx with Some fs => Forall2 (fun f cs => icx_says (cf_nodes f) cs) fs css /\ Forall bmp (concat css) | None => True end ->
  Forall2 (fun f ps => rcx_says (cf_nodes f) ps) files pss -> Forall (fun p => bmp (fst p) /\ bmp (snd p)) (concat pss) ->
  exists ig rc, lt_proc_chars no_default (option_map (map Some) icx) (Some (map Some files)) = Ok (ig, rc)
    /\ (forall c x, (exists l, rc c = Some l /\ In x l) <-> In (c, x) (concat pss)) /\ (forall c l, rc c = Some l -> l <> [])
    /\ forall c, ig c = true <-> icx <> None /\ (In c (concat css) \/ c = 173).
Proof.
  intros nd icx css files pss Hi H B.
  assert (K : forall cur m R, holds_pairs m R -> exists cur' m', parse_rcx_files (map Some files) (cur, m) = Ok (cur', m')
    /\ holds_pairs m' (fun d y => R d y \/ In (d, y) (concat pss))).
  { induction H as [|f ps files pss Hf H IH]; intros cur m R Hm.
    - exists cur, m. split; [reflexivity|]. eapply holds_ext; [|exact Hm]. cbn. intuition.
    - cbn [concat] in B. apply Forall_app in B as [B1 B2]. cbn [map parse_rcx_files].
      destruct (rcx_file_reads _ ps cur m R Hf B1 Hm) as (cur1 & m1 & -> & K1). cbn [obind].
      destruct (IH B2 cur1 m1 _ K1) as (cur2 & m2 & E & K2). exists cur2, m2. split; [exact E|].
      eapply holds_ext; [|exact K2]. intros d y. cbn [concat]. rewrite in_app_iff. intuition. }
  destruct (K None [] (fun _ _ => False)) as (cur & m & E & [N Hm]).
  { split; [discriminate|]. intros c x. split; [intros (l & X & _); discriminate|intros []]. }
  unfold lt_proc_chars. destruct icx as [fs|]; cbn [option_map].
  - destruct Hi as [H1 H2]. destruct (icx_files_read fs css H1 H2 [173] ltac:(discriminate)) as (ig & -> & Ki). cbn [obind]. unfold rcx_table in *. rewrite E. cbn [obind]. do 2 eexists. split; [reflexivity|].
    split; [intros c x; rewrite Hm; intuition|]. split; [exact N|]. intros c. cbn [orb andb]. rewrite mem_In, Ki. cbn [In]. split; [intros X; split; [discriminate|intuition]|intros [_ X]; intuition].
  - cbn [obind]. unfold rcx_table in *. rewrite E. cbn [obind]. do 2 eexists. split; [reflexivity|]. split; [intros c x; rewrite Hm; intuition|]. split; [exact N|].
    intros c. cbn [orb andb]. split; [discriminate|]. intros [X _]. congruence.
Qed.

(** A file with an element that does not belong there, or one that cannot be opened, is not
    taken. *)
Theorem C81_invalid : forall no_default icx files, In None files \/ (exists f n, In (Some f) files /\ In n (cf_nodes f)
    /\ ~ In (x_name n) [txt "#text"; txt "#comment"; txt "restore-chars"; txt "char"; txt "restore-char"]) ->
  forall x, lt_proc_chars no_default icx (Some files) <> Ok x.
Proof.
  intros nd icx files H. assert (K : forall st x, parse_rcx_files files st <> Ok x).
  { induction files as [|g files IH]; intros st x.
    - destruct H as [[]|(f & n & [] & _)].
    - cbn [parse_rcx_files]. destruct g as [g|]; [|discriminate]. destruct (rcx_nodes (cf_nodes g) st) as [st'| | | |] eqn:E; cbn [obind]; try discriminate.
      apply IH. destruct H as [[H|H]|(f & n & [H|H] & Hn & Hx)]; [discriminate H|now left| |right; eauto]. exfalso. injection H as ->. clear IH x.
      revert st E. induction (cf_nodes f) as [|m l IH]; intros st E; [destruct Hn|]. cbn [rcx_nodes] in E. destruct Hn as [->|Hn].
      + unfold procNodeRCX, is_named in E. repeat (destruct (ustr_eq_dec (x_name n) _) as [X|_] in E; [apply Hx; rewrite X; cbn; auto 8|]). discriminate E.
      + destruct (procNodeRCX m st) as [st1| | | |]; cbn [obind] in E; try discriminate. exact (IH Hn st1 E). }
  intros x. unfold lt_proc_chars. destruct (match icx with None => _ | Some l => _ end) as [[use ig]| | | |]; cbn [obind]; try discriminate.
  destruct (parse_rcx_files files (None, [])) as [[cur m]| | | |] eqn:E; try (unfold rcx_table in *; rewrite E); cbn [obind]; try discriminate. destruct (K _ _ E).
Qed.

(** * Reading words *)
(** The analyses after reading the word as analysis does (fst_processor.cc:891-916) *)
Fixpoint steps (P : processor) (st : analyses) (w : list Z) : outcome analyses :=
  match w with
  | [] => Ok st
  | c :: r => let! st := take_step P c st in steps P st r
  end.
Definition read_word (P : processor) (w : list Z) : outcome analyses := let! i := initial_state P in steps P i w.
Lemma steps_app : forall P a st b, steps P st (a ++ b) = let! st := steps P st a in steps P st b.
Proof.
  intros P a. induction a as [|c a IH]; intros st b; cbn [app steps obind]; auto.
  destruct (take_step P c st); cbn [obind]; auto.
Qed.
Lemma read_word_snoc : forall P w c, read_word P (w ++ [c]) = let! st := read_word P w in take_step P c st.
Proof.
  intros P w c. unfold read_word. destruct (initial_state P) as [i| | | |]; cbn [obind]; auto. rewrite steps_app.
  destruct (steps P i w) as [st| | | |]; cbn [obind steps]; auto. destruct (take_step P c st); reflexivity.
Qed.

(** What is assumed of the processor and the word: the map holds the pairs [ps], no NULs, the
    lower-case letters of C and ICU agree, and case folding is not switched off on the way. *)
Record word_ok (P : processor) (ps : list (Z * Z)) (cs : bool) (w : list Z) : Prop := {
  wo_pairs : forall c x, (exists l, p_rcx P c = Some l /\ In x l) <-> In (c, x) ps;
  wo_some : forall c l, p_rcx P c = Some l -> l <> [];
  wo_nul : forall c x, In (c, x) ps -> x <> 0;
  wo_char : forall c, In c w -> c <> 0;
  wo_lower : forall c, In c w -> p_isupper P c = true -> p_tolower P c <> 0 /\ p_ctolower P c = Ok (p_tolower P c);
  wo_case : forall k st, read_word P (firstn k w) = Ok st -> beCaseSensitive P st = cs
}.

Section Word.
  Context (P : processor) (ps : list (Z * Z)) (cs : bool).
  Definition op_of (c : Z) : @sop Z :=
    match p_rcx P c with
    | Some l =>
        if negb (p_isupper P c) || cs then SStepSet c l
        else match p_rcx P (p_tolower P c) with
             | Some l' => SStepSet c (l ++ [p_tolower P c] ++ l')
             | None => SStepSet c (l ++ [p_tolower P c])
             end
    | None => SCase c cs
    end.
  Definition choice_at (c : Z) : choice :=
    match StateSpec.choice_of (p_find P) (p_isupper P) (p_tolower P) (op_of c) with Some x => x | None => None end.
  Lemma take_step_offer : forall c st, beCaseSensitive P st = cs -> (p_isupper P c = true -> p_ctolower P c = Ok (p_tolower P c)) ->
    take_step P c st = offer P (choice_at c) st.
  Proof.
    intros c st B L. unfold take_step, choice_at, op_of. rewrite B. destruct (p_rcx P c) as [l|].
    2:{ unfold step_case. rewrite B. reflexivity. }
    destruct (p_isupper P c) eqn:U; cbn [negb orb]; [|reflexivity]. rewrite (L eq_refl). cbn [obind]. destruct cs; [reflexivity|].
    destruct (p_rcx P (p_tolower P c)); reflexivity.
  Qed.
  Lemma word_holds : forall w st, word_ok P ps cs w -> read_word P w = Ok st -> holds (p_find P) (p_root P) (map choice_at w) st.
  Proof.
    intros w. induction w as [|c w IH] using rev_ind; intros st G H.
    - unfold read_word in H. destruct (initial_state P) as [i| | | |] eqn:E; try discriminate. cbn [obind steps map] in *.
      assert (i = st) by congruence. subst. eapply init_holds. exact E.
    - rewrite read_word_snoc in H. assert (G' : word_ok P ps cs w).
      { destruct G as [G1 G2 G3 G4 G5 G6]. constructor; auto.
        - intros x Hx. apply G4. apply in_or_app. now left.
        - intros x Hx. apply G5. apply in_or_app. now left.
        - intros k st0 E. apply (G6 (Nat.min k (length w))). rewrite <- E. f_equal.
          rewrite firstn_app. replace (Nat.min k (length w) - length w)%nat with 0%nat by lia. cbn [firstn]. rewrite app_nil_r.
          destruct (le_lt_dec k (length w)) as [L|L].
          + now rewrite Nat.min_l by lia.
          + rewrite Nat.min_r, firstn_all, firstn_all2 by lia. reflexivity. }
      destruct (read_word P w) as [st0| | | |] eqn:E0; try discriminate. cbn [obind] in H.
      assert (B : beCaseSensitive P st0 = cs). { apply (wo_case _ _ _ _ G' (length w)). now rewrite firstn_all. }
      rewrite (take_step_offer c st0 B) in H.
      + rewrite map_app. eapply step_holds; [apply (IH st0 G' eq_refl)|exact H].
      + intros U. apply (wo_lower _ _ _ _ G); [apply in_or_app; right; now left|exact U].
  Qed.
  Lemma op_letters : forall c, exists alts, letters (p_isupper P) (p_tolower P) (op_of c) = Some (c, alts)
    /\ (word_ok P ps cs [] -> forall x, x <> c -> (In x alts <-> may (p_isupper P) (p_tolower P) cs ps c x)).
  Proof.
    intros c. unfold op_of. destruct (p_rcx P c) as [l|] eqn:E.
    - assert (L : word_ok P ps cs [] -> forall x, In x l <-> In (c, x) ps).
      { intros G x. rewrite <- (wo_pairs _ _ _ _ G). rewrite E. split; [eauto|]. intros (l' & F & Hx). congruence. }
      assert (N : word_ok P ps cs [] -> exists y, In (c, y) ps).
      { intros G. destruct l as [|y l]; [destruct (wo_some _ _ _ _ G _ _ E); reflexivity|]. exists y. apply (L G). now left. }
      destruct (negb (p_isupper P c) || cs) eqn:F.
      + exists l. split; [reflexivity|]. intros G x Hx. rewrite (L G). split; [apply may_listed|].
        intros M. inversion M; subst; auto; rewrite H, H0 in F || rewrite H0 in F; cbn in F; try discriminate; congruence.
      + apply orb_false_elim in F as [F1 F2]. apply negb_false_iff in F1.
        destruct (p_rcx P (p_tolower P c)) as [l'|] eqn:E'.
        * exists (l ++ [p_tolower P c] ++ l'). split; [reflexivity|]. intros G x Hx.
          assert (L' : In x l' <-> In (p_tolower P c, x) ps).
          { rewrite <- (wo_pairs _ _ _ _ G). rewrite E'. split; [eauto|]. intros (l0 & X & Y). congruence. }
          rewrite !in_app_iff, (L G), L'. cbn [In]. destruct (N G) as (y & Hy). split.
          -- intros [K|[[<-|[]]|K]]; [now apply may_listed|now apply may_lower|now apply (may_lower_listed _ _ _ _ c y)].
          -- intros M. inversion M; subst; auto.
        * exists (l ++ [p_tolower P c]). split; [reflexivity|]. intros G x Hx. rewrite in_app_iff, (L G). cbn [In]. split.
          -- intros [K|[<-|[]]]; [now apply may_listed|now apply may_lower].
          -- intros M. inversion M as [? ? K|? K1 K2|? y ? K1 K2 K3 K4]; subst; auto. exfalso.
             apply (wo_pairs _ _ _ _ G) in K4 as (l0 & X & _). congruence.
    - exists (if p_isupper P c && negb cs then [p_tolower P c] else []). split; [reflexivity|]. intros G x Hx.
      assert (N : forall y, ~ In (c, y) ps). { intros y Y. apply (wo_pairs _ _ _ _ G) in Y as (l0 & X & _). congruence. }
      destruct (p_isupper P c && negb cs) eqn:F; cbn [In].
      + apply andb_prop in F as [F1 F2]. apply negb_true_iff in F2. split.
        * intros [<-|[]]. now apply may_lower.
        * intros M. inversion M as [? ? K|? K1 K2|? y ? K1 K2 K3 K4]; subst; auto; exfalso; eapply N; eassumption.
      + split; [intros []|]. intros M. inversion M as [? ? K|? K1 K2|? y ? K1 K2 K3 K4]; subst; try (exfalso; eapply N; eassumption).
        rewrite K2 in F. discriminate F.
  Qed.
  Lemma restored_taken : forall w, word_ok P ps cs w -> forall l d, restored (p_isupper P) (p_tolower P) cs ps w l d <->
    StateProps.taken (p_isupper P) (p_tolower P) (map op_of w) l d.
  Proof.
    intros w G0. assert (G1 : word_ok P ps cs []).
    { destruct G0 as [A1 A2 A3 A4 A5 A6]. constructor; auto; try contradiction. intros k st E. apply (A6 0%nat). rewrite firstn_nil in E. exact E. }
    assert (C1 : forall c, In c w -> c <> 0) by apply (wo_char _ _ _ _ G0).
    assert (C2 : forall c, In c w -> p_isupper P c = true -> p_tolower P c <> 0) by (intros c H1 H2; apply (wo_lower _ _ _ _ G0 c H1 H2)).
    clear G0. induction w as [|c w IH]; intros l d; cbn [map].
    - split; intros H; inversion H; subst; constructor.
    - destruct (op_letters c) as (alts & El & Ha). specialize (Ha G1).
      assert (Hz : ~ In 0 (c :: alts)).
      { intros [X|X]; [exact (C1 c (or_introl eq_refl) X)|]. apply (Ha 0) in X; [|intros X0; exact (C1 c (or_introl eq_refl) (eq_sym X0))].
        inversion X as [? ? K|? K1 K2|? y ? K1 K2 K3 K4]; subst.
        - exact (wo_nul _ _ _ _ G1 _ _ K eq_refl).
        - destruct (C2 c (or_introl eq_refl) K2). auto.
        - exact (wo_nul _ _ _ _ G1 _ _ K4 eq_refl). }
      assert (IH' := IH (fun x Hx => C1 x (or_intror Hx)) (fun x Hx => C2 x (or_intror Hx))). clear IH. split.
      + intros H. inversion H as [|? ? l0 d0 H1|? x ? l0 d0 M N H1]; subst.
        * replace d with (negb (c =? c) || d) by now rewrite Z.eqb_refl. apply (StateProps.tk_cons _ _ _ _ c l0 d c alts); auto; [now left|]. now apply IH'.
        * replace true with (negb (x =? c) || d0) by (replace (x =? c) with false by lia; reflexivity).
          apply (StateProps.tk_cons _ _ _ _ x l0 d0 c alts); auto; [right; now apply Ha|]. now apply IH'.
      + intros H. inversion H as [|op ops x l0 d0 i alts' El' Hz' Hx T]; subst. rewrite El in El'. injection El' as <- <-. apply IH' in T.
        destruct (Z.eq_dec x c) as [->|N].
        * rewrite Z.eqb_refl. cbn [negb orb]. now constructor.
        * replace (x =? c) with false by lia. cbn [negb orb]. destruct Hx as [->|Hx]; [contradiction|].
          apply (rs_other _ _ _ _ c x w l0 d0); auto. now apply Ha.
  Qed.
End Word.

(** The analyses held after a word are exactly the paths of the dictionary over the word with
    characters restored. *)
Theorem C81_word : forall P ps cs w st, word_ok P ps cs w -> read_word P w = Ok st -> forall q s d,
  In (mkV q s d) st <-> exists l, restored (p_isupper P) (p_tolower P) cs ps w l d /\ rpath (p_find P) (p_root P) l s q.
Proof.
  intros P ps cs w st G H q s d. rewrite (word_holds P ps cs w st G H q s d).
  rewrite (cpath_taken (p_find P) (p_isupper P) (p_tolower P) (map (op_of P cs) w) (map (choice_at P cs) w)).
  - split; intros (l & T & R); exists l; (split; [|exact R]); now apply (restored_taken P ps cs w G).
  - rewrite !map_map. apply map_ext. intros c. unfold choice_at. destruct (op_letters P ps cs c) as (alts & El & _).
    destruct (letters_choice (p_find P) (p_isupper P) (p_tolower P) _ _ _ El) as (x & Ex & _). now rewrite Ex.
  - apply Forall_forall. intros op Hop. apply in_map_iff in Hop as (c & <- & _). destruct (op_letters P ps cs c) as (alts & El & _). rewrite El. discriminate.
Qed.

(** What is printed for the word: the texts, each once and by weight, are analyses of words of
    the dictionary it can stand for; and with room for all of them, all their analyses. *)
Theorem C81_printed : forall P ps cs w sf st lf, is_sort (p_sort P) -> 0 < p_maxAnalyses P -> 0 < p_maxClasses P ->
  word_ok P ps cs w -> read_word P w = Ok st -> filter_finals P st sf = Ok lf ->
  exists up fu (rep : list (ustr * Z)), casing P sf up fu
    /\ lf = concat (map (fun x => 47 :: fst x ++ if p_weights P then weight_text (snd x) else []) rep)
    /\ NoDup (map fst rep) /\ StronglySorted by_weight rep
    /\ (forall t c, In (t, c) rep -> exists l d s q, restored (p_isupper P) (p_tolower P) cs ps w l d /\ rpath (p_find P) (p_root P) l s q
          /\ reports (p_toupper P) (all_finals P) (p_alpha P) is_escaped up fu 0 (mkV q s d) t c)
    /\ (forall l d s q, restored (p_isupper P) (p_tolower P) cs ps w l d -> rpath (p_find P) (p_root P) l s q -> final_weight q (all_finals P) <> None ->
          rep <> [] /\ (Z.of_nat (length st) <= p_maxAnalyses P -> Z.of_nat (length st) <= p_maxClasses P ->
            exists t c least, reports (p_toupper P) (all_finals P) (p_alpha P) is_escaped up fu 0 (mkV q s d) t c /\ In (t, least) rep /\ least <= c)).
Proof.
  intros P ps cs w sf st lf Hs HA HC G H F. pose proof (C81_word P ps cs w st G H) as R.
  destruct (finals_casing _ _ _ _ F) as (up & fu & Hcase & F'). unfold filterFinals in F'.
  destruct (filterFinalsArray (p_toupper P) (p_sort P) (all_finals P) (p_alpha P) is_escaped (p_weights P)
    (p_maxAnalyses P) (p_maxClasses P) up fu 0 st) as [arr| | | |] eqn:Ea; try discriminate. cbn [obind] in F'.
  assert (El : lf = concat (map (fun t => 47 :: t) arr)) by congruence. clear F'.
  assert (Core : exists rep : list (ustr * Z),
    arr = map (fun x => fst x ++ if p_weights P then weight_text (snd x) else []) rep /\ NoDup (map fst rep)
    /\ StronglySorted by_weight rep
    /\ (forall t c, In (t, c) rep -> exists s, In s st /\ reports (p_toupper P) (all_finals P) (p_alpha P) is_escaped up fu 0 s t c)
    /\ (Z.of_nat (length st) <= p_maxAnalyses P -> Z.of_nat (length st) <= p_maxClasses P ->
        forall s, In s st -> final_weight (v_where s) (all_finals P) <> None ->
         exists t c least, reports (p_toupper P) (all_finals P) (p_alpha P) is_escaped up fu 0 s t c
           /\ In (t, least) rep /\ least <= c)).
  { destruct (Z_le_gt_dec (Z.of_nat (length st)) (p_maxAnalyses P)) as [LA|LA];
    [destruct (Z_le_gt_dec (Z.of_nat (length st)) (p_maxClasses P)) as [LC|LC]|].
    1: { destruct (C37_complete (p_toupper P) (p_sort P) Hs _ _ _ _ _ _ _ _ _ _ _ Ea LA LC) as (rep & E & N & So & Snd & Cpl).
         exists rep. auto. }
    all: destruct (C37_reported (p_toupper P) (p_sort P) Hs _ _ _ _ _ _ _ _ _ _ _ Ea) as (rep & E & N & So & _ & _ & Snd);
      exists rep; split; [exact E|]; split; [exact N|]; split; [exact So|]; split; [exact Snd|lia]. }
  destruct Core as (rep & E & N & So & Snd & Cpl). exists up, fu, rep. split; [exact Hcase|]. split.
  { rewrite El, E, map_map. reflexivity. }
  split; [exact N|]. split; [exact So|]. split.
  { intros t c Hin. destruct (Snd t c Hin) as ([q s d] & Hin' & Hr). apply R in Hin' as (l & A & B). exists l, d, s, q. auto. }
  intros l d s q A B Hf. assert (Hin : In (mkV q s d) st) by (apply R; eauto). split.
  - assert (Ne : arr <> []).
    { apply (LookupProps.array_nonempty (p_toupper P) (p_sort P) Hs _ _ _ _ _ _ _ _ _ _ _ HA HC Ea).
      unfold FinalsModel.isFinal. apply existsb_exists. exists (mkV q s d). split; [exact Hin|]. cbn [v_where]. destruct (final_weight q (all_finals P)); congruence. }
    intros ->. cbn [map] in E. contradiction.
  - intros LA LC. exact (Cpl LA LC _ Hin Hf).
Qed.

(** * A concrete case *)
Definition restore (c x : Z) : list xnode :=
  [opening (txt "char") [(txt "value", [c])]; DixSpec.alone (txt "restore-char") [(txt "value", [x])]; closing (txt "char") [(txt "value", [c])]].
Definition rcx (ns : list xnode) : char_file := mkCF (opening (txt "restore-chars") [] :: ns ++ [closing (txt "restore-chars") []]) false.
(** z for a, Z for c *)
Definition rcx_sample : char_file := rcx (restore 122 97 ++ DixSpec.text [10] :: restore 90 99).
Lemma rcx_sample_says : rcx_says (cf_nodes rcx_sample) [(122, 97); (90, 99)].
Proof.
  exists (restore 122 97 ++ DixSpec.text [10] :: restore 90 99).
  assert (G : forall v, given [(txt "value", v)] (txt "value") v).
  { intros v. split; [repeat constructor; intros []|left; now left]. }
  assert (I : forall x, (0 <= x < 65536) -> rcx_inner [DixSpec.alone (txt "restore-char") [(txt "value", [x])]] [x]).
  { intros x Hx. apply (ri_char [(txt "value", [x])] x [] [DixSpec.alone (txt "restore-char") [(txt "value", [x])]]).
    - replace (utf16 x) with [x]; [apply G|]. unfold utf16. replace (x <? 65536) with true by lia. reflexivity.
    - constructor.
    - constructor.
    - constructor. }
  split.
  - apply (rb_char [(txt "value", [122])] 122 [DixSpec.alone (txt "restore-char") [(txt "value", [97])]] [97] (restore 122 97)); [apply G|apply (I 97); lia|exact (el_pair (txt "char") [(txt "value", [122])] _)|].
    apply rb_stray; [constructor|].
    apply (rb_char [(txt "value", [90])] 90 [DixSpec.alone (txt "restore-char") [(txt "value", [99])]] [99] (restore 90 99) [] []); [apply G|apply (I 99); lia|exact (el_pair (txt "char") [(txt "value", [90])] _)|constructor].
  - eexists [], [], _, []. split; [constructor|]. split; [constructor|]. split; [apply el_pair|reflexivity].
Qed.
Definition restoring (rc : Z -> option (list Z)) : processor := with_chars (fun _ => false) rc (town_dix false).
Example C81_example : exists ig rc, lt_proc_chars false None (Some [Some rcx_sample]) = Ok (ig, rc)
  /\ word_ok (restoring rc) [(122, 97); (90, 99)] false (txt "Zb")
  /\ restored ascii_up (fun c => if ascii_up c then c + 32 else c) false [(122, 97); (90, 99)] (txt "Zb") (txt "ab") true
  /\ (exists st, read_word (restoring rc) (txt "Zb") = Ok st /\ filter_finals (restoring rc) st (txt "Zb") = Ok (txt "/Ab<n>"))
  /\ shown (analysis (with_chars ig rc (town_dix false)) 100 (input (txt "zb, Zb ab zB xb" ++ [173; 10])))
     = Ok (txt "^zb/ab<n>$^,/,<c>$ ^Zb/Ab<n>$ ^ab/ab<n>$ ^zB/ab<n>$ ^xb/*xb$" ++ [173; 10]).
Proof.
  exists (fun _ => false), (fun c => rcx_find c [(122, [97]); (90, [99])]). split; [reflexivity|]. split.
  { constructor.
    - intros c x. cbn [p_rcx restoring with_chars rcx_find]. split.
      + intros (l & E & Hx). destruct (c =? 122) eqn:E1; [|destruct (c =? 90) eqn:E2; [|discriminate E]].
        * injection E as <-. destruct Hx as [<-|[]]. left. f_equal. lia.
        * injection E as <-. destruct Hx as [<-|[]]. right. left. f_equal. lia.
      + intros [E|[E|[]]]; injection E as <- <-; eexists; (split; [reflexivity|now left]).
    - intros c l. cbn [p_rcx restoring with_chars rcx_find]. destruct (c =? 122); [intros E; injection E as <-; discriminate|].
      destruct (c =? 90); [intros E; injection E as <-; discriminate|discriminate].
    - intros c x [E|[E|[]]]; injection E as <- <-; lia.
    - change (txt "Zb") with [90; 98]. intros c [<-|[<-|[]]]; lia.
    - intros c [<-|[<-|[]]] U; [|discriminate U]. split; [vm_compute; discriminate|reflexivity].
    - intros k st. destruct k as [|[|k]].
      + intros E. vm_compute in E. injection E as <-. reflexivity.
      + intros E. vm_compute in E. injection E as <-. reflexivity.
      + replace (firstn (S (S k)) (txt "Zb")) with (txt "Zb") by (now destruct k). intros E. vm_compute in E. injection E as <-. reflexivity. }
  split.
  { apply (rs_other _ _ _ _ 90 97 [98] [98] false).
    - apply (may_lower_listed _ _ _ _ 90 99); [reflexivity|reflexivity|right; now left|now left].
    - discriminate.
    - apply rs_same. constructor. }
  split.
  { eexists. split; [vm_compute; reflexivity|]. vm_compute. reflexivity. }
  vm_compute. reflexivity.
Qed.

(** * What does not hold *)
(** The capital letter of a letter in the file is not restored if it has no entry of its own. *)
Theorem C81_capital_refuted : exists f ig rc, rcx_says (cf_nodes f) [(122, 97)] /\ lt_proc_chars false None (Some [Some f]) = Ok (ig, rc)
  /\ p_caseSensitive (town_dix false) = false
  /\ shown (analysis (with_chars ig rc (town_dix false)) 100 (input (txt "zb Zb" ++ [10]))) = Ok (txt "^zb/ab<n>$ ^Zb/*Zb$" ++ [10]).
Proof.
  exists (rcx (restore 122 97)). do 2 eexists. split; [|split; [reflexivity|split; [reflexivity|vm_compute; reflexivity]]].
  assert (G : forall v, given [(txt "value", v)] (txt "value") v).
  { intros v. split; [repeat constructor; intros []|left; now left]. }
  exists (restore 122 97). split.
  - apply (rb_char [(txt "value", [122])] 122 [DixSpec.alone (txt "restore-char") [(txt "value", [97])]] [97] (restore 122 97) [] []);
      [apply G| |exact (el_pair (txt "char") [(txt "value", [122])] _)|constructor].
    apply (ri_char [(txt "value", [97])] 97 [] [DixSpec.alone (txt "restore-char") [(txt "value", [97])]] [] []); [apply G|constructor|constructor|constructor].
  - eexists [], [], _, []. split; [constructor|]. split; [constructor|]. split; [apply el_pair|reflexivity].
Qed.
(** The soft hyphen, ignored otherwise, is not when characters are restored. *)
Theorem C81_hyphen_refuted : exists ig rc ig' rc', lt_proc_chars false None (Some [Some rcx_sample]) = Ok (ig, rc) /\ lt_proc_chars false None None = Ok (ig', rc')
  /\ shown (analysis (with_chars ig rc (town_dix false)) 100 (input (txt "a" ++ [173] ++ txt "b" ++ [10]))) = Ok (txt "^a/*a$" ++ [173] ++ txt "^b/*b$" ++ [10])
  /\ shown (analysis (with_chars ig' rc' (town_dix false)) 100 (input (txt "a" ++ [173] ++ txt "b" ++ [10]))) = Ok (txt "^ab/ab<n>$" ++ [10]).
Proof. do 4 eexists. split; [reflexivity|]. split; [reflexivity|]. split; vm_compute; reflexivity. Qed.
(** A capital letter beyond U+00FF in the file: reading it is undefined, as C's tolower is not
    defined there. *)
Definition with_macron (P : processor) : processor :=
  mkP (p_find P) (p_root P) (p_fuel P) (p_standard P) (p_incond P) (p_postblank P) (p_preblank P)
    (p_alpha P) (p_letters P) (p_ignored P) (p_isalnum P) (p_isspace P) (fun c => p_isupper P c || (c =? 256)) (fun c => if c =? 256 then 257 else p_tolower P c) (p_toupper P)
    (fun c => if c <? 256 then p_ctolower P c else UB) (p_strlower P) (p_sort P) (p_caseSensitive P) (p_dictionaryCase P) (p_weights P)
    (p_maxAnalyses P) (p_maxClasses P) (p_decomp P) (p_onlyL P) (p_cpR P) (p_maxElements P) (p_rcx P).
Theorem C81_tolower_refuted : exists ig rc, lt_proc_chars false None (Some [Some (rcx (restore 256 97))]) = Ok (ig, rc)
  /\ analysis (with_chars ig rc (with_macron (town_dix false))) 100 (input ([256] ++ txt "b" ++ [10])) = UB
  /\ exists o, shown (analysis (with_macron (town_dix false)) 100 (input ([256] ++ txt "b" ++ [10]))) = Ok o.
Proof. do 2 eexists. split; [reflexivity|]. split; [vm_compute; reflexivity|]. eexists. vm_compute. reflexivity. Qed.
(** A <restore-char> before any <char>: a variable without a value is read. *)
Theorem C81_orphan_refuted : forall no_default x ns,
  lt_proc_chars no_default None (Some [Some (rcx (DixSpec.alone (txt "restore-char") [(txt "value", [x])] :: ns))]) = UB.
Proof. reflexivity. Qed.

Print Assumptions C81_file.
Print Assumptions C81_invalid.
Print Assumptions C81_word.
Print Assumptions C81_printed.
Print Assumptions C81_capital_refuted.
Print Assumptions C81_hyphen_refuted.
Print Assumptions C81_tolower_refuted.
Print Assumptions C81_orphan_refuted.
