(** C57: which entries of a dictionary are compiled, and that lt-expand lists the same. *)
From Coq Require String Ascii.
From Verif Require Import Base AlphabetModel StringModel StringProps StreamProps ExpanderModel ExpanderSpec ExpanderProofs EntryFilterModel.

(** * Specification *)
(** [f] is one of the words of [value], which spaces separate. *)
Definition names_word (value f : ustr) : Prop :=
  f <> [] /\ ~ In 32 f /\ exists pre post, value = pre ++ f ++ post
    /\ (pre = [] \/ exists p, pre = p ++ [32]) /\ (post = [] \/ exists q, post = 32 :: q).
Definition admits (value f : ustr) (keep : bool) : Prop :=
  value = [] \/ (keep = true /\ f = []) \/ names_word value f.
(** The entry is compiled in the direction [lr]. *)
Definition selected (o : options) (lr : bool) (a : attributes) : Prop :=
  (at_r a = [] \/ at_r a = if lr then LR_val else RL_val) /\ at_ignore a <> yes_val
  /\ admits (at_alt a) (o_alt o) false /\ admits (at_v a) (o_v o) true
  /\ if lr then admits (at_vr a) (o_vr o) false else admits (at_vl a) (o_vl o) false.

(** * Proofs *)
Lemma occurs_one : forall p, ~ occurs [32] p <-> ~ In 32 p.
Proof.
  intros p. split; intros H K; apply H.
  - apply in_split in K as (a & b & ->). exists a, b. reflexivity.
  - destruct K as (a & b & ->). apply in_or_app. right. now left.
Qed.
Lemma first_space : forall p q r s, ~ In 32 p -> ~ In 32 r -> p ++ 32 :: q = r ++ 32 :: s -> p = r /\ q = s.
Proof.
  induction p as [|x p IH]; intros q [|y r] s Hp Hr E; cbn in E.
  - injection E as ->. auto.
  - injection E as E _. exfalso. apply Hr. now left.
  - injection E as E _. exfalso. apply Hp. now left.
  - injection E as -> E. destruct (IH q r s) as [-> ->]; auto; intros K; [apply Hp|apply Hr]; now right.
Qed.
Lemma no_space : forall p r s, ~ In 32 p -> p <> r ++ 32 :: s.
Proof. intros p r s H ->. apply H, in_or_app. right. now left. Qed.
Lemma pieces_words : forall f, f <> [] -> forall ps, leftmost [32] ps -> (In f ps <-> names_word (between [32] ps) f).
Proof.
  intros f Hf. induction ps as [|p ps IH]; [intros []|]. intros L. destruct ps as [|p' ps].
  - cbn in L. apply occurs_one in L. cbn [between In]. split.
    + intros [->|[]]. split; auto. split; auto. exists [], []. rewrite app_nil_r. auto.
    + intros (_ & _ & pre & post & E & H1 & H2). left. destruct H1 as [->|[q ->]].
      * destruct H2 as [->|[q ->]]; [rewrite app_nil_r in E; auto|]. exfalso. eapply no_space; eauto.
      * exfalso. rewrite <- app_assoc in E. eapply no_space; eauto.
  - destruct L as [L1 L2]. cbn [removelast] in L1. rewrite app_nil_r in L1. apply occurs_one in L1. specialize (IH L2).
    change (between [32] (p :: p' :: ps)) with (p ++ 32 :: between [32] (p' :: ps)). cbn [In]. split.
    + intros [->|H].
      * split; auto. split; auto. exists [], (32 :: between [32] (p' :: ps)). split; [reflexivity|]. split; auto. right. eauto.
      * apply IH in H as (_ & N & pre & post & -> & H1 & H2). split; auto. split; auto. exists (p ++ 32 :: pre), post.
        split; [now rewrite <- app_assoc|]. split; auto. right. destruct H1 as [->|[q ->]]; [now exists p|].
        exists (p ++ 32 :: q). now rewrite <- app_assoc.
    + intros (_ & N & pre & post & E & H1 & H2). destruct H1 as [->|[q ->]].
      * left. cbn [app] in E. destruct H2 as [->|[q ->]].
        -- exfalso. rewrite app_nil_r in E. symmetry in E. eapply no_space; eauto.
        -- now destruct (first_space _ _ _ _ L1 N E).
      * right. apply IH. split; auto. split; auto. rewrite <- app_assoc in E. cbn [app] in E.
        destruct (in_dec Z.eq_dec 32 q) as [Hq|Hq].
        -- assert (K : exists q1 q2, q = q1 ++ 32 :: q2 /\ ~ In 32 q1).
           { clear - Hq. induction q as [|x q IH]; [destruct Hq|]. destruct (Z.eq_dec x 32) as [->|Hx]; [exists [], q; auto|].
             destruct IH as (q1 & q2 & -> & H); [destruct Hq; congruence|]. exists (x :: q1), q2. split; auto. intros [K|K]; auto. }
           destruct K as (q1 & q2 & -> & Nq). rewrite <- app_assoc in E. cbn [app] in E.
           destruct (first_space _ _ _ _ L1 Nq E) as [-> ->]. exists (q2 ++ [32]), post.
           split; [now rewrite <- app_assoc|]. split; auto. right. now exists q2.
        -- destruct (first_space _ _ _ _ L1 Hq E) as [-> ->]. exists [], post. auto.
Qed.
Lemma filter_spec : forall value f keep, exists b, filterEntry value f keep = Ok b /\ (b = true <-> admits value f keep).
Proof.
  intros value f keep. unfold filterEntry, admits. destruct value as [|c value]; [exists true; cbn; tauto|]. cbn [uempty].
  destruct (keep && uempty f) eqn:E.
  - apply andb_prop in E as [-> E]. destruct f; [|discriminate]. exists true. tauto.
  - assert (N : ~ (keep = true /\ f = [])) by (intros [-> ->]; discriminate).
    destruct (C51_split (c :: value) [32] ltac:(discriminate)) as (ps & Es & L & B). rewrite Es. cbn [obind].
    eexists. split; [reflexivity|]. rewrite existsb_exists. split.
    + intros (x & Hx & Ex). destruct (ueq_spec x f); [subst x|discriminate]. apply filter_In in Hx as [Hx Hn].
      assert (f <> []) by (intros ->; discriminate). right. right. rewrite <- B. now apply pieces_words.
    + intros [H|[H|H]]; [discriminate|contradiction|]. assert (f <> []) by apply H. rewrite <- B in H. apply pieces_words in H; auto.
      exists f. split; [apply filter_In; split; auto; destruct f; [congruence|reflexivity]|]. destruct (ueq_spec f f); congruence.
Qed.

(** The attributes of an entry are lists of words, and the entry is compiled if each has the
    word asked for; an attribute v admits all if none is asked for. *)
Theorem C57_compiled : forall o lr a, exists b, compiled o lr a = Ok b /\ (b = true <-> selected o lr a).
Proof.
  intros o lr a. unfold compiled, selected. set (dir := if lr then LR_val else RL_val).
  destruct (negb (uempty (at_r a)) && negb (ueq (at_r a) dir)) eqn:E.
  { exists false. split; auto. apply andb_prop in E as [E1 E2]. split; [discriminate|]. intros ([K|K] & _).
    - rewrite K in E1. discriminate.
    - destruct (ueq_spec (at_r a) dir); [discriminate|contradiction]. }
  assert (R : at_r a = [] \/ at_r a = dir).
  { destruct (at_r a) as [|c r]; auto. cbn in E. destruct (ueq_spec (c :: r) dir); [auto|discriminate]. }
  destruct (ueq_spec (at_ignore a) yes_val); [exists false; split; auto; split; [discriminate|tauto]|].
  destruct (filter_spec (at_alt a) (o_alt o) false) as (b1 & E1 & S1). rewrite E1. cbn [obind].
  destruct b1; cbn [negb]. 2:{ exists false. split; auto. split; [discriminate|]. intros (_ & _ & K & _). now apply S1. }
  destruct (filter_spec (at_v a) (o_v o) true) as (b2 & E2 & S2). rewrite E2. cbn [obind].
  destruct b2; cbn [negb]. 2:{ exists false. split; auto. split; [discriminate|]. intros (_ & _ & _ & K & _). now apply S2. }
  assert (T1 := proj1 S1 eq_refl). assert (T2 := proj1 S2 eq_refl). destruct lr.
  - destruct (filter_spec (at_vr a) (o_vr o) false) as (b3 & E3 & S3). exists b3. split; auto. rewrite S3. tauto.
  - destruct (filter_spec (at_vl a) (o_vl o) false) as (b3 & E3 & S3). exists b3. split; auto. rewrite S3. tauto.
Qed.

(** lt-expand lists an entry for the directions it is compiled in, if the attributes are
    single words and v is the variant asked for. *)
Theorem C57_same : forall o a lr, In (at_r a) [[]; LR_val; RL_val] ->
  ~ In 32 (at_alt a) -> ~ In 32 (at_vl a) -> ~ In 32 (at_vr a) -> at_v a = [] \/ (at_v a = o_v o /\ ~ In 32 (at_v a)) ->
  (compiled o lr a = Ok true <-> used o a /\ if lr then for_lr o a else for_rl o a).
Proof.
  intros o a lr Hr H1 H2 H3 H4.
  assert (W : forall v f, ~ In 32 v -> (admits v f false <-> ~ mismatch v f)).
  { intros v f Hv. unfold admits, mismatch. split.
    - intros [->|[[H _]|H]]; [tauto|discriminate|]. destruct H as (Hf & _ & pre & post & E & K1 & K2).
      assert (pre = []) as -> by (destruct K1 as [|[p ->]]; auto; exfalso; apply Hv; rewrite E; apply in_or_app; left; apply in_or_app; right; now left).
      assert (post = []) as -> by (destruct K2 as [|[p ->]]; auto; exfalso; apply Hv; rewrite E; apply in_or_app; right; apply in_or_app; right; now left).
      rewrite app_nil_r in E. cbn in E. tauto.
    - intros H. destruct v as [|c v]; [now left|]. right. right. destruct (ustr_eq_dec (c :: v) f) as [<-|N]; [|exfalso; apply H; split; [discriminate|auto]].
      split; [discriminate|]. split; auto. exists [], []. rewrite app_nil_r. auto. }
  assert (Hv : admits (at_v a) (o_v o) true /\ ~ mismatch (at_v a) (o_v o)).
  { destruct H4 as [->|[-> Hs]]; [split; [now left|unfold mismatch; tauto]|]. split; [|unfold mismatch; tauto].
    destruct (o_v o) as [|c v]; [now left|]. right. right. split; [discriminate|]. split; auto. exists [], []. rewrite app_nil_r. auto. }
  assert (Nlr : LR_val <> RL_val) by discriminate. assert (N0 : [] <> LR_val /\ [] <> RL_val) by (split; discriminate).
  destruct (C57_compiled o lr a) as (b & Eb & Sb). rewrite Eb.
  assert (K : Ok b = Ok true <-> b = true) by (split; congruence). rewrite K, Sb. unfold selected, used.
  rewrite (W _ _ H1). destruct lr; rewrite W by auto; unfold for_lr, for_rl in *; destruct Hr as [<-|[<-|[<-|[]]]]; intuition congruence.
Qed.

(** * What does not hold *)
Import String.StringSyntax.
Definition plain_attr : attributes := mkAttr [] [] [] [] [] [].
(** A variant not asked for: lt-expand lists the entry for analysis, it is compiled for no
    direction; and if no variant is asked for, it is compiled for both. *)
Theorem C57_variant_refuted :
  let a := mkAttr [] [] [] (txt "oci") [] [] in
  let o v := mkOpt [] v [] [] false in
  (compiled (o (txt "cat")) true a = Ok false /\ compiled (o (txt "cat")) false a = Ok false
   /\ expand (o (txt "cat")) [NEntry a [EId [PText (txt "x")]]] = Ok (txt "x:>:x" ++ [10]))
  /\ (compiled (o []) true a = Ok true /\ compiled (o []) false a = Ok true
      /\ expand (o []) [NEntry a [EId [PText (txt "x")]]] = Ok (txt "x:>:x" ++ [10])).
Proof. vm_compute. auto 10. Qed.
(** Lists of variants are understood by the compiler only. *)
Theorem C57_list_refuted :
  let a := mkAttr [] [] [] [] [] (txt "bar baz") in
  let o := mkOpt [] [] [] (txt "baz") false in
  compiled o true a = Ok true /\ expand o [NEntry a [EId [PText (txt "x")]]] = Ok (txt "x:<:x" ++ [10]).
Proof. vm_compute. auto. Qed.
(** A misspelt restriction: compiled for no direction, listed for both. *)
Theorem C57_restriction_refuted :
  let a := mkAttr (txt "lr") [] [] [] [] [] in
  let o := mkOpt [] [] [] [] false in
  compiled o true a = Ok false /\ compiled o false a = Ok false
  /\ expand o [NEntry a [EId [PText (txt "x")]]] = Ok (txt "x:x" ++ [10]).
Proof. vm_compute. auto. Qed.

(** * Examples *)
Example C57_compiled_example :
  let a := mkAttr [] [] [] [] [] (txt "bar baz") in
  selected (mkOpt [] [] [] (txt "baz") false) true a
  /\ compiled (mkOpt [] [] [] (txt "ba") false) true a = Ok false
  /\ compiled (mkOpt [] [] [] (txt "ba") false) false a = Ok true.
Proof.
  split; [|vm_compute; auto]. split; [now left|]. split; [discriminate|]. split; [now left|]. split; [now left|].
  right. right. split; [discriminate|]. split; [vm_compute; intros H; repeat (destruct H as [H|H]; [discriminate|]); destruct H|].
  exists (txt "bar "), []. split; [reflexivity|]. split; [right; exists (txt "bar"); reflexivity|now left].
Qed.
Example C57_same_example :
  let a := mkAttr [] [] [] (txt "v") (txt "l") [] in
  let o := mkOpt [] (txt "v") (txt "m") [] false in
  In (at_r a) [[]; LR_val; RL_val] /\ used o a
  /\ compiled o true a = Ok true /\ compiled o false a = Ok false /\ expand o [NEntry a [EId [PText (txt "x")]]] = Ok (txt "x:>:x" ++ [10]).
Proof.
  split; [now left|]. split; [split; [discriminate|]; split; [unfold mismatch; cbn; tauto|]; left; split; [discriminate|unfold mismatch; cbn; tauto]|]. vm_compute. auto.
Qed.

Print Assumptions C57_compiled.
Print Assumptions C57_same.
Print Assumptions C57_variant_refuted.
Print Assumptions C57_list_refuted.
Print Assumptions C57_restriction_refuted.
