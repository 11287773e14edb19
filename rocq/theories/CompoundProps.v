(** C54: compound analysis. *)
From Coq Require String Ascii.
From Coq Require Import Sorted.
From Verif Require Import Base CompressionModel AlphabetModel StateModel StateSpec StatePathProofs
  StateProps FinalsModel FinalsProps StreamModel StreamProps ProcessorModel ProcessorProofs CompoundProofs.

(** * Specification *)
Section Spec.
  Context (find : nat -> Z -> list (Z * (nat * Z))) (root : nat) (final : nat -> Prop).
  Context (isupper : Z -> bool) (tolower : Z -> Z).
  Notation seq := (list (Z * Z)).

  (** [reading cs w l d]: [l] is [w] with any upper-case letters replaced by their lower-case
      ones, unless [cs]; [d] tells whether a letter was replaced.  NUL is never read. *)
  Inductive reading (cs : bool) : list Z -> list Z -> bool -> Prop :=
  | rd_nil : reading cs [] [] false
  | rd_same c w l d : c <> 0 -> (cs = false -> isupper c = true -> tolower c <> 0) ->
      reading cs w l d -> reading cs (c :: w) (c :: l) d
  | rd_lower c w l d : cs = false -> isupper c = true -> c <> 0 -> tolower c <> 0 -> tolower c <> c ->
      reading cs w l d -> reading cs (c :: w) (tolower c :: l) true.

  (** A compound of the word: parts that are paths of the dictionary, joined by '+'; each
      part that another one follows ends in a final node and carries the symbol [onlyL]. *)
  Inductive compound (onlyL : Z) (cs : bool) : list Z -> seq -> bool -> nat -> Prop :=
  | cd_one w l s d q : reading cs w l d -> rpath find root l s q -> compound onlyL cs w s d q
  | cd_join w1 s1 d1 q1 w2 l s2 d2 q2 : compound onlyL cs w1 s1 d1 q1 -> final q1 ->
      carries onlyL 43 s1 -> w2 <> [] -> reading cs w2 l d2 -> rpath find root l s2 q2 ->
      compound onlyL cs (w1 ++ w2) (s1 ++ (43, 0) :: s2) (d1 || d2) q2.
  (** Its last part carries [cpR], it has at most [maxel] separators and not more than any
      other compound of the word whose last part carries [cpR]. *)
  Definition best (onlyL cpR maxel : Z) (cs : bool) (w : list Z) (s : seq) (d : bool) (q : nat) : Prop :=
    compound onlyL cs w s d q /\ carries cpR 43 s /\ separators 43 s <= maxel
    /\ forall s' d' q', compound onlyL cs w s' d' q' -> carries cpR 43 s' -> separators 43 s <= separators 43 s'.
End Spec.

(** * Proofs *)
Lemma filter_length : forall {A} (f : A -> bool) l, (length (filter f l) <= length l)%nat.
Proof. intros A f l. induction l as [|x l IH]; cbn; [lia|]. destruct (f x); cbn; lia. Qed.
Lemma reading_taken : forall isupper tolower cs w l d,
  reading isupper tolower cs w l d <-> taken (W:=Z) isupper tolower (map (fun c => SCase c cs) w) l d.
Proof.
  intros isupper tolower cs. induction w as [|c w IH]; intros l d; cbn [map]; split; intros H.
  - inversion H; subst. constructor.
  - inversion H; subst. constructor.
  - inversion H as [|? ? ? ? H0 H1 H2|? ? ? d0 Hcs Hup H0 H1 H2 H3]; subst.
    + apply IH in H2. replace d with (negb (c =? c) || d) by (rewrite Z.eqb_refl; reflexivity).
      apply (tk_cons isupper tolower _ _ c l0 d c (if isupper c && negb cs then [tolower c] else [])); auto.
      * intros [Hz|Hz]; [congruence|]. destruct (isupper c && negb cs) eqn:E; [|destruct Hz].
        destruct Hz as [Hz|[]]. apply andb_prop in E as [E1 E2]. apply H1 in E1; [congruence|now destruct cs].
      * now left.
    + apply IH in H3. replace true with (negb (tolower c =? c) || d0)
        by (replace (tolower c =? c) with false by lia; reflexivity).
      apply (tk_cons isupper tolower _ _ (tolower c) l0 d0 c [tolower c]); auto.
      * cbn [letters]. rewrite Hup. reflexivity.
      * intros [Hz|[Hz|[]]]; congruence.
      * right. now left.
  - inversion H as [|op ops x l0 d0 i alts El Hz Hx T]; subst. cbn [letters] in El. injection El as <- <-.
    apply IH in T.
    assert (c <> 0) by (intros ->; apply Hz; now left).
    assert (Hlow : cs = false -> isupper c = true -> tolower c <> 0).
    { intros -> E. rewrite E in Hz. cbn [andb negb] in Hz. intros E0. apply Hz. right. left. auto. }
    destruct (x =? c) eqn:Exc.
    + apply Z.eqb_eq in Exc. subst x. cbn [negb orb]. now constructor.
    + destruct Hx as [-> | Hx]; [rewrite Z.eqb_refl in Exc; discriminate|].
      destruct (isupper c) eqn:Eu; [|destruct Hx]. destruct cs; [destruct Hx|]. cbn [andb negb] in Hx.
      destruct Hx as [<- | []]. cbn [negb orb]. eapply rd_lower; eauto. lia.
Qed.

Section Proofs.
  Context (P : processor).
  Notation find := (p_find P).
  Notation root := (p_root P).
  Notation final := (fun q => final_weight q (all_finals P) <> None).
  Notation compound := (compound find root final (p_isupper P) (p_tolower P)).
  Notation best := (best find root final (p_isupper P) (p_tolower P)).
  Notation choices cs := (map (fun c => case_choice P c cs)).

  (** The states of the loop all use the same case folding and stay within the limit. *)
  Fixpoint calm (cs : bool) (init st : analyses) (w : list Z) : Prop :=
    match w with
    | [] => True
    | c :: r => beCaseSensitive P st = cs
        /\ forall st1, step_case P c st = Ok st1 -> Z.of_nat (length st1) <= MAX_COMBINATIONS
        /\ forall st2, v_grow (p_fuel P) (v_restart (p_onlyL P) 43 0 (is_final_node P) init) 0 st1 = Ok st2 ->
             calm cs init st2 r
    end.

  (** Input-epsilon arcs at the start of a word write nothing; no analysis starts with '+'. *)
  Hypothesis quiet : forall s q, rpath find root [] s q -> s = [].
  Hypothesis HL : p_onlyL P <> 43.

  Lemma final_iff : forall q, is_final_node P q = true <-> final_weight q (all_finals P) <> None.
  Proof. intros q. unfold is_final_node. destruct (final_weight q (all_finals P)); split; congruence. Qed.
  Lemma quiet_c : forall s d q, cpath find root [] s d q -> s = [].
  Proof. intros s d q H. change (@nil choice) with (map one []) in H. apply cpath_rpath in H as [_ H]. eauto. Qed.
  Lemma cpath_reading : forall cs w s d q, cpath find root (choices cs w) s d q <->
    exists l, reading (p_isupper P) (p_tolower P) cs w l d /\ rpath find root l s q.
  Proof.
    intros cs w s d q.
    assert (E : map (choice_of find (p_isupper P) (p_tolower P)) (map (fun c => SCase c cs) w) = map Some (choices cs w)).
    { rewrite !map_map. reflexivity. }
    rewrite (cpath_taken find (p_isupper P) (p_tolower P) (map (fun c => SCase c cs) w) (choices cs w) E).
    - split; intros (l & T & R); exists l; split; auto; now apply reading_taken.
    - apply Forall_forall. intros op Hop. apply in_map_iff in Hop as (c & <- & _). cbn. discriminate.
  Qed.
  Notation whole := (whole find root (is_final_node P) (p_onlyL P)).
  Notation parts := (parts find root (is_final_node P) (p_onlyL P)).

  Lemma parts_compound : forall cs C s d q, parts C s d q -> carries (p_onlyL P) 43 s -> forall w, C = choices cs w ->
    compound (p_onlyL P) cs w s d q.
  Proof.
    induction 1 as [C s d q Hp|c1 s1 d1 q1 c2 s2 d2 q2 Hn P1 IH Hf Hc P2]; intros Hcar w E.
    - subst C. apply cpath_reading in Hp as (l & R & Hp). econstructor; eauto.
    - destruct c2 as [|c c2].
      + exfalso. assert (s2 = []) by (eapply quiet_c; eauto). subst s2. apply (no_carry (p_onlyL P) _ Hcar).
      + symmetry in E. apply map_eq_app in E as (w1 & w2 & -> & E1 & E2).
        rewrite <- E2 in P2. apply cpath_reading in P2 as (l & R & Hp).
        eapply cd_join; eauto.
        * now apply final_iff.
        * intros ->. discriminate.
  Qed.
  Lemma whole_compound : forall cs w s d q, whole (choices cs w) s d q <-> compound (p_onlyL P) cs w s d q.
  Proof.
    intros cs w s d q. split.
    - intros [H|(c1 & s1 & d1 & q1 & c2 & s2 & d2 & H1 & H2 & H3 & H4 & H5 & H6 & E & -> & ->)].
      + apply cpath_reading in H as (l & R & H). econstructor; eauto.
      + apply map_eq_app in E as (w1 & w2 & -> & E1 & E2). subst c1 c2.
        apply cpath_reading in H6 as (l & R & H6). eapply cd_join; eauto.
        * eapply parts_compound; eauto.
        * now apply final_iff.
        * intros ->. apply H2. reflexivity.
    - induction 1 as [w l s d q R H|w1 s1 d1 q1 w2 l s2 d2 q2 _ IH Hf Hc Hn R H].
      + left. apply cpath_reading. eauto.
      + right. exists (choices cs w1), s1, d1, q1, (choices cs w2), s2, d2.
        split.
        { intros E. apply map_eq_nil in E. subst w1. destruct IH as [IH|IH].
          - apply quiet_c in IH. subst s1. destruct Hc as (a & p & E & _ & Hin).
            symmetry in E. apply app_eq_nil in E as [_ ->]. destruct Hin.
          - destruct IH as (c1 & ? & ? & ? & c2 & ? & ? & Hc1 & _ & _ & _ & _ & _ & E & _).
            cbn in E. symmetry in E. apply app_eq_nil in E as [-> _]. congruence. }
        split; [intros E; apply Hn; now apply map_eq_nil in E|].
        split; [apply whole_parts; exact IH|]. split; [now apply final_iff|]. split; [auto|].
        split; [apply cpath_reading; eauto|]. split; [apply map_app|]. auto.
  Qed.

  Lemma loop_compounds : forall cs init w u st r, initial_state P = Ok init ->
    (forall q s d, In (mkV q s d) st <-> parts (choices cs u) s d q) -> w <> [] ->
    calm cs init st w -> compound_loop P init st w = Ok r ->
    match r with
    | Some st' => (forall q s d, In (mkV q s d) st' <-> compound (p_onlyL P) cs (u ++ w) s d q)
                  /\ Z.of_nat (length st') <= MAX_COMBINATIONS
    | None => forall q s d, ~ compound (p_onlyL P) cs (u ++ w) s d q
    end.
  Proof.
    intros cs init w. induction w as [|c w IH]; intros u st r Hi Hst Hw Hcalm H; [congruence|].
    cbn [compound_loop] in H. cbn [calm] in Hcalm. destruct Hcalm as [Hcs Hcalm].
    destruct (step_case P c st) as [st1| | | |] eqn:E1; try discriminate. cbn [obind] in H.
    destruct (Hcalm st1 eq_refl) as [Hsize Hcalm2]. clear Hcalm.
    replace (MAX_COMBINATIONS <? Z.of_nat (length st1)) with false in H by (symmetry; apply Z.ltb_ge; exact Hsize).
    unfold step_case, offer in E1. rewrite Hcs in E1.
    assert (H1 : forall q s d, In (mkV q s d) st1 <-> whole (choices cs (u ++ [c])) s d q).
    { rewrite map_app. cbn [map]. apply (step_parts find root _ _ (p_fuel P) (choices cs u) (case_choice P c cs) st); auto. }
    destruct w as [|c' w'].
    - cbn [obind] in H. assert (E : r = match st1 with [] => None | _ => Some st1 end) by (destruct st1; cbn in H; congruence).
      destruct st1 as [|x st1]; subst r.
      + intros q s d Hc. apply whole_compound, H1 in Hc. destruct Hc.
      + split; [|exact Hsize]. intros q s d. rewrite H1. apply whole_compound.
    - set (w := c' :: w') in *.
      destruct (v_grow (p_fuel P) (v_restart (p_onlyL P) 43 0 (is_final_node P) init) 0 st1) as [st2| | | |] eqn:E2;
        try discriminate.
      assert (H2 : forall q s d, In (mkV q s d) st2 <-> parts (choices cs (u ++ [c])) s d q).
      { eapply restart_parts; eauto; [exact quiet_c|]. rewrite map_app. now destruct u. }
      assert (Happ : u ++ c :: w = (u ++ [c]) ++ w) by now rewrite <- app_assoc.
      rewrite Happ. destruct st2 as [|x st2].
      + unfold w in H. cbn [obind] in H. assert (r = None) by congruence. subst r.
        intros q s d Hc. apply whole_compound, whole_parts in Hc. rewrite map_app in Hc.
        destruct (parts_prefix find root _ _ _ _ _ _ Hc _ _ eq_refl) as (s' & d' & q' & Hp). apply H2 in Hp. destruct Hp.
      + unfold w in H. cbn [obind] in H. fold w in H. apply (IH (u ++ [c]) (x :: st2) r); auto; discriminate.
  Qed.

  Lemma prune_in : forall required sep maxel (st : analyses), required <> sep -> maxel < 2 ^ 31 - 1 ->
    (forall x, In x st -> ~ starts_with_separator sep (v_seq x)) ->
    forall x, In x (v_prune_compounds required sep maxel st) <->
      In x st /\ carries required sep (v_seq x) /\ separators sep (v_seq x) <= maxel
      /\ forall y, In y st -> carries required sep (v_seq y) -> separators sep (v_seq x) <= separators sep (v_seq y).
  Proof.
    intros required sep maxel st Hne Hmax Hst x. unfold v_prune_compounds. rewrite filter_In.
    enough (K : In x st -> (negb (min_elements required sep maxel (map v_seq st) <?
        compound_elements required sep (v_seq x)) = true <->
      carries required sep (v_seq x) /\ separators sep (v_seq x) <= maxel
      /\ forall y, In y st -> carries required sep (v_seq y) -> separators sep (v_seq x) <= separators sep (v_seq y)))
      by tauto.
    intros Hx.
    destruct (min_elements_spec required sep maxel (map v_seq st)) as (A & B & C).
    set (mn := min_elements required sep maxel (map v_seq st)) in *.
    assert (Cnt : forall y, In y st -> carries required sep (v_seq y) ->
      count_sep sep (v_seq y) = separators sep (v_seq y)).
    { intros y Hy Hc. eapply count_sep_all; eauto. }
    unfold compound_elements.
    destruct (lastPartHasRequiredSymbol (v_seq x) required sep) eqn:El.
    - pose proof (proj1 (last_part_carries required sep (v_seq x) Hne) El) as Hc.
      rewrite (Cnt x Hx Hc). rewrite negb_true_iff, Z.ltb_ge. split.
      + intros Hle. split; auto. split; [lia|]. intros y Hy Hcy.
        rewrite <- (Cnt y Hy Hcy). specialize (B (v_seq y) (in_map _ _ _ Hy)).
        rewrite (last_part_carries required sep (v_seq y) Hne) in B. specialize (B Hcy). lia.
      + intros (_ & Hle & Hmin). destruct C as [-> | (s & Hs & Hl & ->)]; [auto|].
        apply in_map_iff in Hs as (y & <- & Hy).
        pose proof (proj1 (last_part_carries required sep (v_seq y) Hne) Hl) as Hcy.
        rewrite (Cnt y Hy Hcy). auto.
    - assert (Hc : ~ carries required sep (v_seq x)).
      { intros Hc. apply (last_part_carries required sep (v_seq x) Hne) in Hc. congruence. }
      unfold int_max. split.
      + intros Hk'. exfalso. rewrite negb_true_iff, Z.ltb_ge in Hk'. lia.
      + intros (Hc' & _). contradiction.
  Qed.

  Hypothesis noplus : forall l s q, rpath find root l s q -> ~ starts_with_separator 43 s.
  Lemma compound_start : forall cs w s d q, compound (p_onlyL P) cs w s d q -> ~ starts_with_separator 43 s.
  Proof.
    induction 1 as [w l s d q R H|w1 s1 d1 q1 w2 l s2 d2 q2 H1 IH Hf Hc Hn R H]; [eapply noplus; eauto|].
    destruct s1 as [|x s1].
    - exfalso. destruct Hc as (a & p & E & _ & Hin). symmetry in E. apply app_eq_nil in E as [_ ->]. destruct Hin.
    - intros (w & r & E). apply IH. exists w, s1. cbn in E. congruence.
  Qed.
End Proofs.

(** The letter case the analyses are written in: that of the word's first and last letter. *)
Definition casing (P : processor) (w : list Z) (upper firstupper : bool) : Prop :=
  if p_dictionaryCase P then upper = false /\ firstupper = false
  else exists c r, w = c :: r /\ firstupper = p_isupper P c
       /\ (upper = true <-> r <> [] /\ p_isupper P c = true /\ p_isupper P (last r 0) = true).

(** What compound analysis returns: the texts of the final best compounds of the word, each
    behind a slash. *)
Theorem C54_compounds : forall P cs w init out,
  is_sort (p_sort P) -> p_onlyL P <> 43 -> p_cpR P <> 43 -> p_maxElements P < 2 ^ 31 - 1 ->
  32767 <= p_maxAnalyses P -> 32767 <= p_maxClasses P ->
  (forall s q, rpath (p_find P) (p_root P) [] s q -> s = []) ->
  (forall l s q, rpath (p_find P) (p_root P) l s q -> ~ starts_with_separator 43 s) ->
  w <> [] -> initial_state P = Ok init -> calm P cs init init w ->
  compoundAnalysis P w = Ok out ->
  let final q := final_weight q (all_finals P) <> None in
  let best := best (p_find P) (p_root P) final (p_isupper P) (p_tolower P)
                (p_onlyL P) (p_cpR P) (p_maxElements P) cs w in
  exists upper firstupper rep,
    casing P w upper firstupper
    /\ out = concat (map (fun x => 47 :: fst x ++ if p_weights P then weight_text (snd x) else []) rep)
    /\ NoDup (map fst rep) /\ StronglySorted by_weight rep
    /\ (forall t c, In (t, c) rep -> exists s d q, best s d q
          /\ reports (p_toupper P) (all_finals P) (p_alpha P) is_escaped upper firstupper 0 (mkV q s d) t c)
    /\ forall s d q, best s d q -> final q ->
          exists t c least, reports (p_toupper P) (all_finals P) (p_alpha P) is_escaped upper firstupper 0 (mkV q s d) t c
            /\ In (t, least) rep /\ least <= c.
Proof.
  intros P cs w init out Hsort HL HR Hmax HA HC quiet noplus Hw Hi Hcalm H final best0.
  unfold compoundAnalysis in H. rewrite Hi in H. cbn [obind] in H.
  assert (HcaseEx : exists up fu, casing P w up fu /\
     forall st, filter_finals P st w = filterFinals (p_toupper P) (p_sort P) (all_finals P) (p_alpha P) is_escaped (p_weights P)
      (p_maxAnalyses P) (p_maxClasses P) up fu 0 st).
  { unfold casing, filter_finals. destruct (p_dictionaryCase P); [exists false, false; now cbn|].
    destruct w as [|c r]; [congruence|].
    exists ((1 <? length (c :: r))%nat && p_isupper P c && p_isupper P (last (c :: r) 0)), (p_isupper P c).
    split; [|intros st; reflexivity]. exists c, r. split; [auto|]. split; [auto|].
    rewrite !andb_true_iff, Nat.ltb_lt. destruct r as [|d r]; [cbn; split; [lia|intros [? _]; congruence]|].
    change (last (c :: d :: r) 0) with (last (d :: r) 0). cbn [length]. split; [intros [[_ ?] ?]|intros (_ & ? & ?)]; repeat split; auto; try discriminate; lia. }
  destruct HcaseEx as (up & fu & Hcase & Hff).
  assert (Hstart : forall q s d, In (mkV q s d) init <->
     parts (p_find P) (p_root P) (is_final_node P) (p_onlyL P) (map (fun c => case_choice P c cs) []) s d q).
  { intros q s d. eapply start_parts; eauto. }
  destruct (compound_loop P init init w) as [r| | | |] eqn:El; try discriminate. cbn [obind] in H.
  pose proof (loop_compounds P quiet HL cs init w [] init r Hi Hstart Hw Hcalm El) as L. cbn [app] in L.
  exists up, fu. destruct r as [st|].
  - destruct L as [L Hsize]. rewrite Hff in H. unfold filterFinals in H.
    set (pr := v_prune_compounds (p_cpR P) 43 (p_maxElements P) st) in *.
    destruct (filterFinalsArray (p_toupper P) (p_sort P) (all_finals P) (p_alpha P) is_escaped (p_weights P)
      (p_maxAnalyses P) (p_maxClasses P) up fu 0 pr) as [arr| | | |] eqn:Ea; try discriminate.
    cbn [obind] in H.
    assert (Hlen : Z.of_nat (length pr) <= 32767).
    { unfold pr, v_prune_compounds. pose proof (filter_length (fun s => negb (min_elements (p_cpR P) 43 (p_maxElements P) (map v_seq st)
                     <? compound_elements (p_cpR P) 43 (v_seq s))) st). unfold MAX_COMBINATIONS in Hsize. lia. }
    destruct (C37_complete (p_toupper P) (p_sort P) Hsort _ _ _ _ _ _ _ _ _ _ _ Ea) as (rep & E & N & So & Snd & Cpl); [lia|lia|].
    assert (Hpr : forall q s d, In (mkV q s d) pr <-> best0 s d q).
    { intros q s d. unfold pr. rewrite prune_in; auto.
      - cbn [v_seq]. unfold best0, best. rewrite L. split; intros (A & B & C & D); repeat (split; auto).
        + intros s' d' q' Hc'. apply L in Hc'. apply (D _ Hc').
        + intros [q' s' d'] Hy. apply L in Hy. apply (D _ _ _ Hy).
      - intros [q' s' d'] Hx. apply L in Hx. cbn [v_seq]. apply (compound_start _ noplus _ _ _ _ _ Hx). }
    exists rep. split; [auto|]. split.
    { assert (E' : out = concat (map (fun t => 47 :: t) arr)) by congruence. rewrite E', E, map_map. reflexivity. }
    split; [auto|]. split; [auto|]. split.
    + intros t c Hin. destruct (Snd t c Hin) as ([q s d] & Hs & Hr). exists s, d, q. split; [now apply Hpr|auto].
    + intros s d q Hb Hf. apply Hpr in Hb. apply (Cpl _ Hb). exact Hf.
  - assert (out = []) by congruence. subst out. exists []. split; [auto|]. split; [reflexivity|]. split; [constructor|]. split; [constructor|].
    split; [intros t c []|]. intros s d q [Hb _] _. destruct (L _ _ _ Hb).
Qed.

(** And it does return. *)
Theorem C54_returns : forall P w,
  is_sort (p_sort P) -> p_toupper P 0 = 0 -> p_weights P = false -> tags_known P ->
  eps_acyclic (p_find P) -> p_onlyL P <> 43 -> w <> [] ->
  exists out N, forall n, (N <= n)%nat -> compoundAnalysis (with_fuel P n) w = Ok out.
Proof.
  intros P w Hs H0 Hw Ht Ha HL Hne.
  destruct (initial_settles P Ha) as (init & N1 & H1).
  destruct (compound_loop_settles P Ha w init init HL) as (r & N2 & H2).
  assert (K : exists out, forall n, (N1 + N2 <= n)%nat ->
    match r with
    | None => Ok []
    | Some st => filter_finals (with_fuel P n) (v_prune_compounds (p_cpR P) 43 (p_maxElements P) st) w
    end = Ok out).
  { destruct r as [st|]; [|now exists []].
    set (P' := with_fuel P (N1 + N2)).
    assert (Ht' : tags_known P') by exact Ht.
    destruct (finals_defined P' (v_prune_compounds (p_cpR P) 43 (p_maxElements P) st) w) as (out & E); auto.
    - intros s Hin. unfold v_prune_compounds in Hin. apply filter_In in Hin as [Hin _].
      assert (E1 : initial_state P' = Ok init) by (apply H1; lia).
      assert (E2 : compound_loop P' init init w = Ok (Some st)) by (apply H2; lia).
      eapply (compound_loop_named P' Ht' init w init st); eauto. eapply initial_named; eauto.
    - exists out. intros n Hn. exact E. }
  destruct K as (out & K). exists out, (N1 + N2)%nat. intros n Hn.
  unfold compoundAnalysis. rewrite H1 by lia. cbn [obind]. rewrite H2 by lia. cbn [obind]. apply K. exact Hn.
Qed.

Import String.StringSyntax.
(** * Concrete cases *)
(** A dictionary from a list of arcs (source, input, output, target). *)
Definition arcs_find (l : list (nat * Z * Z * nat)) (n : nat) (i : Z) : list (Z * (nat * Z)) :=
  flat_map (fun a => let '(p, x, o, q) := a in
              if (p =? n)%nat && (x =? i) then [(o, (q, 0))] else []) l.
Definition ascii_up (c : Z) : bool := (65 <=? c) && (c <=? 90).
Definition ascii_low (c : Z) : bool := (97 <=? c) && (c <=? 122).
(** Tags -1 and -2 are the two compound symbols, whose text is empty; -3 is <n>. *)
Definition sample (arcs : list (nat * Z * Z * nat)) (fins : list nat) (cs : bool) : processor :=
  mkP (arcs_find arcs) 0 100 (map (fun q => (q, 0)) fins) [] [] [] 
    (mkAlphabet [([60; 110; 62], -3)] [[]; []; [60; 110; 62]] [] [])
    (map Z.of_nat (seq 97 26)) (fun _ => false)
    (fun c => ascii_up c || ascii_low c) (fun c => c =? 32) ascii_up
    (fun c => if ascii_up c then c + 32 else c) (fun c => if ascii_low c then c - 32 else c)
    (fun c => Ok (if ascii_up c then c + 32 else c)) (map (fun c => if ascii_up c then c + 32 else c))
    isort cs false false (2 ^ 31 - 1) (2 ^ 31 - 1) true (-1) (-2) 4 (fun _ => None).

(** a:a<n> is a left part only, b:b<n> a last part; c:c<n> is no part of compounds. *)
Definition left_right : list (nat * Z * Z * nat) :=
  [(0%nat, 97, 97, 1%nat); (1%nat, 0, -3, 2%nat); (2%nat, 0, -1, 3%nat);
   (0%nat, 98, 98, 4%nat); (4%nat, 0, -3, 5%nat); (5%nat, 0, -2, 6%nat); (0%nat, 99, 99, 7%nat)].
Definition left_right_dix : processor := sample left_right [3; 6; 7]%nat false.

Lemma rpath_outputs : forall find (Q : Z -> Prop), (forall n i o q (w : Z), In (o, (q, w)) (find n i) -> Q o) ->
  forall n l s q, rpath find n l s q -> Forall (fun x => Q (fst x)) s.
Proof.
  intros find Q H n l s q Hp. induction Hp; auto; try (constructor; cbn; eauto; fail).
  destruct (o =? 0); cbn [app]; auto. constructor; cbn; eauto.
Qed.
Ltac calm_step := cbn [calm]; split; [vm_compute; reflexivity|];
  let st := fresh "st" in let E := fresh "E" in intros st E;
  vm_compute in E; apply (f_equal (fun o => match o with Ok r => r | _ => [] end)) in E; cbn iota beta in E; subst st;
  split; [vm_compute; discriminate|];
  intros st E; vm_compute in E; apply (f_equal (fun o => match o with Ok r => r | _ => [] end)) in E; cbn iota beta in E; subst st.

Example C54_compounds_example :
  let P := left_right_dix in
  is_sort (p_sort P) /\ p_onlyL P <> 43 /\ p_cpR P <> 43 /\ p_maxElements P < 2 ^ 31 - 1
  /\ 32767 <= p_maxAnalyses P /\ 32767 <= p_maxClasses P
  /\ (forall s q, rpath (p_find P) (p_root P) [] s q -> s = [])
  /\ (forall l s q, rpath (p_find P) (p_root P) l s q -> ~ starts_with_separator 43 s)
  /\ exists init, initial_state P = Ok init /\ calm P false init init [97; 65; 98]
  /\ compoundAnalysis P [97; 65; 98] = Ok (txt "/a<n>+a<n>+b<n>")
  /\ compoundAnalysis P [97; 97] = Ok [] /\ compoundAnalysis P [97; 99] = Ok []
  /\ compoundAnalysis P [65; 66] = Ok (txt "/A<n>+B<n>").
Proof.
  cbv zeta. split; [exact isort_is_sort|]. split; [discriminate|]. split; [discriminate|]. split; [reflexivity|].
  split; [discriminate|]. split; [discriminate|]. split.
  { intros s q H. inversion H; subst; auto; try (vm_compute in *; tauto). }
  split.
  { intros l s q H (w & r & E). pose proof (rpath_outputs (p_find left_right_dix) (fun o => o <> 43)) as K.
    assert (F : Forall (fun x => fst x <> 43) s).
    { eapply K; [|exact H]. intros n i o q' w' Hin. cbn [p_find left_right_dix sample] in Hin.
      unfold arcs_find in Hin. apply in_flat_map in Hin as ([[[p0 x0] o0] q0] & Ha & Hb).
      destruct ((p0 =? n)%nat && (x0 =? i)); [|destruct Hb]. destruct Hb as [Eb|[]].
      assert (o0 = o) by congruence. subst o0. cbn in Ha. repeat (destruct Ha as [Ha|Ha]; [injection Ha; lia|]). destruct Ha. }
    subst s. inversion F as [|? ? F1 _]. now apply F1. }
  eexists. split; [vm_compute; reflexivity|]. split.
  { calm_step. calm_step. calm_step. exact I. }
  vm_compute. auto.
Qed.

Example C54_returns_example : let P := left_right_dix in
  tags_known P /\ eps_acyclic (p_find P) /\ p_toupper P 0 = 0 /\ p_weights P = false
  /\ compoundAnalysis (with_fuel P 2) [97; 98] = NoFuel
  /\ compoundAnalysis (with_fuel P 20) [97; 98] = Ok (txt "/a<n>+b<n>").
Proof.
  cbv zeta. split.
  { intros n i o q w Hin Ho. cbn [p_find left_right_dix sample] in Hin. unfold arcs_find in Hin.
    apply in_flat_map in Hin as ([[[p0 x0] o0] q0] & Ha & Hb).
    destruct ((p0 =? n)%nat && (x0 =? i)); [|destruct Hb]. destruct Hb as [Eb|[]].
    assert (o0 = o) by congruence. subst o0. cbn in Ha |- *.
    repeat (destruct Ha as [Ha|Ha]; [injection Ha; lia|]). destruct Ha. }
  split.
  { exists (fun n => 10 - n)%nat. intros n o q w Hin. cbn [p_find left_right_dix sample] in Hin. unfold arcs_find in Hin.
    apply in_flat_map in Hin as ([[[p0 x0] o0] q0] & Ha & Hb).
    destruct ((p0 =? n)%nat && (x0 =? 0)) eqn:E; [|destruct Hb]. apply andb_prop in E as [E1 E2].
    apply Nat.eqb_eq in E1. apply Z.eqb_eq in E2. subst p0 x0. destruct Hb as [Eb|[]].
    assert (q0 = q) by congruence. subst q0. cbn in Ha.
    repeat (destruct Ha as [Ha|Ha]; [injection Ha; intros; lia|]). destruct Ha. }
  vm_compute. auto.
Qed.

(** * What does not hold *)
Notation compound_of P := (compound (p_find P) (p_root P) (fun q => final_weight q (all_finals P) <> None)
  (p_isupper P) (p_tolower P) (p_onlyL P)).
Ltac lists := solve [repeat (first [left; reflexivity | right])].
Lemma rp_out : forall find p o q w l s r, In (o, (q, w)) (find p 0) -> o <> 0 -> rpath (W:=Z) find q l s r ->
  rpath find p l ((o, w) :: s) r.
Proof.
  intros find p o q w l s r H Ho Hp. change ((o, w) :: s) with ([(o, w)] ++ s).
  replace [(o, w)] with (if o =? 0 then [] else [(o, w)]) by (replace (o =? 0) with false by lia; reflexivity).
  eapply rp_eps; eauto.
Qed.
Ltac path := repeat first
  [ apply rp_nil | eapply rp_out; [vm_compute; lists|discriminate|] | eapply rp_sym; [discriminate|vm_compute; lists|] ].
Ltac read := repeat first [ apply rd_nil | apply rd_same; [discriminate|discriminate|] ].
(** The compounds are those in the state the loop ends with. *)
Lemma enumerate : forall P cs w init st, (forall s q, rpath (p_find P) (p_root P) [] s q -> s = []) ->
  p_onlyL P <> 43 -> w <> [] -> initial_state P = Ok init -> calm P cs init init w ->
  compound_loop P init init w = Ok (Some st) ->
  forall q s d, In (mkV q s d) st <-> compound_of P cs w s d q.
Proof.
  intros P cs w init st Hq HL Hw Hi Hc H.
  assert (Hstart : forall q s d, In (mkV q s d) init <->
     parts (p_find P) (p_root P) (is_final_node P) (p_onlyL P) (map (fun c => case_choice P c cs) []) s d q).
  { intros q s d. eapply start_parts; eauto. }
  destruct (loop_compounds P Hq HL cs init w [] init (Some st) Hi Hstart Hw Hc H) as [L _]. exact L.
Qed.

(** a, b as before, and abc, whose tag comes before the c. *)
Definition unfinished : list (nat * Z * Z * nat) :=
  [(0%nat, 97, 97, 1%nat); (1%nat, 0, -1, 2%nat); (0%nat, 98, 98, 3%nat); (3%nat, 0, -2, 4%nat);
   (0%nat, 97, 97, 5%nat); (5%nat, 98, -2, 6%nat); (6%nat, 99, 99, 7%nat)].
Definition unfinished_dix : processor := sample unfinished [2; 4; 7]%nat true.
(** The fewest elements are counted over analyses that have not come to their end, too: the
    only compound of the word gets lost. *)
Theorem C54_unfinished_refuted : exists P w s d q,
  compound_of P true w s d q /\ final_weight q (all_finals P) <> None /\ carries (p_cpR P) 43 s
  /\ separators 43 s <= p_maxElements P
  /\ (forall s' d' q', compound_of P true w s' d' q' -> final_weight q' (all_finals P) <> None ->
        s' = s /\ q' = q)
  /\ compoundAnalysis P w = Ok [].
Proof.
  exists unfinished_dix, [97; 98], [(97, 0); (-1, 0); (43, 0); (98, 0); (-2, 0)], false, 4%nat.
  assert (Q : forall q s d, In (mkV q s d)
     [mkV 6%nat [(97, 0); (-2, 0)] false; mkV 3%nat [(97, 0); (-1, 0); (43, 0); (98, 0)] false;
      mkV 4%nat [(97, 0); (-1, 0); (43, 0); (98, 0); (-2, 0)] false] <-> compound_of unfinished_dix true [97; 98] s d q).
  { eapply enumerate.
    - intros s q H. inversion H; subst; auto; try (vm_compute in *; tauto).
    - discriminate.
    - discriminate.
    - vm_compute. reflexivity.
    - calm_step. calm_step. exact I.
    - vm_compute. reflexivity. }
  split; [apply Q; lists|]. split; [discriminate|].
  split; [apply last_part_carries; [discriminate|vm_compute; reflexivity]|].
  split; [vm_compute; discriminate|]. split; [|vm_compute; reflexivity].
  intros s' d' q' H Hf. apply Q in H. destruct H as [E|[E|[E|[]]]]; injection E as <- <- <-; vm_compute in Hf; try congruence. auto.
Qed.

(** The limit is one on separators: a compound may have one element more. *)
Theorem C54_limit_refuted : exists P, p_maxElements P = 4
  /\ compoundAnalysis P [97; 97; 97; 97; 98] = Ok (txt "/a<n>+a<n>+a<n>+a<n>+b<n>").
Proof. exists left_right_dix. split; vm_compute; reflexivity. Qed.

(** a, and b behind an arc that reads nothing and writes x. *)
Definition early_output : list (nat * Z * Z * nat) :=
  [(0%nat, 97, 97, 1%nat); (1%nat, 0, -1, 2%nat); (0%nat, 0, 120, 3%nat); (3%nat, 98, 98, 4%nat); (4%nat, 0, -2, 5%nat)].
(** What a part writes before its first character is lost unless it is the first part. *)
Theorem C54_early_output_refuted : exists P w s d q,
  compound_of P true w s d q /\ final_weight q (all_finals P) <> None /\ carries (p_cpR P) 43 s
  /\ separators 43 s <= p_maxElements P
  /\ spelled (p_toupper P) (p_alpha P) is_escaped false (map fst s) (txt "a+xb")
  /\ compoundAnalysis P w = Ok (txt "/a+b").
Proof.
  exists (sample early_output [2; 5]%nat true), [97; 98],
    [(97, 0); (-1, 0); (43, 0); (120, 0); (98, 0); (-2, 0)], false, 5%nat.
  split.
  { change [97; 98] with ([97] ++ [98]). change false with (false || false) at 1.
    change [(97, 0); (-1, 0); (43, 0); (120, 0); (98, 0); (-2, 0)]
      with ([(97, 0); (-1, 0)] ++ (43, 0) :: [(120, 0); (98, 0); (-2, 0)]).
    eapply cd_join with (q1 := 2%nat).
    - eapply cd_one; [read|path].
    - discriminate.
    - apply last_part_carries; [discriminate|vm_compute; reflexivity].
    - discriminate.
    - read.
    - path. }
  split; [discriminate|]. split; [apply last_part_carries; [discriminate|vm_compute; reflexivity]|].
  split; [vm_compute; discriminate|]. split; [|vm_compute; reflexivity].
  apply (spell_spec _ _ is_escaped false _ _ 0). vm_compute. reflexivity.
Qed.

(** U+10400 as a left part. *)
Definition astral : list (nat * Z * Z * nat) :=
  [(0%nat, 66560, 66560, 1%nat); (1%nat, 0, -1, 2%nat); (0%nat, 98, 98, 3%nat); (3%nat, 0, -2, 4%nat)].
(** The word is taken unit by unit: characters beyond U+FFFF are not found. *)
Theorem C54_astral_refuted : exists P w s d q,
  compound_of P true w s d q /\ final_weight q (all_finals P) <> None /\ carries (p_cpR P) 43 s
  /\ separators 43 s <= p_maxElements P
  /\ compoundAnalysis P (flat_map (append_cp []) w) = Ok [].
Proof.
  exists (sample astral [2; 4]%nat true), [66560; 98], [(66560, 0); (-1, 0); (43, 0); (98, 0); (-2, 0)], false, 4%nat.
  split.
  { change [66560; 98] with ([66560] ++ [98]). change false with (false || false) at 1.
    change [(66560, 0); (-1, 0); (43, 0); (98, 0); (-2, 0)]
      with ([(66560, 0); (-1, 0)] ++ (43, 0) :: [(98, 0); (-2, 0)]).
    eapply cd_join with (q1 := 2%nat).
    - eapply cd_one; [read|path].
    - discriminate.
    - apply last_part_carries; [discriminate|vm_compute; reflexivity].
    - discriminate.
    - read.
    - path. }
  split; [discriminate|]. split; [apply last_part_carries; [discriminate|vm_compute; reflexivity]|].
  split; [vm_compute; discriminate|]. vm_compute; reflexivity.
Qed.

(** a, and b with the analyses b and b+c. *)
Definition inner_plus : list (nat * Z * Z * nat) :=
  [(0%nat, 97, 97, 1%nat); (1%nat, 0, -1, 2%nat); (0%nat, 98, 98, 3%nat); (3%nat, 0, -2, 4%nat);
   (3%nat, 0, 43, 5%nat); (5%nat, 0, 99, 6%nat); (6%nat, 0, -2, 4%nat)].
(** A '+' in a dictionary analysis counts as a separator: of two compounds with the same two
    parts only one is reported. *)
Theorem C54_inner_plus_refuted : exists P w1 s1 q1 w2 s2 q2,
  rpath (p_find P) (p_root P) w1 s1 q1 /\ carries (p_onlyL P) 43 s1 /\ final_weight q1 (all_finals P) <> None
  /\ rpath (p_find P) (p_root P) w2 s2 q2 /\ carries (p_cpR P) 43 s2 /\ final_weight q2 (all_finals P) <> None
  /\ spelled (p_toupper P) (p_alpha P) is_escaped false (map fst (s1 ++ (43, 0) :: s2)) (txt "a+b+c")
  /\ compoundAnalysis P (w1 ++ w2) = Ok (txt "/a+b").
Proof.
  exists (sample inner_plus [2; 4]%nat true), [97], [(97, 0); (-1, 0)], 2%nat, [98],
    [(98, 0); (43, 0); (99, 0); (-2, 0)], 4%nat.
  split; [path|]. split; [apply last_part_carries; [discriminate|vm_compute; reflexivity]|].
  split; [discriminate|]. split; [path|]. split; [apply last_part_carries; [discriminate|vm_compute; reflexivity]|].
  split; [discriminate|]. split; [|vm_compute; reflexivity].
  apply (spell_spec _ _ is_escaped false _ _ 0). vm_compute. reflexivity.
Qed.

Print Assumptions C54_compounds.
Print Assumptions C54_returns.
Print Assumptions C54_unfinished_refuted.
Print Assumptions C54_limit_refuted.
Print Assumptions C54_early_output_refuted.
Print Assumptions C54_astral_refuted.
Print Assumptions C54_inner_plus_refuted.
