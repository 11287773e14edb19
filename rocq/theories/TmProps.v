(** C77: lt-tmxproc replaces the units of the memory by their translations and keeps the rest
    of the text. *)
From Coq Require String Ascii.
From Verif Require Import Base CompressionModel AlphabetModel StateModel StateSpec StatePathProofs StateProps
  FinalsModel FinalsProps StringModel InputModel InputProps StreamModel StreamProps ProcessorModel
  ProcessorProofs CompoundProofs CompoundProps LookupProps AnalysisSpec BufferModel BufferProps AnalysisProofs AnalysisProps
  TmModel TmSpec TmProofs TmLoopProofs.
Import String.StringSyntax.

(** * The fuel of the states *)
Section Settling.
  Context (P : processor) (Ha : eps_acyclic (p_find P)).
  Lemma tafter_settles : forall w st, exists r, settles (fun n => tafter (with_fuel P n) st w) r.
  Proof.
    intros w. induction w as [|c w IH]; intros st; cbn [tafter]; [eexists; apply settles_ret|].
    destruct (offer_settles P Ha (case_choice P c false) st) as (st1 & H1). destruct (IH st1) as (r & H2).
    exists r. exact (settles_bind _ _ st1 r H1 H2).
  Qed.
  Lemma tstate_settles : forall w, exists r, settles (fun n => tstate (with_fuel P n) w) r.
  Proof.
    intros w. destruct (initial_settles P Ha) as (i & H1). destruct (tafter_settles w i) as (r & H2).
    exists r. exact (settles_bind _ _ i r H1 H2).
  Qed.
  Lemma defined_settles : forall s, exists N, forall n, (N <= n)%nat -> defined (with_fuel P n) s.
  Proof.
    intros s.
    destruct (settle_all (fun j n => forall k, (k <= length s)%nat -> exists st, tstate (with_fuel P n) (firstn k (skipn j s)) = Ok st) (length s)) as (N & HN).
    { intros j _. destruct (settle_all (fun k n => exists st, tstate (with_fuel P n) (firstn k (skipn j s)) = Ok st) (length s)) as (N & HN).
      - intros k _. destruct (tstate_settles (firstn k (skipn j s))) as (st & N & H). exists N. intros n Hn. exists st. auto.
      - exists N. intros n Hn k Hk. auto. }
    exists N. intros n Hn a w b E.
    assert (L : (length a + length w + length b = length s)%nat) by (rewrite E, !app_length; lia).
    destruct (HN (length a) n ltac:(lia) Hn (length w) ltac:(lia)) as (st & H). exists st. rewrite <- H. f_equal.
    rewrite E, skipn_app, skipn_all, Nat.sub_diag. cbn [skipn app]. rewrite firstn_app, firstn_all, Nat.sub_diag.
    cbn [firstn]. now rewrite app_nil_r.
  Qed.
End Settling.
Lemma memory_fuel : forall P n ispunct isdigit, memory_ok P ispunct isdigit -> memory_ok (with_fuel P n) ispunct isdigit.
Proof. intros P n ispunct isdigit []. constructor; assumption. Qed.
Lemma cut_fuel : forall P n ispunct space_mode l segs, cut P ispunct space_mode l segs -> cut (with_fuel P n) ispunct space_mode l segs.
Proof.
  intros P n ispunct space_mode l segs H. induction H as [|g l segs Hg Hl Hu Hc IH|u w l segs A1 A2 A3 A4 A5 A6 A7 A8 A9 A10 Hc IH
    |u p l segs B1 B2 B3 B4 B5 B6 Hc IH|u L1 L2 L3 L4].
  - constructor.
  - apply cut_gap; assumption.
  - apply cut_text; assumption.
  - apply cut_unit; assumption.
  - apply cut_lost; assumption.
Qed.
Lemma shown_fuel : forall P n segs o, shown (with_fuel P n) segs o -> shown P segs o.
Proof. intros P n segs o H. induction H; [constructor|now constructor| |constructor]. apply sh_unit; assumption. Qed.

Lemma bits_scalar : forall isdigit l, Forall (bit_ok isdigit) l -> Forall scalar (bits_text l).
Proof.
  intros isdigit l H. induction H as [|i l Hi Hl IH]; [constructor|]. rewrite bits_text_cons.
  apply Forall_app. split; [|exact IH].
  assert (A : forall c, In c [91; 92; 93] -> scalar c) by (intros c Hc; apply ascii_scalar; cbn in Hc; lia).
  destruct i; cbn [bit_ok bit_text] in *.
  - constructor; [tauto|constructor].
  - constructor; [apply A; cbn; auto|]. constructor; [now apply meta_scalar|constructor].
  - destruct Hi as [_ Hi]. eapply Forall_impl; [|exact Hi]. intros c Hc. unfold ascii_digit in Hc. apply ascii_scalar. lia.
  - constructor; [apply A; cbn; auto|]. apply Forall_app. split; [tauto|]. constructor; [apply A; cbn; auto|constructor].
  - constructor; [apply A; cbn; auto|]. constructor; [apply A; cbn; auto|]. apply Forall_app. split; [tauto|].
    constructor; [apply A; cbn; auto|]. constructor; [apply A; cbn; auto|constructor].
Qed.

Lemma text_by : forall P ispunct isdigit space_mode answer l segs, memory_ok P ispunct isdigit ->
  Forall (bit_ok isdigit) l -> apart l -> (forall n, gives (with_fuel P n) answer) -> cut P ispunct space_mode l segs -> Forall (fillable_by answer) segs ->
  exists N, forall n rounds, (N <= n)%nat -> (N <= rounds)%nat ->
    exists o, lt_tmxproc (with_fuel P n) ispunct isdigit space_mode rounds (utf8_text (bits_text l)) = Ok (o ++ [0])
      /\ shown_by answer segs o.
Proof.
  intros P ispunct isdigit space_mode answer l segs HP Hok Hap Hans Hcut Hfill.
  destruct (defined_settles P (mo_eps _ _ _ HP) (map bit_symbol l)) as (N1 & H1).
  exists (N1 + 2 * length l + 2)%nat. intros n rounds Hn Hr.
  pose proof (memory_fuel P n _ _ HP) as HP'. pose proof (H1 n ltac:(lia)) as Hd.
  destruct (Hd [] [] (map bit_symbol l) eq_refl) as (init & Hi). unfold tstate in Hi.
  destruct (initial_state (with_fuel P n)) as [init'| | | |] eqn:Ei; try discriminate Hi. clear Hi init. rename init' into init.
  set (r0 := mkTR (new_source (open_file (utf8_text (bits_text l)))) [] false).
  assert (R0 : ready l r0).
  { split; [reflexivity|]. left. split; [|reflexivity]. split.
    - exists (mkTape [] 0). split; [|reflexivity]. cbn [r_src s_buf new_source r0]. apply (new_rel 2048). cbn. lia.
    - left. cbn [r_src r0 new_source s_file]. apply at_text_open. now apply (bits_scalar isdigit). }
  destruct (main (with_fuel P n) ispunct isdigit space_mode HP' answer (Hans n) l segs (cut_fuel P n _ _ _ _ Hcut) Hfill Hok Hap Hd rounds init Ei ltac:(lia)
    r0 0 rounds R0 ltac:(lia)) as (o & r1 & So & Eo & Fo & Xo & Bo).
  exists o. split; [|exact So].
  unfold lt_tmxproc. fold r0. destruct rounds as [|rounds]; [lia|]. remember (S rounds) as k eqn:Ek. rewrite Ek at 2. cbn [tm_flush].
  replace (eof (s_file (r_src r0))) with false by reflexivity.
  unfold tm_analysis at 1. rewrite Ei. cbn [obind]. rewrite Eo. cbn [obind].
  assert (Ef : tm_flush (with_fuel P n) ispunct isdigit space_mode k rounds r1 = Ok ([], r1)).
  { destruct rounds; cbn [tm_flush]; rewrite Xo; reflexivity. }
  rewrite Ef. cbn [obind]. unfold tm_analysis. rewrite Ei. cbn [obind].
  destruct (read_end (with_fuel P n) isdigit r1 Fo) as (r2 & E2 & _ & _ & B2). rewrite Ek. cbn [tm_loop m_read]. rewrite E2. cbn [obind].
  replace (0 =? 0) with true by reflexivity. rewrite B2, Bo. cbn [concat obind]. now rewrite !app_nil_r.
Qed.

(** * The text is cut, units are translated, the rest is kept *)
Theorem C77_text : forall P ispunct isdigit space_mode l segs, memory_ok P ispunct isdigit ->
  Forall (bit_ok isdigit) l -> apart l -> cut P ispunct space_mode l segs -> Forall (fillable P) segs ->
  exists N, forall n rounds, (N <= n)%nat -> (N <= rounds)%nat ->
    exists o, lt_tmxproc (with_fuel P n) ispunct isdigit space_mode rounds (utf8_text (bits_text l)) = Ok (o ++ [0])
      /\ shown P segs o.
Proof.
  intros P ispunct isdigit space_mode l segs HP Hok Hap Hcut Hfill. apply text_by; auto.
  intros n w st t H E S. exact (gives_answers (with_fuel P n) w st t H E S).
Qed.

(** There is only one way to cut a text. *)
Section Unique.
  Context (P : processor) (ispunct : Z -> bool) (space_mode : bool).
  Lemma live_head : forall i u, living P false (map bit_symbol (i :: u)) -> living P false [bit_symbol i].
  Proof. intros i u H. exact (living_prefix P false [bit_symbol i] (map bit_symbol u) H). Qed.
  Lemma longest_live : forall u v (x y : list bit), u ++ x = v ++ y -> living P false (map bit_symbol u) -> living P false (map bit_symbol v) ->
    (forall i z, x = i :: z -> ~ living P false (map bit_symbol (u ++ [i]))) ->
    (forall i z, y = i :: z -> ~ living P false (map bit_symbol (v ++ [i]))) -> u = v /\ x = y.
  Proof.
    intros u v x y E Lu Lv Nu Nv.
    assert (K : forall a b (x y : list bit), a ++ x = b ++ y -> living P false (map bit_symbol b) ->
      (forall i z, x = i :: z -> ~ living P false (map bit_symbol (a ++ [i]))) -> (length b <= length a)%nat).
    { clear. intros a b x y E Lb Na. destruct (le_lt_dec (length b) (length a)) as [L|L]; [exact L|]. exfalso.
      assert (Eb : b = a ++ firstn (length b - length a) x).
      { apply (f_equal (firstn (length b))) in E. rewrite !firstn_app, firstn_all, Nat.sub_diag in E. cbn [firstn] in E.
        rewrite app_nil_r in E. rewrite <- E at 1. f_equal. apply firstn_all2. lia. }
      destruct x as [|i x]; [rewrite firstn_nil, app_nil_r in Eb; subst; lia|].
      destruct (length b - length a)%nat as [|k] eqn:Ek; [lia|]. cbn [firstn] in Eb.
      apply (Na i x eq_refl). rewrite Eb in Lb. replace (a ++ i :: firstn k x) with ((a ++ [i]) ++ firstn k x) in Lb by (rewrite <- app_assoc; reflexivity).
      rewrite map_app in Lb. eapply living_prefix. exact Lb. }
    pose proof (K u v x y E Lv Nu). pose proof (K v u y x (eq_sym E) Lu Nv).
    assert (Ev : u = v).
    { apply (f_equal (firstn (length u))) in E. rewrite !firstn_app, firstn_all, Nat.sub_diag in E. cbn [firstn] in E.
      replace (length u - length v)%nat with 0%nat in E by lia. cbn [firstn] in E. rewrite !app_nil_r in E.
      rewrite firstn_all2 in E by lia. exact E. }
    subst v. split; [reflexivity|]. now apply app_inv_head in E.
  Qed.
  Lemma word_unique : forall w v (x y : list bit), w ++ x = v ++ y -> Forall (fun i => ~ between_words P ispunct i) w ->
    Forall (fun i => ~ between_words P ispunct i) v -> (forall i z, x = i :: z -> between_words P ispunct i) ->
    (forall i z, y = i :: z -> between_words P ispunct i) -> w = v /\ x = y.
  Proof.
    intros w. induction w as [|i w IH]; intros [|j v] x y E Hw Hv Hx Hy; cbn [app] in E.
    - auto.
    - exfalso. exact (Forall_inv Hv (Hx _ _ E)).
    - exfalso. exact (Forall_inv Hw (Hy _ _ (eq_sym E))).
    - injection E as -> E. destruct (IH v x y E (Forall_inv_tail Hw) (Forall_inv_tail Hv) Hx Hy) as [-> ->]. auto.
  Qed.
  Lemma gap_text : forall g r u w l, g :: r = u ++ w ++ l -> between_words P ispunct g -> ~ living P false [bit_symbol g] ->
    living P false (map bit_symbol u) -> Forall (fun i => ~ between_words P ispunct i) w -> (w = [] -> u <> []) -> False.
  Proof.
    intros g r u w l E Hg Hl Lu Hw Hn. destruct u as [|i u]; cbn [app] in E.
    - destruct w as [|i w]; [now apply Hn|]. cbn [app] in E. injection E as -> _. exact (Forall_inv Hw Hg).
    - injection E as -> _. exact (Hl (live_head _ _ Lu)).
  Qed.
  Theorem C77_cut_unique : forall l segs, cut P ispunct space_mode l segs -> forall segs', cut P ispunct space_mode l segs' -> segs = segs'.
  Proof.
    intros l segs H. induction H as [|g l segs Hg Hl Hu Hc IH|u w l segs A1 A2 A3 A4 A5 A6 A7 A8 A9 A10 Hc IH
      |u p l segs B1 B2 B3 B4 B5 B6 Hc IH|u L1 L2 L3 L4]; intros segs' H'.
    - symmetry. eapply cut_nil. exact H'.
    - remember (g :: l) as t eqn:E. destruct H' as [|g' l' segs' Hg' Hl' Hu' Hc'|u' w' l' segs' A1 A2 A3 A4 A5 A6 A7 A8 A9 A10 Hc'
        |u' p' l' segs' B1 B2 B3 B4 B5 B6 Hc'|u' L1' L2' L3' L4'].
      + discriminate E.
      + injection E as -> ->. f_equal. auto.
      + exfalso. symmetry in E. exact (gap_text _ _ _ _ _ E Hg Hl A3 A7 A9).
      + exfalso. destruct u' as [|i u']; [congruence|]. cbn [app] in E. injection E as -> _.
        apply Hl. apply (live_head g u'). eapply accepting_living. exact B4.
      + exfalso. subst u'. exact (Hl (live_head _ _ L3')).
    - remember (u ++ w ++ l) as t eqn:E. destruct H' as [|g' l' segs' Hg' Hl' Hu' Hc'|u' w' l' segs' A1' A2' A3' A4' A5' A6' A7' A8' A9' A10' Hc'
        |u' p' l' segs' B1 B2 B3 B4 B5 B6 Hc'|u' L1' L2' L3' L4'].
      + exfalso. symmetry in E. apply app_eq_nil in E as [_ E]. exact (A5 E).
      + exfalso. exact (gap_text _ _ _ _ _ E Hg' Hl' A3 A7 A9).
      + destruct (longest_live u' u (w' ++ l') (w ++ l) E A3' A3 A4' A4) as [-> E2].
        destruct (word_unique w' w l' l E2 A7' A7 A8' A8) as [-> ->]. f_equal. auto.
      + exfalso. destruct (longest_live u' u (p' :: l') (w ++ l) E ltac:(eapply accepting_living; exact B4) A3) as [-> E2]; [|exact A4|].
        { intros i z Ei. injection Ei as -> _. exact B5. }
        apply (A6 (length u) (le_n _)). exists p'. rewrite E. split; [rewrite <- E2, nth_error_app2, Nat.sub_diag by lia; reflexivity|].
        split; [exact B3|]. rewrite firstn_app, firstn_all, Nat.sub_diag. cbn [firstn]. rewrite app_nil_r. exact B4.
      + exfalso. rewrite <- (app_nil_r u') in E. destruct (longest_live u' u [] (w ++ l) E L3' A3) as [_ E2]; [discriminate|exact A4|].
        symmetry in E2. exact (A5 E2).
    - remember (u ++ p :: l) as t eqn:E. destruct H' as [|g' l' segs' Hg' Hl' Hu' Hc'|u' w' l' segs' A1' A2' A3' A4' A5' A6' A7' A8' A9' A10' Hc'
        |u' p' l' segs' B1' B2' B3' B4' B5' B6' Hc'|u' L1' L2' L3' L4'].
      + exfalso. symmetry in E. apply app_eq_nil in E as [_ E]. discriminate E.
      + exfalso. destruct u as [|i u]; [congruence|]. cbn [app] in E. injection E as -> _.
        apply Hl'. apply (live_head i u). eapply accepting_living. exact B4.
      + exfalso. destruct (longest_live u' u (w' ++ l') (p :: l) E A3' ltac:(eapply accepting_living; exact B4) A4') as [-> E2].
        { intros i z Ei. injection Ei as -> _. exact B5. }
        apply (A6' (length u) (le_n _)). exists p. rewrite E. split; [rewrite nth_error_app2, Nat.sub_diag by lia; reflexivity|].
        split; [exact B3|]. rewrite firstn_app, firstn_all, Nat.sub_diag. cbn [firstn]. rewrite app_nil_r. exact B4.
      + destruct (longest_live u' u (p' :: l') (p :: l) E ltac:(eapply accepting_living; exact B4') ltac:(eapply accepting_living; exact B4)) as [-> E2].
        { intros i z Ei. injection Ei as -> _. exact B5'. }
        { intros i z Ei. injection Ei as -> _. exact B5. }
        injection E2 as -> ->. f_equal. auto.
      + exfalso. rewrite <- (app_nil_r u') in E. destruct (longest_live u' u [] (p :: l) E L3' ltac:(eapply accepting_living; exact B4)) as [_ E2];
          [discriminate| |discriminate E2]. intros i z Ei. injection Ei as -> _. exact B5.
    - destruct H' as [|g' l' segs' Hg' Hl' Hu' Hc'|u' w' l' segs' A1' A2' A3' A4' A5' A6' A7' A8' A9' A10' Hc'
        |u' p' l' segs' B1' B2' B3' B4' B5' B6' Hc'|u' L1' L2' L3' L4'].
      + congruence.
      + exfalso. exact (Hl' (live_head _ _ L3)).
      + exfalso. destruct (longest_live (u' ++ w' ++ l') u' [] (w' ++ l') (app_nil_r _) L3 A3') as [_ E2]; [discriminate|exact A4'|].
        symmetry in E2. exact (A5' E2).
      + exfalso. destruct (longest_live (u' ++ p' :: l') u' [] (p' :: l') (app_nil_r _) L3 ltac:(eapply accepting_living; exact B4')) as [_ E2];
          [discriminate| |discriminate E2]. intros i z Ei. injection Ei as -> _. exact B5'.
      + reflexivity.
  Qed.
End Unique.

(** * Concrete cases *)
(** ASCII: the punctuation as Unicode has it *)
Definition punct (c : Z) : bool := existsb (Z.eqb c) (txt "!#%&'()*,-./:;?@[\]_{}").
Definition figure (c : Z) : bool := (48 <=? c) && (c <=? 57).
(** A memory from the two sides of its units, aligned from the left; -1 is a number. *)
Fixpoint chain (p next : nat) (l : list (Z * Z)) : list (nat * Z * Z * nat) :=
  match l with
  | [] => []
  | (i, o) :: r => match r with [] => [(p, i, o, 1%nat)] | _ => (p, i, o, next) :: chain next (S next) r end
  end.
Fixpoint chains (next : nat) (us : list (list Z * list Z)) : list (nat * Z * Z * nat) :=
  match us with
  | [] => []
  | (s, t) :: us =>
      let l := combine (s ++ repeat 0 (length t - length s)) (t ++ repeat 0 (length s - length t)) in
      chain 0 next l ++ chains (next + length l) us
  end.
Definition memory_of (us : list (list Z * list Z)) : processor :=
  let P := analyser_of (chains 2 us) [1%nat] [] false in
  mkP (p_find P) 0 100 (p_standard P) [] [] [] (p_alpha P) [] (fun _ => false) (p_isalnum P) (p_isspace P) (p_isupper P)
    (p_tolower P) (p_toupper P) (p_ctolower P) (p_strlower P) (p_sort P) false false false (2 ^ 31 - 1) (2 ^ 31 - 1) false 0 0 4 (fun _ => None).
Notation looked_up us space t := (lt_tmxproc (memory_of us) punct figure space 1000 (utf8_text t)).

Definition sample_units : list (list Z * list Z) :=
  [(txt "page " ++ [-1], txt "hoja @(1)"); (txt "good day", txt "buenos(#)dias"); (txt "see", txt "ver")].
Definition sample_memory : processor := memory_of sample_units.
Lemma memory_of_ok : forall us,
  (forall p i o q, In (p, i, o, q) (chains 2 us) -> 0 <= o < 128 /\ (i = 0 -> q = 1%nat \/ (p < q)%nat) /\ (p < 1000)%nat /\ p <> 1%nat) ->
  memory_ok (memory_of us) punct figure.
Proof.
  intros us Ha. constructor.
  - exists (fun n : nat => if (n =? 1)%nat then 0%nat else (1000 - n)%nat). intros p o q w H. cbn [memory_of p_find analyser_of] in H.
    apply arcs_in in H. apply Ha in H as (_ & H1 & H2 & H3). specialize (H1 eq_refl).
    rewrite (proj2 (Nat.eqb_neq p 1)) by exact H3. destruct (q =? 1)%nat eqn:E; [lia|]. apply Nat.eqb_neq in E. lia.
  - reflexivity.
  - intros l s q H _. induction H as [p|p o q w l s r Hin H IH|p i o q w l s r Hi Hin H IH]; [constructor| |].
    + destruct (o =? 0); [exact IH|]. constructor; [|exact IH]. apply arcs_in in Hin. apply Ha in Hin as [Hin _]. apply ascii_scalar. cbn [fst]. lia.
    + constructor; [|exact IH]. apply arcs_in in Hin. apply Ha in Hin as [Hin _]. apply ascii_scalar. cbn [fst]. lia.
  - split; [reflexivity|]. intros c Hc. unfold meta in Hc. cbn in Hc. cbn. lia.
  - split; reflexivity.
  - split; [|split]; [intros c Hc|intros c Hc _|reflexivity]; unfold figure, ascii_digit in *; lia.
Qed.
Lemma sample_ok : memory_ok sample_memory punct figure.
Proof.
  apply memory_of_ok. intros p i o q H. vm_compute in H.
  repeat (destruct H as [H|H]; [injection H as <- <- <- <-; lia|]). destruct H.
Qed.

(** The premises of [cut], computed *)
Section Computed.
  Context (P : processor) (ispunct : Z -> bool) (space_mode : bool).
  Definition size_at (w : list Z) : option nat := match tstate P w with Ok st => Some (length st) | _ => None end.
  Lemma dead_by : forall w, size_at w = Some 0%nat -> ~ living P false w.
  Proof.
    intros w H L. unfold size_at in H. destruct (tstate P w) as [st| | | |] eqn:E; try discriminate H.
    apply (tstate_living P _ _ E) in L. destruct st; [congruence|discriminate H].
  Qed.
  Lemma live_by : forall w n, size_at w = Some (S n) -> living P false w.
  Proof.
    intros w n H. unfold size_at in H. destruct (tstate P w) as [st| | | |] eqn:E; try discriminate H.
    apply (tstate_living P _ _ E). intros ->. discriminate H.
  Qed.
  Definition final_at (w : list Z) : option bool := match tstate P w with Ok st => Some (isFinal (all_finals P) st) | _ => None end.
  Lemma accept_by : forall w, final_at w = Some true -> accepting P false (all_finals P) w.
  Proof.
    intros w H. unfold final_at in H. destruct (tstate P w) as [st| | | |] eqn:E; try discriminate H.
    apply (tstate_accepting P _ _ _ E). congruence.
  Qed.
  Definition no_unit (l : list bit) (k : nat) : bool :=
    match nth_error l k with
    | None => true
    | Some i => negb (ispunct (bit_symbol i) || (space_mode && p_isspace P (bit_symbol i)))
        || match final_at (map bit_symbol (firstn k l)) with Some false => true | _ => false end
    end.
  Lemma no_unit_by : forall l k, no_unit l k = true -> ~ unit_at P ispunct space_mode l k.
  Proof.
    intros l k H (i & Hi & Hs & Ha). unfold no_unit in H. rewrite Hi in H. apply orb_prop in H as [H|H].
    - apply negb_true_iff, orb_false_elim in H as [H1 H2]. destruct Hs as [Hs|[Hs1 Hs2]]; [congruence|].
      rewrite Hs1, Hs2 in H2. discriminate H2.
    - unfold final_at in H. destruct (tstate P (map bit_symbol (firstn k l))) as [st| | | |] eqn:E; try discriminate H.
      apply (tstate_accepting P _ _ _ E) in Ha. rewrite Ha in H. discriminate H.
  Qed.
  Lemma no_units_by : forall l n, forallb (no_unit l) (seq 0 n) = true -> forall k, (k < n)%nat -> ~ unit_at P ispunct space_mode l k.
  Proof. intros l n H k Hk. apply no_unit_by. rewrite forallb_forall in H. apply H. apply in_seq. lia. Qed.
  Definition gapb (i : bit) : bool := p_isspace P (bit_symbol i) || ispunct (bit_symbol i).
  Lemma gapb_iff : forall i, gapb i = true <-> between_words P ispunct i.
  Proof. intros i. apply orb_true_iff. Qed.
  Definition raw (i : bit) : bool := match i with Esc _ => false | _ => true end.
  Definition first_ok (u : list bit) : bool := match u with [] => true | i :: _ => negb (is_blank_bit i) end.
  Lemma first_by : forall u, first_ok u = true -> forall i x, u = i :: x -> ~ blank_bit i.
  Proof. intros u H i x -> B. apply blank_bit_iff in B. cbn in H. rewrite B in H. discriminate H. Qed.
  Lemma cut_gap_by : forall g r segs, gapb g = true -> size_at [bit_symbol g] = Some 0%nat -> no_unit (g :: r) 0 = true ->
    cut P ispunct space_mode r segs -> cut P ispunct space_mode (g :: r) (Kept [g] :: segs).
  Proof. intros g r segs H1 H2 H3 H4. apply cut_gap; [now apply gapb_iff|now apply dead_by|now apply no_unit_by|exact H4]. Qed.
  Lemma cut_text_by : forall u w r segs l n i x, l = u ++ w ++ r -> w ++ r = i :: x ->
    first_ok u && forallb raw (u ++ w) && forallb (no_unit l) (seq 0 (S (length u))) && forallb (fun i => negb (gapb i)) w
      && match r with [] => true | g :: _ => gapb g end = true ->
    size_at (map bit_symbol u) = Some (S n) -> size_at (map bit_symbol (u ++ [i])) = Some 0%nat ->
    (w = [] -> u <> []) -> (r = [] -> blanks_in u = []) -> cut P ispunct space_mode r segs ->
    cut P ispunct space_mode l (Kept (u ++ w) :: segs).
  Proof.
    intros u w r segs l n i x -> E H H1 H2 H3 H4 H5. apply andb_prop in H as [H K5]. apply andb_prop in H as [H K4].
    apply andb_prop in H as [H K3]. apply andb_prop in H as [K1 K2]. apply cut_text; auto.
    - now apply first_by.
    - apply Forall_forall. intros j Hj c ->. rewrite forallb_forall in K2. specialize (K2 _ Hj). discriminate K2.
    - eapply live_by. exact H1.
    - intros j y Ej. assert (j = i) by congruence. subst j. now apply dead_by.
    - congruence.
    - intros k Hk. apply (no_units_by _ _ K3). lia.
    - apply Forall_forall. intros j Hj G. rewrite forallb_forall in K4. specialize (K4 _ Hj). apply gapb_iff in G. rewrite G in K4. discriminate K4.
    - intros j y ->. now apply gapb_iff.
  Qed.
  Lemma cut_unit_by : forall u p r segs l, l = u ++ p :: r -> u <> [] ->
    first_ok u && (ispunct (bit_symbol p) || (space_mode && p_isspace P (bit_symbol p))) && forallb (no_unit (u ++ [p])) (seq 0 (length u)) = true ->
    final_at (map bit_symbol u) = Some true -> size_at (map bit_symbol (u ++ [p])) = Some 0%nat ->
    cut P ispunct space_mode (p :: r) segs -> cut P ispunct space_mode l (Unit u p :: segs).
  Proof.
    intros u p r segs l -> Hu H H1 H2 H3. apply andb_prop in H as [H K3]. apply andb_prop in H as [K1 K2]. apply cut_unit; auto.
    - now apply first_by.
    - apply orb_prop in K2 as [K2|K2]; [now left|]. apply andb_prop in K2. now right.
    - now apply accept_by.
    - now apply dead_by.
    - intros k Hk. now apply (no_units_by _ _ K3).
  Qed.
End Computed.
(** A unit with one translation: the memory can have it several times. *)
Lemma spelled_unique : forall s x y, spelled s x -> spelled s y -> x = y.
Proof.
  intros s x y H. revert y. induction H as [|w s t H IH|c w s t Hc H0 Hm H IH|c w s t Hm H IH]; intros y Hy;
    inversion Hy as [|w' s' t' Hs'|c' w' s' t' Hc' H0' Hm' Hs'|c' w' s' t' Hm' Hs']; subst; try contradiction; try (exfalso; congruence);
    auto; try (exfalso; match goal with K : meta 0 |- _ => apply meta_scalar in K; tauto end); f_equal; auto.
Qed.
Lemma copies : forall fins st t x, slashed fins st t ->
  (forall q s d, In (mkV q s d) st -> final_weight q fins <> None -> spelled s x) ->
  exists n, t = concat (repeat (47 :: x) n) /\ (isFinal fins st = true -> (0 < n)%nat).
Proof.
  intros fins st t x H. induction H as [|q s d st y t Hq Hs Ht IH|q s d st t Hq Ht IH]; intros Hx.
  - exists 0%nat. split; [reflexivity|]. cbn. discriminate.
  - destruct IH as (n & -> & _); [intros; eapply Hx; [right|]; eauto|]. exists (S n). split; [|lia].
    rewrite (spelled_unique _ _ _ Hs (Hx q s d (or_introl eq_refl) Hq)). reflexivity.
  - destruct IH as (n & -> & Hn); [intros; eapply Hx; [right|]; eauto|]. exists n. split; [reflexivity|].
    unfold isFinal in *. cbn [existsb v_where]. rewrite Hq. exact Hn.
Qed.
Lemma answers_copies : forall P w t x, answers P w t ->
  match tstate P w with Ok st => isFinal (all_finals P) st && forallb (fun v => match final_weight (v_where v) (all_finals P) with None => true | Some _ =>
    match tm_text P (v_seq v) with Ok y => if ustr_eq_dec y x then forallb (fun c => (0 <? fst c) && (fst c <? 128)) (v_seq v) else false | _ => false end end) st | _ => false end = true ->
  exists n, t = concat (repeat (47 :: x) (S n)).
Proof.
  intros P w t x (st' & Hst & Hsl) C. destruct (tstate P w) as [st| | | |] eqn:E; try discriminate C. apply andb_prop in C as [F C]. pose proof (tstate_reads P _ _ E) as R.
  destruct (copies _ _ _ x Hsl) as (n & -> & Hn).
  - intros q s d Hin Hq. apply Hst in Hin. apply R in Hin. rewrite forallb_forall in C. specialize (C _ Hin). cbn [v_where v_seq] in C.
    destruct (final_weight q (all_finals P)); [|congruence].
    destruct (text_spelled P s) as (y & Ey & Sy).
    { apply Forall_forall. intros c Hc. destruct (tm_text P s) as [y| | | |]; try discriminate C. destruct (ustr_eq_dec y x); [|discriminate C].
      rewrite forallb_forall in C. specialize (C _ Hc). apply ascii_scalar. lia. }
    rewrite Ey in C. destruct (ustr_eq_dec y x) as [<-|]; [exact Sy|discriminate C].
  - assert (K : isFinal (all_finals P) st' = true).
    { unfold isFinal in *. apply existsb_exists in F as ([q s d] & Hin & Hf). apply existsb_exists. exists (mkV q s d). split; [|exact Hf].
      apply Hst. now apply R. }
    specialize (Hn K). destruct n as [|n]; [lia|]. now exists n.
Qed.

Definition chars (l : list Z) : list bit := map Char l.
Definition sample_text : list bit :=
  chars (txt "Hi Page ") ++ Number (txt "12") :: chars (txt ". good") ++ Super (txt "<b>") :: chars (txt "day, good die") ++ [Esc 91].
Definition sample_segments : list segment :=
  [Kept (chars (txt "Hi")); Kept (chars (txt " ")); Unit (chars (txt "Page ") ++ [Number (txt "12")]) (Char 46); Kept (chars (txt "."));
   Kept (chars (txt " ")); Unit (chars (txt "good") ++ Super (txt "<b>") :: chars (txt "day")) (Char 44); Kept (chars (txt ","));
   Kept (chars (txt " ")); Kept (chars (txt "good die")); Kept [Esc 91]].
Example C77_sample :
  memory_ok sample_memory punct figure /\ Forall (bit_ok figure) sample_text /\ apart sample_text
  /\ cut sample_memory punct false sample_text sample_segments /\ Forall (fillable sample_memory) sample_segments
  /\ bits_text sample_text = txt "Hi Page 12. good[<b>]day, good die\["
  /\ looked_up sample_units false (txt "Hi Page 12. good[<b>]day, good die\[")
     = Ok (txt "Hi [hoja 12]. [buenos<b>dias], good die\[" ++ [0]).
Proof.
  split; [exact sample_ok|]. split.
  { assert (K : forall l, forallb (fun c => (0 <? c) && (c <? 128) && negb (is_escaped c) && negb (figure c)) l = true ->
      Forall (bit_ok figure) (chars l)).
    { intros l H. rewrite forallb_forall in H. apply Forall_forall. intros i Hi. apply in_map_iff in Hi as (c & <- & Hc).
      apply H in Hc. apply andb_prop in Hc as [Hc E2]. apply andb_prop in Hc as [Hc E1]. apply negb_true_iff in E1, E2. cbn.
      split; [apply ascii_scalar; lia|]. split; [lia|]. split; [|exact E2]. intros M. apply meta_iff in M. congruence. }
    unfold sample_text. apply Forall_app. split; [now apply K|]. constructor.
    { split; [discriminate|]. apply Forall_forall. intros c [<- |[<- |[]]]; vm_compute; split; discriminate. }
    apply Forall_app. split; [now apply K|]. constructor.
    { split; [apply Forall_forall; intros c [<- |[<- |[<- |[]]]]; apply ascii_scalar; vm_compute; split; congruence|]. split; [|vm_compute; discriminate].
      change (txt "<b>") with [60; 98; 62]. repeat (apply bb_char; [lia|lia|lia|]). apply bb_nil. }
    apply Forall_app. split; [now apply K|]. constructor; [|constructor]. cbn. unfold meta. cbn. lia. }
  split; [cbn; tauto|]. split.
  { unfold sample_segments. change (chars (txt "Hi")) with ([] ++ chars (txt "Hi")).
    eapply cut_text_by with (r := skipn 2 sample_text); try (vm_compute; reflexivity); [discriminate|].
    change (skipn 2 sample_text) with (Char 32 :: skipn 3 sample_text).
    apply cut_gap_by; try (vm_compute; reflexivity).
    eapply cut_unit_by with (r := skipn 10 sample_text); try (vm_compute; reflexivity); [discriminate|].
    apply cut_gap_by; try (vm_compute; reflexivity).
    change (skipn 10 sample_text) with (Char 32 :: skipn 11 sample_text). apply cut_gap_by; try (vm_compute; reflexivity).
    eapply cut_unit_by with (r := skipn 20 sample_text); try (vm_compute; reflexivity); [discriminate|].
    apply cut_gap_by; try (vm_compute; reflexivity).
    change (skipn 20 sample_text) with (Char 32 :: skipn 21 sample_text). apply cut_gap_by; try (vm_compute; reflexivity).
    change (chars (txt "good die")) with (chars (txt "good d") ++ chars (txt "ie")).
    eapply cut_text_by with (r := [Esc 91]); try (vm_compute; reflexivity); [discriminate|].
    apply cut_gap_by; try (vm_compute; reflexivity). constructor. }
  split.
  { unfold sample_segments. repeat (apply Forall_cons; [exact I|]). apply Forall_cons.
    - intros t At. destruct (answers_copies _ _ _ (txt "hoja \@(1)") At) as (n & ->); [vm_compute; reflexivity|].
      exists (txt "hoja 12" ++ concat (repeat (txt "/hoja 12") n)). split; [discriminate|].
      change (47 :: txt "hoja 12" ++ concat (repeat (txt "/hoja 12") n)) with (concat (repeat (txt "/hoja 12") (S n))).
      generalize (S n). clear. intros n. induction n as [|n IH]; [apply fi_end; intros []|].
      cbn [repeat concat]. exact (fi_number [txt "12"] [] (txt "/hoja ") (txt "1") (txt "12") _ _ _ ltac:(vm_compute; lia) ltac:(discriminate)
        ltac:(apply Forall_forall; intros c [<- |[]]; vm_compute; split; discriminate) ltac:(vm_compute; reflexivity) ltac:(vm_compute; discriminate) eq_refl IH).
    - repeat (apply Forall_cons; [exact I|]). apply Forall_cons; [|repeat (apply Forall_cons; [exact I|]); apply Forall_nil].
      intros t At. destruct (answers_copies _ _ _ (txt "buenos(#)dias") At) as (n & ->); [vm_compute; reflexivity|].
      assert (K : forall n a, ~ In 41 a -> filled [] [] (a ++ concat (repeat (txt "/buenos(#)dias") n)) (a ++ concat (repeat (txt "/buenos dias") n)) []).
      { clear. intros n. induction n as [|n IH]; intros a Ha; [rewrite !app_nil_r; now apply fi_end|].
        cbn [repeat concat]. specialize (IH (txt "dias") ltac:(vm_compute; lia)).
        pose proof (fi_space [] (a ++ txt "/buenos") _ _ _ ltac:(rewrite in_app_iff; intros [X|X]; [auto|vm_compute in X; lia]) IH) as K.
        rewrite <- !app_assoc in K. exact K. }
      exists (txt "buenos<b>dias" ++ concat (repeat (txt "/buenos dias") n)). split; [discriminate|].
      exact (fi_blank [] 91 (txt "<b>") 93 [] (txt "/buenos") _ _ _ ltac:(vm_compute; lia) (K n (txt "dias") ltac:(vm_compute; lia))). }
  split; vm_compute; reflexivity.
Qed.

(** * What is not as the format suggests *)
(** A text that is a unit, or begins one, is lost: the loop ends at the end of the input
    without writing what it has read (1121, 1252-1257). *)
Theorem C77_end_refuted : forall P ispunct isdigit space_mode l, memory_ok P ispunct isdigit ->
  Forall (bit_ok isdigit) l -> apart l -> l <> [] -> (forall i x, l = i :: x -> ~ blank_bit i) ->
  living P false (map bit_symbol l) -> (forall k, (k < length l)%nat -> ~ unit_at P ispunct space_mode l k) ->
  exists N, forall n rounds, (N <= n)%nat -> (N <= rounds)%nat ->
    lt_tmxproc (with_fuel P n) ispunct isdigit space_mode rounds (utf8_text (bits_text l)) = Ok (concat (blanks_in l) ++ [0]).
Proof.
  intros P ispunct isdigit space_mode l HP Hok Hap Hne Hf Hl Hu.
  destruct (C77_text P ispunct isdigit space_mode l [Lost l] HP Hok Hap) as (N & H);
    [now apply cut_lost|constructor; [exact I|constructor]|].
  exists N. intros n rounds Hn Hr. destruct (H n rounds Hn Hr) as (o & E & S). rewrite E. now inversion S.
Qed.
(** "see" is a unit, "se" begins one. *)
Example C77_end_sample :
  (forall k, (k < 3)%nat -> ~ unit_at sample_memory punct false (chars (txt "see")) k)
  /\ accepting sample_memory false (all_finals sample_memory) (txt "see")
  /\ looked_up sample_units false (txt "see") = Ok [0]
  /\ looked_up sample_units false (txt "see.") = Ok (txt "[ver]." ++ [0])
  /\ looked_up sample_units false (txt "Hi se") = Ok (txt "Hi " ++ [0]).
Proof.
  split; [apply no_units_by; vm_compute; reflexivity|]. split; [apply accept_by; vm_compute; reflexivity|].
  split; [vm_compute; reflexivity|]. split; vm_compute; reflexivity.
Qed.
(** Numbers: what the buffer is read again for has no number any more (1129-1133, 247-251); a unit
    found has forgotten the numbers when a longer one follows; and those of a section are still
    there in the next one. *)
Theorem C77_numbers_refuted :
  looked_up [(txt "See. " ++ [-1] ++ txt " b", txt "Q"); (txt "See", txt "Ver")] false (txt "See. 5 x.") = UB
  /\ looked_up [(txt "Sum " ++ [-1], txt "S @(1)"); (txt "Sum " ++ [-1] ++ txt ", " ++ [-1], txt "S @(1)+@(2)")] false (txt "Sum 5, 7.") = UB
  /\ looked_up [(txt "Sum " ++ [-1] ++ txt ", " ++ [-1], txt "S @(1)+@(2)")] false (txt "Sum 5, 7.") = Ok (txt "[S 5+7]." ++ [0])
  /\ looked_up sample_units false (txt "x5" ++ [0] ++ txt "page 7.") = Ok (txt "x5" ++ [0] ++ txt "[hoja 5]." ++ [0])
  /\ looked_up sample_units false (txt "page 7.") = Ok (txt "[hoja 7]." ++ [0]).
Proof. split; [vm_compute; reflexivity|]. split; [vm_compute; reflexivity|]. split; [vm_compute; reflexivity|]. split; vm_compute; reflexivity. Qed.
(** A decimal point ends a unit, and a unit with a figure in it is never found. *)
Theorem C77_decimal_refuted :
  looked_up [(txt "costs " ++ [-1], txt "cuesta @(1)")] false (txt "costs 1.5.") = Ok (txt "[cuesta 1].5." ++ [0])
  /\ looked_up [(txt "page 5", txt "hoja 5")] false (txt "page 5.") = Ok (txt "page 5." ++ [0]).
Proof. split; vm_compute; reflexivity. Qed.
(** A translation with "@(1)" for a unit without numbers *)
Theorem C77_reference_refuted : looked_up [(txt "mail", txt "correo @(1)")] false (txt "mail.") = UB
  /\ looked_up [(txt "mail", txt "correo @()")] false (txt "mail.") = Ok (txt "[correo \@()]." ++ [0]).
Proof. split; vm_compute; reflexivity. Qed.
(** After the beginning of a unit the rest of the word is skipped: a unit that begins inside is missed. *)
Theorem C77_start_refuted : looked_up sample_units false (txt "good good day.") = Ok (txt "good good day." ++ [0])
  /\ looked_up sample_units false (txt "good. good day.") = Ok (txt "good. [buenos dias]." ++ [0]).
Proof. split; vm_compute; reflexivity. Qed.
(** Inside words a backslash is lost. *)
Theorem C77_escape_refuted : looked_up sample_units false (txt "a\$b.") = Ok (txt "a$b." ++ [0]).
Proof. vm_compute. reflexivity. Qed.
(** A tag that the memory does not have ends the section. *)
Theorem C77_tag_refuted : looked_up sample_units false (txt "a <x> see.") = Ok (txt "a " ++ [0] ++ txt " [ver]." ++ [0]).
Proof. vm_compute. reflexivity. Qed.
(** The blanks of the beginning of a unit whose last word ends the text are written twice. *)
Theorem C77_blank_refuted : looked_up sample_units false (txt "good[<b>]dax") = Ok (txt "good[<b>]dax" ++ [0] ++ txt "[<b>]").
Proof. vm_compute. reflexivity. Qed.

Print Assumptions C77_text.
Print Assumptions C77_cut_unique.
Print Assumptions C77_end_refuted.
Print Assumptions C77_numbers_refuted.
Print Assumptions C77_decimal_refuted.
Print Assumptions C77_reference_refuted.
Print Assumptions C77_start_refuted.
Print Assumptions C77_escape_refuted.
Print Assumptions C77_tag_refuted.
Print Assumptions C77_blank_refuted.
