(** C84: lt-proc -s replaces the words of a text by annotations and keeps the rest. *)
From Coq Require String Ascii.
From Verif Require Import Base CompressionModel AlphabetModel StateModel StateSpec StatePathProofs StateProps
  FinalsModel FinalsProps StringModel InputModel InputProps StreamModel StreamProps ProcessorModel
  ProcessorProofs CompoundProofs CompoundProps LookupProps AnalysisSpec BufferModel BufferProps AnalysisProofs AnalysisProps
  SaoModel SaoSpec SaoProofs.
Import String.StringSyntax.

(** * The states of the parts of a text *)
(** The choice between the letter cases does not change within the text (fst_processor.h:459-475:
    it does when a state has 65536 analyses or more). *)
Definition same_case (P : processor) (cs : bool) (s : list Z) : Prop :=
  forall n a w b st, s = a ++ w ++ b -> state_of (with_fuel P n) w = Ok st -> beCaseSensitive P st = cs.

Section Settling.
  Context (P : processor) (cs : bool) (Ha : eps_acyclic (p_find P)).
  Lemma after_settled : forall w st, exists r, settles (fun n => after (with_fuel P n) st w) r.
  Proof.
    intros w. induction w as [|c w IH]; intros st; cbn [after]; [eexists; apply settles_ret|].
    destruct (step_case_settles P Ha c st) as (st1 & H1). destruct (IH st1) as (r & H2).
    exists r. exact (settles_bind _ _ st1 r H1 H2).
  Qed.
  Lemma state_settled : forall w, exists r, settles (fun n => state_of (with_fuel P n) w) r.
  Proof.
    intros w. destruct (initial_settles P Ha) as (i & H1). destruct (after_settled w i) as (r & H2).
    exists r. exact (settles_bind _ _ i r H1 H2).
  Qed.
  Lemma segments_good : forall s, same_case P cs s ->
    exists N, forall n, (N <= n)%nat -> forall a w b, s = a ++ w ++ b -> good (with_fuel P n) cs w.
  Proof.
    intros s Hs.
    destruct (settle_all (fun j n => forall k, (k <= length s)%nat -> exists st, state_of (with_fuel P n) (firstn k (skipn j s)) = Ok st
      /\ beCaseSensitive P st = cs) (length s)) as (N & HN).
    { intros j _. destruct (settle_all (fun k n => exists st, state_of (with_fuel P n) (firstn k (skipn j s)) = Ok st
        /\ beCaseSensitive P st = cs) (length s)) as (N & HN).
      - intros k _. destruct (state_settled (firstn k (skipn j s))) as (st & N & H). exists N. intros n Hn. exists st. split; [auto|].
        apply (Hs n (firstn j s) (firstn k (skipn j s)) (skipn k (skipn j s)) st); [now rewrite !firstn_skipn|auto].
      - exists N. intros n Hn k Hk. auto. }
    exists N. intros n Hn a w b E k.
    assert (L : (length a + length w + length b = length s)%nat) by (rewrite E, !app_length; lia).
    destruct (HN (length a) n ltac:(lia) Hn (Nat.min k (length w)) ltac:(lia)) as (st & H & B). exists st. split; [|exact B].
    rewrite <- H. f_equal. rewrite E, skipn_app, skipn_all, Nat.sub_diag. cbn [skipn app].
    rewrite firstn_app. replace (Nat.min k (length w) - length w)%nat with 0%nat by lia. cbn [firstn]. rewrite app_nil_r.
    destruct (le_lt_dec k (length w)) as [L1|L1]; [now rewrite Nat.min_l by lia|].
    rewrite Nat.min_r, firstn_all, firstn_all2 by lia. reflexivity.
  Qed.
End Settling.
Lemma sao_dix_fuel : forall P cs n, sao_dix P cs -> sao_dix (with_fuel P n) cs.
Proof. intros P cs n []. constructor; assumption. Qed.
Lemma shown_fuel : forall P cs n l o, shown (with_fuel P n) cs l o -> shown P cs l o.
Proof. intros P cs n l o H. induction H; [constructor|now constructor|]. apply sh_word; assumption. Qed.
Lemma text_then : forall P cs l v, sao_dix P cs -> Forall part_ok (l ++ v) -> closed P l -> same_case P cs (psymbols (l ++ v)) ->
  exists N, forall n rounds, (N <= n)%nat -> (N <= rounds)%nat ->
    exists init out r last fuel, initial_state (with_fuel P n) = Ok init /\ shown P cs l out /\ ready v r /\ (length v < fuel)%nat
      /\ (length v < rounds)%nat /\ (forall a w b, psymbols (l ++ v) = a ++ w ++ b -> good (with_fuel P n) cs w)
      /\ lt_sao (with_fuel P n) rounds (utf8_text (parts_text (l ++ v)))
         = let! more := sao_loop (with_fuel P n) rounds fuel init (start r init last) in Ok (out ++ more).
Proof.
  intros P cs l v HD Hok Hc Hs. destruct (segments_good P cs (sd_eps _ _ HD) _ Hs) as (N1 & G).
  destruct (initial_settles P (sd_eps _ _ HD)) as (init & N2 & HI).
  exists (Nat.max (Nat.max N1 N2) (S (2 * length l + length v))). intros n rounds Hn Hr.
  unfold lt_sao. rewrite HI by lia. cbn [obind].
  destruct (sao_from (with_fuel P n) cs (sao_dix_fuel _ _ _ HD) v (length l) l
    (new_source (open_file (utf8_text (parts_text (l ++ v))))) init 0 rounds rounds) as (out & r & last & fuel & R & F & S & E); auto; try lia.
  - apply G. lia.
  - apply HI. lia.
  - left. split; [|reflexivity]. split.
    + exists (mkTape [] 0). split; [|reflexivity]. cbn [s_buf new_source]. apply (new_rel Size). cbn. lia.
    + left. apply at_text_open. now apply parts_scalar.
  - exists init, out, r, last, fuel. split; [reflexivity|]. split; [eapply shown_fuel; eauto|]. split; [exact R|]. split; [exact F|].
    split; [lia|]. split; [apply G; lia|exact E].
Qed.

(** * Texts *)
Theorem C84_text : forall P cs l, sao_dix P cs -> Forall part_ok l -> closed P l -> same_case P cs (map part_symbol l) ->
  exists N, forall n rounds, (N <= n)%nat -> (N <= rounds)%nat ->
    exists out, lt_sao (with_fuel P n) rounds (utf8_text (parts_text l)) = Ok out /\ shown P cs l out.
Proof.
  intros P cs l HD Hok Hc Hs. destruct (text_then P cs l []) as (N & H); rewrite ?app_nil_r; auto.
  exists N. intros n rounds Hn Hr. destruct (H n rounds Hn Hr) as (init & out & r & last & fuel & _ & S & R & F & _ & _ & E).
  exists out. split; [|exact S]. rewrite app_nil_r in E. rewrite E. destruct fuel as [|fuel]; [cbn in F; lia|].
  unfold start. cbn [sao_loop o_src]. destruct (read_end r R) as (r' & -> & B). cbn [obind Z.eqb]. rewrite B. cbn. now rewrite app_nil_r.
Qed.
(** A text that ends with a word, or the beginning of one, that is in the dictionary is written
    without it. *)
Theorem C84_lost_refuted : forall P cs l v, sao_dix P cs -> Forall part_ok (l ++ v) -> closed P l ->
  same_case P cs (map part_symbol (l ++ v)) -> living P cs (map part_symbol v) ->
  exists N, forall n rounds, (N <= n)%nat -> (N <= rounds)%nat ->
    exists out, lt_sao (with_fuel P n) rounds (utf8_text (parts_text (l ++ v))) = Ok out /\ shown P cs l out.
Proof.
  intros P cs l v HD Hok Hc Hs Hv. destruct (text_then P cs l v) as (N & H); auto.
  exists N. intros n rounds Hn Hr. destruct (H n rounds Hn Hr) as (init & out & r & last & fuel & I & S & R & F & _ & G & E).
  exists out. split; [|exact S]. rewrite E.
  assert (T : sao_loop (with_fuel P n) rounds fuel init (start r init last) = Ok []).
  { apply (tail_lost (with_fuel P n) cs (sao_dix_fuel _ _ n HD) v []); auto.
    - now apply Forall_app in Hok as [_ Hok].
    - apply (sd_letters _ _ HD) in Hv. exact (proj1 (Forall_map _ _ _) Hv).
    - apply (G (map part_symbol l) _ []). now rewrite app_nil_r, map_app.
    - unfold state_of. rewrite I. reflexivity. }
  rewrite T. cbn [obind]. now rewrite app_nil_r.
Qed.
(** A text that ends with an unknown word is never finished, unless the last letter of the word
    begins one of the dictionary. *)
Theorem C84_end_refuted : forall P cs l v z, sao_dix P cs -> Forall part_ok (l ++ v ++ [z]) -> closed P l ->
  same_case P cs (map part_symbol (l ++ v ++ [z])) -> Forall (fun i => letter P (part_symbol i)) (v ++ [z]) ->
  ~ living P cs (map part_symbol (v ++ [z])) -> ~ living P cs [part_symbol z] ->
  exists N, forall n rounds, (N <= n)%nat -> (N <= rounds)%nat ->
    lt_sao (with_fuel P n) rounds (utf8_text (parts_text (l ++ v ++ [z]))) = NoFuel.
Proof.
  intros P cs l v z HD Hok Hc Hs Lv Hv Hz. destruct (text_then P cs l (v ++ [z])) as (N & H); auto.
  exists (Nat.max N 2). intros n rounds Hn Hr.
  destruct (H n rounds ltac:(lia) ltac:(lia)) as (init & out & r & last & fuel & I & S & R & F & F2 & G & ->).
  apply Forall_app in Hok as [_ Hok].
  destruct (tail_unknown (with_fuel P n) cs (sao_dix_fuel _ _ n HD) (v ++ [z]) [] z r init last init rounds fuel)
    as (t & r' & last' & fuel' & Pn & B & _ & E); auto; try lia.
  - apply (G (map part_symbol l) _ []). now rewrite app_nil_r, map_app.
  - unfold state_of. rewrite I. reflexivity.
  - exists [], false, [], (p_root P). split; constructor.
  - now rewrite last_last.
  - apply Forall_app in Hok as [_ Hok]. apply Forall_app in Lv as [_ Lv].
    pose proof (letter_blanks P cs HD z (Forall_inv Lv)) as Bz.
    change (utf16_text (psymbols [])) with (@nil Z) in E. unfold start at 1. rewrite E.
    rewrite (tail_endless (with_fuel P n) cs (sao_dix_fuel _ _ n HD) fuel' z r' last' init rounds); auto; try lia.
    + exact (Forall_inv Hok).
    + exact (Forall_inv Lv).
    + apply (G (map part_symbol (l ++ v)) _ []). now rewrite app_nil_r, !map_app, <- app_assoc.
    + right. exists z, []. split; [reflexivity|]. split; [exact Pn|]. now rewrite Bz.
Qed.
(** No part of a text without words is changed. *)
Theorem C84_kept : forall P cs l, sao_dix P cs -> Forall part_ok l -> Forall (fun i => ~ letter P (part_symbol i)) l ->
  same_case P cs (map part_symbol l) ->
  exists N, forall n rounds, (N <= n)%nat -> (N <= rounds)%nat ->
    lt_sao (with_fuel P n) rounds (utf8_text (parts_text l)) = Ok (utf16_text (parts_text l)).
Proof.
  intros P cs l HD Hok Hn Hs. destruct (C84_text P cs l HD Hok) as (N & H); auto.
  { destruct l as [|i l] using rev_ind; [now left|]. right. exists l, i. split; [reflexivity|].
    apply Forall_app in Hn as [_ Hn]. exact (Forall_inv Hn). }
  exists N. intros n rounds H1 H2. destruct (H n rounds H1 H2) as (out & -> & S). f_equal.
  clear - S Hn. induction S as [|i l o Ni S IH|w i l t o Nw Lw Ni Ws S IH].
  - reflexivity.
  - rewrite parts_text_cons, utf16_text_app, IH by exact (Forall_inv_tail Hn). reflexivity.
  - exfalso. destruct w as [|j w]; [congruence|]. exact (Forall_inv Hn (Forall_inv Lw)).
Qed.

(** * Concrete cases *)
Section Arcs.
  Context (arcs : list (nat * Z * Z * nat)) (fins : list nat) (cs : bool).
  Let P := analyser_of arcs fins [] cs.
  Lemma path_outputs : forall n l (s : list (Z * Z)) q, rpath (p_find P) n l s q -> Forall (fun x => exists p i q', In (p, i, fst x, q') arcs) s.
  Proof.
    intros n l s q H. induction H as [p|p o q w l s r Hin H IH|p i o q w l s r Hi Hin H IH].
    - constructor.
    - apply Forall_app. split; [|exact IH]. destruct (o =? 0); constructor; [|constructor]. apply arcs_in in Hin. cbn. eauto.
    - constructor; [|exact IH]. apply arcs_in in Hin. cbn. eauto.
  Qed.
  Definition fair (o : Z) : Prop := o = -1 \/ o = -2 \/ (0 <= o < 128 /\ o <> 47).
  Lemma upper_fair : forall c, 0 <= c < 128 -> c <> 47 -> 0 <= p_toupper P c < 128 /\ p_toupper P c <> 47.
  Proof. intros c H1 H2. cbn [P analyser_of p_toupper]. unfold ascii_low. destruct ((97 <=? c) && (c <=? 122)) eqn:E; lia. Qed.
  Lemma rendered_fair : forall up s t, Forall (fun x => fair (fst x)) s -> rendered (p_alpha P) (p_toupper P) up s t ->
    Forall (fun u => 0 <= u < 128 /\ u <> 47) t.
  Proof.
    intros up s t Hs H. induction H as [|w s t H IH|c name w s t Hc Hn H IH|c w s t Hc H IH|c w s t H1 H2 H IH];
      try pose proof (IH (Forall_inv_tail Hs)) as I; try (pose proof (Forall_inv Hs) as F; cbn [fst] in F); auto.
    - destruct F as [->|[->|F]]; [| |lia]; cbn in Hn.
      + assert (name = [110]) by (change [60; 110; 62] with (60 :: [110] ++ [62]) in Hn; injection Hn as E; apply (app_inv_tail [62]); now rewrite <- E).
        subst. cbn [app]. repeat (apply Forall_cons; [lia|]). exact I.
      + assert (name = [99]) by (change [60; 99; 62] with (60 :: [99] ++ [62]) in Hn; injection Hn as E; apply (app_inv_tail [62]); now rewrite <- E).
        subst. cbn [app]. repeat (apply Forall_cons; [lia|]). exact I.
    - assert (F' : 0 <= c < 128 /\ c <> 47) by (cbn in Hc; lia). constructor; [lia|]. pose proof (upper_fair c (proj1 F') (proj2 F')).
      assert (X : forall x, 0 <= x < 128 -> utf16 x = [x]) by (intros x Hx; unfold utf16; replace (x <? 65536) with true by lia; reflexivity).
      rewrite X by (destruct up; lia). constructor; [destruct up; lia|exact I].
    - assert (F' : 0 <= c < 128 /\ c <> 47) by (unfold fair in F; lia). pose proof (upper_fair c (proj1 F') (proj2 F')).
      assert (X : forall x, 0 <= x < 128 -> utf16 x = [x]) by (intros x Hx; unfold utf16; replace (x <? 65536) with true by lia; reflexivity).
      rewrite X by (destruct up; lia). constructor; [destruct up; lia|exact I].
  Qed.
  (** What the arcs have to satisfy *)
  Lemma arcs_sao :
    (exists rank : nat -> nat, forall p o q, In (p, 0, o, q) arcs -> (rank q < rank p)%nat) ->
    (forall p i o q, In (p, i, o, q) arcs -> fair o /\ (i = 0 \/ ascii_up i = true \/ ascii_low i = true)) ->
    (forall i o q, In (0%nat, i, o, q) arcs -> i <> 0) -> ~ In 0%nat fins -> sao_dix P cs.
  Proof.
    intros (rank & Hr) Ha H0 Hf.
    assert (Out : forall l s q, rpath (p_find P) (p_root P) l s q -> Forall (fun x => fair (fst x)) s).
    { intros l s q H. eapply Forall_impl; [|exact (path_outputs _ _ _ _ H)]. intros x (p & i & q' & Hin). apply (Ha _ _ _ _ Hin). }
    constructor; auto.
    - exists rank. intros p o q w H. apply arcs_in in H. eapply Hr; eauto.
    - intros l s q H _. eapply Forall_impl; [|exact (Out l s q H)]. intros x [E|[E|[E1 E2]]].
      + right. rewrite E. split; [lia|]. exists [110]. reflexivity.
      + right. rewrite E. split; [lia|]. exists [99]. reflexivity.
      + left. pose proof (upper_fair _ E1 E2). split; apply ascii_scalar; lia.
    - intros w t (l & d & s & q & t0 & first & up & _ & Pt & _ & _ & _ & Rn & Cp) K.
      pose proof (rendered_fair up s t0 (Out _ _ _ Pt) Rn) as F. destruct first; [|subst t; rewrite Forall_forall in F; apply F in K; lia].
      assert (M : forall c, 0 <= c < 128 /\ c <> 47 -> p_toupper P c mod 2 ^ 16 <> 47).
      { intros c [C1 C2]. pose proof (upper_fair c C1 C2). rewrite Z.mod_small by lia. lia. }
      rewrite Forall_forall in F. destruct Cp as [| |c r|c r Nc]; cbn [In] in *.
      + exact K.
      + lia.
      + destruct K as [K|[K|K]]; [lia|exact (M c (F c (or_intror (or_introl eq_refl))) K)|]. specialize (F 47 (or_intror (or_intror K))). lia.
      + destruct K as [K|K]; [exact (M c (F c (or_introl eq_refl)) K)|]. specialize (F 47 (or_intror K)). lia.
    - intros w (l & d & s & q & R & Rp). apply Forall_forall. intros c Hc. apply sample_letter.
      destruct (ascii_up c) eqn:E; [now left|]. right.
      assert (Hin : In c l) by (exact (reading_same arcs fins [] cs _ _ _ R c Hc E)).
      destruct (path_inputs arcs fins [] cs _ _ _ _ Rp _ Hin) as (p & o & q' & Hp). apply Ha in Hp as [_ [->|[Hp|Hp]]]; [|congruence|exact Hp].
      exfalso. clear - R Hc. assert (K : forall w l d, reading (p_isupper P) (p_tolower P) cs w l d -> ~ In 0 w).
      { intros w0 l0 d0 H. induction H; cbn; intuition congruence. }
      exact (K _ _ _ R Hc).
    - intros (l & d & s & q & R & Rp & F). inversion R; subst. assert (q = 0%nat).
      { clear - Rp H0. cbn [p_root P analyser_of] in Rp. inversion Rp as [|p o q' w l s' r Hin Hp|]; subst; auto.
        exfalso. apply arcs_in in Hin. now apply H0 in Hin. }
      subst q. apply F. unfold all_finals. cbn [P analyser_of p_standard p_incond p_postblank p_preblank map app]. rewrite app_nil_r.
      clear - Hf. induction fins as [|x l IH]; [reflexivity|]. cbn [map final_weight].
      destruct (Nat.eqb_spec x 0) as [->|]; [exfalso; apply Hf; now left|]. apply IH. intros X. apply Hf. now right.
    - intros c Hc Hl. apply sample_letter in Hl. cbn [P analyser_of p_isspace] in Hc. unfold ascii_up, ascii_low in Hl. lia.
    - split; [reflexivity|]. intros c Hc. cbn in Hc. cbn [P analyser_of p_isspace]. lia.
  Qed.
  Lemma arcs_same_case : cs = true -> forall s, same_case P cs s.
  Proof. intros E s n a w b st _ _. unfold beCaseSensitive, P. cbn [p_caseSensitive analyser_of]. rewrite E. reflexivity. Qed.
End Arcs.
Ltac arcs_sao rank := apply arcs_sao;
  [ exists rank; intros p o q H; cbn in H; repeat (destruct H as [H|H]; [first [discriminate H|injection H as <- <- <-; cbn; lia]|]); destruct H
  | intros p i o q H; cbn in H; repeat (destruct H as [H|H]; [first [discriminate H|injection H as <- <- <- <-; split; [unfold fair; lia|cbn; auto]]|]); destruct H
  | intros i o q H; cbn in H; repeat (destruct H as [H|H]; [first [discriminate H|injection H as <- <- <-; lia]|]); destruct H
  | cbn; lia ].

(** ab:ab<n>, Ab:ab<n>, AB:ab<n>, A:to<c>, abcd:x<n> *)
Definition notes : list (nat * Z * Z * nat) :=
  [(0%nat, 97, 97, 1%nat); (1%nat, 98, 98, 2%nat); (2%nat, 0, -1, 3%nat);
   (0%nat, 65, 97, 4%nat); (4%nat, 98, 98, 2%nat); (4%nat, 66, 98, 2%nat);
   (0%nat, 65, 116, 5%nat); (5%nat, 0, 111, 6%nat); (6%nat, 0, -2, 7%nat);
   (2%nat, 99, 120, 8%nat); (8%nat, 100, 0, 9%nat); (9%nat, 0, -1, 10%nat)].
Definition notes_dix : processor := analyser_of notes [3; 7; 10]%nat [] true.
Lemma notes_sao : sao_dix notes_dix true.
Proof. arcs_sao (fun n : nat => 20 - n)%nat. Qed.
Definition pieces (l : list Z) : list part := map Ch l.
Lemma pieces_ok : forall l, forallb (fun c => (0 <? c) && (c <? 128) && negb (sao_escaped c)) l = true -> Forall part_ok (pieces l).
Proof.
  intros l H. rewrite forallb_forall in H. apply Forall_forall. intros i Hi. apply in_map_iff in Hi as (c & <- & Hc).
  apply H in Hc. apply andb_prop in Hc as [Hc E]. apply negb_true_iff in E. cbn [part_ok]. split; [split; lia|]. split; [lia|].
  now apply sao_escaped_not.
Qed.
Definition notes_text : list part :=
  pieces (txt "ab, Ab") ++ [Cdata (txt "<b>x]>y")] ++ pieces (txt "abx e ") ++ [Special 60] ++ pieces (txt "AB abc") ++ [Special 92]
  ++ pieces (txt "ab") ++ pieces [10].
Example C84_text_example :
  sao_dix notes_dix true /\ Forall part_ok notes_text /\ closed notes_dix notes_text /\ same_case notes_dix true (map part_symbol notes_text)
  /\ parts_text notes_text = txt "ab, Ab<![CDATA[<b>x]>y]]>abx e \<AB abc\\ab" ++ [10]
  /\ lt_sao notes_dix 1000 (utf8_text (parts_text notes_text))
     = Ok (txt "ab&n;, Ab&n;<![CDATA[<b>x]>y]]><d>abx</d> <d>e</d> \<AB&n; <d>abc</d>\\ab&n;" ++ [10]).
Proof.
  split; [apply notes_sao|]. split.
  { unfold notes_text. apply Forall_app. split; [apply pieces_ok; reflexivity|]. apply Forall_app. split.
    { apply Forall_cons; [|apply Forall_nil]. cbn [part_ok]. split; [vm_compute txt; scalars|].
      split; [vm_compute; intuition discriminate|]. split; [vm_compute; intuition discriminate|].
      change (txt "<b>x]>y") with [60; 98; 62; 120; 93; 62; 121]. intros x y E. cbn [app] in E.
      do 7 (destruct x as [|? x]; [discriminate E|]; cbn [app] in E; injection E as ? E; subst).
      destruct x as [|? x]; cbn [app] in E; [congruence|]. injection E as ? E. destruct x as [|? x]; [discriminate E|]. cbn [app] in E.
      injection E as ? E. destruct x as [|? x]; [discriminate E|]. cbn [app] in E. injection E as ? E. destruct x; discriminate E. }
    apply Forall_app. split; [apply pieces_ok; reflexivity|]. apply Forall_app. split; [apply Forall_cons; [cbn; auto|apply Forall_nil]|].
    apply Forall_app. split; [apply pieces_ok; reflexivity|]. apply Forall_app. split; [apply Forall_cons; [cbn; auto|apply Forall_nil]|].
    apply Forall_app. split; apply pieces_ok; reflexivity. }
  split. { right. exists (removelast notes_text), (Ch 10). split; [reflexivity|]. intros L. apply sample_letter in L. cbn in L. intuition discriminate. }
  split; [now apply arcs_same_case|]. split; [reflexivity|]. vm_compute. reflexivity.
Qed.
Example C84_lost_example :
  living notes_dix true (map part_symbol (pieces (txt "ab"))) /\ lt_sao notes_dix 1000 (txt "e ab") = Ok (txt "<d>e</d> ").
Proof.
  split; [|vm_compute; reflexivity]. exists [97; 98], false, [(97, 0); (98, 0)], 2%nat. split.
  - apply rd_same; [lia|discriminate|]. apply rd_same; [lia|discriminate|]. apply rd_nil.
  - apply (rp_sym _ 0 97 97 1); [lia|now left|]. apply (rp_sym _ 1 98 98 2); [lia|now left|]. apply rp_nil.
Qed.
Example C84_kept_example : lt_sao notes_dix 1000 (txt "1 - <![CDATA[ab]]>\>") = Ok (txt "1 - <![CDATA[ab]]>\>").
Proof. vm_compute. reflexivity. Qed.

(** * What does not hold *)
(** A text with a block of CDATA that is not closed is never finished. *)
Theorem C84_cdata_refuted : exists str f, readBlock 60 62 (open_file (txt "![CDATA[ab")) = Ok (str, f)
  /\ startswith str (txt "<![CDATA[") = true /\ forall fuel, cdata_loop fuel str f = NoFuel.
Proof.
  eexists _, _. split; [vm_compute; reflexivity|]. split; [vm_compute; reflexivity|].
  induction fuel as [|fuel IH]; [vm_compute; reflexivity|]. exact IH.
Qed.
(** An analysis with a slash is cut there. *)
Definition speed_dix : processor :=
  analyser_of [(0%nat, 97, 107, 1%nat); (1%nat, 0, 109, 2%nat); (2%nat, 0, 47, 3%nat); (3%nat, 0, 104, 4%nat); (4%nat, 0, -1, 5%nat)] [5%nat] [] true.
Theorem C84_slash_refuted : lt_sao speed_dix 1000 (txt "a ") = Ok (txt "km ").
Proof. vm_compute. reflexivity. Qed.
(** A word of one capital letter makes the whole analysis upper case. *)
Theorem C84_capital_refuted : lt_sao notes_dix 1000 (txt "A ") = Ok (txt "TO&c; ").
Proof. vm_compute. reflexivity. Qed.
(** With an entry that starts with a character that is no letter, a text that begins like it
    is never finished. *)
Definition dash_dix : processor :=
  analyser_of [(0%nat, 45, 45, 1%nat); (1%nat, 97, 97, 2%nat); (2%nat, 0, -1, 3%nat)] [3%nat] [] true.
Theorem C84_dash_refuted : forall rounds, lt_sao dash_dix rounds (txt "-b ") = NoFuel.
Proof.
  intros rounds. destruct rounds as [|r]; [reflexivity|]. unfold lt_sao.
  set (init := [mkV 0 [] false] : analyses). replace (initial_state dash_dix) with (Ok init) by (vm_compute; reflexivity). cbn [obind].
  set (nxt := fun s => match readSAO s with Ok (_, s') => s' | _ => s end).
  set (s0 := new_source (open_file (txt "-b "))). set (again := go_back 3 (nxt (nxt (nxt s0)))).
  set (st := [mkV 1 [(45, 0)] false] : analyses).
  assert (Cycle : forall s fuel, readSAO s = Ok (45, nxt s) -> readSAO (nxt s) = Ok (98, nxt (nxt s)) ->
    readSAO (nxt (nxt s)) = Ok (32, nxt (nxt (nxt s))) -> go_back 3 (nxt (nxt (nxt s))) = again ->
    sao_loop dash_dix (S r) (S (S fuel)) init (mkO s init [] [] 0 false false)
    = let! more := sao_loop dash_dix (S r) fuel init (mkO again init [] [] 0 false false) in Ok (txt "<d>-b</d>" ++ more)).
  { intros s fuel R1 R2 R3 R4. set (s1 := nxt s) in *. set (s2 := nxt s1) in *. set (s3 := nxt s2) in *. clearbody s1 s2 s3 again.
    cbn [sao_loop o_src]. rewrite R1. cbn [obind Z.eqb Pos.eqb o_state o_lf o_sf o_last o_incond o_postblank].
    replace (sao_note dash_dix 45 (mkO s1 init [] [] 0 false false)) with (Ok (mkO s1 init [] [] 0 false false)) by reflexivity.
    cbn [obind o_src o_state o_lf o_sf o_last o_incond o_postblank].
    replace (step_case dash_dix 45 init) with (Ok st) by (vm_compute; reflexivity). cbn [obind]. unfold st at 1. cbn iota.
    replace (getSymbol 45 (p_alpha dash_dix)) with (Ok [45]) by reflexivity. cbn [obind app o_src].
    rewrite R2. cbn [obind Z.eqb Pos.eqb o_state o_lf o_sf o_last o_incond o_postblank].
    replace (sao_note dash_dix 98 (mkO s2 st [] [45] 0 false false)) with (Ok (mkO s2 st [] [45] 0 false false)) by reflexivity.
    cbn [obind o_src o_state o_lf o_sf o_last o_incond o_postblank].
    replace (step_case dash_dix 98 st) with (Ok (@nil (vns (W:=Z)))) by (vm_compute; reflexivity). cbn [obind].
    unfold sao_emit. cbn [o_src o_state o_lf o_sf o_last o_incond o_postblank].
    replace (isAlphabetic dash_dix 98) with true by reflexivity. cbn [negb andb]. rewrite orb_true_r. cbn [sao_run].
    replace (getSymbol 98 (p_alpha dash_dix)) with (Ok [98]) by reflexivity. cbn [obind]. rewrite R3. cbn [obind].
    replace (isAlphabetic dash_dix 32) with false by reflexivity. rewrite andb_false_r. cbn [obind app]. unfold sao_unknown.
    replace (Z.of_nat (length [45; 98]) - Z.of_nat (snd (firstNotAlpha dash_dix [45; 98]))) with 2 by reflexivity.
    change (1 + 2) with 3. rewrite R4. reflexivity. }
  assert (Loop : forall fuel, sao_loop dash_dix (S r) fuel init (mkO again init [] [] 0 false false) = NoFuel).
  { intros fuel. induction fuel as [fuel IH] using lt_wf_ind. destruct fuel as [|[|fuel]]; [reflexivity| |].
    - cbn [sao_loop o_src]. replace (readSAO again) with (Ok (45, nxt again)) by (vm_compute; reflexivity). reflexivity.
    - rewrite Cycle; [rewrite IH by lia; reflexivity| | | |]; vm_compute; reflexivity. }
  destruct r as [|r]; [vm_compute; reflexivity|].
  rewrite Cycle; [rewrite Loop; reflexivity| | | |]; vm_compute; reflexivity.
Qed.
(** With an entry of two words, a text that begins like it is written twice in part. *)
Definition lines_dix : processor :=
  analyser_of [(0%nat, 97, 97, 1%nat); (1%nat, 32, 32, 2%nat); (2%nat, 98, 98, 3%nat); (3%nat, 0, -1, 4%nat)] [4%nat] [] true.
Theorem C84_twice_refuted : lt_sao lines_dix 1000 (txt "a b a bc ") = Ok (txt "a b&n; <d>a bc</d> <d>bc</d> ").
Proof. vm_compute. reflexivity. Qed.
Example C84_end_example : ~ living notes_dix true (map part_symbol (pieces (txt "ax"))) /\ ~ living notes_dix true (map part_symbol (pieces (txt "x")))
  /\ lt_sao notes_dix 1000 (txt "ab ax") = NoFuel /\ lt_sao notes_dix 1000 (txt "ab xa") = Ok (txt "ab&n; <d>xa</d>").
Proof.
  assert (K : forall w, living notes_dix true w -> ~ In 120 w).
  { intros w (l & d & s & q & R & Rp) H. assert (Hin : In 120 l) by (exact (reading_same notes [3; 7; 10]%nat [] true _ _ _ R 120 H eq_refl)).
    destruct (path_inputs notes [3; 7; 10]%nat [] true _ _ _ _ Rp _ Hin) as (p & o & q' & Hp). cbn in Hp.
    repeat (destruct Hp as [Hp|Hp]; [discriminate Hp|]). destruct Hp. }
  split; [intros H; apply (K _ H); vm_compute; tauto|]. split; [intros H; apply (K _ H); vm_compute; tauto|].
  split; vm_compute; reflexivity.
Qed.

Print Assumptions C84_text.
Print Assumptions C84_kept.
Print Assumptions C84_lost_refuted.
Print Assumptions C84_end_refuted.
Print Assumptions C84_cdata_refuted.
Print Assumptions C84_slash_refuted.
Print Assumptions C84_capital_refuted.
Print Assumptions C84_dash_refuted.
Print Assumptions C84_twice_refuted.
