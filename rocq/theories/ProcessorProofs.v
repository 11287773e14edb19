(** The computations of the processor come to an end and stay within the alphabet. *)
From Verif Require Import Base CompressionModel AlphabetModel StateModel StateSpec StatePathProofs
  StateProps FinalsModel FinalsProps StreamModel ProcessorModel CompoundProofs.

(** * Fuel *)
(** The same processor with another bound for the closures. *)
Definition with_fuel (P : processor) (n : nat) : processor :=
  mkP (p_find P) (p_root P) n (p_standard P) (p_incond P) (p_postblank P) (p_preblank P) (p_alpha P)
    (p_letters P) (p_ignored P) (p_isalnum P) (p_isspace P) (p_isupper P) (p_tolower P) (p_toupper P)
    (p_ctolower P) (p_strlower P) (p_sort P) (p_caseSensitive P) (p_dictionaryCase P) (p_weights P)
    (p_maxAnalyses P) (p_maxClasses P) (p_decomp P) (p_onlyL P) (p_cpR P) (p_maxElements P) (p_rcx P).

(** [settles f r]: from some bound on the result is [r]. *)
Definition settles {A} (f : nat -> outcome A) (r : A) : Prop :=
  exists N, forall n, (N <= n)%nat -> f n = Ok r.
Lemma settles_ret : forall {A} (r : A), settles (fun _ => Ok r) r.
Proof. intros A r. now exists 0%nat. Qed.
Lemma settles_bind : forall {A B} (f : nat -> outcome A) (g : nat -> A -> outcome B) a b,
  settles f a -> settles (fun n => g n a) b -> settles (fun n => obind (f n) (g n)) b.
Proof.
  intros A B f g a b (N & H) (M & K). exists (N + M)%nat. intros n Hn.
  rewrite H by lia. cbn [obind]. apply K. lia.
Qed.
Lemma settles_same : forall {A} (f g : nat -> outcome A) r, (forall n, f n = g n) -> settles f r -> settles g r.
Proof. intros A f g r E (N & H). exists N. intros n Hn. now rewrite <- E, H. Qed.

Lemma closure_settles : forall find st, eps_acyclic find ->
  exists r : analyses, settles (fun n => v_closure find n 0 st) r.
Proof.
  intros find st Ha. destruct (closure_terminates find Ha st) as (N & HN).
  destruct (HN N (le_n N)) as (r & E). exists r, N. intros fuel Hf. eapply grow_mono; eauto.
Qed.
Lemma restart_settles : forall required sep fin init (st : analyses), required <> sep ->
  exists r, settles (fun n => v_grow n (v_restart required sep 0 fin init) 0 st) r.
Proof.
  intros required sep fin init st Hne.
  set (f := v_restart required sep 0 fin init).
  destruct (fun sz H => grow_terminates f sz H (list_sum (map sz st)) 0 st (le_n _))
    with (sz := fun s => S (length (f s))) as (r & E).
  { intros s. cbn. apply le_n_S.
    rewrite <- (Nat.mul_1_r (length (f s))).
    assert (Hone : forall l, (forall x, In x l -> f x = []) ->
      list_sum (map (fun s0 => S (length (f s0))) l) = (length l * 1)%nat).
    { induction l as [|y l IHl]; intros Hl; cbn; auto. rewrite (Hl y) by now left.
      cbn. f_equal. apply IHl. intros x Hx. apply Hl. now right. }
    rewrite Hone; [lia|]. intros x Hx. unfold f in *. eapply (restart_once (fun _ _ => []) (fun _ => false) (fun x => x)); eauto. }
  exists r. eexists. intros n Hn. eapply grow_mono; eauto.
Qed.

Section Settles.
  Context (P : processor) (Ha : eps_acyclic (p_find P)).
  Lemma initial_settles : exists r, settles (fun n => initial_state (with_fuel P n)) r.
  Proof. exact (closure_settles (p_find P) [mkV (p_root P) [] false] Ha). Qed.
  Lemma offer_settles : forall c st, exists r, settles (fun n => offer (with_fuel P n) c st) r.
  Proof. intros c st. exact (closure_settles (p_find P) (v_choose (p_find P) c st) Ha). Qed.
  Lemma step_case_settles : forall c st, exists r, settles (fun n => step_case (with_fuel P n) c st) r.
  Proof. intros c st. exact (offer_settles (case_choice P c (beCaseSensitive P st)) st). Qed.
  Lemma compound_loop_settles : forall w init st, p_onlyL P <> 43 ->
    exists r, settles (fun n => compound_loop (with_fuel P n) init st w) r.
  Proof.
    intros w init st HL. revert st. induction w as [|c w IH]; intros st; cbn [compound_loop]; [eexists; apply settles_ret|].
    destruct (step_case_settles c st) as (st1 & H1).
    assert (K : exists r, settles (fun n => (fun st0 : analyses => if MAX_COMBINATIONS <? Z.of_nat (length st0) then Ok None
        else let! st := match w with [] => Ok st0 | _ => v_grow (p_fuel (with_fuel P n)) (v_restart (p_onlyL (with_fuel P n)) 43 0 (is_final_node (with_fuel P n)) init) 0 st0 end in
             match st with [] => Ok None | _ => compound_loop (with_fuel P n) init st w end) st1) r).
    { cbn beta. destruct (MAX_COMBINATIONS <? Z.of_nat (length st1)); [eexists; apply settles_ret|].
      assert (K2 : forall st2 : analyses, exists r, settles (fun n => match st2 with [] => Ok None | _ => compound_loop (with_fuel P n) init st2 w end) r).
      { intros [|x st2]; [eexists; apply settles_ret|]. apply IH. }
      destruct w as [|c' w'].
      - cbn [obind]. apply K2.
      - destruct (restart_settles (p_onlyL P) 43 (is_final_node P) init st1 HL) as (st2 & H2).
        destruct (K2 st2) as (r & H3). exists r. eapply (settles_bind _ _ st2); eauto. }
    destruct K as (r & K). exists r. eapply (settles_bind _ _ st1); eauto.
  Qed.
  Lemma lowered_loop_settles : forall w st, exists r, settles (fun n => lowered_loop (with_fuel P n) st w) r.
  Proof.
    intros w. induction w as [|c w IH]; intros st; cbn [lowered_loop]; [eexists; apply settles_ret|].
    destruct (step_case_settles c st) as (st1 & H1).
    assert (K : exists r, settles (fun n => match st1 with [] => Ok [] | _ => lowered_loop (with_fuel P n) st1 w end) r).
    { destruct st1; [eexists; apply settles_ret|]. apply IH. }
    destruct K as (r & K). exists r. eapply (settles_bind _ _ st1); eauto.
  Qed.
End Settles.

(** * Tags *)
(** Every tag the dictionary writes has a name. *)
Definition tags_known (P : processor) : Prop := forall n i o q w,
  In (o, (q, w)) (p_find P n i) -> o < 0 -> - o <= Z.of_nat (length (slexicinv (p_alpha P))).
Definition named (P : processor) (s : vns (W:=Z)) : Prop := forall c w,
  In (c, w) (v_seq s) -> c < 0 -> - c <= Z.of_nat (length (slexicinv (p_alpha P))).

Section Named.
  Context (P : processor) (Ht : tags_known P).
  Lemma closure_named : forall fuel st r, (forall s, In s st -> named P s) ->
    v_closure (p_find P) fuel 0 st = Ok r -> forall s, In s r -> named P s.
  Proof.
    intros fuel st r H0 H. unfold v_closure in H. eapply grow_from; [exact H0| |exact H].
    intros s s' Hs Hin. unfold v_eps in Hin. apply in_map_iff in Hin as ([o [q w]] & <- & Hin). cbn [fst snd] in *.
    intros c w' Hc. cbn [v_seq] in Hc. apply in_app_or in Hc as [Hc|Hc]; [now apply Hs in Hc|].
    destruct (o =? 0); [destruct Hc|]. destruct Hc as [E|[]]. assert (o = c) by congruence. subst c. eauto.
  Qed.
  Definition plain (c : choice) : Prop := forall ov opts, c = Some (ov, opts) -> forall x, ov x = x.
  Lemma offer_named : forall c st r, plain c -> (forall s, In s st -> named P s) ->
    offer P c st = Ok r -> forall s, In s r -> named P s.
  Proof.
    intros c st r Hp H0 H. unfold offer in H. eapply closure_named; [|exact H].
    intros s Hs. apply choose_in in Hs as (ov & opts & s0 & i & d & o & q & w & Ec & Hs0 & Hi & Ho & ->).
    intros c' w' Hc. cbn [v_seq] in Hc. apply in_app_or in Hc as [Hc|Hc]; [now apply (H0 _ Hs0) in Hc|].
    destruct (i =? 0); [destruct Hc|]. destruct Hc as [E|[]]. rewrite (Hp _ _ Ec) in E.
    assert (o = c') by congruence. subst c'. eauto.
  Qed.
  Lemma alternatives_plain : forall l, plain (alternatives l).
  Proof. intros l ov opts E x. unfold alternatives in E. destruct (existsb _ l); [discriminate|]. now injection E as <- _. Qed.
  Lemma case_choice_plain : forall c b, plain (case_choice P c b).
  Proof.
    intros c b. unfold case_choice, one, two. destruct (p_isupper P c && negb b); [|apply alternatives_plain].
    repeat match goal with |- context [if ?x then _ else _] => destruct x end; try apply alternatives_plain; intros ov opts E; discriminate.
  Qed.
  Lemma initial_named : forall r, initial_state P = Ok r -> forall s, In s r -> named P s.
  Proof. intros r H. eapply closure_named; [|exact H]. intros s [<- |[]] c w []. Qed.
  Lemma step_case_named : forall c st r, (forall s, In s st -> named P s) -> step_case P c st = Ok r ->
    forall s, In s r -> named P s.
  Proof. intros c st r H0 H. eapply offer_named; [apply case_choice_plain|exact H0|exact H]. Qed.
  Lemma restart_named : forall fuel required sep fin init st r, 0 <= sep -> (forall s, In s st -> named P s) ->
    v_grow fuel (v_restart required sep 0 fin init) 0 st = Ok r -> forall s, In s r -> named P s.
  Proof.
    intros fuel required sep fin init st r Hsep H0 H. eapply grow_from; [exact H0| |exact H].
    intros s s' Hs Hin. unfold v_restart in Hin. destruct (fin (v_where s) && _); [|destruct Hin].
    apply in_map_iff in Hin as (z & <- & _). intros c w Hc. cbn [v_seq] in Hc.
    apply in_app_or in Hc as [Hc|[E|[]]]; [now apply Hs in Hc|]. assert (c = sep) by congruence. lia.
  Qed.
  Lemma compound_loop_named : forall init w st r, (forall s, In s st -> named P s) ->
    compound_loop P init st w = Ok (Some r) -> forall s, In s r -> named P s.
  Proof.
    intros init w. induction w as [|c w IH]; intros st r H0 H; cbn [compound_loop] in H.
    - assert (st = r) by congruence. now subst.
    - destruct (step_case P c st) as [st1| | | |] eqn:E1; try discriminate. cbn [obind] in H.
      pose proof (step_case_named _ _ _ H0 E1) as H1.
      destruct (MAX_COMBINATIONS <? Z.of_nat (length st1)); [discriminate|].
      assert (K : forall st2 : analyses, (forall s, In s st2 -> named P s) ->
        match st2 with [] => Ok None | _ => compound_loop P init st2 w end = Ok (Some r) -> forall s, In s r -> named P s).
      { intros [|x st2] H2 E; [discriminate|]. eapply IH; eauto. }
      destruct w as [|c' w']; [cbn [obind] in H; now apply (K st1)|].
      destruct (v_grow (p_fuel P) (v_restart (p_onlyL P) 43 0 (is_final_node P) init) 0 st1) as [st2| | | |] eqn:E2; try discriminate.
      cbn [obind] in H. apply (K st2); auto. eapply restart_named; [|exact H1|exact E2]. lia.
  Qed.
  Lemma lowered_loop_named : forall w st r, (forall s, In s st -> named P s) ->
    lowered_loop P st w = Ok r -> forall s, In s r -> named P s.
  Proof.
    intros w. induction w as [|c w IH]; intros st r H0 H; cbn [lowered_loop] in H.
    - assert (st = r) by congruence. now subst.
    - destruct (step_case P c st) as [st1| | | |] eqn:E1; try discriminate. cbn [obind] in H.
      pose proof (step_case_named _ _ _ H0 E1) as H1.
      destruct st1 as [|x st1]; [assert (r = []) by congruence; subst; intros s []|]. eapply IH; eauto.
  Qed.

  Lemma finals_defined : forall st casefrom, is_sort (p_sort P) -> p_toupper P 0 = 0 -> p_weights P = false ->
    casefrom <> [] \/ p_dictionaryCase P = true -> (forall s, In s st -> named P s) ->
    exists out, filter_finals P st casefrom = Ok out.
  Proof.
    intros st casefrom Hs H0 Hw Hc Hn.
    assert (K : forall u f, exists out, filterFinals (p_toupper P) (p_sort P) (all_finals P) (p_alpha P) is_escaped
      (p_weights P) (p_maxAnalyses P) (p_maxClasses P) u f 0 st = Ok out).
    { intros u f. unfold filterFinals. rewrite Hw.
      destruct (C37_defined (p_toupper P) (p_sort P) Hs (all_finals P) (p_alpha P) is_escaped false
        (p_maxAnalyses P) (p_maxClasses P) u f st H0) as (o & E).
      - intros s c w Hin. exact (Hn s Hin c w).
      - discriminate.
      - rewrite E. cbn [obind]. eauto. }
    unfold filter_finals. destruct (p_dictionaryCase P); [cbn [obind]; apply K|].
    destruct casefrom; [destruct Hc; congruence|]. cbn [obind]. apply K.
  Qed.
End Named.
