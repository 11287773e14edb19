(** Proofs for C68: the scan comes to an end. *)
From Verif Require Import Base CompressionModel AlphabetModel StateModel StateSpec FinalsModel FinalsProps StringModel
  InputModel InputProps StreamModel StreamProps ProcessorModel ProcessorProofs TranslitModel TranslitSpec
  TranslitReadProofs TranslitMatchProofs TranslitScanProofs.

(** * Another bound for the closures *)
Lemma reads_fuel : forall P cs n p w s d q, reads P cs p w s d q -> reads (with_fuel P n) cs p w s d q.
Proof.
  intros P cs n p w s d q H. induction H as [p|p o q w l s d r Ho Hp IH|p c o x q w l s d r Hc Ho Hw Hp IH|p c o x q w l s d r Hc Hf Ho Hw Hp IH].
  - constructor.
  - eapply rd_eps; eauto.
  - eapply rd_same; eauto.
  - eapply rd_lower; eauto.
Qed.
Lemma reads_fuel_back : forall P cs n p w s d q, reads (with_fuel P n) cs p w s d q -> reads P cs p w s d q.
Proof.
  intros P cs n p w s d q H. apply (reads_fuel _ _ (p_fuel P)) in H.
  change (reads (with_fuel P (p_fuel P)) cs p w s d q) in H. now rewrite with_own_fuel in H.
Qed.
Lemma accepts_fuel : forall P cs n w s d c, accepts (with_fuel P n) cs w s d c <-> accepts P cs w s d c.
Proof.
  intros P cs n w s d c. split; intros (q & fw & H1 & H2 & H3); exists q, fw; (split; [|split; [exact H2|exact H3]]).
  - eapply reads_fuel_back; eauto.
  - apply reads_fuel. exact H1.
Qed.
Lemma translates_fuel : forall P cs n w r, translates (with_fuel P n) cs w r <-> translates P cs w r.
Proof.
  intros P cs n w r. split; intros (s & d & c & H1 & H2 & H3); exists s, d, c; (split; [|split; [|exact H3]]).
  - apply (proj1 (accepts_fuel P cs n w s d c)). exact H1.
  - intros s' d' c' H. eapply H2. apply (proj2 (accepts_fuel P cs n w s' d' c')). exact H.
  - apply (proj2 (accepts_fuel P cs n w s d c)). exact H1.
  - intros s' d' c' H. eapply H2. apply (proj1 (accepts_fuel P cs n w s' d' c')). exact H.
Qed.
Lemma unknown_fuel : forall P cs n w, unknown P cs w -> unknown (with_fuel P n) cs w.
Proof. intros P cs n w H s d c K. apply (proj1 (accepts_fuel P cs n w s d c)) in K. exact (H s d c K). Qed.
Lemma usable_fuel : forall P n, usable P -> usable (with_fuel P n).
Proof. intros P n [H1 H2 H3 H4 H5 H6 H7 H8 H9]. exact (Build_usable (with_fuel P n) H1 H2 H3 H4 H5 H6 H7 H8 H9). Qed.
Lemma reached_fuel : forall P n w st, reached P w st -> reached (with_fuel P n) w st.
Proof.
  intros P n w st H. induction H as [m st H|m w c st st' H IH E].
  - apply rc_init with (n := m). exact H.
  - apply rc_step with (n := m) (st := st); [exact IH|exact E].
Qed.
Lemma reached_fuel_back : forall P n w st, reached (with_fuel P n) w st -> reached P w st.
Proof.
  intros P n w st H. apply (reached_fuel _ (p_fuel P)) in H.
  change (reached (with_fuel P (p_fuel P)) w st) in H. now rewrite with_own_fuel in H.
Qed.
Lemma feeds_fuel : forall P n tail t E f tb l, feeds P tail t E f tb l -> feeds (with_fuel P n) tail t E f tb l.
Proof.
  intros P n tail t E f tb l [its Hok Hst Ha|tb' H1 H2].
  - apply (fd_items (with_fuel P n) tail t E f its Hok); [|exact Ha]. clear -Hst. induction its as [|i its IH]; [exact I|].
    destruct Hst as [H1 H2]. split; [exact H1|exact (IH H2)].
  - now apply fd_done.
Qed.
Lemma mid_fuel : forall P cs tail t E n us start w k s, mid P cs tail t E us start w k s -> mid (with_fuel P n) cs tail t E us start w k s.
Proof.
  intros P cs tail t E n us start w k s [M1 M2 M3 M4 M5 M6 (v & vs & Pl & F & Ea & N)]. split; auto.
  - intros q s0 d. split; intros H.
    + apply reads_fuel, M4, H.
    + apply reads_fuel_back in H. apply M4, H.
  - now apply reached_fuel.
  - exists v, vs. split.
    + destruct Pl as (A & b & C & D & f & tb & P1 & P2 & P3 & P4). exists A, b, C, D, f, tb. split; [exact P1|]. split; [exact P2|].
      split; [now apply feeds_fuel|exact P4].
    + split; [exact F|]. split; [exact Ea|]. destruct N as [m Hv Hn|n0 r e r' Hn Htr Hm Hs Hr].
      * apply nt_none; [exact Hv|]. intros j Hj. apply unknown_fuel, Hn, Hj.
      * apply (nt_some (with_fuel P n) cs us start k v vs n0 r e r' Hn); [apply (proj2 (translates_fuel P cs n _ r)); exact Htr| |exact Hs|exact Hr].
        intros j Hj. apply unknown_fuel, Hm, Hj.
Qed.
Lemma mid_fuel_back : forall P cs tail t E n us start w k s, mid (with_fuel P n) cs tail t E us start w k s -> mid P cs tail t E us start w k s.
Proof.
  intros P cs tail t E n us start w k s H. apply (mid_fuel _ _ _ _ _ (p_fuel P)) in H.
  change (mid (with_fuel P (p_fuel P)) cs tail t E us start w k s) in H. now rewrite with_own_fuel in H.
Qed.
Lemma idle_fuel : forall P cs init tail t E n us s, idle P cs init tail t E us s -> idle (with_fuel P n) cs init tail t E us s.
Proof.
  intros P cs init tail t E n us s (f & tb & H1 & H2 & H3). exists f, tb. split; [now apply feeds_fuel|]. split; [exact H2|exact H3].
Qed.
Lemma idle_fuel_back : forall P cs init tail t E n us s, idle (with_fuel P n) cs init tail t E us s -> idle P cs init tail t E us s.
Proof.
  intros P cs init tail t E n us s H. apply (idle_fuel _ _ _ _ _ _ (p_fuel P)) in H.
  change (idle (with_fuel P (p_fuel P)) cs init tail t E us s) in H. now rewrite with_own_fuel in H.
Qed.

Section Ends.
  Context (P : processor) (cs drop : bool) (U : usable P) (Hsort : is_sort (p_sort P)).
  Context (init : analyses) (N0 : nat) (Hinit : forall n, (N0 <= n)%nat -> initial_state (with_fuel P n) = Ok init).
  Context (Hsteady : forall w st, reached P w st -> beCaseSensitive P st = cs).
  Context (Heps : eps_acyclic (p_find P)) (NL : never_longer P cs).
  Context (tail t : list Z) (E : inf -> Prop) (Htail : tblank (p_isspace P) tail) (Ht : end_text E t).
  Notation loop n k s := (scan_loop (with_fuel P n) k drop init s).

  Lemma steady_fuel : forall n w st, reached (with_fuel P n) w st -> beCaseSensitive (with_fuel P n) st = cs.
  Proof. intros n w st H. apply reached_fuel_back in H. exact (Hsteady w st H). Qed.

  (** The section is worked off, with the output [out] so far. *)
  Definition works_off (s : tstate) (out : ustr) : Prop :=
    (t = [] /\ exists N j, forall n k, (N <= n)%nat -> loop n (j + k)%nat s = Ok out)
    \/ exists rest f, t = 0 :: rest /\ at_text f rest /\
       exists N j, forall n k, (N <= n)%nat -> loop n (j + k)%nat s = loop n k (fresh_start init f out).
  Lemma works_later : forall s s' out N, (forall n k, (N <= n)%nat -> loop n (S k) s = loop n k s') ->
    works_off s' out -> works_off s out.
  Proof.
    intros s s' out N H [(Et & M & j & K)|(rest & f & Et & Ha & M & j & K)].
    - left. split; [exact Et|]. exists (N + M)%nat, (S j). intros n k Hn. cbn [Nat.add]. rewrite H by lia. apply K. lia.
    - right. exists rest, f. split; [exact Et|]. split; [exact Ha|]. exists (N + M)%nat, (S j). intros n k Hn. cbn [Nat.add].
      rewrite H by lia. apply K. lia.
  Qed.
  Lemma works_same : forall s s' out, (forall n k, loop n k s = loop n k s') -> works_off s' out -> works_off s out.
  Proof.
    intros s s' out H [(Et & M & j & K)|(rest & f & Et & Ha & M & j & K)].
    - left. split; [exact Et|]. exists M, j. intros n k Hn. rewrite H. now apply K.
    - right. exists rest, f. split; [exact Et|]. split; [exact Ha|]. exists M, j. intros n k Hn. rewrite H. now apply K.
  Qed.
  Lemma ends_mid : forall a b us start w s, (room us - start <= a)%nat -> (length (ahead us) - start - length w <= b)%nat ->
    mid P cs tail t E us start w (length w) s -> exists out, works_off s out.
  Proof.
    induction a as [a IHa] using (well_founded_induction lt_wf). induction b as [b IHb] using (well_founded_induction lt_wf).
    intros us start w s Ha Hb M.
    destruct (offer_settles P Heps (override_choice P (nth (start + length w) (ahead us) 0) (beCaseSensitive P (x_state s))) (x_state s)) as (st & N1 & Hst).
    set (N := (N0 + N1)%nat).
    assert (Hstep : forall n, (N <= n)%nat -> step_override (with_fuel P n) (nth (start + length w) (ahead us) 0) (x_state s) = Ok st).
    { intros n Hn. apply (Hst n). lia. }
    pose proof (round_spec (with_fuel P N) cs drop (usable_fuel P N U) Hsort init (Hinit N ltac:(lia)) (steady_fuel N) tail t E Htail Ht
                  us start w s (mid_fuel _ _ _ _ _ N _ _ _ _ _ M)) as Hr. cbn zeta in Hr.
    rewrite (Hstep N (le_n N)) in Hr. destruct Hr as (s' & Er & Hs).
    assert (Hround : forall n k, (N <= n)%nat -> loop n (S k) s = loop n k s').
    { intros n k Hn. cbn [scan_loop]. rewrite (refill_mid _ _ _ _ _ _ _ _ _ _ (mid_fuel _ _ _ _ _ n _ _ _ _ _ M)). cbn [obind].
      rewrite (round_step (with_fuel P n) cs drop (usable_fuel P n U) Hsort init (steady_fuel n) tail t E Htail Ht us start w s (mid_fuel _ _ _ _ _ n _ _ _ _ _ M)).
      rewrite (Hstep n Hn). cbn [obind].
      rewrite (round_step (with_fuel P N) cs drop (usable_fuel P N U) Hsort init (steady_fuel N) tail t E Htail Ht us start w s (mid_fuel _ _ _ _ _ N _ _ _ _ _ M)) in Er.
      rewrite (Hstep N (le_n N)) in Er. cbn [obind] in Er.
      change (round_with (with_fuel P n) drop init st s) with (round_with (with_fuel P N) drop init st s). rewrite Er. reflexivity. }
    destruct Hs as [[M' _]|(d & us' & start' & _ & Hb' & _ & Hm)].
    - apply mid_fuel_back in M'. pose proof (f_equal (@length Z) (md_w _ _ _ _ _ _ _ _ _ _ M')) as L. rewrite firstn_length, skipn_length in L.
      rewrite app_length in L. cbn [length] in L.
      edestruct (IHb (b - 1)%nat ltac:(lia) us start (w ++ [nth (start + length w) (ahead us) 0]) s' Ha) as (out & Hw); [|exact M'|].
      + rewrite app_length. cbn [length]. lia.
      + exists out. eapply works_later; eauto.
    - assert (Hlt : (room us' - start' < room us - start)%nat).
      { apply Hm. intros w0 r Hr. apply (proj1 (translates_fuel P cs N w0 r)) in Hr. now apply NL. }
      assert (G : exists out, works_off s' out).
      { destruct Hb' as [M'|[-> Hi]].
        - apply mid_fuel_back in M'. exact (IHa (room us' - start')%nat ltac:(lia) _ us' start' [] s' (le_n _) (le_n _) M').
        - destruct us' as [|u us'].
          + destruct (sleep (with_fuel P N) cs (usable_fuel P N U) init tail t E Htail Ht s' Hi) as (f' & HE & Ef).
            exists (x_out s' ++ utf16_text tail ++ match t with [] => [] | _ => [0] end).
            destruct Ht as [[Et EE]|(rest & Et & EE)]; rewrite EE in HE.
            * left. split; [exact Et|]. exists 0%nat, 1%nat. intros n k _. cbn [Nat.add scan_loop].
              change (refill (with_fuel P n) s') with (refill (with_fuel P N) s'). rewrite Ef. cbn zeta. pose proof HE as (Ee & _).
              unfold eof. rewrite Ee. cbn [obind]. now rewrite Et, app_nil_r.
            * right. destruct (get_at _ _ _ HE) as (f2 & Eg & A2 & _). exists rest, f2. split; [exact Et|]. split; [exact A2|].
              exists 0%nat, 1%nat. intros n k _. cbn [Nat.add scan_loop].
              change (refill (with_fuel P n) s') with (refill (with_fuel P N) s'). rewrite Ef. cbn zeta. rewrite (at_text_eof _ _ HE), Eg. cbn [obind].
              rewrite append_cp_utf16 by (unfold scalar; lia). rewrite Et, <- app_assoc. reflexivity.
          + destruct (wake (with_fuel P N) cs (usable_fuel P N U) init (Hinit N ltac:(lia)) (steady_fuel N) tail t E u us' s' Hi) as (s2 & M2 & _ & Ef).
            destruct (IHa (room (u :: us') - 0)%nat ltac:(lia) _ (u :: us') 0%nat [] s2 (le_n _) (le_n _) (mid_fuel_back _ _ _ _ _ _ _ _ _ _ _ M2)) as (out & Hw).
            exists out. eapply works_same; [|exact Hw]. intros n [|k]; [reflexivity|]. cbn [scan_loop].
            change (refill (with_fuel P n) s') with (refill (with_fuel P N) s'). rewrite Ef.
            rewrite (refill_mid _ _ _ _ _ _ _ _ _ _ (mid_fuel _ _ _ _ _ n _ _ _ _ _ (mid_fuel_back _ _ _ _ _ _ _ _ _ _ _ M2))). reflexivity. }
      destruct G as (out & Hw). exists out. eapply works_later; eauto.
  Qed.
  Lemma ends_idle : forall us s, idle P cs init tail t E us s -> exists out, works_off s out.
  Proof.
    intros us s Hi. destruct us as [|u us].
    - destruct (sleep P cs U init tail t E Htail Ht s Hi) as (f' & HE & Ef).
      exists (x_out s ++ utf16_text tail ++ match t with [] => [] | _ => [0] end).
      destruct Ht as [[Et EE]|(rest & Et & EE)]; rewrite EE in HE.
      * left. split; [exact Et|]. exists 0%nat, 1%nat. intros n k _. cbn [Nat.add scan_loop].
        change (refill (with_fuel P n) s) with (refill P s). rewrite Ef. cbn zeta. pose proof HE as (Ee & _).
        unfold eof. rewrite Ee. cbn [obind]. now rewrite Et, app_nil_r.
      * right. destruct (get_at _ _ _ HE) as (f2 & Eg & A2 & _). exists rest, f2. split; [exact Et|]. split; [exact A2|].
        exists 0%nat, 1%nat. intros n k _. cbn [Nat.add scan_loop].
        change (refill (with_fuel P n) s) with (refill P s). rewrite Ef. cbn zeta. rewrite (at_text_eof _ _ HE), Eg. cbn [obind].
        rewrite append_cp_utf16 by (unfold scalar; lia). rewrite Et, <- app_assoc. reflexivity.
    - destruct (wake (with_fuel P N0) cs (usable_fuel P N0 U) init (Hinit N0 ltac:(lia)) (steady_fuel N0) tail t E u us s (idle_fuel _ _ _ _ _ _ N0 _ _ Hi))
        as (s2 & M2 & _ & Ef).
      apply mid_fuel_back in M2. destruct (ends_mid _ _ (u :: us) 0 [] s2 (le_n _) (le_n _) M2) as (out & Hw).
      exists out. eapply works_same; [|exact Hw]. intros n [|k]; [reflexivity|]. cbn [scan_loop].
      change (refill (with_fuel P n) s) with (refill (with_fuel P N0) s). rewrite Ef.
      rewrite (refill_mid _ _ _ _ _ _ _ _ _ _ (mid_fuel _ _ _ _ _ n _ _ _ _ _ M2)). reflexivity.
  Qed.
End Ends.
