(** Proofs for C60. *)
From Coq Require Import Permutation Sorted.
From Verif Require Import Base CompressionModel AlphabetModel AlphabetProofs StateModel StateSpec StatePathProofs
  StateProps FinalsModel FinalsProps InputModel InputProps StreamModel StreamProps ProcessorModel ProcessorProofs
  CompoundProofs LookupProps GenerationModel GenerationSpec GenerationProofs BilingualModel BilingualSpec.

(** * Runs *)
Section Runs.
  Context (P : processor) (any : Z) (Hany : any <> 0) (Htl : forall c, c <> 0 -> p_tolower P c <> 0).
  Notation find := (p_find P).
  Notation root := (p_root P).

  Definition sym_choice (cs : bool) (x : wsym) : choice :=
    match x with Exact c => one c | Free c => bil_choice P any c cs end.
  Lemma override_filled : forall c o, override any c o = filled any c o.
  Proof. reflexivity. Qed.
  (** What a free symbol offers *)
  Lemma free_offers : forall cs c ov opts p i d, bil_choice P any c cs = Some (ov, opts) -> In (i, d) (opts p) ->
    c <> 0 /\ i <> 0 /\ ov = override any c
    /\ ((i = c /\ d = false) \/ (i = any /\ d = true)
        \/ (i = p_tolower P c /\ d = true /\ cs = false /\ p_tolower P c <> c)).
  Proof.
    intros cs c ov opts p i d E Hi.
    assert (K3 : over3 c any c = Some (ov, opts) -> c <> 0 /\ i <> 0 /\ ov = override any c
      /\ ((i = c /\ d = false) \/ (i = any /\ d = true))).
    { unfold over3, overriding. destruct ((c =? 0) || (any =? 0)) eqn:Ez; [discriminate|]. intros K. injection K as <- <-.
      cbn [In] in Hi. destruct Hi as [Hi|[Hi|[]]]; injection Hi as <- <-; (split; [lia|]); (split; [lia|]); auto. }
    unfold bil_choice in E. destruct cs; [destruct (K3 E) as (A & B & C & D); tauto|].
    unfold over4 in E. destruct (c =? p_tolower P c) eqn:Ec; [destruct (K3 E) as (A & B & C & D); tauto|]. clear K3.
    destruct ((c =? 0) || (any =? 0)) eqn:Ez; [discriminate|]. unfold overriding in E. injection E as <- <-.
    assert (Hc : c <> 0) by lia. pose proof (Htl c Hc).
    cbn [In] in Hi. destruct Hi as [Hi|[Hi|[Hi|[]]]]; injection Hi as <- <-; (split; [lia|]); (split; [lia|]);
      (split; [reflexivity|]); auto.
    right. right. repeat split; auto. lia.
  Qed.
  Lemma free_choice : forall cs c, c <> 0 -> exists opts, bil_choice P any c cs = Some (override any c, opts)
    /\ forall p, In (c, false) (opts p) /\ In (any, true) (opts p)
       /\ (cs = false -> p_tolower P c <> c -> In (p_tolower P c, true) (opts p)).
  Proof.
    intros cs c Hc.
    assert (K3 : exists opts, over3 c any c = Some (override any c, opts)
      /\ forall p, In (c, false) (opts p) /\ In (any, true) (opts p)).
    { unfold over3, overriding. replace (c =? 0) with false by lia. replace (any =? 0) with false by lia. cbn [orb].
      eexists. split; [reflexivity|]. intros p. cbn [In]. auto. }
    unfold bil_choice. destruct cs.
    - destruct K3 as (opts & E & K). exists opts. split; auto. intros p. destruct (K p). repeat split; auto. discriminate.
    - unfold over4. destruct (c =? p_tolower P c) eqn:Ec.
      + destruct K3 as (opts & E & K). exists opts. split; auto. intros p. destruct (K p). repeat split; auto. lia.
      + replace (c =? 0) with false by lia. replace (any =? 0) with false by lia. cbn [orb]. unfold overriding.
        eexists. split; [reflexivity|]. intros p. cbn [In]. tauto.
  Qed.
  Lemma cpath_brun : forall cs p w s d q, cpath find p (map (sym_choice cs) w) s d q <-> brun P any cs p w s d q.
  Proof.
    intros cs p w s d q. split.
    - intros H. remember (map (sym_choice cs) w) as L eqn:EL. revert w EL.
      induction H as [p|p o q w l s d r Ho Hp IH|p ov opts i d o q w l s b r Hi Ho Hp IH]; intros v EL.
      + destruct v; [constructor|discriminate].
      + apply br_eps with (q := q); auto.
      + destruct v as [|x v]; [discriminate|]. cbn [map] in EL. injection EL as Ec EL. destruct x as [c|c]; cbn [sym_choice] in Ec.
        * unfold one, alternatives in Ec. cbn [existsb fst] in Ec. destruct (c =? 0) eqn:Ez; [discriminate|].
          cbn [orb] in Ec. injection Ec as -> ->. destruct Hi as [Hi|[]]. injection Hi as <- <-.
          rewrite Ez. cbn [app orb]. apply br_exact with (q := q); auto. lia.
        * destruct (free_offers cs c ov opts p i d (eq_sym Ec) Hi) as (Hc & Hi0 & -> & D).
          replace (i =? 0) with false by lia. rewrite override_filled. cbn [app].
          destruct D as [[-> ->]|[[-> ->]|(-> & -> & D1 & D2)]]; cbn [orb].
          -- apply br_same with (q := q); auto.
          -- eapply br_any; eauto.
          -- eapply br_lower; eauto.
    - intros H. induction H as [p|p o q w l s d r Ho Hp IH|p c o q w l s d r Hc Ho Hp IH|p c o q w l s d r Hc Ho Hp IH
        |p c o q w l s d r Hc Hf Hn Ho Hp IH|p c o q w l s d r Hc Ho Hp IH]; cbn [map sym_choice].
      + constructor.
      + apply cp_eps with (q := q); auto.
      + unfold one, alternatives. cbn [existsb fst]. replace (c =? 0) with false by lia. cbn [orb].
        pose proof (cp_sym find p StateModel.same (fun _ => [(c, false)]) c false o q w _ s d r (or_introl eq_refl) Ho IH) as K.
        replace (c =? 0) with false in K by lia. exact K.
      + destruct (free_choice cs c Hc) as (opts & -> & K). destruct (K p) as (K1 & _ & _).
        pose proof (cp_sym find p (override any c) opts c false o q w _ s d r K1 Ho IH) as K'.
        replace (c =? 0) with false in K' by lia. exact K'.
      + destruct (free_choice cs c Hc) as (opts & -> & K). destruct (K p) as (_ & _ & K1).
        pose proof (cp_sym find p (override any c) opts (p_tolower P c) true o q w _ s d r (K1 Hf Hn) Ho IH) as K'.
        pose proof (Htl c Hc). replace (p_tolower P c =? 0) with false in K' by lia. exact K'.
      + destruct (free_choice cs c Hc) as (opts & -> & K). destruct (K p) as (_ & K1 & _).
        pose proof (cp_sym find p (override any c) opts any true o q w _ s d r K1 Ho IH) as K'.
        replace (any =? 0) with false in K' by lia. exact K'.
  Qed.

  (** ** States *)
  Lemma state_entry : forall cs w st, (forall q s d, In (mkV q s d) st <-> brun P any cs root w s d q) ->
    (isFinal (all_finals P) st = true <-> has_entry P any cs w).
  Proof.
    intros cs w st R. unfold isFinal, has_entry. rewrite existsb_exists. split.
    - intros ([q s d] & Hin & Hf). exists s, d, q. split; [now apply R|]. cbn [v_where] in Hf.
      destruct (final_weight q (all_finals P)); congruence.
    - intros (s & d & q & Hr & Hf). exists (mkV q s d). split; [now apply R|]. cbn [v_where].
      destruct (final_weight q (all_finals P)); congruence.
  Qed.
  Context (Hs : is_sort (p_sort P)) (HA : 0 < p_maxAnalyses P) (HC : 0 < p_maxClasses P).
  Lemma state_entries : forall cs w st up fu arr, (forall q s d, In (mkV q s d) st <-> brun P any cs root w s d q) ->
    has_entry P any cs w -> finals_array P up fu st = Ok arr -> entries_of P any cs w up fu arr /\ arr <> [].
  Proof.
    intros cs w st up fu arr R Hw Ea. unfold finals_array in Ea.
    assert (Hne : arr <> []).
    { apply (array_nonempty (p_toupper P) (p_sort P) Hs _ _ _ _ _ _ _ _ _ _ _ HA HC Ea). now apply (state_entry cs w st R). }
    split; [|exact Hne].
    assert (Core : exists rep : list (ustr * Z),
      arr = map (fun x => fst x ++ if p_weights P then weight_text (snd x) else []) rep /\ NoDup (map fst rep)
      /\ StronglySorted by_weight rep
      /\ (forall t c, In (t, c) rep -> exists s, In s st /\ reports (p_toupper P) (all_finals P) (p_alpha P) is_escaped up fu 0 s t c)
      /\ (Z.of_nat (length st) <= p_maxAnalyses P -> Z.of_nat (length st) <= p_maxClasses P ->
          forall s, In s st -> final_weight (v_where s) (all_finals P) <> None ->
           exists t c least, reports (p_toupper P) (all_finals P) (p_alpha P) is_escaped up fu 0 s t c
             /\ In (t, least) rep /\ least <= c)).
    { destruct (Z_le_gt_dec (Z.of_nat (length st)) (p_maxAnalyses P)) as [LA|LA];
      [destruct (Z_le_gt_dec (Z.of_nat (length st)) (p_maxClasses P)) as [LC|LC]|].
      1: { destruct (C37_complete (p_toupper P) (p_sort P) Hs _ _ _ _ _ _ _ _ _ _ _ Ea LA LC) as (rep & E & N & So & Snd & Cpl).
           exists rep. auto. }
      all: destruct (C37_reported (p_toupper P) (p_sort P) Hs _ _ _ _ _ _ _ _ _ _ _ Ea) as (rep & E & N & So & _ & _ & Snd);
        exists rep; split; [exact E|]; split; [exact N|]; split; [exact So|]; split; [exact Snd|lia]. }
    destruct Core as (rep & E & N & So & Snd & Cpl). exists rep. split; [exact E|].
    split. { intros ->. apply Hne. exact E. }
    split; [exact N|]. split; [exact So|]. split.
    { intros t c Hin. destruct (Snd t c Hin) as ([q s d] & Hin' & Hr). apply R in Hin'. exists s, d, q. auto. }
    exists st. split; [exact R|exact Cpl].
  Qed.

  (** ** The loop *)
  (** The choices made use [cs] at every state on the way. *)
  Fixpoint bil_calm (pick : Z -> bool -> choice) (cs : bool) (st : analyses) (l : list Z) : Prop :=
    match l with
    | [] => True
    | c :: r => beCaseSensitive P st = cs /\ forall st', offer P (pick c cs) st = Ok st' -> bil_calm pick cs st' r
    end.
  Lemma loop_longest : forall pick cs cs' f up fu, (forall c, pick c cs = bil_choice P any (f c) cs') ->
    forall l before i st res qs res' qs',
    (forall q s d, In (mkV q s d) st <-> brun P any cs' root before s d q) -> bil_calm pick cs st l ->
    bil_loop P pick up fu i st res qs l = Ok (res', qs') ->
    (res' = res /\ qs' = qs /\ forall j, (0 < j <= length l)%nat -> ~ has_entry P any cs' (before ++ map Free (firstn j (map f l))))
    \/ exists k, (0 < k <= length l)%nat /\ qs' = (i + k - 1)%nat
       /\ has_entry P any cs' (before ++ map Free (firstn k (map f l)))
       /\ entries_of P any cs' (before ++ map Free (firstn k (map f l))) up fu res' /\ res' <> []
       /\ forall j, (k < j <= length l)%nat -> ~ has_entry P any cs' (before ++ map Free (firstn j (map f l))).
  Proof.
    intros pick cs cs' f up fu Hp. induction l as [|c l IH]; intros before i st res qs res' qs' R Hc H; cbn [bil_loop bil_calm] in *.
    - left. split; [congruence|]. split; [congruence|]. intros j Hj. cbn [length] in Hj. lia.
    - destruct Hc as [Hb Hc]. rewrite Hb in H.
      destruct (offer P (pick c cs) st) as [st1| | | |] eqn:Eo; try discriminate. cbn [obind] in H.
      specialize (Hc st1 eq_refl).
      assert (R1 : forall q s d, In (mkV q s d) st1 <-> brun P any cs' root (before ++ [Free (f c)]) s d q).
      { intros q s d. rewrite <- cpath_brun. rewrite map_app. cbn [map sym_choice]. rewrite <- Hp.
        unfold offer in Eo. eapply step_holds; [|exact Eo]. intros q' s' d'. rewrite cpath_brun. apply R. }
      pose proof (state_entry cs' _ st1 R1) as W.
      assert (Split : forall j, (before ++ [Free (f c)]) ++ map Free (firstn j (map f l))
                = before ++ map Free (firstn (S j) (map f (c :: l)))).
      { intros j. rewrite <- app_assoc. reflexivity. }
      destruct (isFinal (all_finals P) st1) eqn:Ef.
      + destruct (finals_array P up fu st1) as [arr| | | |] eqn:Ea; try discriminate. cbn [obind] in H.
        destruct (state_entries cs' _ st1 up fu arr R1 (proj1 W eq_refl) Ea) as [Ent Hne].
        right. destruct (IH _ _ _ _ _ _ _ R1 Hc H) as [(-> & -> & Hno)|(k & Hk & Hq & He & Hr & Hn & Hno)].
        * exists 1%nat. cbn [length]. split; [lia|]. split; [lia|].
          change (firstn 1 (map f (c :: l))) with [f c]. cbn [map].
          split; [now apply W|]. split; [exact Ent|]. split; [exact Hne|].
          intros j Hj. destruct j as [|j]; [lia|]. rewrite <- Split. apply Hno. lia.
        * exists (S k). cbn [length]. split; [lia|]. split; [lia|]. rewrite <- Split. split; [exact He|]. split; [exact Hr|].
          split; [exact Hn|]. intros j Hj. destruct j as [|j]; [lia|]. rewrite <- Split. apply Hno. lia.
      + cbn [obind] in H. destruct (IH _ _ _ _ _ _ _ R1 Hc H) as [(-> & -> & Hno)|(k & Hk & Hq & He & Hr & Hn & Hno)].
        * left. split; [reflexivity|]. split; [reflexivity|]. intros j Hj. destruct j as [|j]; [lia|].
          destruct j as [|j].
          -- change (firstn 1 (map f (c :: l))) with [f c]. cbn [map]. intros K. apply W in K. discriminate.
          -- rewrite <- Split. apply Hno. cbn [length] in Hj. lia.
        * right. exists (S k). cbn [length]. split; [lia|]. split; [lia|]. rewrite <- Split. split; [exact He|]. split; [exact Hr|].
          split; [exact Hn|]. intros j Hj. destruct j as [|j]; [lia|]. rewrite <- Split. apply Hno. lia.
  Qed.
  Lemma start_holds : forall cs mark st, bil_start P (match mark with Some k => k | None => 0 end) = Ok st ->
    forall q s d, In (mkV q s d) st <-> brun P any cs root (before_word mark) s d q.
  Proof.
    intros cs mark st H q s d. unfold bil_start in H.
    destruct (initial_state P) as [init| | | |] eqn:Ei; try discriminate. cbn [obind] in H.
    pose proof (init_holds find _ _ _ Ei) as Hi. rewrite <- cpath_brun. unfold before_word.
    assert (E : (match mark with Some k => k | None => 0 end =? 35) = match mark with Some k => k =? hash | None => false end)
      by (destruct mark; reflexivity).
    rewrite E in H. destruct mark as [k|]; [destruct (k =? hash)|]; try (assert (init = st) by congruence; subst; apply Hi).
    cbn [map sym_choice]. unfold offer in H. change hash with 35. exact (step_holds find _ _ [] _ _ _ Hi H q s d).
  Qed.
End Runs.

(** * Words *)
Section Words.
  Context (P : processor) (any : Z) (cs : bool) (m : gmode).
  Context (Hany : any <> 0) (Htl : forall c, c <> 0 -> p_tolower P c <> 0).
  Context (Hs : is_sort (p_sort P)) (HA : 0 < p_maxAnalyses P) (HC : 0 < p_maxClasses P).

  Lemma whole_only_iff : forall w, whole_only m w = true <-> whole_word m w.
  Proof.
    intros w. unfold whole_only, whole_word, whole_mode. rewrite orb_true_iff, negb_true_iff. split.
    - intros [H|H].
      + right. apply Forall_forall. intros c Hc. assert (K : isTag c = false).
        { destruct (isTag c) eqn:E; auto. rewrite <- H. symmetry. apply existsb_exists. eauto. }
        unfold isTag in K. lia.
      + left. destruct m; auto; discriminate.
    - intros [[->| ->]|H]; auto. left. destruct (existsb isTag w) eqn:E; auto. apply existsb_exists in E as (c & Hc & E).
      rewrite Forall_forall in H. apply H in Hc. unfold isTag in E. lia.
  Qed.
  Lemma retry_is : forall c, retry_choice P any c cs = bil_choice P any (lowered P cs c) true.
  Proof. intros c. unfold retry_choice, lowered, bil_choice, isTag. destruct cs; [now rewrite orb_true_r|]. rewrite orb_false_r. now destruct (c <? 0). Qed.

  (** All states on the way, of both attempts, fold the case as [cs] says. *)
  Definition symbols_calm (mark : option Z) (w : list Z) : Prop :=
    forall st, bil_start P (match mark with Some k => k | None => 0 end) = Ok st ->
      bil_calm P (bil_choice P any) cs st w /\ bil_calm P (retry_choice P any) cs st w.

  Lemma casing_iff : forall w, symbol_casing P w
    (((0 <? nth 0 w 0) && p_isupper P (nth 0 w 0)) && (1 <? length w)%nat && (0 <? nth 1 w 0) && p_isupper P (nth 1 w 0))
    ((0 <? nth 0 w 0) && p_isupper P (nth 0 w 0)).
  Proof.
    intros w. split.
    - rewrite andb_true_iff, Z.ltb_lt. destruct w as [|c w]; cbn [nth].
      + split; [lia|intros (c & r & E & _); discriminate].
      + split; [intros [A B]; eauto|intros (c' & r & E & A & B)]. injection E as <- <-. auto.
    - rewrite !andb_true_iff, !Z.ltb_lt, Nat.ltb_lt. destruct w as [|c [|d w]]; cbn [nth length].
      + split; [lia|intros (c & d & r & E & _); discriminate].
      + split; [lia|intros (c' & d & r & E & _); discriminate].
      + split; [intros [[[[A B] _] C] D]; exists c, d, w; auto|intros (c' & d' & r & E & A & B & C & D)].
        injection E as <- <- <-. repeat split; auto. lia.
  Qed.
  Lemma lookup_spec : forall mark w res qs, w <> [] -> symbols_calm mark w ->
    bil_lookup P any m (match mark with Some k => k | None => 0 end) w = Ok (res, qs) ->
    (res <> [] /\ (qs < length w)%nat /\ translated P any cs m (before_word mark) w (S qs) res)
    \/ (res = [] /\ untranslated P any cs m (before_word mark) w).
  Proof.
    intros mark w res qs Hw Hcalm H. unfold bil_lookup in H. pose proof (casing_iff w) as Hcase.
    set (fu := (0 <? nth 0 w 0) && p_isupper P (nth 0 w 0)) in *.
    set (up := fu && (1 <? length w)%nat && (0 <? nth 1 w 0) && p_isupper P (nth 1 w 0)) in *. clearbody up fu.
    assert (Lw : (0 < length w)%nat) by (destruct w; [congruence|cbn; lia]).
    destruct (bil_start P (match mark with Some k => k | None => 0 end)) as [st| | | |] eqn:Est; try discriminate. cbn [obind] in H.
    destruct (Hcalm st Est) as [C1 C2].
    destruct (bil_loop P (bil_choice P any) up fu 0 st [] 0 w) as [[r1 q1]| | | |] eqn:E1; try discriminate. cbn [obind] in H.
    pose proof (loop_longest P any Hany Htl Hs HA HC (bil_choice P any) cs cs (fun c => c) up fu (fun c => eq_refl)
      w (before_word mark) 0 st [] 0%nat r1 q1 (start_holds P any Hany Htl cs mark st Est) C1 E1) as L1.
    rewrite map_id in L1.
    assert (First : forall c1, checked m w (r1, q1) = c1 ->
      (fst c1 <> [] /\ fst c1 = r1 /\ snd c1 = q1 /\ (q1 < length w)%nat /\ translated P any cs m (before_word mark) w (S q1) r1)
      \/ (fst c1 = [] /\ forall k, ~ found_first P any cs m (before_word mark) w k)).
    { intros c1 <-. unfold checked. cbn [snd].
      destruct L1 as [(-> & -> & Hno)|(k & Hk & Hq & He & Hr & Hn & Hno)].
      - right. split; [now destruct (_ && _)|]. intros k ((Hk & He & _) & _). exact (Hno k Hk He).
      - assert (Lg : longest_entry P any cs (before_word mark) w k) by (split; [exact Hk|]; split; [exact He|exact Hno]).
        assert (Uq : forall k', longest_entry P any cs (before_word mark) w k' -> k' = k).
        { intros k' (Hk' & He' & Hno'). destruct (Nat.lt_trichotomy k k') as [L|[L|L]]; auto.
          - exfalso. exact (Hno k' ltac:(lia) He').
          - exfalso. exact (Hno' k ltac:(lia) He). }
        destruct (whole_only m w && (q1 + 1 <? length w)%nat) eqn:Ew.
        + apply andb_prop in Ew as [Ew El]. apply whole_only_iff in Ew. apply Nat.ltb_lt in El. right. split; [reflexivity|].
          intros k' [Lg' Hf]. apply Uq in Lg'. specialize (Hf Ew). lia.
        + left. cbn [fst snd]. split; [exact Hn|]. split; [reflexivity|]. split; [reflexivity|]. split; [lia|].
          assert (k = S q1) by lia. subst k. apply td_first with (up := up) (fu := fu); auto. split; [exact Lg|].
          intros Hww. apply whole_only_iff in Hww. rewrite Hww in Ew. cbn [andb] in Ew. apply Nat.ltb_ge in Ew. lia. }
    destruct (checked m w (r1, q1)) as [r2 q2] eqn:Ec. specialize (First _ eq_refl). cbn [fst snd] in *.
    destruct First as [(Hn & -> & -> & Hq & T)|[-> Hno]].
    - destruct r1 as [|x r1]; [congruence|]. left.
      assert (Ok (x :: r1, q1) = Ok (res, qs)) by (destruct m; exact H).
      assert (x :: r1 = res) by congruence. assert (q1 = qs) by congruence. subst. auto.
    - destruct (match m with gm_bilgen | gm_all => true | _ => false end) eqn:Em.
      + assert (Hwm : whole_mode m) by (unfold whole_mode; destruct m; auto; discriminate).
        assert (H' : (let! r := bil_loop P (retry_choice P any) false false 0 st [] q2 w in Ok (checked m w r)) = Ok (res, qs))
          by (destruct m; try discriminate; exact H).
        clear H. destruct (bil_loop P (retry_choice P any) false false 0 st [] q2 w) as [[r3 q3]| | | |] eqn:E3; try discriminate.
        cbn [obind] in H'.
        pose proof (loop_longest P any Hany Htl Hs HA HC (retry_choice P any) cs true (lowered P cs) false false retry_is
          w (before_word mark) 0 st [] q2 r3 q3 (start_holds P any Hany Htl true mark st Est) C2 E3) as L3.
        assert (Ew : whole_only m w = true) by (apply whole_only_iff; now left).
        unfold checked in H'. rewrite Ew in H'. cbn [andb snd] in H'.
        assert (Full : firstn (length w) (map (lowered P cs) w) = map (lowered P cs) w).
        { apply firstn_all2. rewrite map_length. lia. }
        destruct L3 as [(-> & -> & Hno3)|(k & Hk & Hq & He & Hr & Hn & Hno3)].
        * right. split; [destruct (q2 + 1 <? length w)%nat; congruence|]. split; [exact Hno|]. intros _ K.
          apply (Hno3 (length w)); [lia|]. now rewrite Full.
        * destruct (q3 + 1 <? length w)%nat eqn:El.
          -- apply Nat.ltb_lt in El. right. split; [congruence|]. split; [exact Hno|]. intros _ K.
             apply (Hno3 (length w)); [lia|]. now rewrite Full.
          -- apply Nat.ltb_ge in El. left. assert (r3 = res) by congruence. assert (q3 = qs) by congruence. subst r3 q3.
             split; [exact Hn|]. split; [lia|]. assert (k = length w) by lia. subst k. rewrite Full in Hr.
             replace (S qs) with (length w) by lia. apply td_retry; auto.
      + right. assert (Ok ([] : list ustr, q2) = Ok (res, qs)) by (destruct m; try discriminate; exact H).
        split; [congruence|]. split; [exact Hno|]. intros [E|E]; rewrite E in Em; discriminate.
  Qed.

  (** ** The text written *)
  Context (Hinv : alph_inv (p_alpha P)).
  Lemma tag_known : forall t, known t (p_alpha P) -> symbol_code t (p_alpha P) < 0
    /\ getSymbol (symbol_code t (p_alpha P)) (p_alpha P) = Ok t.
  Proof.
    clear - Hinv. intros t H. assert (D : isSymbolDefined t (p_alpha P) = true).
    { unfold known in H. unfold isSymbolDefined. destruct (map_find ustr_eq_dec t (slexic (p_alpha P))); congruence. }
    apply defined_iff in D; [|exact Hinv]. apply In_nth_error in D as (i & Hi).
    destruct (symbol_code_nth _ t i Hinv Hi) as (E & _ & G). rewrite E. split; [unfold tag_of; lia|exact G].
  Qed.
  Definition no_nul (ps : list piece) : Prop := ~ In (PEsc 0) ps.
  (** What a symbol adds to the text *)
  Definition shown_symbol (first : bool) (c : Z) : outcome ustr :=
    let! t := getSymbol c (p_alpha P) in Ok ((if is_escaped c || (first && (c =? 42)) then [92] else []) ++ t).
  Lemma char_shown : forall first c, scalar c -> c <> 0 ->
    exists x, (forall p, p = PChar c \/ p = PEsc c -> piece_shown first p x) /\ shown_symbol first c = Ok (utf16_text x).
  Proof.
    intros first c Hc H0. unfold shown_symbol.
    assert (E : getSymbol c (p_alpha P) = Ok (utf16 c)).
    { unfold getSymbol. destruct Hc as [Hc Hc']. replace (c =? 0) with false by lia. replace (c <? 0) with false by lia.
      rewrite append_cp_utf16 by (split; auto). reflexivity. }
    rewrite E. cbn [obind].
    assert (D : is_escaped c || (first && (c =? 42)) = true <-> meta c \/ (first = true /\ c = star)).
    { rewrite orb_true_iff, andb_true_iff, Z.eqb_eq, meta_iff. reflexivity. }
    destruct (is_escaped c || (first && (c =? 42))) eqn:Ee.
    - exists [92; c]. split.
      + intros p [-> | ->]; constructor; now apply D.
      + rewrite !utf16_text_cons. cbn [utf16_text concat map]. rewrite app_nil_r. reflexivity.
    - assert (N : ~ (meta c \/ (first = true /\ c = star))) by (intros K; apply D in K; discriminate).
      exists [c]. split.
      + intros p [-> | ->]; constructor; tauto.
      + rewrite utf16_text_cons. cbn [utf16_text concat map]. rewrite app_nil_r. reflexivity.
  Qed.
  Lemma source_spec : forall ps, Forall piece_ok ps -> Forall scalar (pieces_content ps) -> no_nul ps ->
    (forall t, In t (piece_tags ps) -> known t (p_alpha P)) -> forall i,
    exists shown, pieces_shown (i =? 0)%nat ps shown /\ length shown = length (piece_symbols (p_alpha P) ps)
      /\ forall qs src qp, bil_source P i qs src qp (piece_symbols (p_alpha P) ps)
           = Ok (src ++ utf16_text (concat shown),
                 if ((i <=? qs) && (qs <? i + length shown))%nat
                 then length (src ++ utf16_text (concat (firstn (S qs - i) shown))) else qp).
  Proof.
    induction ps as [|p ps IH]; intros Hok Hsc Hn Hk i.
    - exists []. split; [constructor|]. split; [reflexivity|]. intros qs src qp.
      change (piece_symbols (p_alpha P) []) with (@nil Z). cbn [bil_source length concat]. change (utf16_text []) with (@nil Z). rewrite app_nil_r.
      replace ((i <=? qs) && (qs <? i + 0))%nat with false; [reflexivity|].
      destruct (i <=? qs)%nat eqn:A; [|reflexivity]. apply Nat.leb_le in A. symmetry. apply Nat.ltb_ge. lia.
    - inversion Hok as [|? ? Hp Hok']; subst. unfold pieces_content in Hsc. cbn [map concat] in Hsc.
      apply Forall_app in Hsc as [Hsp Hsc]. fold (pieces_content ps) in Hsc.
      assert (Hn' : no_nul ps) by (intros K; apply Hn; now right).
      assert (Hk' : forall t, In t (piece_tags ps) -> known t (p_alpha P)).
      { intros t Ht. apply Hk. unfold piece_tags. cbn [map concat]. apply in_or_app. now right. }
      assert (One : forall c x, piece_symbols (p_alpha P) (p :: ps) = c :: piece_symbols (p_alpha P) ps ->
        piece_shown (i =? 0)%nat p x -> shown_symbol (i =? 0)%nat c = Ok (utf16_text x) ->
        exists shown, pieces_shown (i =? 0)%nat (p :: ps) shown /\ length shown = length (piece_symbols (p_alpha P) (p :: ps))
        /\ forall qs src qp, bil_source P i qs src qp (piece_symbols (p_alpha P) (p :: ps))
           = Ok (src ++ utf16_text (concat shown),
                 if ((i <=? qs) && (qs <? i + length shown))%nat
                 then length (src ++ utf16_text (concat (firstn (S qs - i) shown))) else qp)).
      { intros c x Es Hx Ec. destruct (IH Hok' Hsc Hn' Hk' (S i)) as (shown & Hsh & Hl & Hb).
        change (S i =? 0)%nat with false in Hsh. exists (x :: shown). split; [apply pss_cons; auto|].
        rewrite Es. split; [cbn [length]; lia|]. intros qs src qp. cbn [bil_source].
        unfold shown_symbol in Ec. destruct (getSymbol c (p_alpha P)) as [t| | | |]; try discriminate. cbn [obind] in Ec |- *.
        assert (Et : (if is_escaped c || ((i =? 0)%nat && (c =? 42)) then [92] else []) ++ t = utf16_text x) by congruence.
        rewrite Et, Hb. cbn [concat]. rewrite utf16_text_app, app_assoc. f_equal. f_equal. cbn [length].
        destruct (i =? qs)%nat eqn:E1.
        - apply Nat.eqb_eq in E1. subst qs.
          replace ((S i <=? i) && (i <? S i + length shown))%nat with false.
          2: { symmetry. apply andb_false_iff. left. apply Nat.leb_gt. lia. }
          replace ((i <=? i) && (i <? i + S (length shown)))%nat with true.
          2: { symmetry. apply andb_true_iff. split; [apply Nat.leb_refl|apply Nat.ltb_lt; lia]. }
          replace (S i - i)%nat with 1%nat by lia. cbn [firstn concat]. now rewrite app_nil_r.
        - apply Nat.eqb_neq in E1. destruct ((S i <=? qs) && (qs <? S i + length shown))%nat eqn:E2.
          + apply andb_prop in E2 as [A B]. apply Nat.leb_le in A. apply Nat.ltb_lt in B.
            replace ((i <=? qs) && (qs <? i + S (length shown)))%nat with true.
            2: { symmetry. apply andb_true_iff. split; [apply Nat.leb_le; lia|apply Nat.ltb_lt; lia]. }
            replace (S qs - i)%nat with (S (S qs - S i)) by lia. cbn [firstn concat].
            rewrite utf16_text_app, app_assoc. reflexivity.
          + replace ((i <=? qs) && (qs <? i + S (length shown)))%nat with false; [reflexivity|].
            symmetry. apply andb_false_iff. apply andb_false_iff in E2 as [A|A].
            * apply Nat.leb_gt in A. left. apply Nat.leb_gt. lia.
            * apply Nat.ltb_ge in A. right. apply Nat.ltb_ge. lia. }
      destruct p as [c|c|b|b].
      + cbn [piece_content piece_text] in Hsp. inversion Hsp as [|? ? Hc _]; subst.
        destruct (char_shown (i =? 0)%nat c Hc) as (x & Hx & Ex); [destruct Hp; tauto|].
        apply (One c x); auto.
      + cbn [piece_content piece_text] in Hsp. inversion Hsp as [|? ? _ Hsp']; subst. inversion Hsp' as [|? ? Hc _]; subst.
        destruct (char_shown (i =? 0)%nat c Hc) as (x & Hx & Ex).
        { intros ->. apply Hn. now left. }
        apply (One c x); auto.
      + assert (Kt : known (utf16_text (piece_text (PTag b))) (p_alpha P)).
        { apply Hk. unfold piece_tags. cbn [map concat]. now left. }
        destruct (tag_known _ Kt) as [Kn Kg].
        apply (One (symbol_code (utf16_text (piece_text (PTag b))) (p_alpha P)) (piece_text (PTag b))); [reflexivity|constructor|].
        unfold shown_symbol. rewrite Kg. cbn [obind].
        assert (Ne : is_escaped (symbol_code (utf16_text (piece_text (PTag b))) (p_alpha P)) = false).
        { destruct (is_escaped (symbol_code (utf16_text (piece_text (PTag b))) (p_alpha P))) eqn:E; auto.
          apply is_escaped_range in E. lia. }
        rewrite Ne. replace (symbol_code (utf16_text (piece_text (PTag b))) (p_alpha P) =? 42) with false by lia.
        now rewrite andb_false_r.
      + destruct (IH Hok' Hsc Hn' Hk' i) as (shown & Hsh & Hl & Hb). exists shown. split; [now apply pss_chunk|].
        split; [exact Hl|exact Hb].
  Qed.

  Lemma join_slashes : forall l q, join_forms l q = slashes (map (fun t => t ++ q) l).
  Proof.
    induction l as [|x l IH]; intros q; [reflexivity|]. destruct l as [|y l]; [reflexivity|].
    change (join_forms (x :: y :: l) q) with (x ++ q ++ [47] ++ join_forms (y :: l) q). rewrite IH.
    change (slashes (map (fun t => t ++ q) (x :: y :: l))) with ((x ++ q) ++ 47 :: slashes (map (fun t => t ++ q) (y :: l))).
    now rewrite <- app_assoc.
  Qed.
  Definition word_settled (r : rtext) : Prop := symbols_calm (t_mark r) (piece_symbols (p_alpha P) (t_pieces r)).
  Lemma bil_word_spec : forall r out, rtext_ok r -> Forall scalar (pieces_content (t_pieces r)) -> no_nul (t_pieces r) ->
    (forall t, In t (piece_tags (t_pieces r)) -> known t (p_alpha P)) -> word_settled r -> t_mark r <> Some star ->
    bil_word P any m (expected (Some (p_alpha P)) r) = Ok out -> word_result P any cs m r out.
  Proof.
    intros r out Hr Hsc Hn Hk Hcalm Hm H. unfold bil_word, expected in H. cbn [r_mark r_content r_symbols] in H.
    destruct Hr as [Hr _]. destruct (source_spec _ Hr Hsc Hn Hk 0) as (shown & Hsh & Hl & Hb). change (0 =? 0)%nat with true in Hsh.
    unfold word_settled in Hcalm. set (w := piece_symbols (p_alpha P) (t_pieces r)) in *.
    assert (Hw : w = [] \/ w <> []) by (destruct w; [now left|right; discriminate]).
    destruct Hw as [Hw|Hw].
    - rewrite Hw in H. assert (out = []) by congruence. subst out. apply wr_empty; auto.
    - assert (H' : (let! (result, queue_start) := bil_lookup P any m (match t_mark r with Some m => m | None => 0 end) w in
        let '(source, queue_pos) := if (match t_mark r with Some m => m | None => 0 end) =? 35 then ([35], 1%nat) else ([], 0%nat) in
        let! (source, queue_pos) := bil_source P 0 queue_start source queue_pos w in
        Ok (source ++ [47] ++
            match result with
            | [] => (match m with gm_all => [35] | _ => [64] end) ++ source
            | _ => compose_forms result (skipn queue_pos source) false false
            end)) = Ok out) by (destruct w; [congruence|exact H]).
      clear H. destruct (bil_lookup P any m (match t_mark r with Some m => m | None => 0 end) w) as [[res qs]| | | |] eqn:El; try discriminate.
      cbn [obind] in H'.
      assert (Eh : ((match t_mark r with Some m => m | None => 0 end) =? 35) = match t_mark r with Some c => c =? hash | None => false end)
        by (destruct (t_mark r); reflexivity).
      rewrite Eh in H'.
      set (pre := if match t_mark r with Some c => c =? hash | None => false end then [hash] else []).
      assert (Epre : (if match t_mark r with Some c => c =? hash | None => false end then ([35], 1%nat) else ([], 0%nat))
        = (pre, length pre)) by (unfold pre; destruct (match t_mark r with Some c => c =? hash | None => false end); reflexivity).
      rewrite Epre in H'. rewrite Hb in H'. cbn [obind] in H'.
      assert (Lsh : shown <> []).
      { intros ->. apply Hw. destruct w; [reflexivity|cbn in Hl; discriminate]. }
      assert (Eu : utf16_text (pre ++ concat shown) = pre ++ utf16_text (concat shown)).
      { rewrite utf16_text_app. f_equal. unfold pre. destruct (match t_mark r with Some c => c =? hash | None => false end); reflexivity. }
      destruct (lookup_spec (t_mark r) w res qs Hw Hcalm El) as [(Hne & Hq & T)|[-> U]].
      + replace ((0 <=? qs) && (qs <? 0 + length shown))%nat with true in H'.
        2: { symmetry. apply andb_true_iff. split; [apply Nat.leb_le; lia|apply Nat.ltb_lt; lia]. }
        replace (S qs - 0)%nat with (S qs) in H' by lia.
        assert (Eq : skipn (length (pre ++ utf16_text (concat (firstn (S qs) shown)))) (pre ++ utf16_text (concat shown))
          = utf16_text (concat (skipn (S qs) shown))).
        { rewrite <- (firstn_skipn (S qs) shown) at 2. rewrite concat_app, utf16_text_app, app_assoc.
          rewrite skipn_app, Nat.sub_diag, skipn_all. reflexivity. }
        rewrite Eq in H'.
        assert (Eo : out = utf16_text (pre ++ concat shown) ++ 47 :: slashes (map (fun t => t ++ utf16_text (concat (skipn (S qs) shown))) res)).
        { rewrite Eu, <- join_slashes. destruct res as [|x res]; [congruence|]. unfold compose_forms in H'. cbn [app] in H'.
          rewrite app_nil_r in H'. congruence. }
        rewrite Eo. apply wr_found with (k := S qs); auto.
      + assert (Eo : out = utf16_text (pre ++ concat shown) ++ 47 :: (match m with gm_all => hash | _ => at_sign end) :: utf16_text (pre ++ concat shown)).
        { rewrite Eu. assert (Ok ((pre ++ utf16_text (concat shown)) ++ [47] ++ (match m with gm_all => [35] | _ => [64] end) ++ pre ++ utf16_text (concat shown)) = Ok out) by exact H'.
          destruct m; cbn [app] in H; injection H as <-; reflexivity. }
        rewrite Eo. apply wr_not_found with (shown := shown); auto.
  Qed.
End Words.

(** * Streams *)
Lemma add_tags_inv : forall l a, alph_inv a -> alph_inv (add_tags l a) /\ extends a (add_tags l a).
Proof.
  induction l as [|t l IH]; intros a H; cbn [add_tags fold_left]; [auto using extends_refl|].
  destruct (IH (includeSymbol t a) (include_inv t a H)) as [A B]. split; [exact A|].
  eapply extends_trans; [apply include_extends; exact H|exact B].
Qed.
Section Stream.
  Context (P : processor) (cs : bool) (m : gmode) (forms keep : bool).
  Notation any := (any_char P).
  Definition tags_added (rs : list rtext) (a : alphabet) : alphabet := add_tags (tags_of rs) a.

  (** What the loop does, in terms of the parts *)
  Fixpoint bil_items (a : alphabet) (l : list item) : outcome ustr :=
    match l with
    | [] => Ok []
    | Null b :: l => let! rest := bil_items a l in Ok ((utf16_text b ++ [0]) ++ rest)
    | Unit b w rs :: l =>
        let! x := bil_unit (with_alpha P (tags_added rs a)) any forms keep m (map (expected (Some (tags_added rs a))) rs) in
        let! rest := bil_items (tags_added rs a) l in
        Ok ((utf16_text b ++ utf16_text w ++ x) ++ rest)
    end.
  Lemma unit_nothing : forall Q, bil_unit Q any forms keep m [] = Ok [].
  Proof. intros Q. unfold bil_unit. destruct forms, keep; reflexivity. Qed.
  Lemma loop_items : forall l tail, gap true tail -> forall fuel r a, Forall item_ok l -> rd_eof r = false ->
    rd_alpha r = Some a -> rd_add r = true -> (2 + length l <= fuel)%nat ->
    at_text (rd_file r) (stream_text l tail) ->
    bil_stream P forms keep m fuel r = let! out := bil_items a l in Ok (out ++ utf16_text tail).
  Proof.
    intros l tail Ht. induction l as [|i l IH]; intros fuel r a Hl Hr Halpha Hadd Hf Ha.
    - destruct fuel as [|fuel]; [lia|]. cbn [bil_stream]. rewrite Hr. unfold stream_text in Ha. cbn [map concat app] in Ha.
      destruct (tail_read r tail Ht Hr Ha) as (r' & -> & L). cbn [obind].
      injection L as L1 L2 L3 L4 L5 L6. rewrite L1, L2, L3, L5, unit_nothing. cbn [obind].
      destruct fuel as [|fuel]; [cbn [length] in Hf; lia|]. cbn [bil_stream]. rewrite L6. cbn [obind bil_items app].
      now rewrite !app_nil_r.
    - destruct fuel as [|fuel]; [cbn [length] in Hf; lia|]. cbn [bil_stream]. rewrite Hr.
      inversion Hl as [|? ? Hi Hl']; subst. rewrite stream_text_cons in Ha.
      destruct (item_read i r _ Hi Hr Ha) as (r' & -> & Er & A' & Eadd & Ealpha & L). cbn [obind].
      rewrite Hadd, Halpha in L, Ealpha.
      destruct i as [b w rs|b]; cbn [after_tags] in *; cbn [bil_items].
      + change (add_tags (tags_of rs) a) with (tags_added rs a) in *.
        rewrite (IH fuel r' (tags_added rs a) Hl' Er Ealpha (eq_trans Eadd Hadd)); [|cbn [length] in Hf; lia|exact A'].
        injection L as L1 L2 L3 L4 L5 L6. rewrite Ealpha, L1, L2, L3, L5.
        destruct (bil_unit (with_alpha P (tags_added rs a)) any forms keep m (map (expected (Some (tags_added rs a))) rs));
          cbn [obind]; auto.
        destruct (bil_items (tags_added rs a) l); cbn [obind]; auto. f_equal. cbn [app]. now rewrite <- !app_assoc.
      + rewrite (IH fuel r' a Hl' Er Ealpha (eq_trans Eadd Hadd)); [|cbn [length] in Hf; lia|exact A'].
        injection L as L1 L2 L3 L4 L5 L6. rewrite L1, L2, L3, L5, unit_nothing. cbn [obind].
        destruct (bil_items a l); cbn [obind]; auto. f_equal. cbn [app]. now rewrite <- !app_assoc.
  Qed.
  Lemma bilingual_items : forall l tail, Forall item_ok l -> gap true tail -> Forall scalar (stream_text l tail) ->
    bilingual P forms keep m (open_file (utf8_text (stream_text l tail)))
    = let! out := bil_items (p_alpha P) l in Ok (out ++ utf16_text tail).
  Proof.
    intros l tail Hl Ht Hsc. unfold bilingual. pose proof (at_text_open _ Hsc) as Ha.
    apply loop_items; auto. pose proof (at_text_size _ _ Ha) as Hz.
    pose proof (items_bound l tail Hl). lia.
  Qed.

  Context (Hany : any <> 0) (Htl : forall c, c <> 0 -> p_tolower P c <> 0).
  Context (Hs : is_sort (p_sort P)) (HA : 0 < p_maxAnalyses P) (HC : 0 < p_maxClasses P).
  (** The parts of the stream are looked up with the case folding [cs] throughout. *)
  Fixpoint stream_calm (a : alphabet) (l : list item) : Prop :=
    match l with
    | [] => True
    | Null _ :: l => stream_calm a l
    | Unit _ _ rs :: l =>
        Forall (word_settled (with_alpha P (tags_added rs a)) any cs) rs /\ stream_calm (tags_added rs a) l
    end.
  Definition item_no_nul (i : item) : Prop :=
    match i with Unit _ _ rs => Forall (fun r => no_nul (t_pieces r)) rs | Null _ => True end.
  Lemma unit_spec : forall a rs x, alph_inv a -> Forall rtext_ok rs -> rs <> [] -> readings_scalar rs ->
    Forall (fun r => no_nul (t_pieces r)) rs -> (forall t, In t (tags_of rs) -> known t a) ->
    Forall (word_settled (with_alpha P a) any cs) rs ->
    bil_unit (with_alpha P a) any forms keep m (map (expected (Some a)) rs) = Ok x ->
    unit_result (with_alpha P a) any cs m forms keep rs x.
  Proof.
    intros a rs x Hinv Hok Hne Hsc Hnn Hk Hc H.
    assert (One : forall r, In r rs -> forall y,
      (if r_mark (expected (Some a) r) =? 42
       then Ok ([42] ++ r_content (expected (Some a) r) ++ [47] ++ (match m with gm_clean => [] | _ => [42] end) ++ r_content (expected (Some a) r))
       else bil_word (with_alpha P a) any m (expected (Some a) r)) = Ok y -> word_result (with_alpha P a) any cs m r y).
    { intros r Hr y Hy. unfold readings_scalar in Hsc; rewrite Forall_forall in Hok, Hsc, Hnn, Hc.
      destruct (r_mark (expected (Some a) r) =? 42) eqn:Em; cbn [expected r_mark r_content] in Em, Hy.
      - assert (Et : t_mark r = Some star) by (destruct (t_mark r); [unfold star; f_equal; lia|discriminate]).
        assert (Ey : y = utf16_text (star :: pieces_content (t_pieces r)) ++ 47 ::
          utf16_text ((match m with gm_clean => [] | _ => [star] end) ++ pieces_content (t_pieces r))).
        { rewrite utf16_text_cons, utf16_text_app. cbn [app] in Hy. destruct m; cbn [app] in Hy |- *; change (utf16 star) with [42];
            change (utf16_text [star]) with [42]; change (utf16_text []) with (@nil Z); cbn [app]; congruence. }
        rewrite Ey. now apply wr_unknown.
      - assert (Et : t_mark r <> Some star) by (intros E; rewrite E in Em; discriminate).
        eapply (bil_word_spec (with_alpha P a) any cs m Hany Htl Hs HA HC Hinv r y); auto; try (apply Hok; auto); try (apply Hsc; auto);
          try (apply Hnn; auto); try (apply Hc; auto).
        intros t Ht. apply Hk. unfold tags_of. apply in_concat. exists (piece_tags (t_pieces r)). split; auto. apply in_map_iff. now exists r. }
    unfold bil_unit in H. destruct rs as [|r rs]; [congruence|]. cbn [map] in H.
    destruct keep eqn:Ekeep.
    - rewrite orb_true_r in H. cbn [nth_error] in H. destruct rs as [|r' rs]; cbn [map nth_error] in H.
      + assert (x = 94 :: utf16_text (pieces_content (t_pieces r)) ++ [36]) by (cbn [expected r_content app] in H; congruence).
        subst x. now apply ur_keep_only.
      + match type of H with (obind ?e _) = _ => destruct e as [y| | | |] eqn:Ey; try discriminate end. cbn [obind] in H.
        assert (x = 94 :: utf16_text (pieces_content (t_pieces r)) ++ 47 :: y ++ [36]).
        { cbn [expected r_content app] in H. rewrite <- app_assoc in H. cbn [app] in H. congruence. }
        subst x. apply ur_keep; auto. apply One; [right; now left|exact Ey].
    - rewrite orb_false_r in H. destruct forms eqn:Eforms; cbn [nth_error] in H.
      + destruct rs as [|r' rs]; cbn [map nth_error] in H.
        * assert (x = []) by congruence. subst x. now apply ur_lost.
        * match type of H with (obind ?e _) = _ => destruct e as [y| | | |] eqn:Ey; try discriminate end. cbn [obind app] in H.
          assert (x = 94 :: y ++ [36]) by congruence. subst x. apply ur_second; auto. apply One; [right; now left|exact Ey].
      + match type of H with (obind ?e _) = _ => destruct e as [y| | | |] eqn:Ey; try discriminate end. cbn [obind app] in H.
        assert (x = 94 :: y ++ [36]) by congruence. subst x. apply ur_first; auto. apply One; [now left|exact Ey].
  Qed.
  Lemma unit_scalar : forall b w rs, Forall scalar (item_text (Unit b w rs)) -> readings_scalar rs.
  Proof.
    intros b w rs H. cbn [item_text] in H. rewrite !Forall_app in H. destruct H as (_ & _ & _ & H & _).
    now apply readings_text_scalar.
  Qed.
  Lemma items_spec : forall l a out, alph_inv a -> Forall item_ok l -> Forall (fun i => Forall scalar (item_text i)) l ->
    Forall item_no_nul l -> stream_calm a l -> bil_items a l = Ok out ->
    exists outs, stream_result P cs m forms keep a l outs /\ out = concat outs.
  Proof.
    induction l as [|i l IH]; intros a out Hinv Hl Hsc Hn Hc H; cbn [bil_items] in H.
    - exists []. split; [constructor|]. cbn. congruence.
    - inversion Hl as [|? ? Hi Hl']; inversion Hsc as [|? ? Si Sl']; inversion Hn as [|? ? Ni Nl']; subst.
      destruct i as [b w rs|b]; cbn [stream_calm] in Hc.
      + destruct Hc as [Hc Hc'].
        assert (Hinv' : alph_inv (tags_added rs a)) by (apply add_tags_inv; exact Hinv).
        destruct (bil_unit (with_alpha P (tags_added rs a)) any forms keep m (map (expected (Some (tags_added rs a))) rs)) as [x| | | |] eqn:Ex; try discriminate.
        cbn [obind] in H. destruct (bil_items (tags_added rs a) l) as [rest| | | |] eqn:Er; try discriminate. cbn [obind] in H.
        destruct (IH _ rest Hinv' Hl' Sl' Nl' Hc' Er) as (outs & F & ->).
        exists ((utf16_text b ++ utf16_text w ++ x) :: outs). split; [|cbn [concat]; congruence].
        destruct Hi as (_ & _ & Hrs & Hne).
        eapply sr_unit; [reflexivity| |exact F]. apply unit_spec; auto.
        * eapply unit_scalar; eauto.
        * intros t Ht. apply add_tags_known. exact Ht.
      + destruct (bil_items a l) as [rest| | | |] eqn:Er; try discriminate. cbn [obind] in H.
        destruct (IH a rest Hinv Hl' Sl' Nl' Hc Er) as (outs & F & ->).
        exists ((utf16_text b ++ [0]) :: outs). split; [now constructor|cbn [concat]; congruence].
  Qed.
End Stream.

(** * Termination *)
Section Returns.
  Context (P : processor) (any : Z) (Ha : eps_acyclic (p_find P)) (Ht : tags_known P).
  Context (Hs : is_sort (p_sort P)) (H0 : p_toupper P 0 = 0) (Hw : p_weights P = false).
  Context (Hlow : forall c, 0 <= c -> 0 <= p_tolower P c).
  Definition nameable (c : Z) : Prop := c < 0 -> - c <= Z.of_nat (length (slexicinv (p_alpha P))).
  Definition fair (c : choice) : Prop := forall ov opts, c = Some (ov, opts) -> forall x, nameable x -> nameable (ov x).
  Lemma over3_fair : forall c x, nameable c -> fair (over3 x any c).
  Proof.
    intros c x Hc ov opts E y Hy. unfold over3, overriding in E. destruct ((x =? 0) || (any =? 0)); [discriminate|].
    assert (ov = override any c) by congruence. subst ov. unfold override. destruct (y =? any); auto.
  Qed.
  Lemma bil_choice_fair : forall c b, nameable c -> fair (bil_choice P any c b).
  Proof.
    intros c b Hc. unfold bil_choice. destruct b; [now apply over3_fair|]. unfold over4.
    destruct (c =? p_tolower P c); [now apply over3_fair|]. intros ov opts E y Hy.
    destruct ((c =? 0) || (any =? 0)); [discriminate|]. unfold overriding in E. assert (ov = override any c) by congruence. subst ov.
    unfold override. destruct (y =? any); auto.
  Qed.
  Lemma retry_choice_fair : forall c b, nameable c -> fair (retry_choice P any c b).
  Proof.
    intros c b Hc. unfold retry_choice, isTag. destruct (c <? 0) eqn:E; cbn [orb]; [now apply over3_fair|].
    destruct b; [now apply over3_fair|]. apply over3_fair. intros Hn. pose proof (Hlow c). lia.
  Qed.
  Lemma settled_named : forall c st r, fair c -> (forall s, In s st -> named P s) ->
    settles (fun n => offer (with_fuel P n) c st) r -> forall s, In s r -> named P s.
  Proof.
    intros c st r Hf Hn (N & H) s Hin. specialize (H N (le_n N)).
    assert (K : forall Q, tags_known Q -> (forall ov opts, c = Some (ov, opts) -> forall x,
      (x < 0 -> - x <= Z.of_nat (length (slexicinv (p_alpha Q)))) -> ov x < 0 -> - ov x <= Z.of_nat (length (slexicinv (p_alpha Q)))) ->
      (forall s, In s st -> named Q s) -> offer Q c st = Ok r -> named Q s).
    { clear - Hin. intros Q Ht Hp Hn H. unfold offer in H. eapply closure_named; [exact Ht| |exact H|exact Hin].
      intros s' Hs'. apply choose_in in Hs' as (ov & opts & s0 & i & d & o & q & w & Ec & Hs0 & Hi & Ho & ->).
      intros c' w' Hc. cbn [v_seq] in Hc. apply in_app_or in Hc as [Hc|Hc]; [now apply (Hn _ Hs0) in Hc|].
      destruct (i =? 0); [destruct Hc|]. destruct Hc as [E|[]]. assert (ov o = c') by congruence. subst c'.
      apply (Hp _ _ Ec). intros Hneg. exact (Ht _ _ _ _ _ Ho Hneg). }
    exact (K (with_fuel P N) Ht Hf Hn H).
  Qed.
  Lemma array_defined : forall up fu st, (forall s, In s st -> named P s) -> exists a, finals_array P up fu st = Ok a.
  Proof.
    intros up fu st Hn. unfold finals_array. rewrite Hw.
    apply (C37_defined (p_toupper P) (p_sort P) Hs (all_finals P) (p_alpha P) is_escaped false); auto; [|discriminate].
    intros s c w Hin. exact (Hn s Hin c w).
  Qed.
  Lemma bil_loop_settles : forall (pick : processor -> Z -> bool -> choice) up fu, 
    (forall n c b, pick (with_fuel P n) c b = pick P c b) -> (forall c b, nameable c -> fair (pick P c b)) ->
    forall l i st res qs, Forall nameable l -> (forall s, In s st -> named P s) ->
    exists r, settles (fun n => bil_loop (with_fuel P n) (pick (with_fuel P n)) up fu i st res qs l) r.
  Proof.
    intros pick up fu Hpf Hpick. induction l as [|c l IH]; intros i st res qs Hl Hn; cbn [bil_loop]; [eexists; apply settles_ret|].
    inversion Hl as [|? ? Hc Hl']; subst.
    destruct (offer_settles P Ha (pick P c (beCaseSensitive P st)) st) as (st1 & H1).
    pose proof (settled_named _ _ _ (Hpick c _ Hc) Hn H1) as Hn1.
    assert (F : exists x, forall n, (if isFinal (all_finals (with_fuel P n)) st1
        then (let! a := finals_array (with_fuel P n) up fu st1 in Ok (a, i)) else Ok (res, qs)) = Ok x).
    { destruct (isFinal (all_finals P) st1) eqn:Ef.
      - destruct (array_defined up fu st1 Hn1) as (a & Ea). exists (a, i). intros n.
        change (all_finals (with_fuel P n)) with (all_finals P). rewrite Ef.
        change (finals_array (with_fuel P n) up fu st1) with (finals_array P up fu st1). rewrite Ea. reflexivity.
      - exists (res, qs). intros n. change (all_finals (with_fuel P n)) with (all_finals P). now rewrite Ef. }
    destruct F as ([res' qs'] & F). destruct (IH (S i) st1 res' qs' Hl' Hn1) as (r & H2). exists r.
    eapply (settles_bind _ (fun n st0 => let! (result, queue_start) := if isFinal (all_finals (with_fuel P n)) st0
        then (let! a := finals_array (with_fuel P n) up fu st0 in Ok (a, i)) else Ok (res, qs) in
        bil_loop (with_fuel P n) (pick (with_fuel P n)) up fu (S i) st0 result queue_start l) st1).
    - eapply settles_same; [|exact H1]. intros n. change (beCaseSensitive (with_fuel P n) st) with (beCaseSensitive P st).
      now rewrite Hpf.
    - eapply settles_same; [|exact H2]. intros n. cbv beta. rewrite F. reflexivity.
  Qed.
  Lemma start_settles : forall mark, exists st, settles (fun n => bil_start (with_fuel P n) mark) st /\ forall s, In s st -> named P s.
  Proof.
    intros mark. unfold bil_start. destruct (initial_settles P Ha) as (init & Hi).
    assert (Hn : forall s, In s init -> named P s).
    { destruct Hi as (N & Hi). specialize (Hi N (le_n N)). exact (initial_named (with_fuel P N) Ht init Hi). }
    destruct (mark =? 35).
    - destruct (offer_settles P Ha (one 35) init) as (st & H1). exists st. split.
      + eapply settles_bind; [exact Hi|exact H1].
      + eapply settled_named; [|exact Hn|exact H1]. intros ov opts E x Hx. unfold one in E.
        rewrite (alternatives_plain _ _ _ E). exact Hx.
    - exists init. split; [|exact Hn]. eapply settles_bind; [exact Hi|apply settles_ret].
  Qed.
  Lemma lookup_settles : forall m mark l, Forall nameable l -> exists r, settles (fun n => bil_lookup (with_fuel P n) any m mark l) r.
  Proof.
    intros m mark l Hl. unfold bil_lookup. cbv zeta. change (p_isupper (with_fuel P ?n)) with (p_isupper P).
    destruct (start_settles mark) as (st & Hst & Hn).
    set (up := (0 <? nth 0 l 0) && p_isupper P (nth 0 l 0) && (1 <? length l)%nat && (0 <? nth 1 l 0) && p_isupper P (nth 1 l 0)).
    destruct (bil_loop_settles (fun Q => bil_choice Q any) up ((0 <? nth 0 l 0) && p_isupper P (nth 0 l 0))
      (fun _ _ _ => eq_refl) bil_choice_fair l 0 st [] 0%nat Hl Hn) as (r & Hr).
    destruct (bil_loop_settles (fun Q => retry_choice Q any) false false
      (fun _ _ _ => eq_refl) retry_choice_fair l 0 st [] (snd (checked m l r)) Hl Hn) as (r2 & Hr2).
    assert (K : exists x, settles (fun n => match fst (checked m l r), m with
      | [], gm_bilgen | [], gm_all =>
        let! st := bil_start (with_fuel P n) mark in
        let! r := bil_loop (with_fuel P n) (retry_choice (with_fuel P n) any) false false 0 st [] (snd (checked m l r)) l in
        Ok (checked m l r)
      | _, _ => Ok (checked m l r) end) x).
    { assert (K2 : settles (fun n => let! st := bil_start (with_fuel P n) mark in
        let! r := bil_loop (with_fuel P n) (retry_choice (with_fuel P n) any) false false 0 st [] (snd (checked m l r)) l in
        Ok (checked m l r)) (checked m l r2)).
      { eapply (settles_bind _ _ st); [exact Hst|]. eapply (settles_bind _ _ r2); [exact Hr2|apply settles_ret]. }
      destruct (fst (checked m l r)); [|eexists; apply settles_ret].
      destruct m; try (eexists; apply settles_ret); eauto. }
    destruct K as (x & K). exists x. eapply (settles_bind _ _ st); [exact Hst|]. eapply (settles_bind _ _ r); [exact Hr|exact K].
  Qed.
  Lemma source_defined : forall l i qs src qp, Forall nameable l -> exists x, bil_source P i qs src qp l = Ok x.
  Proof.
    induction l as [|c l IH]; intros i qs src qp Hl; cbn [bil_source]; [eauto|].
    inversion Hl as [|? ? Hc Hl']; subst.
    assert (G : exists t, getSymbol c (p_alpha P) = Ok t).
    { unfold getSymbol. destruct (c =? 0); [eauto|]. destruct (c <? 0) eqn:E; [|eauto].
      destruct (nth_error (slexicinv (p_alpha P)) (Z.to_nat (- c - 1))) eqn:En; [eauto|].
      apply nth_error_None in En. unfold nameable in Hc. lia. }
    destruct G as (t & ->). cbn [obind]. apply IH. exact Hl'.
  Qed.
  Lemma bil_word_settles : forall m rd, Forall nameable (r_symbols rd) ->
    exists x, settles (fun n => bil_word (with_fuel P n) any m rd) x.
  Proof.
    intros m rd Hl. unfold bil_word. destruct (r_symbols rd) as [|c l] eqn:El; [eexists; apply settles_ret|]. rewrite <- El in *. clear c l El.
    destruct (lookup_settles m (r_mark rd) (r_symbols rd) Hl) as ([res qs] & Hr).
    destruct (if r_mark rd =? 35 then ([35], 1%nat) else ([], 0%nat)) as [src qp] eqn:Es.
    destruct (source_defined (r_symbols rd) 0 qs src qp Hl) as ([src' qp'] & Hsrc).
    eexists. eapply (settles_bind _ _ (res, qs)); [exact Hr|]. cbv beta iota. exists 0%nat. intros n _.
    change (bil_source (with_fuel P n)) with (bil_source P). rewrite Hsrc. cbn [obind]. reflexivity.
  Qed.
  Lemma bil_unit_settles : forall forms keep m l, (forall rd, In rd l -> Forall nameable (r_symbols rd)) ->
    exists x, settles (fun n => bil_unit (with_fuel P n) any forms keep m l) x.
  Proof.
    intros forms keep m l Hl. unfold bil_unit.
    destruct (nth_error l (if forms || keep then 1 else 0)) as [rd|] eqn:E; [|eexists; apply settles_ret].
    apply nth_error_In in E. destruct (bil_word_settles m rd (Hl rd E)) as (x & Hx).
    destruct (r_mark rd =? 42).
    - eexists. apply (settles_bind _ _ _ _ (settles_ret _) (settles_ret _)).
    - eexists. apply (settles_bind _ _ _ _ Hx (settles_ret _)).
  Qed.
End Returns.
Section StreamReturns.
  Context (P : processor) (m : gmode) (forms keep : bool) (Ha : eps_acyclic (p_find P)) (Ht : tags_known P).
  Context (Hs : is_sort (p_sort P)) (H0 : p_toupper P 0 = 0) (Hw : p_weights P = false).
  Context (Hlow : forall c, 0 <= c -> 0 <= p_tolower P c).
  Lemma symbols_nameable : forall a r, alph_inv a -> rtext_ok r -> Forall scalar (pieces_content (t_pieces r)) ->
    (forall t, In t (piece_tags (t_pieces r)) -> known t a) ->
    Forall (nameable (with_alpha P a)) (piece_symbols a (t_pieces r)).
  Proof.
    intros a r Hinv _ Hsc Hk. unfold piece_symbols. induction (t_pieces r) as [|p l IH]; cbn [map concat]; [constructor|].
    unfold pieces_content in Hsc. cbn [map concat] in Hsc. apply Forall_app in Hsc as [Hp Hsc]. apply Forall_app. split.
    - destruct p as [c|c|b|b]; try constructor; try constructor.
      + cbn [piece_content piece_text] in Hp. inversion Hp as [|? ? [Hc _] _]; subst. intros Hn. lia.
      + cbn [piece_content piece_text] in Hp. inversion Hp as [|? ? _ Hp']; subst. inversion Hp' as [|? ? [Hc _] _]; subst. intros Hn. lia.
      + assert (K : known (utf16_text (piece_text (PTag b))) a) by (apply Hk; now left).
        assert (D : isSymbolDefined (utf16_text (piece_text (PTag b))) a = true).
        { unfold known in K. unfold isSymbolDefined. destruct (map_find ustr_eq_dec (utf16_text (piece_text (PTag b))) (slexic a)); congruence. }
        apply defined_iff in D; [|exact Hinv]. apply In_nth_error in D as (i & Hi).
        destruct (symbol_code_nth _ _ i Hinv Hi) as (E & _ & _). rewrite E. intros _. unfold tag_of.
        assert (i < length (slexicinv a))%nat by (apply nth_error_Some; congruence). cbn [p_alpha with_alpha]. lia.
    - apply IH; auto. intros t Hin. apply Hk. unfold piece_tags in *. cbn [map concat]. apply in_or_app. now right.
  Qed.
  Lemma items_settle : forall l a, alph_inv a -> (length (slexicinv (p_alpha P)) <= length (slexicinv a))%nat ->
    Forall item_ok l -> Forall (fun i => Forall scalar (item_text i)) l ->
    exists x, settles (fun n => bil_items (with_fuel P n) m forms keep a l) x.
  Proof.
    induction l as [|i l IH]; intros a Hinv Hlen Hl Hsc; cbn [bil_items]; [eexists; apply settles_ret|].
    inversion Hl as [|? ? Hi Hl']; inversion Hsc as [|? ? Si Sl]; subst.
    destruct i as [b w rs|b].
    - destruct (add_tags_inv (tags_of rs) a Hinv) as [Hinv' [(more & Hext) _]].
      change (add_tags (tags_of rs) a) with (tags_added rs a) in *.
      assert (Hlen' : (length (slexicinv (p_alpha P)) <= length (slexicinv (tags_added rs a)))%nat)
        by (rewrite Hext, app_length; lia).
      destruct Hi as (_ & _ & Hrs & Hne).
      destruct (bil_unit_settles (with_alpha P (tags_added rs a)) (any_char P)) with (forms := forms) (keep := keep) (m := m)
        (l := map (expected (Some (tags_added rs a))) rs) as (x & Hx); auto.
      { intros n i o q w' Hin Hneg. specialize (Ht n i o q w' Hin Hneg). cbn [p_alpha with_alpha]. lia. }
      { intros rd Hin. apply in_map_iff in Hin as (r & <- & Hr). cbn [expected r_symbols].
        pose proof (unit_scalar b w rs Si) as Hss. unfold readings_scalar in Hss. rewrite Forall_forall in Hrs, Hss.
        apply symbols_nameable; auto. intros t Hin. apply add_tags_known. unfold tags_of. apply in_concat.
        exists (piece_tags (t_pieces r)). split; auto. apply in_map_iff. now exists r. }
      destruct (IH (tags_added rs a) Hinv' Hlen' Hl' Sl) as (rest & Hrest).
      eexists. eapply (settles_bind _ _ x); [exact Hx|]. eapply (settles_bind _ _ rest); [exact Hrest|apply settles_ret].
    - destruct (IH a Hinv Hlen Hl' Sl) as (rest & Hrest). eexists. eapply (settles_bind _ _ rest); [exact Hrest|apply settles_ret].
  Qed.
End StreamReturns.
