(** C39: looking words up in a bilingual dictionary. *)
From Coq Require String Ascii.
From Coq Require Import Permutation.
From Coq Require Import Sorted.
From Verif Require Import Base CompressionModel AlphabetModel AlphabetProofs StateModel StateSpec StatePathProofs
  StateProps FinalsModel FinalsProps StringModel StringProps BufferModel InputModel StreamModel StreamProps ProcessorModel
  ProcessorProofs CompoundProofs CompoundProps.

(** * Specification *)
(** The number of a symbol: a unit stands for itself, anything longer is the name of a tag. *)
Definition names (a : alphabet) (p : ustr) (v : Z) : Prop :=
  (exists c, p = [c] /\ v = c)
  \/ (length p <> 1%nat /\ In (p, v) (slexic a))
  \/ (length p <> 1%nat /\ ~ In p (map fst (slexic a)) /\ v = 0).
(** The dictionary reads [l], and accepts it. *)
Definition alive (P : processor) (l : list Z) : Prop := exists s q, rpath (p_find P) (p_root P) l s q.
Definition accepted (P : processor) (l : list Z) : Prop :=
  exists s q, rpath (p_find P) (p_root P) l s q /\ final_weight q (all_finals P) <> None.
(** [res] are the translations of [l]: distinct texts, each the text of a path to a final
    node, and all of them unless the limits on their number cut some off. *)
Definition translations (P : processor) (l : list Z) (res : list ustr) : Prop :=
  exists (st : list (vns (W:=Z))) (rep : list (ustr * Z)),
    (forall q s d, In (mkV q s d) st <-> d = false /\ rpath (p_find P) (p_root P) l s q)
    /\ res = map (fun x => fst x ++ if p_weights P then weight_text (snd x) else []) rep
    /\ NoDup (map fst rep) /\ StronglySorted by_weight rep
    /\ (forall t c, In (t, c) rep -> exists s q fw, rpath (p_find P) (p_root P) l s q
          /\ final_weight q (all_finals P) = Some fw /\ c = fw + fold_right Z.add 0 (map snd s)
          /\ spelled (p_toupper P) (p_alpha P) is_escaped false (map fst s) t)
    /\ (Z.of_nat (length st) <= p_maxAnalyses P -> Z.of_nat (length st) <= p_maxClasses P ->
        forall s q, rpath (p_find P) (p_root P) l s q -> final_weight q (all_finals P) <> None ->
          exists t, In t (map fst rep) /\ spelled (p_toupper P) (p_alpha P) is_escaped false (map fst s) t).

(** * Proofs *)
Lemma array_nonempty : forall toupper sort, is_sort sort -> forall fins a esc dw maxA maxC up fu fc st out,
  0 < maxA -> 0 < maxC ->
  filterFinalsArray toupper sort fins a esc dw maxA maxC up fu fc st = Ok out ->
  (out <> [] <-> isFinal fins st = true).
Proof.
  intros toupper sort Hs fins a esc dw maxA maxC up fu fc st out HA HC H. unfold filterFinalsArray in H.
  destruct (responses toupper fins a esc up fu fc st) as [resp| | | |] eqn:Er; try discriminate.
  cbn [obind] in H. destruct (responses_spec _ _ _ _ _ _ _ _ _ Er) as (_ & _ & C).
  destruct (Hs resp) as [Pm _]. apply Permutation_length in Pm.
  assert (E : isFinal fins st = true <-> resp <> []).
  { unfold isFinal. rewrite existsb_exists. split.
    - intros (s & Hin & Hf) ->. cbn in C. symmetry in C. apply length_zero_iff_nil in C.
      assert (K : In s (filter (fun s => match final_weight (v_where s) fins with Some _ => true | None => false end) st))
        by (apply filter_In; auto). rewrite C in K. destruct K.
    - intros Hr. destruct (filter (fun s => match final_weight (v_where s) fins with Some _ => true | None => false end) st) as [|s l] eqn:Ef.
      + cbn in C. apply length_zero_iff_nil in C. congruence.
      + exists s. apply (filter_In (fun s => match final_weight (v_where s) fins with Some _ => true | None => false end)).
        rewrite Ef. now left. }
  rewrite E. unfold NFinals in H.
  destruct (sort resp) as [|x l] eqn:Es.
  - cbn in H. cbn [length] in Pm. apply length_zero_iff_nil in Pm. subst resp.
    assert (out = []) by congruence. subst out. tauto.
  - assert (resp <> []) by (intros ->; discriminate). cbn [take_finals] in H.
    replace (0 <? maxA) with true in H by lia. replace (0 <? maxC) with true in H by lia. cbn [andb unseen] in H.
    destruct (in_dec ustr_eq_dec (fst x) []) as [[]|_].
    split; auto. intros _ ->. cbn [display] in H. destruct x as [t w].
    destruct dw; [destruct (16 <? S (length (weight_text w)))%nat; [discriminate|]|]; cbn [obind] in H;
    match type of H with (let! _ := ?d in _) = _ => destruct d; cbn [obind] in H; discriminate end.
Qed.

Section Lookup.
  Context (P : processor).
  Notation find := (p_find P).
  Notation root := (p_root P).
  Hypothesis Hcs : p_caseSensitive P = true.
  Hypothesis H1 : forall n, find n 1 = [].

  Lemma cpath_bool : forall vs n s d q, cpath find n (map (fun v => two v 1) vs) s d q <->
    d = false /\ rpath find n vs s q.
  Proof.
    intros vs n s d q. split.
    - intros H. remember (map (fun v => two v 1) vs) as cs eqn:E. revert vs E.
      induction H as [n|n o q w l s b r Hin H IH|n ov opts i d o q w l s b r Hi Hin H IH]; intros vs E.
      + destruct vs; [|discriminate]. split; auto. constructor.
      + destruct (IH vs E) as [-> K]. split; auto. eapply rp_eps; eauto.
      + destruct vs as [|v vs]; [discriminate|]. cbn [map] in E. injection E as E ->.
        destruct (IH vs eq_refl) as [-> K]. unfold two, alternatives in E.
        destruct (existsb (fun x => fst x =? 0) ((v, false) :: (if v =? 1 then [] else [(1, true)]))) eqn:Ex; [discriminate|].
        injection E as -> ->. cbn [existsb fst] in Ex. apply orb_false_elim in Ex as [Ev _].
        destruct Hi as [Hi|Hi].
        * injection Hi as <- <-. split; auto. replace (v =? 0) with false by lia. cbn [app]. unfold same.
          eapply rp_sym; eauto. lia.
        * destruct (v =? 1); [destruct Hi|]. destruct Hi as [Hi|[]]. injection Hi as <- <-.
          rewrite H1 in Hin. destruct Hin.
    - intros [-> H]. induction H as [n|n o q w l s r Hin H IH|n i o q w l s r Hi Hin H IH].
      + constructor.
      + eapply cp_eps; eauto.
      + cbn [map]. assert (E : two i 1 = Some (same, fun _ : nat => (i, false) :: (if i =? 1 then [] else [(1, true)]))).
        { unfold two, alternatives. cbn [existsb fst]. replace (i =? 0) with false by lia. cbn [orb].
          destruct (i =? 1); reflexivity. }
        rewrite E.
        pose proof (cp_sym find n same (fun _ : nat => (i, false) :: (if i =? 1 then [] else [(1, true)])) i false o q w _ s false r
          (or_introl eq_refl) Hin IH) as K.
        replace (i =? 0) with false in K by lia. exact K.
  Qed.

  (** [at_word vs st]: the live analyses after reading [vs]. *)
  Definition at_word (vs : list Z) (st : analyses) : Prop :=
    forall q s d, In (mkV q s d) st <-> d = false /\ rpath find root vs s q.
  Lemma at_start : forall init, initial_state P = Ok init -> at_word [] init.
  Proof.
    intros init H q s d. rewrite <- cpath_bool. exact (init_holds find _ _ _ H q s d).
  Qed.
  Lemma at_step : forall vs st v r, at_word vs st -> step_bool P v st = Ok r -> at_word (vs ++ [v]) r.
  Proof.
    intros vs st v r Hst H q s d. unfold step_bool, offer, beCaseSensitive in H. rewrite Hcs in H. cbn [orb] in H.
    rewrite <- cpath_bool, map_app. cbn [map].
    eapply step_holds; [|exact H]. intros q' s' d'. rewrite cpath_bool. apply Hst.
  Qed.
  Lemma at_dead : forall vs v, at_word vs [] -> at_word (vs ++ [v]) [].
  Proof.
    intros vs v H. eapply (at_step vs [] v); [exact H|]. unfold step_bool, offer.
    replace (v_choose find (two v (if beCaseSensitive P [] then 1 else 0)) []) with ([] : analyses).
    - unfold v_closure. destruct (p_fuel P); reflexivity.
    - unfold v_choose. destruct (two v _) as [[ov opts]|]; reflexivity.
  Qed.
  Lemma at_move : forall vs st v r, at_word vs st ->
    match st with [] => Ok [] | _ => step_bool P v st end = Ok r -> at_word (vs ++ [v]) r.
  Proof.
    intros vs [|x st] v r Hst H.
    - assert (r = []) by congruence. subst r. now apply at_dead.
    - eapply at_step; eauto.
  Qed.
  Lemma at_alive : forall vs st, at_word vs st -> (st = [] <-> ~ alive P vs).
  Proof.
    intros vs st H. split.
    - intros -> (s & q & Hp). destruct (proj2 (H q s false) (conj eq_refl Hp)).
    - intros Hn. destruct st as [|[q s d] st]; auto. exfalso. apply Hn. exists s, q. eapply H. now left.
  Qed.
  Lemma at_accepted : forall vs st, at_word vs st -> (isFinal (all_finals P) st = true <-> accepted P vs).
  Proof.
    intros vs st H. unfold isFinal. rewrite existsb_exists. split.
    - intros ([q s d] & Hin & Hf). exists s, q. split; [now apply H in Hin|]. cbn [v_where] in Hf.
      now destruct (final_weight q (all_finals P)).
    - intros (s & q & Hp & Hf). exists (mkV q s false). split; [apply H; auto|]. cbn [v_where].
      now destruct (final_weight q (all_finals P)).
  Qed.

  Hypothesis Hsort : is_sort (p_sort P).
  Lemma at_translations : forall vs st up fu res, at_word vs st -> finals_array P up fu st = Ok res ->
    translations P vs res.
  Proof.
    intros vs st up fu res Hst H. unfold finals_array in H.
    assert (Clean : forall x t c, In x st -> reports (p_toupper P) (all_finals P) (p_alpha P) is_escaped up fu 0 x t c ->
      exists fw, rpath find root vs (v_seq x) (v_where x) /\ final_weight (v_where x) (all_finals P) = Some fw
        /\ c = fw + fold_right Z.add 0 (map snd (v_seq x))
        /\ spelled (p_toupper P) (p_alpha P) is_escaped false (map fst (v_seq x)) t).
    { intros [q s d] t c Hin (fw & t0 & Hf & Hc & Hs & Ht). cbn [v_where v_seq v_dirty] in *.
      apply Hst in Hin as [-> Hp]. cbn [andb] in *. subst t. eauto 6. }
    destruct (Z_le_gt_dec (Z.of_nat (length st)) (p_maxAnalyses P)) as [HA|HA];
    [destruct (Z_le_gt_dec (Z.of_nat (length st)) (p_maxClasses P)) as [HC|HC]|].
    1: { destruct (C37_complete (p_toupper P) (p_sort P) Hsort _ _ _ _ _ _ _ _ _ _ _ H HA HC) as (rep & E & N & So & Snd & Cpl).
      exists st, rep. split; [exact Hst|]. split; [exact E|]. split; [exact N|]. split; [exact So|]. split.
      - intros t c Hin. destruct (Snd t c Hin) as (x & Hx & Hr). destruct (Clean _ _ _ Hx Hr) as (fw & K). eauto.
      - intros _ _ s q Hp Hf. assert (Hin : In (mkV q s false) st) by (apply Hst; auto).
        destruct (Cpl _ Hin Hf) as (t & c & least & Hr & Ht & _). exists t. split.
        + apply in_map_iff. now exists (t, least).
        + destruct (Clean _ _ _ Hin Hr) as (fw & _ & _ & _ & K). exact K. }
    all: destruct (C37_reported (p_toupper P) (p_sort P) Hsort _ _ _ _ _ _ _ _ _ _ _ H) as (rep & E & N & So & _ & _ & Snd);
      exists st, rep; split; [exact Hst|]; split; [exact E|]; split; [exact N|]; split; [exact So|]; split;
      [intros t c Hin; destruct (Snd t c Hin) as (x & Hx & Hr); destruct (Clean _ _ _ Hx Hr) as (fw & K); eauto|lia].
  Qed.
End Lookup.

Lemma piece_names : forall P l, NoDup (map fst (slexic (p_alpha P))) ->
  forall vs, Forall2 (names (p_alpha P)) l vs -> vs = map (piece_symbol P) l.
Proof.
  intros P l Hn vs H. induction H as [|p v l vs Hp _ IH]; cbn [map]; auto. subst vs. f_equal.
  unfold piece_symbol, symbol_code.
  assert (K : length p <> 1%nat -> match p with [c] => c | _ => match map_find ustr_eq_dec p (slexic (p_alpha P)) with Some c => c | None => 0 end end
     = match map_find ustr_eq_dec p (slexic (p_alpha P)) with Some c => c | None => 0 end).
  { intros Hl. destruct p as [|c [|d p]]; auto. cbn in Hl. lia. }
  destruct Hp as [(c & -> & ->)|[[Hl Hin]|(Hl & Hni & ->)]]; [reflexivity| |]; rewrite (K Hl); clear K.
  - induction (slexic (p_alpha P)) as [|[k v'] m IHm]; [destruct Hin|]. cbn [map_find map fst] in *.
    inversion Hn as [|? ? Hn1 Hn2]; subst. destruct (ustr_eq_dec p k) as [->|Hne].
    + destruct Hin as [E|Hin]; [congruence|]. exfalso. apply Hn1. apply in_map_iff. now exists (k, v).
    + apply IHm; auto. destruct Hin as [E|Hin]; [congruence|auto].
  - induction (slexic (p_alpha P)) as [|[k v'] m IHm]; [reflexivity|]. cbn [map_find map fst In] in *.
    inversion Hn; subst. destruct (ustr_eq_dec p k) as [->|Hne]; [tauto|]. apply IHm; auto.
Qed.

Lemma pieces_symbols : forall z tl word l, z <> 92 -> is_lead z = false -> symbols_of word l ->
  pieces (z :: tl) word = Ok l.
Proof.
  intros z tl word l Hz Hl Hs. destruct (C50_symbols word z tl Hz Hl) as (l' & E & Hs').
  unfold pieces. unfold symbols in E. rewrite E. f_equal. eapply C50_unique; eauto.
Qed.

(** Case-sensitive look-up returns the translations of the word.  [z] is the unit in memory
    behind it. *)
Theorem C39_lookup : forall P z tl word l vs found res,
  p_caseSensitive P = true -> (forall n, p_find P n 1 = []) -> is_sort (p_sort P) ->
  NoDup (map fst (slexic (p_alpha P))) -> z <> 92 -> is_lead z = false ->
  symbols_of word l -> Forall2 (names (p_alpha P)) l vs ->
  lookup P (z :: tl) word = Ok (found, res) ->
  translations P vs res /\ (found = true <-> res <> [])
  /\ (0 < p_maxAnalyses P -> 0 < p_maxClasses P -> (found = true <-> accepted P vs)).
Proof.
  intros P z tl word l vs found res Hcs H1 Hs Hn Hz Hl Hsy Hnm H.
  apply piece_names in Hnm; auto. subst vs. unfold lookup in H.
  destruct (initial_state P) as [init| | | |] eqn:Ei; try discriminate. cbn [obind] in H.
  destruct (word_case P word) as [[up fu]| | | |] eqn:Ec; try discriminate. cbn [obind] in H.
  rewrite (pieces_symbols z tl word l Hz Hl Hsy) in H. cbn [obind] in H.
  destruct (lookup_loop P init l) as [st| | | |] eqn:El; try discriminate. cbn [obind] in H.
  destruct (finals_array P up fu st) as [r| | | |] eqn:Ef; try discriminate. cbn [obind] in H.
  assert (Er : res = r /\ found = match r with [] => false | _ => true end) by (split; congruence).
  destruct Er as [-> ->]. clear H.
  assert (L : forall l us st0 st, at_word P us st0 -> lookup_loop P st0 l = Ok st ->
    at_word P (us ++ map (piece_symbol P) l) st).
  { clear - Hcs H1. induction l as [|p l IH]; intros us st0 st Hst H; cbn [lookup_loop map] in *.
    - assert (st0 = st) by congruence. subst. now rewrite app_nil_r.
    - destruct (match st0 with [] => Ok [] | _ => step_bool P (piece_symbol P p) st0 end) as [st1| | | |] eqn:E; try discriminate.
      cbn [obind] in H. replace (us ++ piece_symbol P p :: map (piece_symbol P) l)
        with ((us ++ [piece_symbol P p]) ++ map (piece_symbol P) l) by now rewrite <- app_assoc.
      eapply IH; eauto. eapply at_move; eauto. }
  pose proof (L l [] init st (at_start P H1 _ Ei) El) as Hst. cbn [app] in Hst.
  split; [eapply at_translations; eauto|].
  assert (K : match r with [] => false | _ => true end = true <-> r <> []) by (destruct r; split; congruence).
  split; [exact K|]. intros HA HC. rewrite K. rewrite <- (at_accepted P _ _ Hst). unfold finals_array in Ef.
  apply (array_nonempty (p_toupper P) (p_sort P) Hs _ _ _ _ _ _ _ _ _ _ _ HA HC Ef).
Qed.

(** The longest known beginning of the word is translated; the symbols from the one on where
    the dictionary can read no further are appended. *)
Theorem C39_longest : forall P z tl word l vs r,
  p_caseSensitive P = true -> (forall n, p_find P n 1 = []) -> is_sort (p_sort P) ->
  0 < p_maxAnalyses P -> 0 < p_maxClasses P ->
  NoDup (map fst (slexic (p_alpha P))) -> z <> 92 -> is_lead z = false ->
  symbols_of word l -> Forall2 (names (p_alpha P)) l vs ->
  step_biltrans P (z :: tl) word = Ok r ->
  match r with
  | None => forall k, (0 < k <= length vs)%nat -> ~ accepted P (firstn k vs)
  | Some (res, queue) => exists k m, (0 < k <= m)%nat /\ (m <= length vs)%nat
      /\ accepted P (firstn k vs) /\ translations P (firstn k vs) res
      /\ (forall j, (k < j <= length vs)%nat -> ~ accepted P (firstn j vs))
      /\ queue = concat (skipn m l) /\ (forall j, (j <= length vs)%nat -> (alive P (firstn j vs) <-> (j <= m)%nat))
  end.
Proof.
  intros P z tl word l vs r Hcs H1 Hs HA HC Hn Hz Hl Hsy Hnm H.
  apply piece_names in Hnm; auto. unfold step_biltrans in H.
  destruct (initial_state P) as [init| | | |] eqn:Ei; try discriminate. cbn [obind] in H.
  destruct (word_case P word) as [[up fu]| | | |] eqn:Ec; try discriminate. cbn [obind] in H.
  rewrite (pieces_symbols z tl word l Hz Hl Hsy) in H. cbn [obind] in H.
  destruct (biltrans_loop P up fu init [] [] l) as [r0| | | |] eqn:El; try discriminate. cbn [obind] in H.
  assert (Er : r = match r0 with Some ([], _) => None | _ => r0 end) by congruence. clear H.
  assert (Pre : forall a b, alive P (a ++ b) -> alive P a).
  { clear. intros a b (s & q & H).
    assert (H' : cpath (p_find P) (p_root P) (map one (a ++ b)) s false q) by (apply cpath_rpath; auto).
    rewrite map_app in H'. destruct (cpath_split (p_find P) _ _ _ _ _ H' _ _ eq_refl) as (s1 & d1 & p & s2 & d2 & Pa & _).
    apply cpath_rpath in Pa as [_ Pa]. exists s1, p. exact Pa. }
  assert (AccAlive : forall a, accepted P a -> alive P a) by (intros a (s & q & Hp & _); exists s, q; exact Hp).
  (* the loop *)
  assert (L : forall l2 l1 st res queue m, at_word P (map (piece_symbol P) l1) st ->
    (forall j, (j <= length l1)%nat -> (alive P (firstn j (map (piece_symbol P) l1)) <-> (j <= m)%nat)) ->
    (m <= length l1)%nat -> queue = concat (skipn m l1) ->
    (if match res with [] => true | _ => false end
     then m = length l1 /\ forall j, (0 < j <= length l1)%nat -> ~ accepted P (firstn j (map (piece_symbol P) l1))
     else exists k, (0 < k <= m)%nat /\ accepted P (firstn k (map (piece_symbol P) l1))
       /\ translations P (firstn k (map (piece_symbol P) l1)) res
       /\ forall j, (k < j <= length l1)%nat -> ~ accepted P (firstn j (map (piece_symbol P) l1))) ->
    forall r0, biltrans_loop P up fu st res queue l2 = Ok r0 ->
    let vs := map (piece_symbol P) (l1 ++ l2) in
    match r0 with
    | None => forall k, (0 < k <= length vs)%nat -> ~ accepted P (firstn k vs)
    | Some ([], _) => forall k, (0 < k <= length vs)%nat -> ~ accepted P (firstn k vs)
    | Some (res, queue) => exists k m, (0 < k <= m)%nat /\ (m <= length vs)%nat
      /\ accepted P (firstn k vs) /\ translations P (firstn k vs) res
      /\ (forall j, (k < j <= length vs)%nat -> ~ accepted P (firstn j vs))
      /\ queue = concat (skipn m (l1 ++ l2)) /\ (forall j, (j <= length vs)%nat -> (alive P (firstn j vs) <-> (j <= m)%nat))
    end).
  { induction l2 as [|p l2 IH]; intros l1 st res queue m Hst Hal Hm Hq Hres r1 H vs0; cbn [biltrans_loop] in H.
    - injection H as <-. unfold vs0. rewrite app_nil_r, map_length.
      destruct res as [|x res]; [apply Hres|]. destruct Hres as (k & Hk & Ha & Ht & Hno).
      exists k, m. do 5 (split; auto).
    - destruct (match st with [] => Ok [] | _ => step_bool P (piece_symbol P p) st end) as [st1| | | |] eqn:E; try discriminate.
      cbn [obind] in H.
      destruct (if isFinal (all_finals P) st1 then finals_array P up fu st1 else Ok res) as [res1| | | |] eqn:Ef; try discriminate.
      cbn [obind] in H.
      pose proof (at_move P Hcs H1 _ _ _ _ Hst E) as Hst1.
      assert (Emap : map (piece_symbol P) l1 ++ [piece_symbol P p] = map (piece_symbol P) (l1 ++ [p])) by now rewrite map_app.
      rewrite Emap in Hst1.
      assert (Hlen : length (map (piece_symbol P) (l1 ++ [p])) = S (length l1)) by (rewrite map_length, app_length; cbn; lia).
      assert (Fst : forall j, (j <= length l1)%nat -> firstn j (map (piece_symbol P) (l1 ++ [p])) = firstn j (map (piece_symbol P) l1)).
      { intros j Hj. rewrite map_app, firstn_app, map_length. replace (j - length l1)%nat with 0%nat by lia.
        now rewrite firstn_O, app_nil_r. }
      assert (Fall : firstn (S (length l1)) (map (piece_symbol P) (l1 ++ [p])) = map (piece_symbol P) (l1 ++ [p])).
      { rewrite <- Hlen. apply firstn_all. }
      pose proof (at_alive P _ _ Hst1) as Al1. pose proof (at_accepted P _ _ Hst1) as Ac1.
      assert (Eapp : l1 ++ p :: l2 = (l1 ++ [p]) ++ l2) by now rewrite <- app_assoc.
      assert (Llen : length (l1 ++ [p]) = S (length l1)) by (rewrite app_length; cbn; lia).
      (* the results after this symbol *)
      assert (Hres1 : forall m1, (m1 = S (length l1) \/ (m1 = m /\ st1 = [])) -> (st1 <> [] -> m1 = S (length l1)) ->
        if match res1 with [] => true | _ => false end
        then m = length l1 /\ forall j, (0 < j <= length (l1 ++ [p]))%nat -> ~ accepted P (firstn j (map (piece_symbol P) (l1 ++ [p])))
        else exists k, (0 < k <= m1)%nat /\ accepted P (firstn k (map (piece_symbol P) (l1 ++ [p])))
          /\ translations P (firstn k (map (piece_symbol P) (l1 ++ [p]))) res1
          /\ forall j, (k < j <= length (l1 ++ [p]))%nat -> ~ accepted P (firstn j (map (piece_symbol P) (l1 ++ [p])))).
      { intros m1 Hm1 Hm1'. rewrite Llen. destruct (isFinal (all_finals P) st1) eqn:Efin.
        - pose proof (array_nonempty (p_toupper P) (p_sort P) Hs _ _ _ _ _ _ _ _ _ _ _ HA HC Ef) as Ne.
          apply proj2 in Ne. specialize (Ne Efin).
          assert (st1 <> []) by (intros ->; discriminate). specialize (Hm1' H0).
          destruct res1 as [|x res1]; [congruence|]. exists (S (length l1)). split; [lia|]. rewrite Fall.
          split; [apply Ac1; reflexivity|]. split; [eapply at_translations; eauto|]. intros j Hj. lia.
        - assert (res1 = res) by (clear - Ef; congruence). subst res1.
          assert (Nacc : ~ accepted P (map (piece_symbol P) (l1 ++ [p]))) by (intros K; apply Ac1 in K; discriminate).
          destruct res as [|x res].
          + destruct Hres as [Hm0 Hres]. split; auto. intros j Hj. destruct (Nat.eq_dec j (S (length l1))) as [->|].
            * now rewrite Fall.
            * rewrite Fst by lia. apply Hres. lia.
          + destruct Hres as (k & Hk & Ha & Ht & Hno). exists k. split; [lia|]. rewrite Fst by lia. split; auto. split; auto.
            intros j Hj. destruct (Nat.eq_dec j (S (length l1))) as [->|].
            * now rewrite Fall.
            * rewrite Fst by lia. apply Hno. lia. }
      unfold vs0. rewrite Eapp. destruct st1 as [|y st1].
      + assert (Dead : ~ alive P (map (piece_symbol P) (l1 ++ [p]))) by (apply Al1; reflexivity).
        specialize (Hres1 m (or_intror (conj eq_refl eq_refl)) ltac:(congruence)).
        destruct res1 as [|x res1].
        * assert (r1 = None) by (clear - H; congruence). subst r1. intros k Hk.
          destruct Hres1 as [_ Hres1]. destruct (le_lt_dec k (length (l1 ++ [p]))) as [Hle|Hgt].
          -- rewrite map_app, firstn_app, map_length. replace (k - length (l1 ++ [p]))%nat with 0%nat by lia.
             rewrite firstn_O, app_nil_r. apply Hres1. lia.
          -- intros K. apply Dead. apply AccAlive in K. rewrite map_app, firstn_app in K.
             rewrite firstn_all2 in K by (rewrite map_length; lia). eapply Pre; eauto.
        * assert (Hal' : forall j, (j <= length (l1 ++ [p]))%nat -> (alive P (firstn j (map (piece_symbol P) (l1 ++ [p]))) <-> (j <= m)%nat)).
          { intros j Hj. rewrite Llen in Hj. destruct (Nat.eq_dec j (S (length l1))) as [->|].
            - rewrite Fall. split; [intros; contradiction|lia].
            - rewrite Fst by lia. apply Hal. lia. }
          assert (Hq' : queue ++ p = concat (skipn m (l1 ++ [p]))).
          { rewrite Hq, skipn_app. replace (m - length l1)%nat with 0%nat by lia. cbn [skipn].
            rewrite concat_app. cbn. now rewrite app_nil_r. }
          apply (IH (l1 ++ [p]) [] (x :: res1) (queue ++ p) m Hst1 Hal' ltac:(lia) Hq' Hres1 r1). exact H.
      + assert (Live : alive P (map (piece_symbol P) (l1 ++ [p]))).
        { destruct y as [q s d]. exists s, q. eapply Hst1. now left. }
        assert (m = length l1).
        { assert (K : alive P (map (piece_symbol P) l1)) by (rewrite <- Emap in Live; eapply Pre; eauto).
          specialize (Hal (length l1) (le_n _)). rewrite <- (map_length (piece_symbol P)), firstn_all, map_length in Hal.
          apply Hal in K. lia. }
        subst m. specialize (Hres1 (S (length l1)) (or_introl eq_refl) ltac:(auto)).
        assert (Hal' : forall j, (j <= length (l1 ++ [p]))%nat -> (alive P (firstn j (map (piece_symbol P) (l1 ++ [p]))) <-> (j <= S (length l1))%nat)).
        { intros j Hj. rewrite Llen in Hj. destruct (Nat.eq_dec j (S (length l1))) as [->|].
          - rewrite Fall. split; auto.
          - rewrite Fst by lia. rewrite Hal by lia. lia. }
        assert (Hq' : queue = concat (skipn (S (length l1)) (l1 ++ [p]))).
        { rewrite Hq. rewrite skipn_all. rewrite skipn_all2 by (rewrite Llen; lia). reflexivity. }
        assert (Hres2 : if match res1 with [] => true | _ => false end
          then S (length l1) = length (l1 ++ [p]) /\ forall j, (0 < j <= length (l1 ++ [p]))%nat -> ~ accepted P (firstn j (map (piece_symbol P) (l1 ++ [p])))
          else exists k, (0 < k <= S (length l1))%nat /\ accepted P (firstn k (map (piece_symbol P) (l1 ++ [p])))
            /\ translations P (firstn k (map (piece_symbol P) (l1 ++ [p]))) res1
            /\ forall j, (k < j <= length (l1 ++ [p]))%nat -> ~ accepted P (firstn j (map (piece_symbol P) (l1 ++ [p])))).
        { destruct res1; [split; [now rewrite Llen|apply Hres1]|exact Hres1]. }
        assert (H' : biltrans_loop P up fu (y :: st1) res1 queue l2 = Ok r1) by (destruct res1; exact H).
        apply (IH (l1 ++ [p]) (y :: st1) res1 queue (S (length l1)) Hst1 Hal' ltac:(lia) Hq' Hres2 r1 H'). }
  pose proof (at_start P H1 _ Ei) as Hst0.
  assert (Alive0 : alive P []) by (exists [], (p_root P); constructor).
  specialize (L l [] init [] [] 0%nat Hst0).
  assert (G : let vs := map (piece_symbol P) ([] ++ l) in
    match r0 with
    | None => forall k, (0 < k <= length vs)%nat -> ~ accepted P (firstn k vs)
    | Some ([], _) => forall k, (0 < k <= length vs)%nat -> ~ accepted P (firstn k vs)
    | Some (res, queue) => exists k m, (0 < k <= m)%nat /\ (m <= length vs)%nat
      /\ accepted P (firstn k vs) /\ translations P (firstn k vs) res
      /\ (forall j, (k < j <= length vs)%nat -> ~ accepted P (firstn j vs))
      /\ queue = concat (skipn m ([] ++ l)) /\ (forall j, (j <= length vs)%nat -> (alive P (firstn j vs) <-> (j <= m)%nat))
    end).
  { apply L; auto.
    - intros j Hj. cbn in Hj. assert (j = 0%nat) by lia. subst j. cbn. split; auto.
    - split; auto. intros j Hj. cbn in Hj. lia. }
  cbn [app] in G. rewrite <- Hnm in G. cbv zeta in G. subst r. destruct r0 as [[[|x res] queue]|]; exact G.
Qed.

(** A node is accepting if any of the four kinds of sections accepts in it. *)
Theorem C39_sections : forall P l, accepted P l <->
  exists s q, rpath (p_find P) (p_root P) l s q
    /\ exists kind, In kind [p_standard P; p_incond P; p_postblank P; p_preblank P] /\ In q (map fst kind).
Proof.
  assert (K : forall q fins, final_weight q fins <> None <-> In q (map fst fins)).
  { intros q fins. induction fins as [|[n w] fins IH]; cbn; [tauto|]. destruct (Nat.eqb_spec n q).
    - subst n. split; auto. discriminate.
    - rewrite IH. tauto. }
  intros P l. unfold accepted. split; intros (s & q & Hp & H); exists s, q; split; auto.
  - apply K in H. unfold all_finals in H. rewrite !map_app, !in_app_iff in H. cbn [In].
    destruct H as [H|[H|[H|H]]]; [exists (p_standard P)|exists (p_incond P)|exists (p_postblank P)|exists (p_preblank P)]; auto 8.
  - apply K. unfold all_finals. rewrite !map_app, !in_app_iff. destruct H as (k & [<-|[<-|[<-|[<-|[]]]]] & H); auto.
Qed.
(** What biltrans prints.  [c] is the unit left out (C39_last_unit_refuted); the mark '=' is
    kept, every translation is followed by the rest of the word, and slashes separate them.
    Unknown words are printed with '@', words marked with '*' as they are. *)
Theorem C39_output : forall P w c (delim mark : bool) r,
  let open : ustr := if delim then [94] else [] in
  let close : ustr := if delim then [36] else [] in
  let m : ustr := if mark then [61] else [] in
  w <> [] -> hd 0 w <> 42 -> (mark = false -> hd 0 w <> 61) -> Z.of_nat (length w) < 2 ^ 31 ->
  step_biltrans P (c :: close) w = Ok r ->
  exists out, biltrans P false (open ++ m ++ w ++ [c] ++ close) delim = Ok out
  /\ match r with
     | None => out = open ++ [64] ++ m ++ w ++ [c] ++ close
     | Some (res, queue) => exists body, out = open ++ m ++ body ++ close
         /\ (res <> [] -> 47 :: body = flat_map (fun t => 47 :: t ++ queue) res)
     end.
Proof.
  intros P w c delim mark r open close m Hne H42 H61 Hlen H.
  set (input := open ++ m ++ w ++ [c] ++ close). set (n := Z.of_nat (length input)). set (k := Z.of_nat (length w)).
  set (d := if delim then 1 else 0). set (e := if mark then 1 else 0).
  assert (En : n = k + 1 + d + d + e).
  { unfold n, k, d, e, input, open, close, m. rewrite !app_length. destruct delim, mark; cbn [length]; lia. }
  assert (Hk : 1 <= k) by (unfold k; destruct w; [congruence|cbn [length]; lia]).
  assert (Eskip : skipn (Z.to_nat (d + e)) input = w ++ [c] ++ close).
  { unfold d, e, input, open, m. destruct delim, mark; reflexivity. }
  assert (Enth : nth (Z.to_nat d) input 0 = if mark then 61 else hd 0 w).
  { unfold d, input, open, m. destruct w; [congruence|]. destruct delim, mark; reflexivity. }
  assert (J : forall res queue, res <> [] -> 47 :: join_forms res queue = flat_map (fun t => 47 :: t ++ queue) res).
  { intros res queue. induction res as [|x [|y res] IH]; [congruence| |].
    - intros _. cbn [join_forms flat_map]. now rewrite app_nil_r.
    - intros _. specialize (IH ltac:(discriminate)). change (join_forms (x :: y :: res) queue) with (x ++ queue ++ 47 :: join_forms (y :: res) queue).
      rewrite IH. change (flat_map (fun t => 47 :: t ++ queue) (x :: y :: res)) with ((47 :: x ++ queue) ++ flat_map (fun t => 47 :: t ++ queue) (y :: res)).
      cbn [app]. now rewrite <- app_assoc. }
  exists (match r with None => open ++ [64] ++ m ++ w ++ [c] ++ close
          | Some (res, queue) => open ++ m ++ join_forms res queue ++ close end).
  split; [|destruct r as [[res queue]|]; [exists (join_forms res queue); split; [reflexivity|apply J]|reflexivity]].
  assert (Hd : 0 <= d <= 1) by (unfold d; destruct delim; lia). assert (He : 0 <= e <= 1) by (unfold e; destruct mark; lia).
  assert (Hk2 : k < 2 ^ 31) by exact Hlen. assert (Ed : d = if delim then 1 else 0) by reflexivity.
  unfold biltrans. fold n. fold d. clearbody n.
  replace (n <=? d) with false by lia. rewrite Enth.
  replace ((if mark then 61 else hd 0 w) =? 42) with false by (destruct mark; lia).
  replace ((if mark then 61 else hd 0 w) =? 61) with mark by (destruct mark; [reflexivity|]; specialize (H61 eq_refl); lia).
  replace (if mark then d + 1 else d) with (d + e) by (unfold e; destruct mark; lia).
  replace (n <? d + e) with false by lia.
  assert (Ecount : Z.min (u32 (u32 (if delim then n - 2 else n - 1) - (d + e))) (n - (d + e)) = k).
  { replace (if delim then n - 2 else n - 1) with (k + d + e) by (rewrite Ed; destruct delim; lia).
    assert (E1 : u32 (k + d + e) = k + d + e) by (unfold u32; rewrite Z.mod_small; lia).
    rewrite E1. replace (k + d + e - (d + e)) with k by lia.
    assert (E2 : u32 k = k) by (unfold u32; rewrite Z.mod_small; lia). rewrite E2.
    lia. }
  cbv zeta. rewrite Ecount, Eskip. replace (Z.to_nat k) with (length w) by (unfold k; lia).
  rewrite firstn_app, firstn_all, Nat.sub_diag, firstn_O, app_nil_r.
  rewrite skipn_app, skipn_all, Nat.sub_diag. cbn [skipn]. rewrite app_nil_l. cbn [app]. rewrite H. cbn [obind andb].
  destruct r as [[res queue]|]; [reflexivity|]. unfold input, open. destruct delim; reflexivity.
Qed.
Theorem C39_marked : forall P full w (delim : bool),
  biltrans P full ((if delim then [94] else []) ++ 42 :: w) delim = Ok ((if delim then [94] else []) ++ 42 :: w).
Proof.
  intros P full w delim. unfold biltrans. destruct delim; cbn [app length].
  - replace (_ <=? 1) with false by (cbn [length]; lia). reflexivity.
  - replace (_ <=? 0) with false by lia. reflexivity.
Qed.

(** It returns. *)
Theorem C39_returns : forall P z tl word,
  is_sort (p_sort P) -> p_toupper P 0 = 0 -> p_weights P = false -> tags_known P -> eps_acyclic (p_find P) ->
  z <> 92 -> is_lead z = false -> (2 <= length word)%nat ->
  exists r N, forall n, (N <= n)%nat -> lookup (with_fuel P n) (z :: tl) word = Ok r.
Proof.
  intros P z tl word Hs H0 Hw Ht Ha Hz Hl Hlen.
  destruct (initial_settles P Ha) as (init & N1 & E1).
  assert (Ec : exists up fu, word_case P word = Ok (up, fu)).
  { destruct word as [|a [|b word]]; cbn [length] in Hlen; try lia. unfold word_case. destruct (p_isupper P a); eauto. }
  destruct Ec as (up & fu & Ec).
  destruct (C50_symbols word z tl Hz Hl) as (l & E & _). change (pieces (z :: tl) word = Ok l) in E.
  assert (L : forall l st, exists r N, forall n, (N <= n)%nat -> lookup_loop (with_fuel P n) st l = Ok r).
  { clear - Ha. induction l as [|p l IH]; intros st; cbn [lookup_loop]; [exists st, 0%nat; auto|].
    destruct st as [|x st].
    - destruct (IH []) as (r & N & HN). exists r, N. intros n Hn. cbn [obind]. auto.
    - destruct (offer_settles P Ha (two (piece_symbol P p) (if beCaseSensitive P (x :: st) then 1 else 0)) (x :: st)) as (st1 & N1 & H1).
      destruct (IH st1) as (r & N & HN). exists r, (N1 + N)%nat. intros n Hn.
      change (step_bool (with_fuel P n) (piece_symbol (with_fuel P n) p) (x :: st))
        with (offer (with_fuel P n) (two (piece_symbol P p) (if beCaseSensitive P (x :: st) then 1 else 0)) (x :: st)).
      rewrite H1 by lia. cbn [obind]. apply HN. lia. }
  destruct (L l init) as (st & N2 & E2).
  set (P' := with_fuel P (N1 + N2)).
  assert (Nm : forall s, In s st -> named P' s).
  { assert (Ht' : tags_known P') by exact Ht.
    assert (K : forall l st0 st, (forall s, In s st0 -> named P' s) -> lookup_loop P' st0 l = Ok st -> forall s, In s st -> named P' s).
    { clear - Ht'. induction l as [|p l IH]; intros st0 st Hst H; cbn [lookup_loop] in H.
      - assert (st0 = st) by congruence. now subst.
      - destruct (match st0 with [] => Ok [] | _ => step_bool P' (piece_symbol P' p) st0 end) as [st1| | | |] eqn:E; try discriminate.
        cbn [obind] in H. eapply (IH st1); eauto. destruct st0 as [|x st0].
        + assert (st1 = []) by congruence. subst. intros s [].
        + eapply offer_named; [exact Ht'| |exact Hst|exact E].
          unfold two. destruct (piece_symbol P' p =? _); apply alternatives_plain. }
    apply (K l init st).
    - eapply initial_named; [exact Ht'|]. apply E1. lia.
    - apply E2. lia. }
  destruct (C37_defined (p_toupper P) (p_sort P) Hs (all_finals P) (p_alpha P) is_escaped false (p_maxAnalyses P) (p_maxClasses P) up fu st H0) as (o & Eo).
  { intros s c w Hin. exact (Nm s Hin c w). }
  { discriminate. }
  exists (match o with [] => false | _ => true end, o), (N1 + N2)%nat. intros n Hn. unfold lookup.
  rewrite E1 by lia. cbn [obind]. change (word_case (with_fuel P n) word) with (word_case P word). rewrite Ec. cbn [obind].
  rewrite E. cbn [obind]. rewrite E2 by lia. cbn [obind]. unfold finals_array.
  change (p_toupper (with_fuel P n)) with (p_toupper P). change (p_sort (with_fuel P n)) with (p_sort P).
  change (all_finals (with_fuel P n)) with (all_finals P). change (p_alpha (with_fuel P n)) with (p_alpha P).
  change (p_weights (with_fuel P n)) with (p_weights P). change (p_maxAnalyses (with_fuel P n)) with (p_maxAnalyses P).
  change (p_maxClasses (with_fuel P n)) with (p_maxClasses P). rewrite Hw, Eo. reflexivity.
Qed.

Import String.StringSyntax.
(** * What does not hold *)
(** Unless the processor was told to be case-sensitive nothing is ever found: false, the
    value of "be case-sensitive", is offered as the alternative symbol 0. *)
Lemma default_dies : forall P v st, p_caseSensitive P = false -> Z.of_nat (length st) < 65536 ->
  step_bool P v st = Ok [].
Proof.
  intros P v st Hc Hl. unfold step_bool, offer, beCaseSensitive, max_case_insensitive_state_size. rewrite Hc.
  replace (Z.of_nat (length st) <? 65536) with true by lia. cbn [orb negb].
  replace (v_choose (p_find P) (two v 0) st) with ([] : analyses).
  - unfold v_closure. destruct (p_fuel P); reflexivity.
  - unfold two, alternatives. cbn [existsb fst]. destruct (v =? 0) eqn:E; [reflexivity|]. cbn [existsb fst Z.eqb orb]. reflexivity.
Qed.
Theorem C39_default_refuted : forall P mem word init l r, p_caseSensitive P = false -> is_sort (p_sort P) ->
  initial_state P = Ok init -> Z.of_nat (length init) < 65536 -> pieces mem word = Ok l -> l <> [] ->
  (lookup P mem word = Ok r -> r = (false, []))
  /\ (forall x, step_biltrans P mem word = Ok x -> x = None).
Proof.
  intros P mem word init l r Hc Hs Hi Hl Hp Hne.
  destruct l as [|p l]; [congruence|].
  assert (E : match init with [] => Ok [] | _ => step_bool P (piece_symbol P p) init end = Ok []).
  { destruct init; auto. now apply default_dies. }
  split.
  - intros H. unfold lookup in H. rewrite Hi in H. cbn [obind] in H.
    destruct (word_case P word) as [[up fu]| | | |]; try discriminate. cbn [obind] in H. rewrite Hp in H. cbn [obind lookup_loop] in H.
    rewrite E in H. cbn [obind] in H.
    assert (E2 : forall l, lookup_loop P [] l = Ok []) by (induction l0 as [|q l0 IH]; cbn; auto).
    rewrite E2 in H. cbn [obind] in H. unfold finals_array, filterFinalsArray in H. cbn [responses obind] in H.
    unfold NFinals in H. destruct (Hs []) as [Pm _]. apply Permutation_nil in Pm. rewrite Pm in H. cbn in H. congruence.
  - intros x H. unfold step_biltrans in H. rewrite Hi in H. cbn [obind] in H.
    destruct (word_case P word) as [[up fu]| | | |]; try discriminate. cbn [obind] in H. rewrite Hp in H. cbn [obind biltrans_loop] in H.
    rewrite E in H. cbn in H. congruence.
Qed.
(** ... although the dictionary has the word. *)
Definition small : list (nat * Z * Z * nat) :=
  [(0%nat, 97, 120, 1%nat); (1%nat, 98, 121, 2%nat); (2%nat, 99, 122, 3%nat); (3%nat, -3, -3, 4%nat)].
Definition small_dix (cs : bool) : processor := sample small [1; 4]%nat cs.
Example C39_default_example : accepted (small_dix false) [97; 98; 99; -3]
  /\ lookup (small_dix false) [0] (txt "abc<n>") = Ok (false, [])
  /\ biltrans (small_dix false) false (txt "^abc<n>$") true = Ok (txt "^@abc<n>$").
Proof.
  split; [|vm_compute; auto]. exists [(120, 0); (121, 0); (122, 0); (-3, 0)], 4%nat.
  split; [path|discriminate].
Qed.

(** biltrans leaves the last unit of the word out: it cannot tell words apart that differ
    only there. *)
Theorem C39_last_unit_refuted : forall P full w c c' out out',
  hd 0 w <> 42 -> hd 0 w <> 61 -> Z.of_nat (length w) < 2 ^ 31 ->
  c <> 92 -> is_lead c = false -> c' <> 92 -> is_lead c' = false -> w <> [] ->
  biltrans P full (94 :: w ++ [c; 36]) true = Ok out ->
  biltrans P full (94 :: w ++ [c'; 36]) true = Ok out' ->
  out = out' \/ (out = 94 :: 64 :: w ++ [c; 36] /\ out' = 94 :: 64 :: w ++ [c'; 36]).
Proof.
  intros P full w c c' out out' H42 H61 Hlen Hc Hlc Hc' Hlc' Hne.
  assert (K : forall c, c <> 92 -> is_lead c = false -> biltrans P full (94 :: w ++ [c; 36]) true =
    let! r := step_biltrans P [c; 36] w in
    match r with
    | None => Ok (94 :: 64 :: w ++ [c; 36])
    | Some (result, queue) => if full && (1 <? u32 (Z.of_nat (length w) - 2)) then Ok [94; 36]
                              else Ok (compose_forms result queue true false)
    end).
  { clear c Hc Hlc. intros c Hc Hlc. unfold biltrans.
    destruct w as [|x w]; [congruence|]. cbn [hd] in *.
    assert (El : Z.of_nat (length (94 :: (x :: w) ++ [c; 36])) = Z.of_nat (length (x :: w)) + 3).
    { cbn [length app]. rewrite app_length. cbn [length]. lia. }
    rewrite El. set (n := Z.of_nat (length (x :: w))) in *. assert (1 <= n) by (unfold n; cbn [length]; lia).
    replace (n + 3 <=? 1) with false by lia. change (Z.to_nat 1) with 1%nat. cbn [nth app].
    replace (x =? 42) with false by lia. replace (x =? 61) with false by lia.
    replace (n + 3 <? 1) with false by lia.
    assert (Eu : u32 (n + 3 - 2) = n + 1) by (unfold u32; rewrite Z.mod_small; lia).
    rewrite Eu. replace (n + 1 - 1) with n by lia. assert (En : u32 n = n) by (unfold u32; rewrite Z.mod_small; lia).
    rewrite En. replace (Z.min n (n + 3 - 1)) with n by lia. change (Z.to_nat 1) with 1%nat. cbn [skipn].
    change (x :: w ++ [c; 36]) with ((x :: w) ++ [c; 36]).
    replace (Z.to_nat n) with (length (x :: w)) by (unfold n; lia).
    rewrite firstn_app, firstn_all, Nat.sub_diag, firstn_O, app_nil_r.
    rewrite skipn_app, skipn_all, Nat.sub_diag. cbn [skipn]. rewrite app_nil_l.
    destruct (step_biltrans P [c; 36] (x :: w)) as [[[res q]|]| | | |]; cbn [obind]; try reflexivity.
    replace (n + 1 - 3) with (n - 2) by lia. reflexivity. }
  assert (S : step_biltrans P [c; 36] w = step_biltrans P [c'; 36] w).
  { unfold step_biltrans. destruct (initial_state P); cbn [obind]; auto. destruct (word_case P w) as [[]| | | |]; cbn [obind]; auto.
    destruct (C50_symbols w c [36] Hc Hlc) as (l & E & Hs). destruct (C50_symbols w c' [36] Hc' Hlc') as (l' & E' & Hs').
    change (pieces [c; 36] w = Ok l) in E. change (pieces [c'; 36] w = Ok l') in E'. rewrite E, E'.
    now rewrite (C50_unique _ _ _ Hs Hs'). }
  rewrite !K by auto. rewrite S. intros H H'.
  destruct (step_biltrans P [c'; 36] w) as [[[res q]|]| | | |]; cbn [obind] in *; try discriminate.
  - left. destruct (full && _); congruence.
  - right. split; congruence.
Qed.
Example C39_last_unit_example : accepted (small_dix true) [97; 98; 99; -3]
  /\ lookup (small_dix true) [0] (txt "abc<n>") = Ok (true, [txt "xyz<n>"])
  /\ biltrans (small_dix true) false (txt "^abc<n>$") true = Ok (txt "^x<n$").
Proof.
  split.
  { exists [(120, 0); (121, 0); (122, 0); (-3, 0)], 4%nat. split; [path|discriminate]. }
  vm_compute. auto.
Qed.

(** Symbols between the known beginning and the point where the dictionary gives up are lost. *)
Theorem C39_gap_refuted : exists P, p_caseSensitive P = true
  /\ translations P [97] [[120]] /\ ~ accepted P [97; 98] /\ ~ accepted P [97; 98; 100]
  /\ step_biltrans P [0] [97; 98; 100] = Ok (Some ([[120]], [100])).
Proof.
  exists (small_dix true). split; [reflexivity|].
  assert (H1 : forall n, p_find (small_dix true) n 1 = []).
  { intros n. cbn [p_find small_dix sample]. unfold arcs_find, small. cbn [flat_map Z.eqb Pos.eqb]. rewrite !andb_false_r. reflexivity. }
  assert (N : forall vs st, at_word (small_dix true) vs st -> isFinal (all_finals (small_dix true)) st = false -> ~ accepted (small_dix true) vs).
  { intros vs st Hst Hf K. apply (at_accepted _ _ _ Hst) in K. congruence. }
  assert (I0 : at_word (small_dix true) [] [mkV 0%nat [] false]) by (apply at_start; auto).
  assert (I1 : at_word (small_dix true) ([] ++ [97]) [mkV 1%nat [(120, 0)] false]).
  { eapply at_step; [reflexivity|exact H1|exact I0|vm_compute; reflexivity]. }
  assert (I2 : at_word (small_dix true) (([] ++ [97]) ++ [98]) [mkV 2%nat [(120, 0); (121, 0)] false]).
  { eapply at_step; [reflexivity|exact H1|exact I1|vm_compute; reflexivity]. }
  assert (I3 : at_word (small_dix true) ((([] ++ [97]) ++ [98]) ++ [100]) []).
  { eapply at_step; [reflexivity|exact H1|exact I2|vm_compute; reflexivity]. }
  split; [eapply (at_translations _ H1 isort_is_sort _ _ false false _ I1); vm_compute; reflexivity|].
  split; [apply (N _ _ I2); vm_compute; reflexivity|]. split; [apply (N _ _ I3); reflexivity|]. vm_compute. reflexivity.
Qed.

(** biltransfull answers "^$" for every known word of more than a few letters. *)
Theorem C39_full_refuted : forall P w c r q, hd 0 w <> 42 -> hd 0 w <> 61 -> (4 <= length w)%nat ->
  Z.of_nat (length w) < 2 ^ 31 -> step_biltrans P [c; 36] w = Ok (Some (r, q)) ->
  biltrans P true (94 :: w ++ [c; 36]) true = Ok [94; 36].
Proof.
  intros P w c r q H42 H61 Hlen Hmax H. unfold biltrans.
  destruct w as [|x w]; [cbn in Hlen; lia|]. cbn [hd] in *.
  assert (El : Z.of_nat (length (94 :: (x :: w) ++ [c; 36])) = Z.of_nat (length (x :: w)) + 3).
  { cbn [length app]. rewrite app_length. cbn [length]. lia. }
  rewrite El. set (n := Z.of_nat (length (x :: w))) in *. assert (4 <= n) by (unfold n; lia).
  replace (n + 3 <=? 1) with false by lia. change (Z.to_nat 1) with 1%nat. cbn [nth app].
  replace (x =? 42) with false by lia. replace (x =? 61) with false by lia.
  replace (n + 3 <? 1) with false by lia.
  assert (Eu : u32 (n + 3 - 2) = n + 1) by (unfold u32; rewrite Z.mod_small; lia).
  rewrite Eu. replace (n + 1 - 1) with n by lia. assert (En : u32 n = n) by (unfold u32; rewrite Z.mod_small; lia).
  rewrite En. replace (Z.min n (n + 3 - 1)) with n by lia. change (Z.to_nat 1) with 1%nat. cbn [skipn].
  change (x :: w ++ [c; 36]) with ((x :: w) ++ [c; 36]).
  replace (Z.to_nat n) with (length (x :: w)) by (unfold n; lia).
  rewrite firstn_app, firstn_all, Nat.sub_diag, firstn_O, app_nil_r.
  rewrite skipn_app, skipn_all, Nat.sub_diag. cbn [skipn]. rewrite app_nil_l, H. cbn [obind andb].
  assert (E3 : u32 (n + 1 - 3) = n - 2) by (unfold u32; rewrite Z.mod_small; lia).
  rewrite E3. replace (1 <? n - 2) with true by lia. reflexivity.
Qed.
Example C39_full_example : biltrans (small_dix true) false (txt "^abcde$") true = Ok (txt "^xd$")
  /\ biltrans (small_dix true) true (txt "^abcde$") true = Ok (txt "^$").
Proof. vm_compute. auto. Qed.

(** A word of one upper-case letter: the unit behind the end of the view is looked at. *)
Theorem C39_single_refuted : forall P mem c init, initial_state P = Ok init -> p_isupper P c = true ->
  lookup P mem [c] = UB /\ step_biltrans P mem [c] = UB.
Proof.
  intros P mem c init Hi Hc. unfold lookup, step_biltrans. rewrite Hi. cbn [obind]. unfold word_case. rewrite Hc. auto.
Qed.
Example C39_single_example : lookup (small_dix true) [0] [65] = UB.
Proof. vm_compute. reflexivity. Qed.

(** * Examples *)
Example C39_lookup_example : let P := small_dix true in
  (forall n, p_find P n 1 = []) /\ NoDup (map fst (slexic (p_alpha P)))
  /\ symbols_of (txt "abc<n>") [[97]; [98]; [99]; txt "<n>"]
  /\ Forall2 (names (p_alpha P)) [[97]; [98]; [99]; txt "<n>"] [97; 98; 99; -3]
  /\ lookup P [0] (txt "abc<n>") = Ok (true, [txt "xyz<n>"])
  /\ lookup P [0] (txt "abd<n>") = Ok (false, []).
Proof.
  cbv zeta. split.
  { intros n. cbn [p_find small_dix sample]. unfold arcs_find, small. cbn [flat_map Z.eqb Pos.eqb]. rewrite !andb_false_r. reflexivity. }
  split; [repeat constructor; intros []|]. split.
  { assert (F : forall c r, is_lead c = false -> first_cp [c] r).
    { intros c r H. left. exists c. split; auto. intros [K _]. congruence. }
    change (txt "abc<n>") with ([97] ++ [98] ++ [99] ++ 60 :: [110] ++ 62 :: []).
    apply so_char; [now apply F|discriminate|discriminate|].
    apply so_char; [now apply F|discriminate|discriminate|].
    apply so_char; [now apply F|discriminate|discriminate|].
    apply (so_tag [110] [] []); [cbn; lia|constructor]. }
  split; [|vm_compute; auto].
  constructor; [left; eauto|]. constructor; [left; eauto|]. constructor; [left; eauto|]. constructor; [|constructor].
  right. left. split; [discriminate|now left].
Qed.
Example C39_longest_example :
  step_biltrans (small_dix true) [0] (txt "ax<n>") = Ok (Some ([[120]], txt "x<n>"))
  /\ step_biltrans (small_dix true) [0] (txt "x") = Ok None.
Proof. vm_compute. auto. Qed.

(** Two translations, a mark and a rest. *)
Definition two_dix : processor :=
  sample [(0%nat, 97, 120, 1%nat); (0%nat, 97, 121, 2%nat)] [1; 2]%nat true.
Example C39_output_example :
  step_biltrans two_dix (txt "X$") (txt "abc") = Ok (Some ([txt "x"; txt "y"], txt "bc"))
  /\ biltrans two_dix false (txt "^=abcX$") true = Ok (txt "^=xbc/ybc$")
  /\ biltrans two_dix false (txt "bcX") false = Ok (txt "@bcX")
  /\ biltrans two_dix false (txt "^*abc$") true = Ok (txt "^*abc$").
Proof. vm_compute. auto. Qed.
Example C39_sections_example : accepted two_dix [97] /\ ~ accepted two_dix [98].
Proof.
  split.
  - exists [(120, 0)], 1%nat. split; [path|discriminate].
  - intros (s & q & H & _). inversion H; subst;
    match goal with K : In _ _ |- _ => cbn in K; tauto end.
Qed.

Print Assumptions C39_lookup.
Print Assumptions C39_longest.
Print Assumptions C39_returns.
Print Assumptions C39_default_refuted.
Print Assumptions C39_last_unit_refuted.
Print Assumptions C39_gap_refuted.
Print Assumptions C39_full_refuted.
Print Assumptions C39_single_refuted.
Print Assumptions C39_sections.
Print Assumptions C39_output.
Print Assumptions C39_marked.
