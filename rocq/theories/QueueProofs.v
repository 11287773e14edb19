(** Proofs for C72: biltransWithQueue. *)
From Coq Require Import Sorted.
From Verif Require Import Base CompressionModel AlphabetModel StateModel StateSpec StatePathProofs StateProps
  FinalsModel FinalsProps StringModel StringProps InputModel StreamModel ProcessorModel BufferModel
  ProcessorProofs CompoundProofs CompoundProps LookupProps AnalysisSpec AnalysisProofs AnalysisProps QueueModel QueueSpec.

Lemma symbols_nonempty : forall w l, symbols_of w l -> Forall (fun p => p <> []) l.
Proof.
  intros w l H. induction H as [| |c r l Hc _ IH|t r l _ _ IH|r l _ _ IH|c r l Hc _ _ _ IH]; auto; constructor; auto; try discriminate;
  destruct Hc as [(x & -> & _)|(x & y & -> & _)]; discriminate.
Qed.
Lemma symbols_some : forall w l, symbols_of w l -> l = [] -> w = [] \/ w = [92].
Proof. intros w l H. destruct H; auto; discriminate. Qed.

Section Loop.
  Context (P : processor) (cs : bool) (Hs : is_sort (p_sort P)) (HA : 0 < p_maxAnalyses P) (HC : 0 < p_maxClasses P).
  Context (up fu : bool).
  Lemma state_translated : forall w st res, good P cs w -> state_of P w = Ok st -> finals_array P up fu st = Ok res ->
    isFinal (all_finals P) st = true -> res <> [] /\ translated_as P cs w up fu res.
  Proof.
    intros w st res G H Ea Hfin. pose proof (state_reads _ _ _ _ G H) as R. unfold finals_array in Ea.
    assert (Ne : res <> []) by (apply (array_nonempty (p_toupper P) (p_sort P) Hs _ _ _ _ _ _ _ _ _ _ _ HA HC Ea); exact Hfin).
    split; [exact Ne|].
    assert (Core : exists rep : list (ustr * Z),
      res = map (fun x => fst x ++ if p_weights P then weight_text (snd x) else []) rep /\ NoDup (map fst rep)
      /\ StronglySorted by_weight rep
      /\ (forall t c, In (t, c) rep -> exists s, In s st /\ reports (p_toupper P) (all_finals P) (p_alpha P) is_escaped up fu 0 s t c)
      /\ (Z.of_nat (length st) <= p_maxAnalyses P -> Z.of_nat (length st) <= p_maxClasses P ->
          forall s, In s st -> final_weight (v_where s) (all_finals P) <> None ->
           exists t c least, reports (p_toupper P) (all_finals P) (p_alpha P) is_escaped up fu 0 s t c
             /\ In (t, least) rep /\ least <= c)).
    { destruct (Z_le_gt_dec (Z.of_nat (length st)) (p_maxAnalyses P)) as [LA|LA];
      [destruct (Z_le_gt_dec (Z.of_nat (length st)) (p_maxClasses P)) as [LC|LC]|].
      1: { destruct (C37_complete (p_toupper P) (p_sort P) Hs _ _ _ _ _ _ _ _ _ _ _ Ea LA LC) as (rep & E & N & So & Snd & Cpl).
           exists rep. auto. }
      all: destruct (C37_reported (p_toupper P) (p_sort P) Hs _ _ _ _ _ _ _ _ _ _ _ Ea) as (rep & E & N & So & _ & _ & Snd);
        exists rep; split; [exact E|]; split; [exact N|]; split; [exact So|]; split; [exact Snd|lia]. }
    destruct Core as (rep & E & N & So & Snd & Cpl). exists rep. split; [exact E|]. split.
    { intros K. subst rep. apply Ne. rewrite E. reflexivity. }
    split; [exact N|]. split; [exact So|]. split.
    { intros t c Hin. destruct (Snd t c Hin) as ([q s d] & Hin' & Hr). apply R in Hin' as (l & A & B). exists l, d, s, q. auto. }
    exists st. split; [exact R|]. exact Cpl.
  Qed.
  Notation codes := (map (piece_symbol P)).
  Lemma codes_snoc : forall l p, codes (l ++ [p]) = codes l ++ [piece_symbol P p].
  Proof. intros. now rewrite map_app. Qed.
  Lemma firstn_codes : forall l p j, (j <= length l)%nat -> firstn j (codes (l ++ [p])) = firstn j (codes l).
  Proof.
    intros l p j Hj. rewrite codes_snoc, firstn_app, map_length. replace (j - length l)%nat with 0%nat by lia.
    now rewrite firstn_O, app_nil_r.
  Qed.
  Lemma firstn_last : forall l p, firstn (S (length l)) (codes (l ++ [p])) = codes (l ++ [p]).
  Proof. intros l p. apply firstn_all2. rewrite map_length, app_length. cbn [length]. lia. Qed.
  Lemma len_snoc : forall l (p : ustr), length (codes (l ++ [p])) = S (length (codes l)).
  Proof. intros. rewrite !map_length, app_length. cbn [length]. lia. Qed.

  Notation reads_to l := (last_read P cs (codes l)).
  Notation entry_at l := (last_entry P cs (codes l)).
  Lemma read_on : forall l p, living P cs (codes (l ++ [p])) -> reads_to (l ++ [p]) (S (length l)).
  Proof.
    intros l p H. split; [rewrite len_snoc, map_length; lia|]. split; [now rewrite firstn_last|].
    intros j Hj. rewrite len_snoc, map_length in Hj. lia.
  Qed.
  Lemma read_stop : forall l p m, ~ living P cs (codes (l ++ [p])) -> reads_to l m -> reads_to (l ++ [p]) m.
  Proof.
    intros l p m H (H1 & H2 & H3). rewrite map_length in *. split; [rewrite len_snoc, map_length; lia|]. split; [now rewrite firstn_codes|].
    intros j Hj. rewrite len_snoc, map_length in Hj. destruct (Nat.eq_dec j (S (length l))) as [->|].
    - now rewrite firstn_last.
    - rewrite firstn_codes by lia. apply H3. lia.
  Qed.
  Lemma entry_here : forall l p, accepting P cs (all_finals P) (codes (l ++ [p])) -> entry_at (l ++ [p]) (S (length l)).
  Proof.
    intros l p H. split; [rewrite len_snoc, map_length; lia|]. split; [now rewrite firstn_last|].
    intros j Hj. rewrite len_snoc, map_length in Hj. lia.
  Qed.
  Lemma entry_stays : forall l p k, ~ accepting P cs (all_finals P) (codes (l ++ [p])) -> entry_at l k -> entry_at (l ++ [p]) k.
  Proof.
    intros l p k H (H1 & H2 & H3). rewrite map_length in *. split; [rewrite len_snoc, map_length; lia|].
    split; [rewrite firstn_codes by lia; exact H2|].
    intros j Hj. rewrite len_snoc, map_length in Hj. destruct (Nat.eq_dec j (S (length l))) as [->|].
    - now rewrite firstn_last.
    - rewrite firstn_codes by lia. apply H3. lia.
  Qed.
  Lemma no_entry : forall vs : list Z, (forall k, ~ last_entry P cs vs k) <->
    forall k, (0 < k <= length vs)%nat -> ~ accepting P cs (all_finals P) (firstn k vs).
  Proof.
    intros vs. split.
    - intros H k Hk K.
      assert (G : forall d k, (0 < k <= length vs)%nat -> (length vs - k <= d)%nat -> ~ accepting P cs (all_finals P) (firstn k vs)).
      { induction d as [|d IH]; intros k' Hk' Hd Ha; apply (H k'); split; auto; split; auto; intros j Hj; [lia|].
        apply IH; lia. }
      exact (G (length vs - k)%nat k Hk (le_n _) K).
    - intros H k (Hk & Ha & _). exact (H k Hk Ha).
  Qed.
  Lemma none_stays : forall l p, ~ accepting P cs (all_finals P) (codes (l ++ [p])) -> (forall k, ~ entry_at l k) -> forall k, ~ entry_at (l ++ [p]) k.
  Proof.
    intros l p H H0. apply no_entry. pose proof (proj1 (no_entry _) H0) as H1. rewrite map_length in H1.
    intros j Hj. rewrite len_snoc, map_length in Hj. destruct (Nat.eq_dec j (S (length l))) as [->|].
    - now rewrite firstn_last.
    - rewrite firstn_codes by lia. apply H1. lia.
  Qed.

  Record state_at (l : list ustr) (st : analyses) (res : list ustr) (queue : ustr) (seen : bool) (m : nat) : Prop := {
    sa_state : state_of P (codes l) = Ok st;
    sa_read : reads_to l m;
    sa_queue : queue = concat (skipn m l);
    sa_seen : seen = true <-> tagged l;
    sa_res : if match res with [] => true | _ => false end then m = length l /\ forall k, ~ entry_at l k
             else exists k, entry_at l k /\ translated_as P cs (firstn k (codes l)) up fu res
  }.
  Lemma good_prefix : forall a b, good P cs (a ++ b) -> good P cs a.
  Proof.
    intros a b G k. destruct (G (Nat.min k (length a))) as (st & E & B). exists st. split; auto. rewrite <- E. f_equal.
    rewrite firstn_app. replace (Nat.min k (length a) - length a)%nat with 0%nat by lia. rewrite firstn_O, app_nil_r.
    destruct (le_lt_dec k (length a)) as [L|L]; [now rewrite Nat.min_l by lia|].
    rewrite Nat.min_r, firstn_all, firstn_all2 by lia. reflexivity.
  Qed.
  Lemma seen_snoc : forall (seen : bool) l (p : ustr), (seen = true <-> tagged l) ->
    (match p with [_] => seen | _ => true end = true <-> tagged (l ++ [p])).
  Proof.
    intros seen l p H. assert (K : tagged (l ++ [p]) <-> tagged l \/ length p <> 1%nat).
    { unfold tagged. split.
      - intros (x & Hx & Hl). apply in_app_or in Hx as [Hx|[->|[]]]; eauto.
      - intros [(x & Hx & Hl)|Hl]; [exists x|exists p]; (split; [apply in_or_app; cbn; auto|exact Hl]). }
    rewrite K, <- H. destruct p as [|a [|b p]]; cbn [length]; split; auto; try (intros [?|?]; auto; congruence);
    intros _; right; lia.
  Qed.
  Lemma loop_spec : forall l2 l1 st res queue seen m, good P cs (codes (l1 ++ l2)) -> Forall (fun p => p <> []) l2 ->
    state_at l1 st res queue seen m -> forall r, queue_loop P up fu st res queue seen l2 = Ok r ->
    match r with
    | Some (st, (res, (queue, seen))) => exists m, state_at (l1 ++ l2) st res queue seen m
    | None => (forall k, ~ entry_at (l1 ++ l2) k) /\ exists m, reads_to (l1 ++ l2) m /\ (m < length (l1 ++ l2))%nat
    end.
  Proof.
    induction l2 as [|p l2 IH]; intros l1 st res queue seen m G Hne I r H; cbn [queue_loop] in H.
    - injection H as <-. rewrite app_nil_r in *. eauto.
    - inversion Hne as [|? ? Hp Hne2]; subst.
      assert (Eapp : l1 ++ p :: l2 = (l1 ++ [p]) ++ l2) by now rewrite <- app_assoc.
      rewrite Eapp in G |- *.
      assert (G1 : good P cs (codes (l1 ++ [p]))) by (apply (good_prefix _ (codes l2)); rewrite <- map_app; exact G).
      destruct I as [Ist Ird Iq Ise Ires].
      destruct (match st with [] => Ok [] | _ => step_case P (piece_symbol P p) st end) as [st1| | | |] eqn:E; try discriminate.
      cbn [obind] in H.
      assert (E1 : state_of P (codes (l1 ++ [p])) = Ok st1).
      { rewrite codes_snoc, state_of_snoc, Ist. cbn [obind]. destruct st; [|exact E]. rewrite closure_nil. congruence. }
      destruct (if isFinal (all_finals P) st1 then finals_array P up fu st1 else Ok res) as [res1| | | |] eqn:Ef; try discriminate.
      cbn [obind] in H.
      pose proof (state_living P cs _ _ G1 E1) as Liv. pose proof (state_accepting P cs (all_finals P) _ _ G1 E1) as Acc.
      pose proof (seen_snoc seen l1 p Ise) as Ise1.
      set (seen1 := match p with [_] => seen | _ => true end) in *.
      assert (Rs : if match res1 with [] => true | _ => false end then m = length l1 /\ forall k, ~ entry_at (l1 ++ [p]) k
             else exists k, entry_at (l1 ++ [p]) k /\ translated_as P cs (firstn k (codes (l1 ++ [p]))) up fu res1).
      { destruct (isFinal (all_finals P) st1) eqn:Efin.
        - destruct (state_translated _ _ _ G1 E1 Ef Efin) as (Ne & Tr). destruct res1 as [|x res1]; [congruence|].
          exists (S (length l1)). split; [apply entry_here; now apply Acc|]. rewrite firstn_last. exact Tr.
        - assert (res1 = res) by congruence. subst res1.
          assert (Na : ~ accepting P cs (all_finals P) (codes (l1 ++ [p]))) by (rewrite <- Acc; congruence).
          destruct res as [|x res].
          + destruct Ires as (Em & Hk). split; [exact Em|]. now apply none_stays.
          + destruct Ires as (k & Hk & Tr). exists k. split; [now apply entry_stays|].
            destruct Hk as (Hk & _). rewrite map_length in Hk. rewrite firstn_codes by lia. exact Tr. }
      destruct st1 as [|y st1].
      + assert (Dead : ~ living P cs (codes (l1 ++ [p]))) by (rewrite <- Liv; congruence).
        pose proof (read_stop _ _ _ Dead Ird) as Rd.
        destruct res1 as [|x res1].
        * assert (r = None) by (destruct p; congruence). subst r. destruct Rs as (Em & Nk).
          assert (Far : forall j, (length l1 < j)%nat -> ~ living P cs (firstn j (codes ((l1 ++ [p]) ++ l2)))).
          { intros j Hj K. apply Dead. rewrite map_app, firstn_app in K.
            rewrite firstn_all2 in K by (rewrite len_snoc, map_length; lia). eapply living_prefix; exact K. }
          assert (Near : forall j, (j <= S (length l1))%nat -> firstn j (codes ((l1 ++ [p]) ++ l2)) = firstn j (codes (l1 ++ [p]))).
          { intros j Hj. rewrite map_app, firstn_app, len_snoc, map_length. replace (j - S (length l1))%nat with 0%nat by lia.
            now rewrite firstn_O, app_nil_r. }
          assert (Len : length ((l1 ++ [p]) ++ l2) = (S (length l1) + length l2)%nat) by (rewrite !app_length; cbn [length]; lia).
          split.
          -- apply no_entry. intros k Hk K. destruct (le_lt_dec k (length l1)) as [L|L].
             ++ rewrite Near in K by lia. apply (proj1 (no_entry _) Nk k); [rewrite len_snoc, map_length; lia|exact K].
             ++ apply (Far k L). now apply accepting_living in K.
          -- exists m. split; [|lia]. destruct Rd as (R1 & R2 & R3). split; [rewrite map_length, Len; lia|].
             split; [rewrite Near by lia; exact R2|]. intros j Hj. apply Far. lia.
        * assert (Hq : queue ++ p = concat (skipn m (l1 ++ [p]))).
          { rewrite Iq, skipn_app. destruct Ird as (R1 & _). rewrite map_length in R1. replace (m - length l1)%nat with 0%nat by lia.
            cbn [skipn]. rewrite concat_app. cbn. now rewrite app_nil_r. }
          assert (H' : queue_loop P up fu [] (x :: res1) (queue ++ p) seen1 l2 = Ok r) by (destruct p; [congruence|exact H]).
          apply (IH (l1 ++ [p]) [] (x :: res1) (queue ++ p) seen1 m G Hne2); [|exact H']. constructor; assumption.
      + assert (Live : living P cs (codes (l1 ++ [p]))) by (apply Liv; congruence).
        assert (m = length l1).
        { destruct Ird as (R1 & R2 & R3). rewrite map_length in *. destruct (Nat.eq_dec m (length l1)); auto. exfalso.
          apply (R3 (length l1)); [lia|]. rewrite firstn_all2 by (rewrite map_length; lia). rewrite codes_snoc in Live.
          eapply living_prefix; exact Live. }
        subst m.
        apply (IH (l1 ++ [p]) (y :: st1) res1 queue seen1 (S (length l1)) G Hne2); [|exact H]. constructor; auto.
        * now apply read_on.
        * rewrite Iq, skipn_all. rewrite skipn_all2 by (rewrite app_length; cbn [length]; lia). reflexivity.
        * destruct res1; [|exact Rs]. split; [rewrite app_length; cbn [length]; lia|apply Rs].
  Qed.
  Lemma start_at : forall init, good P cs [] -> initial_state P = Ok init -> state_at [] init [] [] false 0.
  Proof.
    intros init G E. assert (E0 : state_of P [] = Ok init) by (unfold state_of; rewrite E; reflexivity).
    constructor; auto.
    - split; [cbn; lia|]. split; [|cbn; lia]. cbn. exists [], false, [], (p_root P). split; constructor.
    - split; [discriminate|]. intros (x & [] & _).
    - split; [reflexivity|]. intros k (Hk & _). cbn in Hk. lia.
  Qed.
  Lemma whole_iff : forall st f, filterFinals (p_toupper P) (p_sort P) (all_finals P) (p_alpha P) is_escaped (p_weights P)
      (p_maxAnalyses P) (p_maxClasses P) up fu 0 st = Ok f -> (f <> [] <-> isFinal (all_finals P) st = true).
  Proof.
    intros st f H. unfold filterFinals in H.
    destruct (filterFinalsArray (p_toupper P) (p_sort P) (all_finals P) (p_alpha P) is_escaped (p_weights P)
      (p_maxAnalyses P) (p_maxClasses P) up fu 0 st) as [arr| | | |] eqn:Ea; try discriminate. cbn [obind] in H.
    assert (f = concat (map (fun t => 47 :: t) arr)) by congruence. subst f.
    rewrite <- (array_nonempty (p_toupper P) (p_sort P) Hs _ _ _ _ _ _ _ _ _ _ _ HA HC Ea).
    destruct arr as [|t arr]; [cbn; tauto|split; intros _; discriminate].
  Qed.
End Loop.

Lemma join_slashed : forall res queue, join_forms res queue = slashed (map (fun t => t ++ queue) res).
Proof.
  intros res queue. induction res as [|x [|y res] IH]; auto.
  change (join_forms (x :: y :: res) queue) with (x ++ queue ++ 47 :: join_forms (y :: res) queue). rewrite IH.
  change (slashed (map (fun t => t ++ queue) (x :: y :: res))) with ((x ++ queue) ++ 47 :: slashed (map (fun t => t ++ queue) (y :: res))).
  now rewrite <- app_assoc.
Qed.

(** * What is computed *)
Definition looked_up (P : processor) (up fu delim mark : bool) (unknown : ustr) (l : list ustr) : outcome (ustr * Z) :=
  let! init := initial_state P in
  let! r := queue_loop P up fu init [] [] false l in
  match r with
  | None => Ok (unknown, 0)
  | Some (st, (result, (queue, seentags))) =>
      let! whole := if seentags then Ok [0]
                    else filterFinals (p_toupper P) (p_sort P) (all_finals P) (p_alpha P) is_escaped (p_weights P)
                           (p_maxAnalyses P) (p_maxClasses P) up fu 0 st in
      match whole with
      | [] => Ok (unknown, 0)
      | _ => Ok (compose_forms result queue delim mark, Z.of_nat (length queue))
      end
  end.
Lemma queue_input : forall P w c (delim mark : bool) l,
  let open : ustr := if delim then [94] else [] in
  let close : ustr := if delim then [36] else [] in
  let m : ustr := if mark then [61] else [] in
  w <> [] -> hd 0 w <> 42 -> (mark = false -> hd 0 w <> 61) -> Z.of_nat (length w) < 2 ^ 31 ->
  pieces (c :: close) w = Ok l ->
  biltransWithQueue P (open ++ m ++ w ++ [c] ++ close) delim =
  looked_up P (p_isupper P (hd 0 w) && p_isupper P (hd 0 (tl w ++ [c]))) (p_isupper P (hd 0 w)) delim mark
    (open ++ [64] ++ m ++ w ++ [c] ++ close) l.
Proof.
  intros P w c delim mark l open close m Hne H42 H61 Hlen H.
  set (input := open ++ m ++ w ++ [c] ++ close). set (n := Z.of_nat (length input)). set (k := Z.of_nat (length w)).
  set (d := if delim then 1 else 0). set (e := if mark then 1 else 0).
  assert (En : n = k + 1 + d + d + e).
  { unfold n, k, d, e, input, open, close, m. rewrite !app_length. destruct delim, mark; cbn [length]; lia. }
  assert (Hk : 1 <= k) by (unfold k; destruct w; [congruence|cbn [length]; lia]).
  assert (Eskip : skipn (Z.to_nat (d + e)) input = w ++ [c] ++ close).
  { unfold d, e, input, open, m. destruct delim, mark; reflexivity. }
  assert (Enth : nth (Z.to_nat d) input 0 = if mark then 61 else hd 0 w).
  { unfold d, input, open, m. destruct w; [congruence|]. destruct delim, mark; reflexivity. }
  assert (Ec : queue_case P input (Z.to_nat (d + e)) = Ok (p_isupper P (hd 0 w) && p_isupper P (hd 0 (tl w ++ [c])), p_isupper P (hd 0 w))).
  { unfold queue_case. rewrite Eskip. destruct w as [|x w]; [congruence|]. cbn [app hd tl].
    destruct w as [|y w]; cbn [app hd]; destruct (p_isupper P x); reflexivity. }
  assert (Eun : (if delim then [94; 64] ++ skipn 1 input else [64] ++ input) = open ++ [64] ++ m ++ w ++ [c] ++ close).
  { unfold input, open. destruct delim; reflexivity. }
  assert (Hd : 0 <= d <= 1) by (unfold d; destruct delim; lia). assert (He : 0 <= e <= 1) by (unfold e; destruct mark; lia).
  assert (Hk2 : k < 2 ^ 31) by exact Hlen. assert (Ed : d = if delim then 1 else 0) by reflexivity.
  rewrite <- Eun. unfold biltransWithQueue. fold n. fold d. clearbody n.
  replace (n <=? d) with false by lia. rewrite Enth.
  replace ((if mark then 61 else hd 0 w) =? 42) with false by (destruct mark; lia).
  replace ((if mark then 61 else hd 0 w) =? 61) with mark by (destruct mark; [reflexivity|]; specialize (H61 eq_refl); lia).
  replace (if mark then d + 1 else d) with (d + e) by (unfold e; destruct mark; lia).
  rewrite Ec. cbn [obind].
  assert (Ecount : Z.min (u32 (u32 (if delim then n - 2 else n - 1) - (d + e))) (n - (d + e)) = k).
  { replace (if delim then n - 2 else n - 1) with (k + d + e) by (rewrite Ed; destruct delim; lia).
    assert (E1 : u32 (k + d + e) = k + d + e) by (unfold u32; rewrite Z.mod_small; lia).
    rewrite E1. replace (k + d + e - (d + e)) with k by lia.
    assert (E2 : u32 k = k) by (unfold u32; rewrite Z.mod_small; lia). rewrite E2.
    lia. }
  cbv zeta. rewrite Ecount, Eskip. replace (Z.to_nat k) with (length w) by (unfold k; lia).
  rewrite firstn_app, firstn_all, Nat.sub_diag, firstn_O, app_nil_r.
  rewrite skipn_app, skipn_all, Nat.sub_diag. cbn [skipn]. rewrite app_nil_l. change ([c] ++ close) with (c :: close). rewrite H. cbn [obind].
  reflexivity.
Qed.

(** ** It is the answer *)
Lemma looked_up_answer : forall P cs up fu (delim mark : bool) unknown (l : list ustr) r,
  let open : ustr := if delim then [94] else [] in
  let close : ustr := if delim then [36] else [] in
  let m : ustr := if mark then [61] else [] in
  is_sort (p_sort P) -> 0 < p_maxAnalyses P -> 0 < p_maxClasses P -> l <> [] -> Forall (fun p => p <> []) l ->
  good P cs (map (piece_symbol P) l) -> looked_up P up fu delim mark unknown l = Ok r ->
  queue_answer P cs l (map (piece_symbol P) l) up fu (open ++ m) close unknown r.
Proof.
  intros P cs up fu delim mark unknown l r open close mk Hs HA HC Hl0 Hne G H. unfold looked_up in H.
  destruct (initial_state P) as [init| | | |] eqn:Ei; try discriminate. cbn [obind] in H.
  destruct (queue_loop P up fu init [] [] false l) as [r0| | | |] eqn:El; try discriminate. cbn [obind] in H.
  assert (G0 : good P cs []) by (apply (good_prefix P cs [] (map (piece_symbol P) l)); exact G).
  pose proof (loop_spec P cs Hs HA HC up fu l [] init [] [] false 0 G Hne (start_at P cs up fu init G0 Ei) r0 El) as L.
  cbn [app] in L. destruct r0 as [[st [res [queue seen]]]|].
  2: { injection H as <-. destruct L as (Nk & m & Rd & Hm). eapply qa_unknown; [exact Nk|exact Rd|left; now rewrite map_length]. }
  destruct L as (m & [Ist Ird Iq Ise Ires]).
  assert (Found : forall k, last_entry P cs (map (piece_symbol P) l) k -> translated_as P cs (firstn k (map (piece_symbol P) l)) up fu res ->
    tagged l \/ k = length (map (piece_symbol P) l) ->
    queue_answer P cs l (map (piece_symbol P) l) up fu (open ++ mk) close unknown (compose_forms res queue delim mark, Z.of_nat (length queue))).
  { intros k Hk Tr T. unfold compose_forms. rewrite join_slashed, Iq.
    pose proof (qa_found P cs l _ up fu (open ++ mk) close unknown k m res Hk Ird T Tr) as Q. rewrite <- app_assoc in Q. exact Q. }
  destruct seen.
  - cbn [obind] in H. injection H as <-. pose proof (proj1 Ise eq_refl) as T. destruct res as [|x res].
    + destruct Ires as (Em & Nk). subst queue. rewrite Em, skipn_all. unfold compose_forms. cbn [join_forms concat length app].
      destruct Ird as (_ & R & _). rewrite firstn_all2 in R by (rewrite map_length; lia).
      pose proof (qa_nothing P cs l _ up fu (open ++ mk) close unknown Nk R T) as Q. rewrite <- app_assoc in Q. exact Q.
    + destruct Ires as (k & Hk & Tr). eapply Found; eauto.
  - destruct (filterFinals (p_toupper P) (p_sort P) (all_finals P) (p_alpha P) is_escaped (p_weights P)
      (p_maxAnalyses P) (p_maxClasses P) up fu 0 st) as [f| | | |] eqn:Ef; try discriminate. cbn [obind] in H.
    assert (Nt : ~ tagged l) by (intros T; apply Ise in T; discriminate).
    pose proof (whole_iff P Hs HA HC up fu _ _ Ef) as W. pose proof (state_accepting P cs (all_finals P) _ _ G Ist) as A.
    destruct f as [|z f].
    + injection H as <-. destruct res as [|x res].
      * destruct Ires as (Em & Nk). eapply qa_unknown; eauto.
      * destruct Ires as (k & Hk & Tr). eapply qa_part; eauto. destruct Hk as (Hk & Ha & _).
        destruct (Nat.eq_dec k (length (map (piece_symbol P) l))) as [->|]; [|lia]. exfalso. rewrite firstn_all in Ha.
        apply A in Ha. apply W in Ha. congruence.
    + injection H as <-. assert (Ha : accepting P cs (all_finals P) (map (piece_symbol P) l)) by (apply A, W; discriminate).
      assert (Hl : (0 < length (map (piece_symbol P) l))%nat) by (rewrite map_length; destruct l; [congruence|cbn; lia]).
      destruct res as [|x res].
      -- destruct Ires as (_ & Nk). exfalso. apply (proj1 (no_entry P cs _) Nk (length (map (piece_symbol P) l))); [lia|].
           now rewrite firstn_all.
      -- destruct Ires as (k & Hk & Tr). eapply Found; eauto. right. destruct Hk as (Hk & _ & Hj).
           destruct (Nat.eq_dec k (length (map (piece_symbol P) l))); auto. exfalso.
           apply (Hj (length (map (piece_symbol P) l))); [lia|]. now rewrite firstn_all.
Qed.

(** ** It is computed *)
Section Settling.
  Context (P : processor) (Hs : is_sort (p_sort P)) (H0 : p_toupper P 0 = 0) (Hw : p_weights P = false)
    (Ht : tags_known P) (Ha : eps_acyclic (p_find P)).
  Lemma array_defined : forall up fu st, (forall s, In s st -> named P s) -> exists o, finals_array P up fu st = Ok o.
  Proof.
    intros up fu st Nm. unfold finals_array. rewrite Hw. apply C37_defined; auto.
    - intros s c w Hin. exact (Nm s Hin c w).
    - discriminate.
  Qed.
  Lemma loop_settles : forall up fu l st res queue seen, (forall s, In s st -> named P s) ->
    exists r, settles (fun n => queue_loop (with_fuel P n) up fu st res queue seen l) r
      /\ forall st' x, r = Some (st', x) -> forall s, In s st' -> named P s.
  Proof.
    intros up fu. induction l as [|p l IH]; intros st res queue seen Nm; cbn [queue_loop].
    - eexists. split; [apply settles_ret|]. intros st' x E. injection E as <- _. exact Nm.
    - assert (Step : exists st1, settles (fun n => match st with [] => Ok [] | _ => step_case (with_fuel P n) (piece_symbol (with_fuel P n) p) st end) st1
        /\ forall s, In s st1 -> named P s).
      { destruct st as [|x st]; [exists []; split; [apply settles_ret|intros s []]|].
        destruct (step_case_settles P Ha (piece_symbol P p) (x :: st)) as (st1 & H1). exists st1. split; [exact H1|].
        destruct H1 as (N & HN). intros s Hin. exact (step_case_named (with_fuel P N) Ht _ _ _ Nm (HN N (le_n N)) s Hin). }
      destruct Step as (st1 & S1 & Nm1).
      assert (Res : exists res1, settles (fun n => if isFinal (all_finals (with_fuel P n)) st1 then finals_array (with_fuel P n) up fu st1 else Ok res) res1).
      { change (exists res1, settles (fun _ => if isFinal (all_finals P) st1 then finals_array P up fu st1 else Ok res) res1).
        destruct (isFinal (all_finals P) st1); [|eexists; apply settles_ret].
        destruct (array_defined up fu st1 Nm1) as (o & Eo). exists o, 0%nat. intros n _. exact Eo. }
      destruct Res as (res1 & S2). set (seen1 := match p with [_] => seen | _ => true end).
      assert (Rest : exists r, settles (fun n => match st1 with
          | [] => match p, res1 with
                  | _ :: _, _ :: _ => queue_loop (with_fuel P n) up fu st1 res1 (queue ++ p) seen1 l
                  | _, _ => Ok None
                  end
          | _ => queue_loop (with_fuel P n) up fu st1 res1 queue seen1 l
          end) r /\ forall st' x, r = Some (st', x) -> forall s, In s st' -> named P s).
      { destruct st1 as [|y st1]; [|apply IH; exact Nm1].
        destruct p as [|a p]; [exists None; split; [apply settles_ret|discriminate]|].
        destruct res1 as [|b res1]; [exists None; split; [apply settles_ret|discriminate]|]. apply IH. exact Nm1. }
      destruct Rest as (r & S3 & Nm3). exists r. split; [|exact Nm3].
      exact (settles_bind _ _ st1 r S1 (settles_bind _ _ res1 r S2 S3)).
  Qed.
  Lemma looked_up_settles : forall up fu delim mark unknown l,
    exists r, settles (fun n => looked_up (with_fuel P n) up fu delim mark unknown l) r.
  Proof.
    intros up fu delim mark unknown l. destruct (initial_settles P Ha) as (init & S0).
    assert (Nm : forall s, In s init -> named P s).
    { destruct S0 as (N & HN). intros s Hin. exact (initial_named (with_fuel P N) Ht _ (HN N (le_n N)) s Hin). }
    destruct (loop_settles up fu l init [] [] false Nm) as (r0 & S1 & Nm1).
    set (fin := fun r0 : option (analyses * (list ustr * (ustr * bool))) => match r0 with
      | None => Ok (unknown, 0)
      | Some (st, (result, (queue, seentags))) =>
          let! whole := if seentags then Ok [0]
                    else filterFinals (p_toupper P) (p_sort P) (all_finals P) (p_alpha P) is_escaped (p_weights P)
                           (p_maxAnalyses P) (p_maxClasses P) up fu 0 st in
          match whole with
          | [] => Ok (unknown, 0)
          | _ => Ok (compose_forms result queue delim mark, Z.of_nat (length queue))
          end
      end).
    assert (F : exists r, settles (fun _ => fin r0) r).
    { unfold fin. destruct r0 as [[st [res [queue seen]]]|]; [|eexists; apply settles_ret].
      destruct seen; [eexists; apply settles_ret|]. unfold filterFinals.
      destruct (array_defined up fu st) as (o & Eo); [intros s Hin; exact (Nm1 st _ eq_refl s Hin)|]. unfold finals_array in Eo.
      rewrite Eo. cbn [obind]. destruct (concat (map (fun t : list Z => 47 :: t) o)); eexists; apply settles_ret. }
    destruct F as (r & S2). exists r.
    exact (settles_bind _ _ init r S0 (settles_bind _ (fun _ => fin) r0 r S1 S2)).
  Qed.
End Settling.
Lemma answer_fuel : forall P n cs l vs up fu open close unknown r,
  queue_answer (with_fuel P n) cs l vs up fu open close unknown r -> queue_answer P cs l vs up fu open close unknown r.
Proof.
  intros P n cs l vs up fu open close unknown r H.
  destruct H as [k m res H1 H2 H3 H4|k H1 H2 H3|m H1 H2 H3|H1 H2 H3].
  - exact (qa_found P cs l vs up fu open close unknown k m res H1 H2 H3 H4).
  - exact (qa_part P cs l vs up fu open close unknown k H1 H2 H3).
  - exact (qa_unknown P cs l vs up fu open close unknown m H1 H2 H3).
  - exact (qa_nothing P cs l vs up fu open close unknown H1 H2 H3).
Qed.
(** The states of the beginnings *)
Lemma good_from : forall P cs vs, eps_acyclic (p_find P) ->
  (forall n st k, state_of (with_fuel P n) (firstn k vs) = Ok st -> beCaseSensitive P st = cs) ->
  exists N, forall n, (N <= n)%nat -> good (with_fuel P n) cs vs.
Proof.
  intros P cs vs Ha St.
  assert (After : forall w st, exists r, settles (fun n => after (with_fuel P n) st w) r).
  { intros w. induction w as [|c w IH]; intros st; cbn [after]; [eexists; apply settles_ret|].
    destruct (step_case_settles P Ha c st) as (st1 & H1). destruct (IH st1) as (r & H2).
    exists r. exact (settles_bind _ _ st1 r H1 H2). }
  assert (Of : forall w, exists r, settles (fun n => state_of (with_fuel P n) w) r).
  { intros w. destruct (initial_settles P Ha) as (i & H1). destruct (After w i) as (r & H2).
    exists r. exact (settles_bind _ _ i r H1 H2). }
  destruct (settle_all (fun k n => exists st, state_of (with_fuel P n) (firstn k vs) = Ok st /\ beCaseSensitive P st = cs) (length vs)) as (N & HN).
  { intros k _. destruct (Of (firstn k vs)) as (st & N & HN). exists N. intros n Hn. exists st. split; [auto|]. eauto. }
  exists N. intros n Hn k. destruct (le_lt_dec k (length vs)) as [L|L]; [exact (HN k n L Hn)|].
  replace (firstn k vs) with (firstn (length vs) vs) by (rewrite !firstn_all2; auto; lia). exact (HN (length vs) n (le_n _) Hn).
Qed.
