(** C31: regular expressions compile to their language. *)
From Verif Require Import Base TransducerModel TransducerSpec TransducerProofs RationalSpec
  AlphabetModel AlphabetProofs AlphabetProps AutomataProps RegexpModel RegexpSpec RegexpProofs.

(** * From a run to an expression *)
Lemma letra_inv : forall l c r, no_fin l -> letra l = Ok (c, r) -> exists s, g_char c s /\ l = s ++ r.
Proof.
  intros l c r N H. unfold letra in H. destruct l as [|x l]; [discriminate|]. cbn [token hd] in H.
  inversion_clear N as [|? ? Nx Nl].
  destruct (isReserved x) eqn:Rx; cbn [negb] in H.
  - destruct (Z.eqb_spec x 92) as [->|]; [|discriminate]. rewrite consume_tok in H. cbn [obind] in H.
    unfold reservado in H. destruct l as [|y l]; [discriminate|]. cbn [token hd] in H.
    inversion_clear Nl as [|? ? Ny _].
    destruct (isReserved y) eqn:Ry; [|discriminate]. rewrite consume_tok in H. cbn [obind] in H.
    assert (y = c) by congruence. assert (l = r) by congruence. subst.
    apply isReserved_iff in Ry as [Ry|Ry]; [|contradiction]. exists [92; c]. split; [now constructor|reflexivity].
  - rewrite consume_tok in H. cbn [obind] in H. assert (x = c) by congruence. assert (l = r) by congruence. subst.
    exists [c]. split; [|reflexivity]. constructor. now apply isReserved_false_inv.
Qed.
Lemma consume_inv : forall t l r, consume t l = Ok r -> l = t :: r.
Proof.
  intros t l r H. unfold consume in H. destruct (Z.eqb_spec (token l) t) as [<-|]; [|discriminate].
  destruct l; [discriminate|]. cbn. congruence.
Qed.
Lemma no_fin_app : forall s r, no_fin (s ++ r) -> no_fin r.
Proof. intros s r H. now apply Forall_app in H. Qed.

Lemma lista_inv : forall n l br rest br', no_fin l -> lista n l br = Ok (rest, br') ->
  exists items s, g_items items s /\ l = s ++ rest /\ forall c, In c br' <-> in_items c items \/ In c br.
Proof.
  induction n as [|n IH]; intros l br rest br' N H; [discriminate|]. cbn [lista] in H.
  destruct (negb (isReserved (token l)) || (token l =? 92)) eqn:T.
  - unfold elem in H. rewrite T in H. destruct (letra l) as [[c l1]| | | |] eqn:L; cbn [obind] in H; try discriminate.
    apply letra_inv in L as (s & Hs & ->); [|exact N]. assert (N1 := no_fin_app _ _ N).
    destruct (colaLetra c l1) as [[d l2]| | | |] eqn:CL; cbn [obind] in H; try discriminate.
    destruct (d <? c) eqn:Ecd; cbn [obind] in H; [discriminate|].
    assert (X : (d = c /\ l2 = l1) \/ exists s1, g_char d s1 /\ l1 = [45] ++ s1 ++ l2).
    { unfold colaLetra in CL. destruct (token l1 =? 45).
      - right. destruct (consume 45 l1) as [l3| | | |] eqn:C3; cbn [obind] in CL; try discriminate.
        apply consume_inv in C3 as ->. apply letra_inv in CL as (s1 & Hs1 & ->).
        + exists s1. auto.
        + now inversion N1.
      - left. destruct (_ || _ || _); [|discriminate]. split; congruence. }
    destruct X as [[-> ->]|(s1 & Hs1 & ->)].
    + apply IH in H as (items & s' & Hi & -> & M); [|exact N1].
      exists ((c, c) :: items), (s ++ s'). split; [now constructor|]. split; [apply app_assoc|].
      intros x. rewrite M, zset_inserts_in, zrange_in. split.
      * intros [(lo & hi & Hin & Hx)|[Hx|Hx]]; [left; exists lo, hi; cbn; auto|left; exists c, c; cbn; auto|auto].
      * intros [(lo & hi & [[= <- <-]|Hin] & Hx)|Hx]; [auto|left; exists lo, hi; auto|auto].
    + assert (N2 : no_fin l2) by (cbn [app] in N1; inversion_clear N1 as [|? ? _ N3]; now apply no_fin_app in N3).
      apply IH in H as (items & s' & Hi & -> & M); [|exact N2].
      exists ((c, d) :: items), (s ++ [45] ++ s1 ++ s'). split; [constructor; auto; lia|].
      split; [now rewrite <- !app_assoc|].
      intros x. rewrite M, zset_inserts_in, zrange_in. split.
      * intros [(lo & hi & Hin & Hx)|[Hx|Hx]]; [left; exists lo, hi; cbn; auto|left; exists c, d; cbn; auto|auto].
      * intros [(lo & hi & [[= <- <-]|Hin] & Hx)|Hx]; [auto|left; exists lo, hi; auto|auto].
  - destruct (token l =? 93); [|discriminate]. assert (l = rest) by congruence. assert (br = br') by congruence. subst.
    exists [], []. split; [constructor|]. split; [reflexivity|]. intros c. split; [auto|].
    intros [(lo & hi & [] & _)|X]. exact X.
Qed.

Lemma postop_inv : forall l op r, postop l = Ok (op, r) ->
  (op = 0 /\ l = r) \/ (op = 42 /\ l = [42] ++ r) \/ (op = 63 /\ l = [63] ++ r) \/ (op = 43 /\ l = [43] ++ r).
Proof.
  intros l op r H. unfold postop in H.
  assert (K : forall k, (let! r := consume k l in Ok (k, r)) = Ok (op, r) -> op = k /\ l = [k] ++ r).
  { intros k E. destruct (consume k l) as [l'| | | |] eqn:C; cbn [obind] in E; try discriminate.
    apply consume_inv in C as ->. split; [congruence|]. cbn. congruence. }
  destruct (token l =? 42); [right; left; now apply K|].
  destruct (token l =? 63); [right; right; left; now apply K|].
  destruct (token l =? 43); [right; right; right; now apply K|].
  destruct (_ || _ || _ || _); [|discriminate]. left. split; congruence.
Qed.
Lemma insert_term_in : forall l a t T st s', insert_term l a t T st = Ok s' -> rx_in s' = l.
Proof.
  intros l a t T st s' H. unfold insert_term in H.
  destruct (insertTransducer st t 0 T) as [[[r T'] t']| | | |]; cbn [obind] in H; try discriminate.
  now inversion H.
Qed.

(** The end of a term: an optional operator after the atom *)
Lemma atom_post_inv : forall r s l op rest, g_atom r s -> choosable code_univ r -> postop l = Ok (op, rest) ->
  exists r' s', g_post r' s' /\ choosable code_univ r' /\ s ++ l = s' ++ rest.
Proof.
  intros r s l op rest G C H. apply postop_inv in H as [[_ ->]|[[_ ->]|[[_ ->]|[_ ->]]]].
  - exists r, s. repeat split; auto. now constructor.
  - exists (Star r), (s ++ [42]). split; [now constructor|]. split; [exact C|apply app_assoc].
  - exists (Opt r), (s ++ [63]). split; [now constructor|]. split; [exact C|apply app_assoc].
  - exists (Plus r), (s ++ [43]). split; [now constructor|]. split; [exact C|apply app_assoc].
Qed.

Definition reads_syntax (G : re -> list Z -> Prop) (stop : list Z -> Prop) (l l' : list Z) : Prop :=
  exists r s, G r s /\ choosable code_univ r /\ l = s ++ l' /\ stop l'.

Lemma esp_class_inv : forall l l' op cs, no_fin l -> esp_class l = Ok (l', op, cs) -> cs <> [] ->
  exists r str, g_post r str /\ choosable code_univ r /\ 91 :: l = str ++ l'.
Proof.
  intros l l' op cs N H Ncs. unfold esp_class in H.
  destruct (negb (isReserved (token l)) || (token l =? 92) || (token l =? 93)).
  - destruct (lista (S (length l)) l []) as [[l1 br]| | | |] eqn:L; cbn [obind] in H; try discriminate.
    apply lista_inv in L as (items & str & Hi & El & M); [|exact N].
    destruct (consume 93 l1) as [l2| | | |] eqn:C; cbn [obind] in H; try discriminate. apply consume_inv in C as ->.
    destruct (postop l2) as [[op' l3]| | | |] eqn:P; cbn [obind] in H; try discriminate.
    assert (l3 = l') by congruence. assert (br = cs) by congruence. subst l3 br.
    assert (Ne : items <> []).
    { intros ->. destruct cs as [|c br']; [now apply Ncs|]. destruct (M c) as [M' _]; destruct M' as [(lo & hi & [] & _)|[]]; now left. }
    destruct (atom_post_inv (Cls false items) ([91] ++ str ++ [93]) l2 op' l') as (r' & s1 & G & C & E); auto.
    { now constructor. } { cbn. discriminate. }
    exists r', s1. split; [exact G|]. split; [exact C|]. rewrite <- E, El. cbn. now rewrite <- app_assoc.
  - destruct (token l =? 94); [|discriminate H].
    destruct (consume 94 l) as [l0| | | |] eqn:C0; cbn [obind] in H; try discriminate. apply consume_inv in C0.
    assert (N0 : no_fin l0) by (rewrite C0 in N; now inversion N).
    destruct (lista (S (length l0)) l0 []) as [[l1 br]| | | |] eqn:L; cbn [obind] in H; try discriminate.
    apply lista_inv in L as (items & str & Hi & El & M); [|exact N0].
    destruct (consume 93 l1) as [l2| | | |] eqn:C; cbn [obind] in H; try discriminate. apply consume_inv in C as ->.
    destruct (postop l2) as [[op' l3]| | | |] eqn:P; cbn [obind] in H; try discriminate.
    assert (l3 = l') by congruence.
    assert (Hcs : filter (fun i => negb (existsb (Z.eqb i) br)) (zrange 0 255) = cs) by congruence. clear H. subst l3.
    assert (Ne : exists c, code_univ c /\ ~ in_items c items).
    { destruct cs as [|c cs']; [easy|].
      exists c. assert (Hc := or_introl eq_refl : In c (c :: cs')). rewrite <- Hcs in Hc. apply filter_In in Hc as [Hc1 Hc2].
      apply zrange_in in Hc1. split; [exact Hc1|]. intros X.
      assert (In c br) as Hb by (apply M; auto). apply negb_true_iff in Hc2.
      assert (existsb (Z.eqb c) br = true); [|congruence]. apply existsb_exists. exists c. split; [exact Hb|apply Z.eqb_refl]. }
    destruct (atom_post_inv (Cls true items) ([91; 94] ++ str ++ [93]) l2 op' l') as (r' & s1 & G & C & E); auto.
    { now constructor. } { cbn. auto. }
    exists r', s1. split; [exact G|]. split; [exact C|]. rewrite <- E, C0, El. cbn. now rewrite <- app_assoc.
Qed.
Lemma esp_inv : forall s s', no_fin (rx_in s) -> esp s = Ok s' ->
  exists r str, g_post r str /\ choosable code_univ r /\ 91 :: rx_in s = str ++ rx_in s'.
Proof.
  intros s s' N H. unfold esp in H.
  destruct (esp_class (rx_in s)) as [[[l op] cs]| | | |] eqn:E; cbn [obind] in H; try discriminate.
  destruct (fold_left add_char cs (rx_a s, new_transducer)) as [a t] eqn:F.
  destruct (joinFinals 0 t) as [j| | | |] eqn:J; cbn [obind] in H; try discriminate.
  destruct (apply_postop op j) as [o| | | |]; cbn [obind] in H; try discriminate.
  apply insert_term_in in H. rewrite H. eapply esp_class_inv; eauto. intros ->. cbn in F.
  assert (new_transducer = t) by congruence. subst t. discriminate.
Qed.

Lemma backward : forall n,
  (forall s s', no_fin (rx_in s) -> rS n s = Ok s' -> reads_syntax g_alt alt_stop (rx_in s) (rx_in s'))
  /\ (forall s s', no_fin (rx_in s) -> rRExpr n s = Ok s' -> reads_syntax g_seq seq_stop (rx_in s) (rx_in s'))
  /\ (forall s s', no_fin (rx_in s) -> rCola n s = Ok s' -> alt_stop (rx_in s') /\
        (rx_in s = rx_in s' \/ exists l, rx_in s = 124 :: l /\ reads_syntax g_alt alt_stop l (rx_in s')))
  /\ (forall s s', no_fin (rx_in s) -> rTerm n s = Ok s' -> reads_syntax g_post (fun _ => True) (rx_in s) (rx_in s'))
  /\ (forall s s', no_fin (rx_in s) -> rRExprp n s = Ok s' -> seq_stop (rx_in s') /\
        (rx_in s = rx_in s' \/ reads_syntax g_seq seq_stop (rx_in s) (rx_in s'))).
Proof.
  assert (NF : forall G stop l l', no_fin l -> reads_syntax G stop l l' -> no_fin l').
  { intros G stop l l' N (r & s & _ & _ & -> & _). now apply no_fin_app in N. }
  assert (Join : forall l l1 l2, reads_syntax g_seq seq_stop l l1 -> alt_stop l2 ->
    (l1 = l2 \/ exists l', l1 = 124 :: l' /\ reads_syntax g_alt alt_stop l' l2) -> reads_syntax g_alt alt_stop l l2).
  { intros l l1 l2 (r & s & G & C & -> & _) St [->|(l' & -> & (r' & s' & G' & C' & -> & _))].
    - exists r, s. repeat split; auto. now constructor.
    - exists (Alt r r'), (s ++ [124] ++ s'). split; [now constructor|]. split; [now split|]. split; [|exact St].
      now rewrite <- !app_assoc. }
  assert (Join2 : forall l l1 l2, reads_syntax g_post (fun _ => True) l l1 -> seq_stop l2 ->
    (l1 = l2 \/ reads_syntax g_seq seq_stop l1 l2) -> reads_syntax g_seq seq_stop l l2).
  { intros l l1 l2 (r & s & G & C & -> & _) St [->|(r' & s' & G' & C' & -> & _)].
    - exists r, s. repeat split; auto. now constructor.
    - exists (Cat r r'), (s ++ s'). split; [now constructor|]. split; [now split|]. split; [apply app_assoc|exact St]. }
  induction n as [|n (IS & IR & IC & IT & IP)]; [split; [|split; [|split; [|split]]]; intros s s' N H; discriminate H|].
  split; [|split; [|split; [|split]]]; intros s s' N H.
  - cbn [rS] in H. destruct (starts _); [|discriminate].
    destruct (rRExpr n s) as [s1| | | |] eqn:E; cbn [obind] in H; try discriminate.
    apply IR in E; [|exact N]. apply IC in H as [St H]; [|now apply (NF _ _ _ _ N) in E]. exact (Join _ _ _ E St H).
  - cbn [rRExpr] in H. destruct (starts _); [|discriminate].
    destruct (rTerm n s) as [s1| | | |] eqn:E; cbn [obind] in H; try discriminate.
    apply IT in E; [|exact N]. apply IP in H as [St H]; [|now apply (NF _ _ _ _ N) in E]. exact (Join2 _ _ _ E St H).
  - cbn [rCola] in H. destruct ((token (rx_in s) =? FIN_FICHERO) || (token (rx_in s) =? 41)) eqn:T.
    + assert (s = s') by congruence. subst s'. split; [|auto]. apply orb_true_iff in T as [T|T]; apply Z.eqb_eq in T; [left|right]; exact T.
    + destruct (token (rx_in s) =? 124); [|discriminate].
      destruct (consume 124 (rx_in s)) as [l| | | |] eqn:C; cbn [obind] in H; try discriminate. apply consume_inv in C.
      assert (Nl : no_fin l) by (rewrite C in N; now inversion N).
      destruct (rRExpr n _) as [s1| | | |] eqn:E in H; cbn [obind] in H; try discriminate.
      apply IR in E; [|exact Nl]. cbn [rx_in] in E.
      destruct (rCola n s1) as [s2| | | |] eqn:E2; cbn [obind] in H; try discriminate.
      apply IC in E2 as [St E2]; [|now apply (NF _ _ _ _ Nl) in E].
      destruct (insertNewSingleTransduction 0 (rx_st s2) 0 (rx_t s2)) as [q t].
      destruct (linkStates (rx_st s) q 0 0 t) as [t'| | | |]; cbn [obind] in H; try discriminate.
      assert (Es : rx_in s' = rx_in s2) by (inversion H; reflexivity). rewrite Es. split; [exact St|].
      right. exists l. split; [exact C|]. exact (Join _ _ _ E St E2).
  - cbn [rTerm] in H. destruct (negb (isReserved (token (rx_in s))) || (token (rx_in s) =? 92)).
    + destruct (letra (rx_in s)) as [[c l]| | | |] eqn:L; cbn [obind] in H; try discriminate.
      apply letra_inv in L as (str & Hc & El); [|exact N].
      destruct (pair_code (c, c) (rx_a s)) as [tag a].
      destruct (insertNewSingleTransduction tag (initial new_transducer) 0 new_transducer) as [e t].
      destruct (postop l) as [[op l1]| | | |] eqn:P; cbn [obind] in H; try discriminate.
      destruct (apply_postop op _) as [o| | | |]; cbn [obind] in H; try discriminate. apply insert_term_in in H. rewrite H.
      destruct (atom_post_inv (Chr c) str l op l1) as (r' & s1 & G & C & E); auto. { now constructor. } { exact I. }
      exists r', s1. split; [exact G|]. split; [exact C|]. split; [congruence|exact I].
    + destruct (token (rx_in s) =? 40); [|destruct (token (rx_in s) =? 91); [|discriminate]].
      * destruct (consume 40 (rx_in s)) as [l| | | |] eqn:C; cbn [obind] in H; try discriminate. apply consume_inv in C.
        assert (Nl : no_fin l) by (rewrite C in N; now inversion N).
        destruct (rS n _) as [s1| | | |] eqn:E in H; cbn [obind] in H; try discriminate. apply IS in E; [|exact Nl].
        destruct E as (r & str & G & Cr & El & _). cbn [rx_in] in El.
        destruct (consume 41 (rx_in s1)) as [l1| | | |] eqn:C1; cbn [obind] in H; try discriminate. apply consume_inv in C1.
        destruct (postop l1) as [[op l2]| | | |] eqn:P; cbn [obind] in H; try discriminate.
        destruct (apply_postop op _) as [o| | | |]; cbn [obind] in H; try discriminate. apply insert_term_in in H. rewrite H.
        destruct (atom_post_inv r ([40] ++ str ++ [41]) l1 op l2) as (r' & s2 & G' & C' & E'); auto. { now constructor. }
        exists r', s2. split; [exact G'|]. split; [exact C'|]. split; [|exact I].
        rewrite <- E', C, El, C1. cbn. now rewrite <- app_assoc.
      * destruct (consume 91 (rx_in s)) as [l| | | |] eqn:C; cbn [obind] in H; try discriminate. apply consume_inv in C.
        apply esp_inv in H as (r & str & G & Cr & E); [|cbn [rx_in]; rewrite C in N; now inversion N].
        exists r, str. cbn [rx_in] in E. rewrite C. auto.
  - cbn [rRExprp] in H. destruct (starts (token (rx_in s))).
    + destruct (rTerm n s) as [s1| | | |] eqn:E; cbn [obind] in H; try discriminate.
      apply IT in E; [|exact N]. apply IP in H as [St H]; [|now apply (NF _ _ _ _ N) in E].
      split; [exact St|]. right. exact (Join2 _ _ _ E St H).
    + destruct ((token (rx_in s) =? 124) || (token (rx_in s) =? FIN_FICHERO) || (token (rx_in s) =? 41)) eqn:T; [|discriminate].
      assert (s = s') by congruence. subst s'. split; [|auto].
      apply orb_true_iff in T as [T|T]; [apply orb_true_iff in T as [T|T]|]; apply Z.eqb_eq in T;
        [right|left; left|left; right]; exact T.
Qed.

(** * No other outcomes *)
Definition tame {A} (o : outcome A) : Prop := match o with Ok _ | Exit => True | _ => False end.
Lemma linkStates_tame : forall s q e w t, tame (linkStates s q e w t).
Proof. intros. unfold linkStates. destruct (_ && _); [|exact I]. destruct (existsb _ _); exact I. Qed.
Lemma linkStates_finals : forall s q e w t t', linkStates s q e w t = Ok t' -> finals t' = finals t.
Proof.
  intros s q e w t t' H. unfold linkStates in H. destruct (_ && _); [|discriminate].
  destruct (existsb _ _); assert (X := H); [now assert (t = t') as -> by congruence|].
  apply (f_equal (fun o => match o with Ok x => finals x | _ => finals t' end)) in X. now symmetry.
Qed.
Lemma link_finals_tame : forall l q e t, tame (link_finals l q e t).
Proof.
  induction l as [|[s w] l IH]; intros q e t; cbn [link_finals]; [exact I|].
  assert (X := linkStates_tame s q e w t). destruct (linkStates s q e w t); cbn [obind]; auto.
Qed.
Lemma joinFinals_tame : forall e t, tame (joinFinals e t).
Proof.
  intros e t. unfold joinFinals. destruct (finals t) as [|x [|y l]]; try exact I.
  destruct (newState t) as [q t']. assert (X := link_finals_tame (x :: y :: l) q e t').
  destruct (link_finals (x :: y :: l) q e t'); cbn [obind]; auto.
Qed.
Lemma joinFinals_finals : forall e t t', joinFinals e t = Ok t' -> finals t' <> [].
Proof.
  intros e t t' H. unfold joinFinals in H. destruct (finals t) as [|x [|y l]] eqn:F; [discriminate|congruence|].
  destruct (newState t) as [q t1]. destruct (link_finals (x :: y :: l) q e t1) as [t2| | | |]; cbn [obind] in H; try discriminate.
  apply (f_equal (fun o => match o with Ok x => finals x | _ => [] end)) in H. cbn [finals] in H. congruence.
Qed.
Lemma wrap_tame : forall e t (k : nat -> transducer -> outcome transducer),
  (forall q u, tame (k q u)) -> finals t <> [] ->
  tame (let '(state, t) := newState t in
    let! t := linkStates state (initial t) e 0 t in
    let t := mkT state (finals t) (trans t) in
    let '(state, t) := newState t in
    match finals t with
    | [] => UB
    | (f, w) :: _ =>
        let! t := linkStates f state e w t in
        let t := mkT (initial t) [(state, 0)] (trans t) in
        k state t
    end).
Proof.
  intros e t k Hk F. rewrite RationalProofs.newState_eta. destruct (newState_spec t) as (_ & _ & _ & F1 & _).
  set (t1 := snd (newState t)) in *. assert (X := linkStates_tame (nstates t) (initial t1) e 0 t1).
  destruct (linkStates (nstates t) (initial t1) e 0 t1) as [t2| | | |] eqn:L; cbn [obind]; auto.
  apply linkStates_finals in L. cbv zeta. rewrite RationalProofs.newState_eta.
  set (t3 := mkT (nstates t) (finals t2) (trans t2)). destruct (newState_spec t3) as (_ & _ & _ & F3 & _).
  rewrite F3. unfold t3 at 1. cbn [finals]. rewrite L, F1. destruct (finals t) as [|[f w] r]; [easy|].
  assert (Y := linkStates_tame f (nstates t3) e w (snd (newState t3))).
  destruct (linkStates f (nstates t3) e w (snd (newState t3))); cbn [obind]; auto.
Qed.
Lemma optional_tame : forall e t, tame (optional e t).
Proof.
  intros e t. unfold optional. assert (X := joinFinals_tame e t).
  destruct (joinFinals e t) as [j| | | |] eqn:J; cbn [obind]; auto. apply joinFinals_finals in J.
  apply (wrap_tame e j (fun state t => linkStates (initial t) state e 0 t)); [|exact J]. intros. apply linkStates_tame.
Qed.
Lemma oneOrMore_tame : forall e t, tame (oneOrMore e t).
Proof.
  intros e t. unfold oneOrMore. assert (X := joinFinals_tame e t).
  destruct (joinFinals e t) as [j| | | |] eqn:J; cbn [obind]; auto. apply joinFinals_finals in J.
  apply (wrap_tame e j (fun state t => linkStates state (initial t) e 0 t)); [|exact J]. intros. apply linkStates_tame.
Qed.
Lemma apply_postop_tame : forall op t, tame (apply_postop op t).
Proof.
  intros op t. unfold apply_postop. destruct (op =? 42).
  - unfold zeroOrMore. assert (X := oneOrMore_tame 0 t). destruct (oneOrMore 0 t); cbn [obind]; auto. apply optional_tame.
  - destruct (op =? 43); [apply oneOrMore_tame|]. destruct (op =? 63); [apply optional_tame|exact I].
Qed.
Lemma insert_term_tame : forall l a t T st, tame (insert_term l a t T st).
Proof.
  intros l a t T st. unfold insert_term, insertTransducer. destruct (trans t); [exact I|].
  assert (X := joinFinals_tame 0 t). destruct (joinFinals 0 t) as [j| | | |] eqn:J; cbn [obind]; auto.
  apply joinFinals_finals in J. cbv zeta. destruct (finals j) as [|[f w] r]; [easy|]. exact I.
Qed.

(** Undefined behaviour comes only from a backslash at the end. *)
Definition bad_end (l : list Z) : Prop := exists x, l = x ++ [92].
Definition sane {A} (l : list Z) (o : outcome A) : Prop :=
  match o with Ok _ | Exit => True | UB => bad_end l | _ => False end.
Lemma bad_end_app : forall s l, bad_end l -> bad_end (s ++ l).
Proof. intros s l [x ->]. exists (s ++ x). apply app_assoc. Qed.
Lemma sane_app : forall {A} s l (o : outcome A), sane l o -> sane (s ++ l) o.
Proof. intros A s l [x| | | |]; cbn; auto using bad_end_app. Qed.
Lemma tame_sane : forall {A} l (o : outcome A), tame o -> sane l o.
Proof. intros A l [x| | | |]; cbn; tauto. Qed.
Lemma sane_bind : forall {A B} l (o : outcome A) (f : A -> outcome B), sane l o ->
  (forall x, o = Ok x -> sane l (f x)) -> sane l (obind o f).
Proof. intros A B l [x| | | |] f; cbn; auto. Qed.

Lemma consume_sane : forall t l, t <> FIN_FICHERO -> sane l (consume t l).
Proof.
  intros t l H. unfold consume. destruct (Z.eqb_spec (token l) t) as [E|E]; [|exact I].
  destruct l; [cbn in E; congruence|exact I].
Qed.
Lemma letra_sane : forall l, no_fin l -> sane l (letra l).
Proof.
  intros l N. unfold letra. destruct (isReserved (token l)) eqn:R; cbn [negb].
  - destruct (Z.eqb_spec (token l) 92) as [E|E]; [|exact I].
    destruct l as [|x l]; [discriminate|]. cbn in E. subst x. rewrite consume_tok. cbn [obind].
    unfold reservado. destruct l as [|y l]; [exists []; reflexivity|].
    destruct (isReserved (token (y :: l))); [|exact I]. cbn [token hd]. rewrite consume_tok. exact I.
  - destruct l as [|x l]; [discriminate|]. cbn [token hd]. rewrite consume_tok. exact I.
Qed.
Lemma postop_sane : forall l, sane l (postop l).
Proof.
  intros l. unfold postop.
  assert (K : forall k, k <> FIN_FICHERO -> sane l (let! r := consume k l in Ok (k, r))).
  { intros k Hk. apply sane_bind; [now apply consume_sane|]. intros; exact I. }
  destruct (token l =? 42); [now apply K|]. destruct (token l =? 63); [now apply K|].
  destruct (token l =? 43); [now apply K|]. destruct (_ || _ || _ || _); exact I.
Qed.
Lemma lista_sane : forall n l br, no_fin l -> (length l < n)%nat -> sane l (lista n l br).
Proof.
  induction n as [|n IH]; intros l br N Hn; [lia|]. cbn [lista].
  destruct (negb (isReserved (token l)) || (token l =? 92)) eqn:T.
  - unfold elem. rewrite T. assert (S := letra_sane l N). destruct (letra l) as [[c l1]| | | |] eqn:L; cbn [obind]; auto.
    apply letra_inv in L as (s & Hs & ->); [|exact N]. assert (N1 := no_fin_app _ _ N).
    assert (Ls : (0 < length s)%nat) by (destruct Hs; cbn; lia). rewrite app_length in Hn.
    unfold colaLetra. destruct (token l1 =? 45).
    + assert (S1 := consume_sane 45 l1 ltac:(discriminate)).
      destruct (consume 45 l1) as [l2| | | |] eqn:C; cbn [obind]; auto; try (now apply sane_app with (o := @UB unit)).
      * apply consume_inv in C as ->. assert (N2 : no_fin l2) by now inversion N1.
        assert (S2 := letra_sane l2 N2). change (45 :: l2) with ([45] ++ l2). rewrite app_assoc.
        destruct (letra l2) as [[d l3]| | | |] eqn:L2; cbn [obind]; auto; [|exact (bad_end_app _ _ S2)].
        destruct (d <? c); cbn [obind]; [exact I|].
        apply letra_inv in L2 as (s2 & Hs2 & ->); [|exact N2]. rewrite app_assoc. apply sane_app. apply IH.
        -- now apply no_fin_app in N2.
        -- cbn [length] in Hn. rewrite app_length in Hn. lia.
    + destruct (_ || _ || _); cbn [obind]; [|exact I]. destruct (c <? c); cbn [obind]; [exact I|].
      apply sane_app. apply IH; [exact N1|lia].
  - destruct (token l =? 93); exact I.
Qed.
Lemma esp_class_sane : forall l, no_fin l -> sane l (esp_class l).
Proof.
  assert (K : forall l f, no_fin l -> sane l (let! (l1, br) := lista (S (length l)) l [] in
     let! l2 := consume 93 l1 in let! (op, l3) := postop l2 in Ok (l3, op, f br) : outcome (list Z * Z * list Z))).
  { intros l f N. apply sane_bind; [apply lista_sane; auto|]. intros [l1 br] L.
    apply lista_inv in L as (items & s & _ & -> & _); [|exact N]. apply sane_app.
    apply sane_bind; [apply consume_sane; discriminate|]. intros l2 C. apply consume_inv in C as ->.
    change (93 :: l2) with ([93] ++ l2). apply sane_app. apply sane_bind; [apply postop_sane|]. intros [op l3] _. exact I. }
  intros l N. unfold esp_class. destruct (_ || _ || _).
  - exact (K l (fun x => x) N).
  - destruct (token l =? 94); [|exact I]. apply sane_bind; [apply consume_sane; discriminate|].
    intros l1 C. apply consume_inv in C as ->. change (94 :: l1) with ([94] ++ l1). apply sane_app.
    apply (K l1 (fun br => filter (fun i => negb (existsb (Z.eqb i) br)) (zrange 0 255))). now inversion N.
Qed.
Lemma esp_sane : forall s, no_fin (rx_in s) -> sane (rx_in s) (esp s).
Proof.
  intros s N. unfold esp. apply sane_bind; [now apply esp_class_sane|]. intros [[l op] cs] _.
  destruct (fold_left add_char cs (rx_a s, new_transducer)) as [a t]. apply tame_sane.
  assert (X := joinFinals_tame 0 t). destruct (joinFinals 0 t) as [j| | | |]; cbn [obind]; auto.
  assert (Y := apply_postop_tame op j). destruct (apply_postop op j); cbn [obind]; auto. apply insert_term_tame.
Qed.
Lemma syntax_shorter : forall stop l l', reads_syntax g_post stop l l' -> (length l' < length l)%nat.
Proof.
  intros stop l l' (r & s & G & _ & -> & _). apply post_nonempty in G. rewrite app_length.
  destruct s; [easy|cbn; lia].
Qed.
Lemma syntax_shorter_seq : forall stop l l', reads_syntax g_seq stop l l' -> (length l' < length l)%nat.
Proof.
  intros stop l l' (r & s & G & _ & -> & _). apply seq_nonempty in G. rewrite app_length.
  destruct s; [easy|cbn; lia].
Qed.

Lemma sanity : forall n,
  (forall s, no_fin (rx_in s) -> (4 * length (rx_in s) + 4 <= n)%nat -> sane (rx_in s) (rS n s))
  /\ (forall s, no_fin (rx_in s) -> (4 * length (rx_in s) + 3 <= n)%nat -> sane (rx_in s) (rRExpr n s))
  /\ (forall s, no_fin (rx_in s) -> (4 * length (rx_in s) + 1 <= n)%nat -> sane (rx_in s) (rCola n s))
  /\ (forall s, no_fin (rx_in s) -> (4 * length (rx_in s) + 2 <= n)%nat -> sane (rx_in s) (rTerm n s))
  /\ (forall s, no_fin (rx_in s) -> (4 * length (rx_in s) + 3 <= n)%nat -> sane (rx_in s) (rRExprp n s)).
Proof.
  induction n as [|n (IS & IR & IC & IT & IP)]; [split; [|split; [|split; [|split]]]; intros s N H; lia|].
  destruct (backward n) as (BS & BR & BC & BT & BP).
  assert (Suf : forall G stop l l', reads_syntax G stop l l' -> exists s, l = s ++ l').
  { intros G stop l l' (r & s & _ & _ & E & _). eauto. }
  split; [|split; [|split; [|split]]]; intros s N H.
  - cbn [rS]. destruct (starts _); [|exact I]. apply sane_bind; [apply IR; auto; lia|]. intros s1 E.
    apply BR in E; [|exact N]. assert (L := syntax_shorter_seq _ _ _ E). apply Suf in E as (x & E). rewrite E in *.
    apply sane_app. apply IC; [now apply no_fin_app in N|lia].
  - cbn [rRExpr]. destruct (starts _); [|exact I]. apply sane_bind; [apply IT; auto; lia|]. intros s1 E.
    apply BT in E; [|exact N]. assert (L := syntax_shorter _ _ _ E). apply Suf in E as (x & E). rewrite E in *.
    apply sane_app. apply IP; [now apply no_fin_app in N|lia].
  - cbn [rCola]. destruct (_ || _); [exact I|]. destruct (_ =? 124); [|exact I].
    apply sane_bind; [apply consume_sane; discriminate|]. intros l C. apply consume_inv in C. rewrite C in *.
    assert (Nl : no_fin l) by now inversion N. cbn [length] in H. change (124 :: l) with ([124] ++ l). apply sane_app.
    apply sane_bind; [apply IR; cbn [rx_in]; auto; lia|]. intros s1 E. apply BR in E; [|exact Nl]. cbn [rx_in] in E.
    assert (L := syntax_shorter_seq _ _ _ E). apply Suf in E as (x & ->). apply sane_app.
    apply sane_bind; [apply IC; [now apply no_fin_app in Nl|lia]|]. intros s2 _. apply tame_sane.
    destruct (insertNewSingleTransduction 0 (rx_st s2) 0 (rx_t s2)) as [q t].
    assert (X := linkStates_tame (rx_st s) q 0 0 t). destruct (linkStates (rx_st s) q 0 0 t); cbn [obind]; auto.
  - cbn [rTerm]. destruct (negb _ || _).
    + apply sane_bind; [now apply letra_sane|]. intros [c l] L. apply letra_inv in L as (x & _ & ->); [|exact N]. apply sane_app.
      destruct (pair_code (c, c) (rx_a s)) as [tag a].
      destruct (insertNewSingleTransduction tag (initial new_transducer) 0 new_transducer) as [e t].
      apply sane_bind; [apply postop_sane|]. intros [op l1] _. apply tame_sane.
      assert (Y := apply_postop_tame op (setFinal e 0 true t)). destruct (apply_postop op (setFinal e 0 true t)); cbn [obind]; auto.
      apply insert_term_tame.
    + destruct (_ =? 40); [|destruct (_ =? 91); [|exact I]].
      * apply sane_bind; [apply consume_sane; discriminate|]. intros l C. apply consume_inv in C. rewrite C in *.
        assert (Nl : no_fin l) by now inversion N. cbn [length] in H. change (40 :: l) with ([40] ++ l). apply sane_app.
        apply sane_bind; [apply IS; cbn [rx_in]; auto; lia|]. intros s1 E. apply BS in E; [|exact Nl]. cbn [rx_in] in E.
        apply Suf in E as (x & ->). apply sane_app. apply sane_bind; [apply consume_sane; discriminate|].
        intros l1 C1. apply consume_inv in C1. rewrite C1. change (41 :: l1) with ([41] ++ l1). apply sane_app.
        apply sane_bind; [apply postop_sane|]. intros [op l2] _. apply tame_sane.
        assert (Y := apply_postop_tame op (setFinal (rx_st s1) 0 true (rx_t s1))).
        destruct (apply_postop op (setFinal (rx_st s1) 0 true (rx_t s1))); cbn [obind]; auto. apply insert_term_tame.
      * apply sane_bind; [apply consume_sane; discriminate|]. intros l C. apply consume_inv in C. rewrite C in *.
        change (91 :: l) with ([91] ++ l). apply sane_app. apply (esp_sane (mkRx l (rx_a s) (rx_t s) (rx_st s))). now inversion N.
  - cbn [rRExprp]. destruct (starts _); [|destruct (_ || _ || _); exact I]. apply sane_bind; [apply IT; auto; lia|]. intros s1 E.
    apply BT in E; [|exact N]. assert (L := syntax_shorter _ _ _ E). apply Suf in E as (x & E). rewrite E in *.
    apply sane_app. apply IP; [now apply no_fin_app in N|lia].
Qed.

(** * The theorems *)
(** [w] is a word of tags whose pairs are (c, c) for the symbols c of the string; symbol 0
    is the empty string. *)
Definition tags_of (a : alphabet) (cs : list Z) (w : list Z) : Prop :=
  Forall2 (fun tag c => decode tag a = Ok (c, c)) w (filter (fun c => negb (c =? 0)) cs).

Lemma decode_nth : forall a tag p, decode tag a = Ok p <-> 0 <= tag /\ nth_error (spairinv a) (Z.to_nat tag) = Some p.
Proof.
  intros a tag p. unfold decode. destruct (Z.ltb_spec tag 0) as [H|H]; [split; [discriminate|lia]|].
  destruct (nth_error _ _); split; intros E; try discriminate; try (destruct E; discriminate); [|destruct E]; repeat split; congruence.
Qed.
Lemma extends_decode : forall a b tag p, extends a b -> decode tag a = Ok p -> decode tag b = Ok p.
Proof.
  intros a b tag p [_ [l E]] H. apply decode_nth in H as [H0 H]. apply decode_nth. split; [exact H0|].
  rewrite E, nth_error_app1; [exact H|]. apply nth_error_Some. congruence.
Qed.
Lemma decode_code : forall a tag c, alph_inv a -> decode tag a = Ok (c, c) -> tag = code a c.
Proof.
  intros a tag c Ha H. apply decode_nth in H as [H0 H]. unfold code.
  rewrite (proj1 (pair_code_nth a _ _ Ha H)). cbn [fst]. now rewrite Z2Nat.id.
Qed.
Lemma code_decode : forall a c, alph_inv a -> In (c, c) (spairinv a) -> decode (code a c) a = Ok (c, c).
Proof.
  intros a c Ha H. apply In_nth_error in H as (i & Hi). destruct (pair_code_nth a _ _ Ha Hi) as [E1 E2].
  unfold code. now rewrite E1.
Qed.
Lemma tags_codes : forall a cs w, alph_inv a -> (forall c, In c cs -> In (c, c) (spairinv a)) ->
  tags_of a cs w <-> w = codes a cs.
Proof.
  intros a cs w Ha H. unfold tags_of, codes.
  assert (H' : forall c, In c (filter (fun c => negb (c =? 0)) cs) -> In (c, c) (spairinv a)).
  { intros c Hc. apply filter_In in Hc as [Hc _]. auto. }
  revert w H'. induction (filter (fun c => negb (c =? 0)) cs) as [|c l IH]; intros w H'.
  - split; [intros X; inversion X; reflexivity|intros ->; constructor].
  - split.
    + intros X. inversion X as [|t ? w' ? Ht Hw]. subst. cbn [map]. f_equal; [now apply decode_code|].
      apply IH; [intros; apply H'; now right|exact Hw].
    + intros ->. cbn [map]. constructor; [apply code_decode; [exact Ha|apply H'; now left]|].
      apply IH; [intros; apply H'; now right|reflexivity].
Qed.

Lemma compile_alt : forall a r s rest, alph_inv0 a -> g_alt r s -> no_fin s -> choosable code_univ r -> alt_stop rest ->
  exists a' t, rx_compile a (s ++ rest) = Ok (a', t) /\ wf t /\ alph_inv0 a' /\ extends a a'
    /\ finals t = [(fst (hd (0%nat, 0) (finals t)), 0)] /\ quiet t /\ covers a' (den code_univ r)
    /\ forall w c, wlang t 0 w c <-> c = 0 /\ exists cs, den code_univ r cs /\ tags_of a' cs w.
Proof.
  intros a r s rest Ha G N C St.
  set (x0 := mkRx (s ++ rest) a new_transducer (initial new_transducer)).
  assert (O0 : ok_rx x0).
  { constructor; cbn [x0 rx_a rx_t rx_st]; [exact Ha|apply new_transducer_wf|cbn; lia|apply new_only_empty]. }
  destruct (proj1 forward r s G N C (4 * length (s ++ rest) + 3) (4 * length (s ++ rest) + 3) x0 rest St O0 eq_refl eq_refl
    ltac:(cbn [x0 rx_in]; lia) ltac:(cbn [x0 rx_in]; lia))%nat as (x1 & X & I & A1 & B1 & G1 & S1 & V1 & Z1 & L1).
  cbn [x0 rx_a rx_t] in *.
  exists (rx_a x1), (setFinal (rx_st x1) 0 true (rx_t x1)).
  split. { unfold rx_compile. fold x0. assert (St0 := proj1 g_starts r s G N rest).
    destruct (s ++ rest) as [|y l] eqn:E; [discriminate|].
    replace (4 * length (y :: l) + 4)%nat with (S (4 * length (y :: l) + 3)) by lia. cbn [rS].
    cbn [x0 rx_in]. rewrite St0. fold x0. rewrite X. reflexivity. }
  split; [apply setFinal_wf; [apply G1|exact S1]|]. split; [exact A1|]. split; [exact B1|].
  assert (Ft : finals (setFinal (rx_st x1) 0 true (rx_t x1)) = [(rx_st x1, 0)]) by (unfold setFinal; cbn [finals]; now rewrite (gr_finals _ _ G1)).
  split; [now rewrite Ft|]. split.
  { intros p f Hp. unfold final_wt in Hp. rewrite Ft in Hp. destruct Hp as [Hp|[]]. assert (p = rx_st x1) as -> by congruence. exact Z1. }
  split; [exact V1|].
  intros w c. rewrite setFinal_wlang; [|apply G1|].
  - rewrite (grows_wlang _ _ new_transducer_wf G1), (gr_initial _ _ G1), (L1 _ A1 (extends_refl _)).
    unfold W. split.
    + intros [(l & f & (q & _ & Hf) & _)|[-> (cs & Hd & ->)]]; [destruct Hf|]. split; [reflexivity|]. exists cs. split; [exact Hd|].
      apply tags_codes; [apply A1| |reflexivity]. intros x Hx. exact (V1 cs x Hd Hx).
    + intros [-> (cs & Hd & Hw)]. right. split; [reflexivity|]. exists cs. split; [exact Hd|].
      apply tags_codes in Hw; [exact Hw|apply A1|]. intros x Hx. exact (V1 cs x Hd Hx).
  - intros f. unfold final_wt. rewrite (gr_finals _ _ G1). intros [].
Qed.
Lemma alt_stop_iff : forall rest, no_fin rest -> alt_stop rest <-> rest = [] \/ hd 0 rest = 41.
Proof.
  intros [|x rest] N; unfold alt_stop; cbn [token hd].
  - split; auto.
  - inversion_clear N as [|? ? Nx _]. split; [intros [E|E]; [congruence|auto]|intros [E|E]; [discriminate|auto]].
Qed.

(** Every well-formed expression compiles, and the transducer accepts exactly the tag words
    of the strings it denotes, with weight 0.  A negated class chooses from the symbols 0 to
    255 ([choosable]: one of them is left).  Compilation stops at the end or at a closing
    parenthesis.  The tags of the alphabet the compiler was given keep their meaning. *)
Theorem C31_language : forall ops r s rest, let a := after ops in
  g_alt r s -> Forall (fun c => c <> FIN_FICHERO) (s ++ rest) -> choosable code_univ r ->
  (rest = [] \/ hd 0 rest = 41) ->
  exists a' t, rx_compile a (s ++ rest) = Ok (a', t) /\ wf t
    /\ (forall tag p, decode tag a = Ok p -> decode tag a' = Ok p)
    /\ forall w c, wlang t 0 w c <-> c = 0 /\ exists cs, den code_univ r cs /\ tags_of a' cs w.
Proof.
  intros ops r s rest a G N C Hr. assert (Nr := no_fin_app _ _ N). apply Forall_app in N as [N _].
  apply (alt_stop_iff _ Nr) in Hr.
  destruct (compile_alt a r s rest (after_inv ops) G N C Hr) as (a' & t & E & Wt & _ & X & _ & _ & _ & L).
  exists a', t. split; [exact E|]. split; [exact Wt|]. split; [|exact L]. intros tag p. now apply extends_decode.
Qed.

(** Without negated classes this is the usual language of the expression, whatever symbols
    there are. *)
Lemma star_ext : forall L M : str_set, (forall w, L w <-> M w) -> forall w, star L w <-> star M w.
Proof. intros L M H w. split; (induction 1; [constructor|constructor; [now apply H|assumption]]). Qed.
Lemma den_no_neg : forall u v r, no_neg r -> forall w, den u r w <-> den v r w.
Proof.
  intros u v r. induction r as [c|neg items|r IHr s IHs|r IHr s IHs|r IHr|r IHr|r IHr]; cbn [no_neg den]; intros H w.
  - reflexivity.
  - subst neg. reflexivity.
  - destruct H as [H1 H2]. split; intros (x & y & -> & Hx & Hy); exists x, y; (split; [reflexivity|]); (split; [now apply IHr|now apply IHs]).
  - destruct H as [H1 H2]. now rewrite (IHr H1), (IHs H2).
  - now rewrite (IHr H).
  - now apply star_ext, IHr.
  - split; intros (x & y & -> & Hx & Hy); exists x, y; (split; [reflexivity|]); (split; [now apply IHr|]);
      (eapply star_ext; [|exact Hy]); intros z; [symmetry|]; now apply IHr.
Qed.
Lemma no_neg_choosable : forall u r, no_neg r -> choosable u r.
Proof.
  intros u r. induction r as [c|neg items|r IHr s IHs|r IHr s IHs|r IHr|r IHr|r IHr]; cbn [no_neg choosable]; auto; try tauto.
  intros -> H. discriminate.
Qed.
Theorem C31_standard : forall ops r s univ, let a := after ops in
  g_alt r s -> Forall (fun c => c <> FIN_FICHERO) s -> no_neg r ->
  exists a' t, rx_compile a s = Ok (a', t) /\ wf t
    /\ (forall tag p, decode tag a = Ok p -> decode tag a' = Ok p)
    /\ forall w c, wlang t 0 w c <-> c = 0 /\ exists cs, den univ r cs /\ tags_of a' cs w.
Proof.
  intros ops r s univ a G N C.
  destruct (C31_language ops r s [] G ltac:(now rewrite app_nil_r) (no_neg_choosable _ _ C) (or_introl eq_refl)) as (a' & t & E & Wt & X & L).
  rewrite app_nil_r in E. exists a', t. do 3 (split; [assumption|]). intros w c. rewrite L.
  split; intros [-> (cs & Hd & Hw)]; (split; [reflexivity|]); exists cs; (split; [|exact Hw]); [apply (den_no_neg univ code_univ r C)|apply (den_no_neg code_univ univ r C)]; exact Hd.
Qed.

(** What compiles is exactly: a well-formed expression whose negated classes leave a symbol
    below 256, up to the end of the input or a closing parenthesis. *)
Theorem C31_accepted : forall ops er, Forall (fun c => c <> FIN_FICHERO) er ->
  (exists x, rx_compile (after ops) er = Ok x) <->
  exists r s rest, g_alt r s /\ choosable code_univ r /\ er = s ++ rest /\ (rest = [] \/ hd 0 rest = 41).
Proof.
  intros ops er N. split.
  - intros [x E]. unfold rx_compile in E. destruct er as [|y l]; [discriminate|].
    set (n := (4 * length (y :: l) + 4)%nat) in E.
    destruct (rS n (mkRx (y :: l) (after ops) new_transducer (initial new_transducer))) as [s'| | | |] eqn:R; try discriminate.
    apply (proj1 (backward n)) in R; [|exact N]. destruct R as (r & s & G & C & El & St). cbn [rx_in] in El.
    exists r, s, (rx_in s'). split; [exact G|]. split; [exact C|]. split; [exact El|].
    apply alt_stop_iff; [|exact St]. rewrite El in N. exact (no_fin_app _ _ N).
  - intros (r & s & rest & G & C & -> & St).
    destruct (C31_language ops r s rest G N C St) as (a' & t & E & _). rewrite E. eauto.
Qed.
(** Everything else ends the program with an error message, except that an empty expression
    and one ending in a backslash read outside the vector. *)
Theorem C31_outcomes : forall ops er, Forall (fun c => c <> FIN_FICHERO) er ->
  match rx_compile (after ops) er with
  | Ok _ | Exit => True
  | UB => er = [] \/ exists x, er = x ++ [92]
  | Throw | NoFuel => False
  end.
Proof.
  intros ops er N. unfold rx_compile. destruct er as [|y l]; [now left|].
  assert (S := proj1 (sanity (4 * length (y :: l) + 4)) (mkRx (y :: l) (after ops) new_transducer (initial new_transducer)) N ltac:(cbn [rx_in]; lia)).
  cbn [rx_in] in S.
  destruct (rS (4 * length (y :: l) + 4) (mkRx (y :: l) (after ops) new_transducer (initial new_transducer))); cbn [obind]; auto.
Qed.

(** The expression a(b|c)*[x-z]?\* and the strings abcby* and aby *)
Example C31_example :
  let r := Cat (Chr 97) (Cat (Star (Alt (Chr 98) (Chr 99))) (Cat (Opt (Cls false [(120, 122)])) (Chr 42))) in
  let s := [97; 40; 98; 124; 99; 41; 42; 91; 120; 45; 122; 93; 63; 92; 42] in
  g_alt r s /\ no_neg r
  /\ (forall u, den u r [97; 98; 99; 98; 121; 42]) /\ (forall u, ~ den u r [97; 98; 121])
  /\ exists a t, rx_compile new_alphabet s = Ok (a, t)
     /\ tags_of a [97; 98; 99; 98; 121; 42] [1; 2; 3; 2; 5; 7]
     /\ rx_compile new_alphabet [97; 42; 42] = Exit.
Proof.
  cbv zeta.
  assert (P : forall c, ~ In c reserved -> g_post (Chr c) [c]) by (intros c H; do 3 constructor; exact H).
  assert (Q : forall c, ~ In c reserved -> g_seq (Chr c) [c]) by (intros c H; constructor; now apply P).
  assert (NR : forall c, 97 <= c <= 122 -> ~ In c reserved) by (intros c H; cbn; lia).
  split; [|split; [|split; [|split]]].
  - constructor. apply (g_cat (Chr 97) [97] _ _); [apply P, NR; lia|].
    apply (g_cat _ [40; 98; 124; 99; 41; 42] _ _).
    + apply (g_star _ [40; 98; 124; 99; 41]). apply (g_paren _ [98; 124; 99]). apply (g_or _ [98] _ [99]).
      * apply Q, NR; lia.
      * constructor. apply Q, NR; lia.
    + apply (g_cat _ [91; 120; 45; 122; 93; 63] _ _).
      * apply (g_opt _ [91; 120; 45; 122; 93]). apply (g_cls _ [120; 45; 122]); [|discriminate].
        apply (g_range 120 [120] 122 [122] [] []); [constructor; apply NR; lia|constructor; apply NR; lia|lia|constructor].
      * do 3 constructor. constructor. cbn; auto 10.
  - cbn. auto.
  - intros u. cbn [den]. exists [97], [98; 99; 98; 121; 42]. split; [reflexivity|]. split; [reflexivity|].
    exists [98; 99; 98], [121; 42]. split; [reflexivity|]. split.
    + apply (star_more _ [98] [99; 98]); [auto|]. apply (star_more _ [99] [98]); [auto|].
      apply (star_more _ [98] []); [auto|constructor].
    + exists [121], [42]. split; [reflexivity|]. split; [|reflexivity]. right. exists 121. split; [reflexivity|].
      exists 120, 122. split; [now left|lia].
  - intros u. cbn [den]. intros (x & y & E & -> & u1 & v1 & -> & _ & u2 & v2 & -> & _ & ->).
    apply (f_equal (@rev Z)) in E. rewrite !app_assoc, rev_app_distr in E. discriminate.
  - eexists _, _. split; [vm_compute; reflexivity|]. split; [|reflexivity].
    unfold tags_of. cbn [filter]. repeat constructor.
Qed.

(** * What the compiler does differently *)
(** [^a] accepts the empty string, because symbol 0 is among the 256 tried, and does not
    accept symbols above 255, such as 1073. *)
Theorem C31_negated_refuted : exists a t, rx_compile new_alphabet [91; 94; 97; 93] = Ok (a, t)
  /\ g_alt (Cls true [(97, 97)]) [91; 94; 97; 93]
  /\ wlang t 0 [] 0 /\ ~ (exists w c, wlang t 0 w c /\ tags_of a [1073] w)
  /\ den (fun c => 0 < c) (Cls true [(97, 97)]) [1073] /\ ~ den (fun c => 0 < c) (Cls true [(97, 97)]) [].
Proof.
  assert (G : g_alt (Cls true [(97, 97)]) [91; 94; 97; 93]).
  { apply g_one, g_term, g_plain, (g_neg _ [97]). apply (g_item 97 [97] [] []); constructor. cbn. lia. }
  assert (Cls_ : choosable code_univ (Cls true [(97, 97)])).
  { intros _. exists 98. split; [unfold code_univ; lia|]. intros (lo & hi & [E|[]] & H). assert (lo = 97 /\ hi = 97) by (split; congruence). lia. }
  destruct (C31_language [] _ _ [] G ltac:(cbn [app]; repeat constructor; discriminate) Cls_ (or_introl eq_refl))
    as (a & t & E & _ & _ & L).
  exists a, t. split; [exact E|]. split; [exact G|]. split; [|split; [|split]].
  - apply L. split; [reflexivity|]. exists [0]. split; [|constructor].
    exists 0. split; [reflexivity|]. split; [unfold code_univ; lia|].
    intros (lo & hi & [X|[]] & H). assert (lo = 97 /\ hi = 97) by (split; congruence). lia.
  - intros (w & c & Hw & Hd). apply L in Hw as (_ & cs & (x & -> & Hx & _) & Ht).
    unfold tags_of in *. cbn [filter] in Hd, Ht. change (negb (1073 =? 0)) with true in Hd. cbv iota in Hd.
    inversion Hd as [|tag c0 w' l' D1 D2]. subst. inversion D2. subst.
    destruct (negb (x =? 0)); inversion Ht as [|tag' c1 w1 l1 D3 D4]. subst. rewrite D1 in D3.
    assert (x = 1073) by congruence. unfold code_univ in Hx. lia.
  - exists 1073. split; [reflexivity|]. split; [lia|]. intros (lo & hi & [X|[]] & H). assert (lo = 97 /\ hi = 97) by (split; congruence). lia.
  - intros (c & X & _). discriminate.
Qed.
Lemma no_caret : (forall r s, g_alt r s -> ~ In 94 s -> no_neg r) /\ (forall r s, g_seq r s -> ~ In 94 s -> no_neg r)
  /\ (forall r s, g_post r s -> ~ In 94 s -> no_neg r) /\ (forall r s, g_atom r s -> ~ In 94 s -> no_neg r).
Proof.
  apply g_mut; cbn [no_neg]; auto; intros.
  - split; [apply H0|apply H2]; intros X; apply H3; rewrite !in_app_iff; auto.
  - split; [apply H0|apply H2]; intros X; apply H3; rewrite !in_app_iff; auto.
  - apply H0. intros X; apply H1; rewrite !in_app_iff; auto.
  - apply H0. intros X; apply H1; rewrite !in_app_iff; auto.
  - apply H0. intros X; apply H1; rewrite !in_app_iff; auto.
  - apply H0. intros X; apply H1; rewrite !in_app_iff; auto.
  - destruct H0. cbn. auto.
Qed.
(** A closing parenthesis too many ends the expression silently: a)b compiles like a. *)
Theorem C31_trailing_refuted : rx_compile new_alphabet [97; 41; 98] = rx_compile new_alphabet [97]
  /\ (exists x, rx_compile new_alphabet [97] = Ok x) /\ ~ exists r, g_alt r [97; 41; 98].
Proof.
  split; [vm_compute; reflexivity|]. split; [eexists; vm_compute; reflexivity|].
  intros [r G]. assert (C : choosable code_univ r).
  { apply no_neg_choosable. apply (proj1 no_caret r _ G). cbn. lia. }
  destruct (proj1 forward r _ G ltac:(repeat constructor; discriminate) C 15%nat 15%nat (mkRx [97; 41; 98] new_alphabet new_transducer 0) [])
    as (x & E & I & _); try reflexivity.
  - left. reflexivity.
  - constructor; cbn [rx_a rx_t rx_st]; [exact (after_inv [])|apply new_transducer_wf|cbn; lia|apply new_only_empty].
  - cbn [rx_in length]. lia.
  - vm_compute in E. injection E as <-. discriminate.
Qed.
(** A backslash at the end makes the parser read outside its vector. *)
Theorem C31_dangling_refuted : rx_compile new_alphabet [97; 92] = UB /\ rx_compile new_alphabet [] = UB.
Proof. split; reflexivity. Qed.

Print Assumptions C31_language.
Print Assumptions C31_standard.
Print Assumptions C31_accepted.
Print Assumptions C31_outcomes.
Print Assumptions C31_negated_refuted.
Print Assumptions C31_trailing_refuted.
Print Assumptions C31_dangling_refuted.
