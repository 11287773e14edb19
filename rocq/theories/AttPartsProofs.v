(** AT&T files: which words are in which section. *)
From Verif Require Import Base CompressionModel SerialiserModel AlphabetModel AlphabetProofs TransducerModel TransducerSpec TransducerProofs RelabelSpec RelabelProofs ComposeSpec AttModel AttSpec AttTextProofs AttProofs AttGraphProofs AttWalkProofs AttSplitProofs AttFileProofs.

(** * Arcs that keep their type *)
Section Quiet.
  Context (g0 : graph) (Q : Z -> Prop).
  Context (HQ : forall m t, garc g0 m t -> Q (tr_to t) -> Q m /\ tr_type t = 0).
  Definition quiet (g : graph) : Prop := forall n, Q n -> node g n = node g0 n.
  Lemma fwd_arcs_quiet : forall k i s done todo g todo' g', retyped g0 g -> quiet g -> fwd_arcs k i s done todo g = (todo', g') -> quiet g'.
  Proof using HQ.
    induction k as [|k IH]; intros i s done todo g todo' g' R K E; cbn [fwd_arcs] in E; [now injection E as _ <-|].
    destruct (nth_error (node g s) i) as [t1|] eqn:E1; [|now injection E as _ <-].
    apply IH in E; [exact E| |].
    - eapply retyped_trans; [exact R|apply or_types_retyped].
    - intros n Hn. unfold or_types. rewrite node_set. destruct (n =? tr_to t1) eqn:En; [|now apply K]. apply Z.eqb_eq in En. rewrite <- En.
      assert (G1 : garc g s t1) by (eapply nth_error_In; eassumption).
      destruct (retyped_back _ _ _ _ R G1) as (t0 & G0 & (Et & _)). destruct (HQ s t0 G0) as [Qs _]; [rewrite <- Et, <- En; exact Hn|].
      unfold garc in G1. rewrite (K s Qs) in G1. destruct (HQ s t1 G1) as [_ Z0]; [rewrite <- En; exact Hn|].
      rewrite (K n Hn), Z0. rewrite <- (map_id (node g0 n)) at 2. apply map_ext. intros [a b c d]. cbn. now rewrite Z.lor_0_r.
  Qed.
  Lemma fwd_arcs_retyped : forall k i s done todo g todo' g', fwd_arcs k i s done todo g = (todo', g') -> retyped g g'.
  Proof using.
    induction k as [|k IH]; intros i s done todo g todo' g' E; cbn [fwd_arcs] in E; [injection E as _ <-; apply retyped_refl|].
    destruct (nth_error (node g s) i) as [t1|] eqn:E1; [|injection E as _ <-; apply retyped_refl]. apply IH in E.
    eapply retyped_trans; [apply or_types_retyped|exact E].
  Qed.
  Lemma fwd_loop_quiet : forall fuel done todo g g', retyped g0 g -> quiet g -> fwd_loop fuel done todo g = Ok g' -> quiet g'.
  Proof using HQ.
    induction fuel as [|fuel IH]; intros done todo g g' R K E; cbn [fwd_loop] in E; (destruct todo as [|next todo]; [injection E as <-; exact K|]); [discriminate|].
    destruct (existsb (Z.eqb next) done); [eapply IH; eassumption|].
    destruct (fwd_arcs (length (node g next)) 0 next done todo g) as [todo' g1] eqn:E1.
    eapply IH; [| |exact E].
    - eapply retyped_trans; [exact R|eapply fwd_arcs_retyped, E1].
    - eapply fwd_arcs_quiet; eassumption.
  Qed.
  Lemma forwards_quiet : forall start g', classify_forwards start g0 = Ok g' -> quiet g'.
  Proof using HQ. intros start g' E. eapply fwd_loop_quiet; [apply retyped_refl|intros n _; reflexivity|exact E]. Qed.
End Quiet.

Section Parts.
  Context (u_ispunct u_isspace u_islower u_isupper : Z -> bool) (u_toupper u_tolower : Z -> Z).
  Notation built := (built u_ispunct u_isspace u_islower u_isupper u_toupper u_tolower).
  Notation typed := (typed u_ispunct u_isspace).
  Notation chain_arc := (chain_arc u_ispunct u_isspace).
  Notation word_char := (word_char u_ispunct u_isspace).
  Context (rl : bool) (x : att) (C : list chain) (ms : list (list line)).
  Notation L := (place 1 ms).
  Notation S0 := (starts 1 ms).
  Context (B : built rl x C L S0) (R : Forall ranged ms) (N : Forall (fun m => m <> []) ms) (NM : ms <> []) (H1 : forall m, ms = [m] -> start_of m = 0).
  Notation gs := (if (1 <? length ms)%nat then 0 else 1).
  Notation a := (x_alph x).

  Lemma gs_start : (1 <? length ms)%nat = false -> In 1 S0.
  Proof. intros E. destruct ms as [|m [|m' r]]; [congruence| |cbn in E; discriminate E]. left. rewrite (H1 m eq_refl). reflexivity. Qed.
  Lemma starts_pos : forall s, In s S0 -> 1 <= s.
  Proof. intros s Hs. destruct (b_start _ _ _ _ _ _ _ _ _ _ _ B s Hs) as (k & Hk & (_ & E & _)). destruct (b_chain _ _ _ _ _ _ _ _ _ _ _ B k Hk) as (_ & _ & _ & _ & P). lia. Qed.
  Lemma arc_from : forall n t, garc (x_graph x) n t -> exists c i, In c C /\ (i < c_len c)%nat /\ n = c_node c i /\ chain_arc (x_letters x) a c i t.
  Proof. exact (b_arc1 _ _ _ _ _ _ _ _ _ _ _ B). Qed.

  (** the codes of what is read *)
  Lemma codes_in : forall u ls d, codes a u ls -> In (SChar d) u -> exists j, (j < length ls)%nat /\ nth j ls 0 = d /\ 0 < d.
  Proof.
    intros u ls d [[-> _]|(_ & F & Z0)] H; [destruct H|]. induction F as [|l p ls u Hp F IH]; [destruct H|]. inversion Z0 as [|? ? Zl Zr]; subst. destruct H as [->|H].
    - exists 0%nat. cbn in Hp. cbn [length nth]. split; [lia|]. lia.
    - destruct (IH Zr H) as (j & Hj & E & P). exists (S j). cbn [length nth]. split; [lia|auto].
  Qed.
  Lemma codes_head : forall ls d r, codes a (SChar d :: r) ls -> nth 0 ls 0 = d /\ 0 < d.
  Proof.
    intros ls d r [[E _]|(_ & F & Z0)]; [discriminate|]. inversion F as [|l p ls' u Hp F']; subst. inversion Z0; subst. cbn in Hp. cbn [nth]. lia.
  Qed.

  Section Class.
    Context (T : Z) (K : Z -> Prop).
    Context (HK : forall letters c ty, typed letters c ty -> 0 < c -> K c -> Z.land ty T = T).

    Inductive cfree : Z -> Prop :=
    | cf_start : cfree gs
    | cf_step c : In c C -> cfree (c_src c) -> (forall j, (j < c_len c)%nat -> 0 < nth j (c_ls c) 0 -> ~ K (nth j (c_ls c) 0)) -> cfree (c_to c).
    Lemma bare_cfree : forall n, bare (x_graph x) gs T n -> (0 <= n -> cfree n)
      /\ (forall c i, In c C -> (1 <= i < c_len c)%nat -> n = c_node c i -> cfree (c_src c) /\ forall j, (j < i)%nat -> 0 < nth j (c_ls c) 0 -> ~ K (nth j (c_ls c) 0)).
    Proof.
      intros n H. induction H as [|n t H [IH1 IH2] G NO].
      - split; [intros _; constructor|]. intros c i Hc Hi E. assert (P := chain_node_neg _ _ _ _ _ _ _ _ _ _ _ B c i Hc ltac:(lia)). destruct (1 <? length ms)%nat; lia.
      - destruct (arc_from n t G) as (c0 & i0 & Hc0 & Hi0 & En & (E1 & E2 & E3 & TY)).
        assert (NK : 0 < nth i0 (c_ls c0) 0 -> ~ K (nth i0 (c_ls c0) 0)) by (intros P Hk; apply NO; exact (HK _ _ _ TY P Hk)).
        assert (PRE : cfree (c_src c0) /\ forall j, (j < i0)%nat -> 0 < nth j (c_ls c0) 0 -> ~ K (nth j (c_ls c0) 0)).
        { destruct i0 as [|i0].
          - split; [|intros j Hj; lia]. cbn [c_node] in En. subst n. apply IH1. apply (b_chain _ _ _ _ _ _ _ _ _ _ _ B c0 Hc0).
          - apply IH2; auto. lia. }
        destruct PRE as [P1 P2].
        assert (P3 : forall j, (j < S i0)%nat -> 0 < nth j (c_ls c0) 0 -> ~ K (nth j (c_ls c0) 0)).
        { intros j Hj. destruct (Nat.eq_dec j i0) as [->|D]; [exact NK|apply P2; lia]. }
        rewrite E1. unfold c_next. destruct (S i0 =? c_len c0)%nat eqn:El.
        + apply Nat.eqb_eq in El. split.
          * intros _. apply cf_step; auto. rewrite <- El. exact P3.
          * intros c i Hc Hi E. assert (Q := chain_node_neg _ _ _ _ _ _ _ _ _ _ _ B c i Hc ltac:(lia)). destruct (b_chain _ _ _ _ _ _ _ _ _ _ _ B c0 Hc0) as (_ & _ & _ & _ & P). lia.
        + apply Nat.eqb_neq in El. change (- (c_ph c0 + Z.of_nat (S i0))) with (c_node c0 (S i0)). split.
          * intros P. assert (Q := chain_node_neg _ _ _ _ _ _ _ _ _ _ _ B c0 (S i0) Hc0 ltac:(lia)). lia.
          * intros c i Hc Hi E. destruct (chain_node_fun _ _ _ _ _ _ _ _ _ _ _ B c0 c (S i0) i Hc0 Hc ltac:(lia) ltac:(lia) E) as [<- <-]. auto.
    Qed.
    Lemma cfree_without : forall n, cfree n -> 1 <= n -> exists s0, In s0 S0 /\ reached_without rl K L s0 n.
    Proof.
      intros n H. induction H as [|c Hc H IH NK]; intros P.
      - exists 1. destruct (1 <? length ms)%nat eqn:E; [lia|]. split; [now apply gs_start|constructor].
      - destruct (b_origin _ _ _ _ _ _ _ _ _ _ _ B c Hc) as [(s & s' & u & l & w & Hl & Ps & (E1 & E2 & E3 & C1 & C2))|(s & Hs & (_ & E2 & _))].
        + destruct (IH ltac:(lia)) as (s0 & Hs0 & W). exists s0. split; [exact Hs0|]. rewrite E2. rewrite E1 in W. eapply rw_step; [exact W|exact Hl|].
          intros d Hd. unfold side in Hd. destruct (codes_in _ _ _ C1 Hd) as (j & Hj & <- & Pd). apply NK; [unfold c_len; lia|exact Pd].
        + exists s. split; [exact Hs|]. rewrite E2. constructor.
    Qed.

    (** the graph after classification *)
    Context (g1 g' : graph) (R1 : retyped (x_graph x) g1).
    Context (FW : forall n t, reached (x_graph x) gs n -> garc g1 n t -> ~ bare (x_graph x) gs T n -> has_type T t).
    Context (EO : forall n, n <> 0 -> node g' n = node g1 n).

    Lemma node_nonzero : forall c i, In c C -> 1 <= c_src c -> c_node c i <> 0.
    Proof. intros c [|i] Hc P; [cbn; lia|]. assert (Q := chain_node_neg _ _ _ _ _ _ _ _ _ _ _ B c (S i) Hc ltac:(lia)). lia. Qed.
    Lemma chain_reached : forall c, In c C -> reached (x_graph x) gs (c_src c) -> forall i, (i < c_len c)%nat -> reached (x_graph x) gs (c_node c i).
    Proof.
      intros c Hc H. induction i as [|i IH]; intros Hi; [exact H|]. specialize (IH ltac:(lia)).
      destruct (b_arc2 _ _ _ _ _ _ _ _ _ _ _ B c i Hc ltac:(lia)) as (t & G & (E1 & _)). unfold c_next in E1. replace (S i =? c_len c)%nat with false in E1 by lia.
      change (- (c_ph c + Z.of_nat (S i))) with (c_node c (S i)) in E1. rewrite <- E1. eapply re_step; eassumption.
    Qed.
    Lemma chain_reached_end : forall c, In c C -> reached (x_graph x) gs (c_src c) -> reached (x_graph x) gs (c_to c).
    Proof.
      intros c Hc H. destruct (b_chain _ _ _ _ _ _ _ _ _ _ _ B c Hc) as (_ & Ln & _). assert (Q := chain_reached c Hc H (pred (c_len c)) ltac:(lia)).
      destruct (b_arc2 _ _ _ _ _ _ _ _ _ _ _ B c (pred (c_len c)) Hc ltac:(lia)) as (t & G & (E1 & _)). unfold c_next in E1.
      replace (S (pred (c_len c)) =? c_len c)%nat with true in E1 by lia. rewrite <- E1. eapply re_step; eassumption.
    Qed.
    Lemma open_when : forall c, In c C -> 1 <= c_src c -> (forall i, (i < c_len c)%nat -> forall t, chain_arc (x_letters x) a c i t -> garc (x_graph x) (c_node c i) t ->
      forall t', garc g1 (c_node c i) t' -> tr_same t t' -> has_type T t') -> open_chain x T g' c.
    Proof.
      intros c Hc P H i Hi. destruct (b_arc2 _ _ _ _ _ _ _ _ _ _ _ B c i Hc Hi) as (t & G & A). destruct (retyped_forth _ _ _ _ R1 G) as (t' & G' & SM).
      exists t'. split; [unfold garc; rewrite EO by (apply node_nonzero; assumption); exact G'|]. split; [eapply H; eassumption|].
      destruct SM as (S1 & S2 & S3 & _). destruct A as (A1 & A2 & A3 & _). rewrite S1, S2, S3. auto.
    Qed.
    Lemma open_guarded : forall c, In c C -> 1 <= c_src c -> reached (x_graph x) gs (c_src c) -> ~ cfree (c_src c) -> open_chain x T g' c.
    Proof.
      intros c Hc P Re NF. apply open_when; auto. intros i Hi t _ _ t' G' _. apply (FW (c_node c i)); [now apply chain_reached|exact G'|].
      intros Ba. apply NF. destruct (bare_cfree _ Ba) as [K1 K2]. destruct i as [|i]; [cbn [c_node] in K1; apply K1; lia|]. apply (K2 c (S i) Hc); [lia|reflexivity].
    Qed.
    Lemma open_first : forall c, In c C -> 1 <= c_src c -> reached (x_graph x) gs (c_src c) -> 0 < nth 0 (c_ls c) 0 -> K (nth 0 (c_ls c) 0) -> open_chain x T g' c.
    Proof.
      intros c Hc P Re P0 K0. apply open_when; auto. intros [|i] Hi t A G t' G' SM.
      - destruct A as (_ & _ & _ & TY). destruct SM as (_ & _ & _ & Gr). apply Gr. exact (HK _ _ _ TY P0 K0).
      - apply (FW (c_node c (S i))); [now apply chain_reached|exact G'|]. intros Ba. destruct (bare_cfree _ Ba) as [_ K2].
        destruct (K2 c (S i) Hc ltac:(lia) eq_refl) as [_ NK]. now apply (NK 0%nat ltac:(lia)).
    Qed.

    Context (m A B' : list line) (o : Z) (EP : L = A ++ map (shift o) m ++ B') (HA : outside o (o + top_state m) A) (HB : outside o (o + top_state m) B') (Rm : ranged m)
      (Nm : m <> []) (Po : 1 <= o) (Uq : forall s, In s S0 -> o <= s <= o + top_state m -> s = start_of m + o).
    Lemma in_place : forall s s' u l w, In (LArc s s' u l w) m -> In (LArc (s + o) (s' + o) u l w) L /\ 0 <= s <= top_state m /\ 0 <= s' <= top_state m.
    Proof.
      intros s s' u l w H. split; [|split; apply (Rm _ _ H); cbn; auto]. rewrite EP. apply in_or_app. right. apply in_or_app. left.
      change (LArc (s + o) (s' + o) u l w) with (shift o (LArc s s' u l w)). now apply in_map.
    Qed.
    Lemma apart_path : forall s y z w s', walk_apart rl K m (start_of m) s y z w s' -> reached (x_graph x) gs (s + o) ->
      exists tr, gpath T g' a (s + o) tr (s' + o) /\ sym_in tr = up rl y z /\ sym_out tr = up rl z y /\ weight_of tr = w.
    Proof.
      intros s y z w s' H. induction H as [s|s s' u l w y z c s'' NR Hl H IH]; intros Re.
      - exists []. split; [constructor|]. unfold up. destruct rl; repeat split.
      - destruct (in_place _ _ _ _ _ Hl) as (HL & P1 & P2).
        destruct (b_line _ _ _ _ _ _ _ _ _ _ _ B _ _ _ _ _ HL) as (Ps & k & Hk & (E1 & E2 & E3 & C1 & C2)).
        assert (OP : open_chain x T g' k).
        { apply open_guarded; auto; [lia|now rewrite E1|]. rewrite E1. intros CF. apply NR. destruct (cfree_without _ CF Ps) as (s0 & Hs0 & W). rewrite EP in W.
          destruct (placed_without rl K A B' m o s0 (s + o) HA HB Rm W s eq_refl P1) as (q & -> & Hq & W').
          rewrite (Uq (q + o) Hs0 ltac:(lia)) in *. assert (q = start_of m) by (specialize (Uq (q + o) Hs0 ltac:(lia)); lia). subst q. exact W'. }
        destruct (chain_run x T g' k OP (c_len k) 0 (up rl u l) (up rl l u)) as (tr1 & G1 & I1 & O1 & W1).
        { lia. } { apply (b_chain _ _ _ _ _ _ _ _ _ _ _ B k Hk). } { apply codes_spell. exact C1. } { apply codes_spell. unfold up. destruct rl; exact C2. }
        cbn [c_node] in G1. rewrite E1, E2 in G1. rewrite E3 in W1.
        destruct IH as (tr2 & G2 & I2 & O2 & W2). { rewrite <- E2. apply chain_reached_end; [exact Hk|now rewrite E1]. }
        exists (tr1 ++ tr2). split; [eapply gpath_app; eassumption|]. rewrite sym_in_app, sym_out_app, weight_app, I1, I2, O1, O2, W1, W2. unfold up. destruct rl; auto.
    Qed.
    Lemma first_path : forall s' u l w d r y z c s'', In (LArc (start_of m) s' u l w) m -> side rl u l = SChar d :: r -> K d ->
      walk_apart rl K m (start_of m) s' y z c s'' -> reached (x_graph x) gs (start_of m + o) ->
      exists tr, gpath T g' a (start_of m + o) tr (s'' + o) /\ sym_in tr = up rl (u ++ y) (l ++ z) /\ sym_out tr = up rl (l ++ z) (u ++ y) /\ weight_of tr = w + c
        /\ exists t, garc g1 (start_of m + o) t /\ has_type T t.
    Proof.
      intros s' u l w d r y z c s'' Hl Hd Kd W Re. destruct (in_place _ _ _ _ _ Hl) as (HL & P1 & P2).
      destruct (b_line _ _ _ _ _ _ _ _ _ _ _ B _ _ _ _ _ HL) as (Ps & k & Hk & (E1 & E2 & E3 & C1 & C2)).
      assert (C1' := C1). change (if rl then l else u) with (side rl u l) in C1'. rewrite Hd in C1'. apply codes_head in C1' as [Eh Ph].
      assert (OP : open_chain x T g' k). { apply open_first; auto; rewrite ?E1, ?Eh; auto. }
      destruct (chain_run x T g' k OP (c_len k) 0 (up rl u l) (up rl l u)) as (tr1 & G1 & I1 & O1 & W1).
      { lia. } { apply (b_chain _ _ _ _ _ _ _ _ _ _ _ B k Hk). } { apply codes_spell. exact C1. } { apply codes_spell. unfold up. destruct rl; exact C2. }
      cbn [c_node] in G1. rewrite E1, E2 in G1. rewrite E3 in W1.
      destruct (apart_path _ _ _ _ _ W) as (tr2 & G2 & I2 & O2 & W2). { rewrite <- E2. apply chain_reached_end; [exact Hk|now rewrite E1]. }
      exists (tr1 ++ tr2). split; [eapply gpath_app; eassumption|]. rewrite sym_in_app, sym_out_app, weight_app, I1, I2, O1, O2, W1, W2.
      split; [unfold up; destruct rl; auto|]. split; [unfold up; destruct rl; auto|]. split; [reflexivity|].
      destruct (OP 0%nat) as (t & Gt & Ht & _). { apply (b_chain _ _ _ _ _ _ _ _ _ _ _ B k Hk). }
      exists t. split; [|exact Ht]. cbn [c_node] in Gt. rewrite E1 in Gt. unfold garc in *. rewrite EO in Gt by lia. exact Gt.
    Qed.
  End Class.
End Parts.

Lemma starts_machine : forall ms o s, Forall ranged ms -> Forall (fun m => m <> []) ms -> In s (starts o ms) ->
  exists m A B p, In m ms /\ s = start_of m + p /\ place o ms = A ++ map (shift p) m ++ B
    /\ outside p (p + top_state m) A /\ outside p (p + top_state m) B /\ o <= p.
Proof.
  induction ms as [|m ms IH]; intros o s R N Hs; [destruct Hs|]. inversion R as [|? ? R1 R2]; inversion N as [|? ? N1 N2]; subst. cbn [place]. destruct Hs as [<-|Hs].
  - exists m, [], (place (o + top_state m + 1) ms), o. split; [now left|]. split; [reflexivity|]. split; [reflexivity|]. split; [intros ? ? []|]. split; [|lia].
    intros l q Hl Hq. right. apply (place_above ms _ l q R2) in Hl; [|exact Hq]. lia.
  - destruct (IH _ s R2 N2 Hs) as (m' & A & B & p & Hm & -> & E & HA & HB & Hp). exists m', (map (shift o) m ++ A), B, p.
    split; [now right|]. split; [reflexivity|]. split; [rewrite E; apply app_assoc|]. split; [|split; [exact HB|assert (K := top_pos m); lia]].
    apply outside_app; [|exact HA]. intros l q Hl Hq. left. apply (shift_states o m l q R1) in Hl; [|exact Hq]. lia.
Qed.

Lemma trace_arc : forall X (D : Z -> X -> Prop) t q p tr q', trace D t q (p :: tr) q' -> (0 < length (concat (trans t)))%nat.
Proof.
  intros X D t q p tr q' H. remember (p :: tr) as tr0. destruct H as [|q a x w r tr0 q' HA HD H]; [discriminate|].
  assert (K : In (a, (r, w)) (concat (trans t))).
  { apply in_concat. exists (arcs_of t q). split; [|exact HA]. unfold has_arc, arcs_of in *. destruct (Nat.lt_ge_cases q (length (trans t))) as [Q|Q]; [now apply nth_In|].
    rewrite nth_overflow in HA by exact Q. destruct HA. }
  destruct (concat (trans t)); [destruct K|cbn; lia].
Qed.

Section Whole.
  Context (u_ispunct u_isspace u_islower u_isupper : Z -> bool) (u_toupper u_tolower : Z -> Z).
  Notation built := (built u_ispunct u_isspace u_islower u_isupper u_toupper u_tolower).
  Notation typed := (typed u_ispunct u_isspace).
  Notation chain_arc := (chain_arc u_ispunct u_isspace).
  Notation compile := (att_compile u_ispunct u_isspace u_islower u_isupper u_toupper u_tolower).
  Notation wl := (word_letter u_ispunct u_isspace).
  (** a section and the characters its words begin with *)
  Definition class_of (T : Z) (K : Z -> Prop) : Prop := (T = 1 /\ K = wl) \/ (T = 2 /\ K = (fun c => u_ispunct c = true)).
  Lemma class_typed : forall T K, class_of T K -> forall letters c ty, typed letters c ty -> 0 < c -> K c -> Z.land ty T = T.
  Proof.
    intros T K [[-> ->]|[-> ->]] letters c ty (H1 & H2 & H3 & H4) P Hc.
    - apply H1; [exact P|]. now apply word_char_letter.
    - now apply H3.
  Qed.
  Lemma final_in : forall L s f, final_line L s f -> In (LFinal s f) L.
  Proof. intros L s f H. induction H; [now left|now right]. Qed.

  Section Graph.
    Context (rl : bool) (x : att) (C : list chain) (ms : list (list line)).
    Context (B : built rl x C (place 1 ms) (starts 1 ms)) (R : Forall ranged ms) (N : Forall (fun m => m <> []) ms) (NM : ms <> []) (H1 : forall m, ms = [m] -> start_of m = 0).
    Context (PS : Forall (plain_start rl u_ispunct u_isspace) ms).
    Notation gs := (if (1 <? length ms)%nat then 0 else 1).

    Lemma arcs_of_start : forall s t, In s (starts 1 ms) -> garc (x_graph x) s t -> exists d r p,
      decode (tr_tag t) (x_alph x) = Ok (d, p) /\ 0 < d /\ (wl d \/ u_ispunct d = true) /\ typed (x_letters x) d (tr_type t) /\ r = tr_to t.
    Proof.
      intros s t Hs G. destruct (starts_machine ms 1 s R N Hs) as (m & A & B' & o & Hm & -> & EP & HA & HB & Ho).
      assert (Rm := proj1 (Forall_forall _ _) R m Hm). assert (Nm := proj1 (Forall_forall _ _) N m Hm). destruct (proj1 (Forall_forall _ _) PS m Hm) as [_ Pm].
      assert (SR := start_ranged m Nm Rm).
      destruct (b_arc1 _ _ _ _ _ _ _ _ _ _ _ B _ t G) as (c & i & Hc & Hi & En & (A1 & A2 & A3 & TY)).
      assert (i = 0%nat) by (apply (chain_node_zero _ _ _ _ _ _ _ _ _ _ _ B c); [exact Hc|lia]). subst i. cbn [c_node] in En.
      destruct (b_origin _ _ _ _ _ _ _ _ _ _ _ B c Hc) as [(q & q' & u & l & w & Hl & Pq & (E1 & E2 & E3 & C1 & C2))|(q & _ & (E1 & _))]; [|lia].
      rewrite E1 in En. subst q. rewrite EP in Hl. apply placed_arc in Hl as (q2 & -> & Hl & _); auto.
      destruct (Pm _ _ _ _ Hl) as (d & r & Ed & Kd). change (if rl then l else u) with (side rl u l) in C1. rewrite Ed in C1. apply codes_head in C1 as [Eh Ph].
      rewrite Eh in A2, TY. exists d, (tr_to t), (nth 0 (c_rs c) 0). auto.
    Qed.
    Lemma start_not_final : forall s, In s (starts 1 ms) -> zfind s (x_finals x) = None.
    Proof.
      intros s Hs. destruct (zfind s (x_finals x)) as [f|] eqn:E; [exfalso|reflexivity]. apply (b_finals _ _ _ _ _ _ _ _ _ _ _ B) in E.
      destruct (starts_machine ms 1 s R N Hs) as (m & A & B' & o & Hm & -> & EP & HA & HB & Ho).
      assert (Rm := proj1 (Forall_forall _ _) R m Hm). assert (Nm := proj1 (Forall_forall _ _) N m Hm). destruct (proj1 (Forall_forall _ _) PS m Hm) as [Fm _].
      rewrite EP in E. apply placed_final in E; auto; [|now apply start_ranged]. apply (Fm f). now apply final_in.
    Qed.
    Lemma zero_not_final : zfind 0 (x_finals x) = None.
    Proof.
      destruct (zfind 0 (x_finals x)) as [f|] eqn:E; [exfalso|reflexivity]. apply (b_finals _ _ _ _ _ _ _ _ _ _ _ B) in E. apply final_in in E.
      apply (place_above ms 1 _ 0 R) in E; [lia|now left].
    Qed.
    Lemma type_nonzero : forall d ty, 0 < d -> (wl d \/ u_ispunct d = true) -> typed (x_letters x) d ty -> ty <> 0.
    Proof.
      intros d ty P [H|H] TY E; subst ty.
      - assert (K := class_typed 1 wl (or_introl (conj eq_refl eq_refl)) _ _ _ TY P H). discriminate K.
      - assert (K := class_typed 2 (fun c => u_ispunct c = true) (or_intror (conj eq_refl eq_refl)) _ _ _ TY P H). discriminate K.
    Qed.
    Lemma grows_nonzero : forall p q, grows p q -> p <> 0 -> q <> 0.
    Proof. intros p q G H ->. apply H. specialize (G p (Z.land_diag p)). now rewrite Z.land_0_l in G. Qed.
    Lemma start_typed : forall g1 s, retyped (x_graph x) g1 -> In s (starts 1 ms) -> all_typed g1 s.
    Proof.
      intros g1 s R1 Hs t' G'. destruct (retyped_back _ _ _ _ R1 G') as (t & G & (_ & _ & _ & Gr)).
      destruct (arcs_of_start s t Hs G) as (d & r & p & _ & Pd & Kd & TY & _). eapply grows_nonzero; [exact Gr|]. eapply type_nonzero; eassumption.
    Qed.
    Lemma into_zero : forall m t, garc (x_graph x) m t -> tr_to t <> 0.
    Proof.
      intros m t G. destruct (b_arc1 _ _ _ _ _ _ _ _ _ _ _ B m t G) as (c & i & Hc & Hi & _ & (A1 & _)). destruct (b_chain _ _ _ _ _ _ _ _ _ _ _ B c Hc) as (P1 & _ & _ & _ & P2).
      rewrite A1. unfold c_next. destruct (S i =? c_len c)%nat; lia.
    Qed.
    Lemma from_zero : forall t, garc (x_graph x) 0 t -> In (tr_to t) (starts 1 ms) /\ tr_type t = 0 /\ decode (tr_tag t) (x_alph x) = Ok (0, 0) /\ tr_wt t = 0.
    Proof.
      intros t G. destruct (b_arc1 _ _ _ _ _ _ _ _ _ _ _ B 0 t G) as (c & i & Hc & Hi & En & (A1 & A2 & A3 & TY)).
      assert (i = 0%nat) by (apply (chain_node_zero _ _ _ _ _ _ _ _ _ _ _ B c); [exact Hc|lia]). subst i. cbn [c_node] in En.
      destruct (b_origin _ _ _ _ _ _ _ _ _ _ _ B c Hc) as [(q & q' & u & l & w & Hl & Pq & (E1 & _))|(q & Hq & (E1 & E2 & E3 & E4 & E5))]; [lia|].
      unfold c_next, c_len in *. rewrite E4, E5 in *. cbn in A1, A2, A3, TY. rewrite A1, E2. split; [exact Hq|]. split; [|split; [exact A2|congruence]].
      destruct TY as (_ & _ & _ & T0). apply T0. lia.
    Qed.
    Lemma to_start : forall s, In s (starts 1 ms) -> exists t, garc (x_graph x) 0 t /\ tr_to t = s.
    Proof.
      intros s Hs. destruct (b_start _ _ _ _ _ _ _ _ _ _ _ B s Hs) as (c & Hc & (E1 & E2 & E3 & E4 & E5)).
      destruct (b_arc2 _ _ _ _ _ _ _ _ _ _ _ B c 0%nat Hc) as (t & G & (A1 & _)). { unfold c_len. rewrite E4, E5. cbn. lia. }
      cbn [c_node] in G. rewrite E1 in G. exists t. split; [exact G|]. rewrite A1. unfold c_next, c_len. rewrite E4, E5. cbn. exact E2.
    Qed.

    (** The graph after both passes. *)
    Lemma classify_ok : exists g1 ty g', classify_forwards gs (x_graph x) = Ok g1
      /\ classify_backwards (S (S (narcs g1))) (x_finals x) gs [] g1 = Ok (ty, g') /\ retyped (x_graph x) g1
      /\ (forall T n t, reached (x_graph x) gs n -> garc g1 n t -> ~ bare (x_graph x) gs T n -> has_type T t)
      /\ (forall n, n <> 0 -> node g' n = node g1 n)
      /\ ((1 <? length ms)%nat = true -> node g' 0 = map (settle g1) (node (x_graph x) 0)).
    Proof.
      destruct (forwards_ok gs (x_graph x)) as (g1 & E1 & R1 & FW).
      assert (N0 : node g1 0 = node (x_graph x) 0).
      { apply (forwards_quiet (x_graph x) (fun n => n = 0)) with (start := gs); [|exact E1|reflexivity]. intros m t G E. now apply into_zero in G. }
      exists g1. destruct (1 <? length ms)%nat eqn:EM.
      - destruct (bwd_start (narcs g1) (x_finals x) g1 (length (node g1 0)) 0 g1 0) as (ty & g' & E2 & EO & E0).
        + reflexivity.
        + lia.
        + reflexivity.
        + intros t G. unfold garc in G. rewrite N0 in G. destruct (from_zero t G) as (Hs & Z0 & _). split; [exact Z0|]. split; [now apply (into_zero 0)|].
          split; [now apply start_typed|now apply start_not_final].
        + exists ty, g'. split; [exact E1|]. split; [cbn [classify_backwards]; rewrite zero_not_final; exact E2|]. split; [exact R1|]. split; [exact FW|]. split; [exact EO|].
          intros _. now rewrite E0, N0.
      - assert (Hs : In 1 (starts 1 ms)) by (eapply gs_start; eassumption).
        exists (union_of (node g1 1)), g1. split; [exact E1|]. split; [|split; [exact R1|split; [exact FW|split; [reflexivity|discriminate]]]].
        apply backwards_typed; [now apply start_typed|now apply start_not_final].
    Qed.
  End Graph.

  Definition section_name (T : Z) : ustr := if T =? 1 then main_name else final_name.
  Theorem compile_split : forall hfst rl text ms, file_says hfst text ms -> fits ms -> (forall m, ms = [m] -> start_of m = 0) ->
    Forall (plain_start rl u_ispunct u_isspace) ms ->
    exists letters a secs, compile hfst rl true text = Ok (letters, a, secs)
      /\ (forall T K, class_of T K -> forall m s' u l w d r y z c s'' f, In m ms -> In (LArc (start_of m) s' u l w) m -> side rl u l = SChar d :: r -> K d ->
            walk_apart rl K m (start_of m) s' y z c s'' -> final_line m s'' f ->
            exists t c', In (section_name T, t) secs /\ section_means rl t a (u ++ y) (l ++ z) c' /\ (Forall weights_agree ms -> c' = w + c + f))
      /\ (Forall fresh_start ms -> forall T, T = 1 \/ T = 2 -> forall t y z c, In (section_name T, t) secs -> section_means rl t a y z c ->
            exists d r, side rl y z = SChar d :: r /\ (T = 1 -> In (d mod 65536) letters) /\ (T = 2 -> u_ispunct d = true)).
  Proof.
    intros hfst rl text ms FS FI H1 PS. destruct (file_ranged _ _ _ FS) as [R N]. assert (NM := file_nonempty _ _ _ FS).
    destruct (text_ok u_ispunct u_isspace u_islower u_isupper u_toupper u_tolower hfst rl text ms FS FI) as (x & C & g & E & Mu & B).
    destruct (classify_ok rl x C ms B R N NM H1 PS) as (g1 & ty & g' & E1 & E2 & R1 & FW & EO & E0).
    set (gs := if (1 <? length ms)%nat then 0 else 1) in *.
    destruct (extract_transducer_ok (with_graph g' x) gs 1) as (t1 & corr1 & Et1 & TK1).
    destruct (extract_transducer_ok (with_graph g' x) gs 2) as (t2 & corr2 & Et2 & TK2).
    cbn [with_graph x_graph x_finals] in TK1, TK2.
    eexists (x_letters x), (x_alph x), _. split.
    { unfold att_compile, att_parse. rewrite E. cbn [obind]. rewrite Mu. fold gs. rewrite E1. cbn [obind]. rewrite E2. cbn [obind].
      unfold att_sections. rewrite Et1, Et2. cbn [obind with_graph x_letters x_alph]. reflexivity. }
    assert (SH : shaped (x_graph x) g') by (eapply shaped_trans; [apply retyped_shaped, R1|eapply backwards_shaped, E2]).
    split.
    - intros T K CL m s' u l w d r y z c s'' f Hm Hl Hd Kd W F.
      destruct (place_split ms 1 m R N Hm) as (A & B' & o & EP & HA & HB & Po & Hs & Uq).
      assert (Rm := proj1 (Forall_forall _ _) R m Hm). assert (Nm := proj1 (Forall_forall _ _) N m Hm).
      assert (RE : reached (x_graph x) gs (start_of m + o)).
      { unfold gs. destruct (1 <? length ms)%nat eqn:EM.
        - destruct (to_start rl x C ms B _ Hs) as (t & G & <-). eapply re_step; [constructor|exact G].
        - destruct ms as [|m0 [|m' rest]]; [congruence| |cbn in EM; discriminate EM]. apply place_start in Hs. rewrite (H1 m0 eq_refl) in Hs. rewrite Hs. constructor. }
      destruct (first_path _ _ _ _ _ _ rl x C ms B R N NM H1 T K (class_typed T K CL) g1 g' R1 (FW T) EO m A B' o EP HA HB Rm Uq s' u l w d r y z c s'' Hl Hd Kd W RE)
        as (tr & GP & I & O & Wt & tt & Gt & Ht).
      assert (GP' : exists tr', gpath T g' (x_alph x) gs tr' (s'' + o) /\ sym_in tr' = sym_in tr /\ sym_out tr' = sym_out tr /\ weight_of tr' = weight_of tr).
      { unfold gs. destruct (1 <? length ms)%nat eqn:EM.
        - destruct (to_start rl x C ms B _ Hs) as (t & G & Et). destruct (from_zero rl x C ms B t G) as (_ & _ & D & W0).
          exists (((SChar 0, SChar 0), tr_wt (settle g1 t)) :: tr). split; [|split; [reflexivity|split; [reflexivity|]]; unfold weight_of; cbn [map fold_right snd settle tr_wt]; rewrite W0; reflexivity].
          assert (HT : T = 1 \/ T = 2) by (destruct CL as [[-> _]|[-> _]]; auto).
          assert (GS : garc g' 0 (settle g1 t)) by (unfold garc; rewrite (E0 eq_refl); now apply in_map).
          econstructor.
          + exact GS.
          + unfold has_type, settle. cbn [tr_type]. apply union_has; [exact HT|]. exists tt. rewrite Et. auto.
          + exists 0, 0. cbn. split; [exact D|]. cbn. lia.
          + cbn [settle tr_to]. rewrite Et. exact GP.
        - exists tr. split; [|auto]. destruct ms as [|m0 [|m' rest]]; [congruence| |cbn in EM; discriminate EM]. apply place_start in Hs. rewrite (H1 m0 eq_refl) in Hs.
          rewrite Hs in GP. exact GP. }
      destruct GP' as (tr' & GP' & I' & O' & W'). rewrite I in I'. rewrite O in O'. rewrite Wt in W'.
      assert (ZF : zfind (s'' + o) (x_finals x) = Some f).
      { apply (b_finals _ _ _ _ _ _ _ _ _ _ _ B). rewrite EP. apply placed_final; auto.
        assert (In (LFinal s'' f) m) by (now apply final_in). apply (Rm _ s'' H). now left. }
      assert (SEC : forall t corr, taken g' (x_finals x) gs T t corr -> exists c', section_means rl t (x_alph x) (u ++ y) (l ++ z) c' /\ (Forall weights_agree ms -> c' = w + c + f)
        /\ (0 < length (concat (trans t)))%nat).
      { intros t corr TK. destruct (section_complete _ _ _ _ _ _ _ _ _ _ TK GP' ZF) as (tr2 & Acc & Em & Ef). destruct (map_in _ _ Em) as [I2 O2].
        exists (weight_of tr2 + f). split; [|split].
        - unfold section_means, up in *. destruct rl; exists tr2, f; (split; [exact Acc|]); repeat split; congruence.
        - intros WA. rewrite Ef, W'; [reflexivity|]. intros n s1 s2 G1 G2 Eg Et. destruct (shaped_back _ _ _ _ SH G1) as (q1 & Q1 & (K1 & K2 & K3)). destruct (shaped_back _ _ _ _ SH G2) as (q2 & Q2 & (K1' & K2' & K3')).
          rewrite K3, K3'. eapply arcs_agree; [exact B|now apply place_agree|exact Q1|exact Q2|congruence|congruence].
        - destruct tr2 as [|p tr2].
          + exfalso. cbn in I2. rewrite I' in I2. unfold side in Hd. unfold up in I2. destruct rl; [destruct l|destruct u]; discriminate.
          + destruct Acc as (q & Tr & _). eapply trace_arc, Tr. }
      destruct CL as [[-> _]|[-> _]].
      + destruct (SEC t1 corr1 TK1) as (c' & S1 & S2 & _). exists t1, c'. split; [apply in_or_app; right; now left|auto].
      + destruct (SEC t2 corr2 TK2) as (c' & S1 & S2 & S3). exists t2, c'. split; [|auto]. apply in_or_app. left. apply Nat.ltb_lt in S3. rewrite S3. now left.
    - intros FR T HT t y z c Ht Sm.
      assert (QU : forall s, In s (starts 1 ms) -> node g1 s = node (x_graph x) s).
      { intros s Hs. apply (forwards_quiet (x_graph x) (fun n => n = 0 \/ In n (starts 1 ms))) with (start := gs); [|exact E1|now right].
        intros k q G [Z0|Hq]; [exfalso; now apply (into_zero rl x C ms B k q G)|].
        destruct (b_arc1 _ _ _ _ _ _ _ _ _ _ _ B k q G) as (ch & i & Hc & Hi & En & (A1 & A2 & A3 & TY)).
        assert (Pq := starts_pos _ _ _ _ _ _ _ _ _ _ B _ Hq). destruct (b_chain _ _ _ _ _ _ _ _ _ _ _ B ch Hc) as (P1 & _ & _ & _ & P2).
        rewrite A1 in Hq, Pq. unfold c_next in Hq, Pq. destruct (S i =? c_len ch)%nat eqn:El; [|lia]. apply Nat.eqb_eq in El.
        destruct (b_origin _ _ _ _ _ _ _ _ _ _ _ B ch Hc) as [(s1 & s2 & u & l & w & Hl & Ps & (Q1 & Q2 & Q3 & C1 & C2))|(s1 & Hs1 & (Q1 & Q2 & Q3 & Q4 & Q5))].
        - exfalso. rewrite Q2 in Hq. destruct (starts_machine ms 1 s2 R N Hq) as (m & A & B' & o & Hm & -> & EP & HA & HB & Ho).
          assert (Rm := proj1 (Forall_forall _ _) R m Hm). assert (Nm := proj1 (Forall_forall _ _) N m Hm). rewrite EP in Hl.
          apply placed_into in Hl as (q' & -> & Hl & _); auto; [|now apply start_ranged]. apply (proj1 (Forall_forall _ _) FR m Hm _ _ _ _ Hl).
        - unfold c_len in El. rewrite Q4, Q5 in El. cbn in El. assert (i = 0%nat) by lia. subst i. cbn [c_node] in En. split; [left; congruence|].
          rewrite Q4 in TY. cbn [nth] in TY. destruct TY as (_ & _ & _ & T0). apply T0. lia. }
      assert (GO : exists tr n', gpath T g' (x_alph x) gs tr n' /\ zfind n' (x_finals x) <> None /\ sym_in tr = side rl y z).
      { assert (TK : exists corr, taken g' (x_finals x) gs T t corr).
        { apply in_app_or in Ht as [Ht|[Ht|[]]].
          - destruct (0 <? length (concat (trans t2)))%nat; [|destruct Ht]. destruct Ht as [Ht|[]]. unfold section_name in Ht. destruct HT as [-> | ->]; injection Ht; [discriminate|]. intros <-. eauto.
          - unfold section_name in Ht. destruct HT as [-> | ->]; injection Ht; [|discriminate]. intros <-. eauto. }
        destruct TK as (corr & TK). unfold section_means, side in *.
        destruct rl; destruct Sm as (tr & f & Acc & I & O & _); destruct (section_sound _ _ _ _ _ _ _ _ _ TK Acc) as (n' & P & Z0); exists tr, n'; (split; [exact P|]); (split; [congruence|exact I]). }
      destruct GO as (tr & n' & GP & Fn & <-).
      assert (FST : forall s, In s (starts 1 ms) -> forall tr, gpath T g' (x_alph x) s tr n' -> exists d r, sym_in tr = SChar d :: r /\ (T = 1 -> In (d mod 65536) (x_letters x)) /\ (T = 2 -> u_ispunct d = true)).
      { clear tr GP. intros s Hs tr GP. remember s as s0 eqn:Es0. destruct GP as [n|n t' p tr n' G Hty D GP]; subst.
        - exfalso. apply Fn. eapply start_not_final; eassumption.
        - assert (Pq := starts_pos _ _ _ _ _ _ _ _ _ _ B _ Hs). unfold garc in G. rewrite EO in G by lia. rewrite (QU _ Hs) in G.
          destruct (arcs_of_start rl x C ms B R N H1 PS s t' Hs G) as (d & r & q & Ed & Pd & _ & TY & _).
          destruct D as (l & r' & D & D1 & _). rewrite Ed in D. injection D as <- <-.
          assert (Ep : fst p = SChar d). { destruct (fst p) as [nm|k]; cbn in D1; [lia|]. destruct D1 as [_ <-]. reflexivity. }
          exists d, (sym_in tr). split.
          + rewrite sym_in_cons. rewrite Ep. unfold is_eps. cbn [filter]. destruct d; try lia. reflexivity.
          + destruct TY as (_ & T1 & T2 & _). split; intros ->; [now apply T1|now apply T2]. }
      unfold gs in GP. destruct (1 <? length ms)%nat eqn:EM.
      + remember 0 as zz eqn:Ez in GP. destruct GP as [n|n t' p tr n' G Hty D GP]; subst.
        * exfalso. apply Fn. eapply zero_not_final; eassumption.
        * unfold garc in G. rewrite (E0 eq_refl) in G. apply in_map_iff in G as (t0 & <- & G). destruct (from_zero rl x C ms B t0 G) as (Hs & _ & Ed & _).
          cbn [settle tr_to tr_tag tr_wt] in *. destruct (FST _ Hs _ GP) as (d & r & Es & HD). exists d, r. split; [|exact HD].
          rewrite sym_in_cons. destruct D as (l & r' & D & D1 & _). rewrite Ed in D. injection D as <- <-. apply zero_symbol in D1. rewrite D1. cbn. exact Es.
      + apply (FST 1); [eapply gs_start; eassumption|exact GP].
  Qed.
End Whole.
