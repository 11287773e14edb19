(** AT&T files: the words of the graph and of the section are those of the lines. *)
From Verif Require Import Base CompressionModel SerialiserModel AlphabetModel AlphabetProofs TransducerModel TransducerSpec RelabelSpec RelabelProofs ComposeSpec AttModel AttSpec AttTextProofs AttProofs AttGraphProofs.

(** * Several transducers in one file *)
Definition ranged (m : list line) : Prop := forall l q, In l m -> In q (line_states l) -> 0 <= q <= top_state m.
Definition outside (lo hi : Z) (L : list line) : Prop := forall l q, In l L -> In q (line_states l) -> q < lo \/ hi < q.
Lemma file_ranged : forall hfst text ms, file_says hfst text ms -> Forall ranged ms /\ Forall (fun m => m <> []) ms.
Proof.
  assert (G : forall hfst rows m, machine_says hfst rows m -> ranged m /\ m <> []).
  { intros hfst rows m [F (c0 & c1 & cr & rest & ->)]. split; [|inversion F; discriminate]. clear -F.
    set (rows := (c0 :: c1 :: cr) :: rest) in F. clearbody rows. induction F as [|cols l rows m [H _] F IH]; [intros ? ? []|].
    intros k q [<-|Hk] Hq.
    - rewrite top_cons. split.
      + inversion H; subst; cbn [line_states In] in Hq; repeat match goal with N : numeral _ _ |- _ => apply numeral_pos in N end; intuition subst; assumption.
      + assert (q <= top_state [l]); [|lia]. unfold top_state. cbn [flat_map]. rewrite app_nil_r. clear -Hq.
        induction (line_states l) as [|p r IHr]; [destruct Hq|]. cbn [fold_right]. destruct Hq as [->|Hq]; [lia|]. specialize (IHr Hq). lia.
    - rewrite top_cons. specialize (IH k q Hk Hq). lia. }
  intros hfst text ms H. induction H as [rows m H|rows m text ms H _ [IH1 IH2]]; destruct (G _ _ _ H) as [G1 G2]; split; auto.
Qed.

Section Placed.
  Context (A B m : list line) (o : Z).
  Context (HA : outside o (o + top_state m) A) (HB : outside o (o + top_state m) B) (Hm : ranged m).
  Notation L := (A ++ map (shift o) m ++ B).
  Lemma placed_arc : forall s s' u l w, 0 <= s <= top_state m -> In (LArc (s + o) s' u l w) L -> exists q, s' = q + o /\ In (LArc s q u l w) m /\ 0 <= q <= top_state m.
  Proof.
    intros s s' u l w Hs H. apply in_app_or in H as [H|H]; [|apply in_app_or in H as [H|H]].
    - specialize (HA _ (s + o) H (or_introl eq_refl)). lia.
    - apply in_map_iff in H as ([q q' u' l' w'|q w'] & E & H); [|discriminate]. injection E as E1 <- -> -> ->. replace q with s in H by lia.
      exists q'. split; [reflexivity|]. split; [exact H|]. apply (Hm _ q' H). cbn. auto.
    - specialize (HB _ (s + o) H (or_introl eq_refl)). lia.
  Qed.
  Lemma placed_walk : forall n x y c n', walk L n x y c n' -> forall s, n = s + o -> 0 <= s <= top_state m ->
    exists s', n' = s' + o /\ walk m s x y c s' /\ 0 <= s' <= top_state m.
  Proof.
    intros n x y c n' H. induction H as [n|n n1 u l w x y c n' H H' IH]; intros s -> Hs.
    - exists s. split; [reflexivity|]. split; [constructor|exact Hs].
    - apply placed_arc in H as (q & -> & H & Hq); [|exact Hs]. destruct (IH q eq_refl Hq) as (s' & -> & W & Hs'). exists s'.
      split; [reflexivity|]. split; [econstructor; eassumption|exact Hs'].
  Qed.
  Lemma walk_placed : forall s x y c s', walk m s x y c s' -> walk L (s + o) x y c (s' + o).
  Proof.
    clear. intros s x y c s' H. induction H as [s|s s1 u l w x y c s' H _ IH]; [constructor|]. econstructor; [|exact IH].
    apply in_or_app. right. apply in_or_app. left. change (LArc (s + o) (s1 + o) u l w) with (shift o (LArc s s1 u l w)). now apply in_map.
  Qed.
  Lemma final_skip : forall P Q k f, (forall l q, In l P -> In q (line_states l) -> q <> k) -> (final_line (P ++ Q) k f <-> final_line Q k f).
  Proof.
    clear. induction P as [|l P IH]; intros Q k f H; cbn [app]; [reflexivity|].
    assert (N : forall f', l <> LFinal k f') by (intros f' ->; apply (H (LFinal k f') k); cbn; auto).
    rewrite <- (IH Q k f). 2:{ intros j q Hj. apply H. now right. }
    split; intros K; [inversion K; subst; [now destruct (N f)|assumption]|now constructor].
  Qed.
  Lemma final_prefix : forall P Q k f, (forall l q, In l Q -> In q (line_states l) -> q <> k) -> (final_line (P ++ Q) k f <-> final_line P k f).
  Proof.
    clear. intros P Q k f H. induction P as [|l P IH]; cbn [app].
    - split; intros K; [|inversion K]. rewrite <- (app_nil_r Q) in K. apply final_skip in K; assumption.
    - split; intros K; inversion K; subst; constructor; auto; now apply IH.
  Qed.
  Lemma placed_final : forall s f, 0 <= s <= top_state m -> (final_line L (s + o) f <-> final_line m s f).
  Proof.
    intros s f Hs. rewrite final_skip. 2:{ intros l q Hl Hq. specialize (HA l q Hl Hq). lia. }
    rewrite final_prefix. 2:{ intros l q Hl Hq. specialize (HB l q Hl Hq). lia. }
    clear. induction m as [|l r IH]; cbn [map]; [split; intros K; inversion K|]. split; intros K.
    - remember (shift o l :: map (shift o) r) as R eqn:ER. remember (s + o) as k eqn:Ek. destruct K as [R' k' f'|R' k' f' l' N K].
      + injection ER as E _. destruct l as [| q g]; [discriminate|]. cbn [shift] in E. injection E as E1 ->. replace q with s by lia. constructor.
      + injection ER as -> ->. constructor; [|now apply IH; subst]. intros f'' ->. apply (N f''). cbn [shift]. now rewrite Ek.
    - inversion K as [? ? ? E1|? ? ? ? N K']; subst; [constructor|]. constructor; [|now apply IH].
      intros f' E. destruct l as [| q g]; [discriminate|]. cbn [shift] in E. injection E as E1 ->. apply (N f'). f_equal. lia.
  Qed.
  Lemma placed_means : forall s x y c, 0 <= s <= top_state m -> (means_from L (s + o) x y c <-> means_from m s x y c).
  Proof.
    intros s x y c Hs. split.
    - intros (n' & d & f & W & F & ->). apply placed_walk with (s := s) in W as (s' & -> & W & Hs'); auto.
      exists s', d, f. split; [exact W|]. split; [|reflexivity]. now apply placed_final.
    - intros (s' & d & f & W & F & ->). exists (s' + o), d, f. split; [now apply walk_placed|]. split; [|reflexivity].
      apply placed_final; [|exact F]. destruct (placed_walk _ _ _ _ _ (walk_placed _ _ _ _ _ W) s eq_refl Hs) as (q & E & _ & Hq). replace s' with q by lia. exact Hq.
  Qed.
End Placed.

Lemma start_ranged : forall m, m <> [] -> ranged m -> 0 <= start_of m <= top_state m.
Proof. intros [|l m] N R; [congruence|]. apply (R l); [now left|]. destruct l; cbn; auto. Qed.
Lemma outside_app : forall lo hi A B, outside lo hi A -> outside lo hi B -> outside lo hi (A ++ B).
Proof. intros lo hi A B HA HB l q Hl. apply in_app_or in Hl as [Hl|Hl]; [apply HA|apply HB]; exact Hl. Qed.
Lemma shift_states : forall o m l q, ranged m -> In l (map (shift o) m) -> In q (line_states l) -> o <= q <= o + top_state m.
Proof.
  intros o m l q R Hl Hq. apply in_map_iff in Hl as (k & <- & Hk).
  assert (K : exists q', q = q' + o /\ In q' (line_states k)).
  { destruct k; cbn in Hq |- *; intuition (subst; eauto). }
  destruct K as (q' & -> & K). specialize (R k q' Hk K). lia.
Qed.
Lemma place_above : forall ms o l q, Forall ranged ms -> In l (place o ms) -> In q (line_states l) -> o <= q.
Proof.
  induction ms as [|m ms IH]; intros o l q R Hl Hq; cbn [place] in Hl; [destruct Hl|]. inversion R as [|? ? R1 R2]; subst.
  apply in_app_or in Hl as [Hl|Hl]; [now apply (shift_states o m l q)|]. apply (IH _ l q R2) in Hl; [|exact Hq]. assert (P := top_pos m). lia.
Qed.
Lemma place_means : forall ms o A x y c, Forall ranged ms -> Forall (fun m => m <> []) ms -> (forall l q, In l A -> In q (line_states l) -> q < o) ->
  (exists s, In s (starts o ms) /\ means_from (A ++ place o ms) s x y c) <-> file_means ms x y c.
Proof.
  induction ms as [|m ms IH]; intros o A x y c R N HA.
  - split; [intros (s & [] & _)|intros (m & [] & _)].
  - inversion R as [|? ? R1 R2]; inversion N as [|? ? N1 N2]; subst. clear R N. cbn [starts place].
    assert (SR := start_ranged m N1 R1).
    assert (PM : means_from (A ++ map (shift o) m ++ place (o + top_state m + 1) ms) (start_of m + o) x y c <-> means_from m (start_of m) x y c).
    { apply placed_means; auto.
      - intros l q Hl Hq. specialize (HA l q Hl Hq). lia.
      - intros l q Hl Hq. apply (place_above ms _ l q R2) in Hl; [|exact Hq]. lia. }
    assert (IH' := IH (o + top_state m + 1) (A ++ map (shift o) m) x y c R2 N2).
    rewrite <- app_assoc in IH'.
    assert (HA' : forall l q, In l (A ++ map (shift o) m) -> In q (line_states l) -> q < o + top_state m + 1).
    { intros l q Hl Hq. assert (TP := top_pos m). apply in_app_or in Hl as [Hl|Hl]; [specialize (HA l q Hl Hq); lia|].
      apply (shift_states o m l q R1) in Hl; [|exact Hq]. lia. }
    specialize (IH' HA'). split.
    + intros (s & [<-|Hs] & M); [exists m; split; [now left|now apply PM]|]. destruct (proj1 IH') as (k & Hk & M'); [eauto|]. exists k. split; [now right|exact M'].
    + intros (k & [<-|Hk] & M).
      * exists (start_of m + o). split; [now left|now apply PM].
      * destruct (proj2 IH') as (s & Hs & M'); [exists k; auto|]. exists s. split; [now right|exact M'].
Qed.
Lemma place_agree : forall ms o, Forall ranged ms -> Forall weights_agree ms -> weights_agree (place o ms).
Proof.
  induction ms as [|m ms IH]; intros o R W; cbn [place]; [intros ? ? ? ? ? ? []|]. inversion R as [|? ? R1 R2]; inversion W as [|? ? W1 W2]; subst.
  intros s s' u l w w' H H'. apply in_app_or in H as [H|H]; apply in_app_or in H' as [H'|H'].
  - apply in_map_iff in H as ([q q' ? ? ?|] & E & H); [|discriminate]. apply in_map_iff in H' as ([p p' ? ? ?|] & E' & H'); [|discriminate].
    cbn [shift] in E, E'. injection E as E1 E2 -> -> ->. injection E' as E1' E2' -> -> ->. replace p with q in H' by lia. replace p' with q' in H' by lia.
    exact (W1 _ _ _ _ _ _ H H').
  - apply (shift_states o m _ s R1) in H; [|cbn; auto]. apply (place_above ms _ _ s R2) in H'; [|cbn; auto]. lia.
  - apply (shift_states o m _ s R1) in H'; [|cbn; auto]. apply (place_above ms _ _ s R2) in H; [|cbn; auto]. lia.
  - exact (IH _ R2 W2 _ _ _ _ _ _ H H').
Qed.
Lemma place_start : forall m o s, In s (starts o [m]) -> s = start_of m + o.
Proof. intros m o s [<-|[]]. reflexivity. Qed.

(** * Words of codes *)
Definition spell (a : alphabet) (ls : list Z) (u : list symbol) : Prop :=
  exists ps, Forall2 (as_symbol a) ls ps /\ u = filter (fun s => negb (is_eps s)) ps.
Lemma codes_spell : forall a u ls, codes a u ls -> spell a ls u.
Proof.
  intros a u ls [[-> ->]|(N & F & Z0)].
  - exists [SChar 0]. split; [constructor; [split; [lia|reflexivity]|constructor]|reflexivity].
  - exists u. split; [exact F|]. clear N. induction F as [|l p ls u H F IH]; cbn [filter]; [reflexivity|]. inversion Z0; subst.
    replace (is_eps p) with false; [cbn [negb]; now rewrite <- IH|]. destruct p as [n|c]; [reflexivity|]. destruct H as [_ <-].
    symmetry. unfold is_eps. destruct l; congruence.
Qed.
Lemma spell_fun : forall a ls u v, spell a ls u -> spell a ls v -> u = v.
Proof.
  intros a ls u v (p & F & ->) (q & G & ->). f_equal. revert q G. induction F as [|l p ls ps H F IH]; intros q G; inversion G; subst; f_equal; auto.
  eapply as_symbol_fun; eassumption.
Qed.
Lemma zero_symbol : forall a p, as_symbol a 0 p -> p = SChar 0.
Proof. intros a [n|c] H; cbn in H; [lia|]. destruct H as [_ <-]. reflexivity. Qed.
Lemma spell_step : forall a ls i p u, as_symbol a (nth i ls 0) p -> (spell a (skipn i ls) u <-> exists v, u = filter (fun s => negb (is_eps s)) [p] ++ v /\ spell a (skipn (S i) ls) v).
Proof.
  intros a ls. induction ls as [|l ls IH]; intros i p u H.
  - replace (nth i [] 0) with 0 in H by (destruct i; reflexivity). apply zero_symbol in H as ->. rewrite skipn_nil, skipn_nil. cbn [filter is_eps negb app].
    split; [intros K; exists u; auto|intros (v & -> & K); exact K].
  - destruct i as [|i]; [|apply IH, H]. cbn [nth] in H. change (skipn 1 (l :: ls)) with ls. change (skipn 0 (l :: ls)) with (l :: ls). split.
    + intros (ps & F & ->). inversion F as [|? q ? qs Hq F']; subst. assert (q = p) by (eapply as_symbol_fun; eassumption). subst q.
      exists (filter (fun s => negb (is_eps s)) qs). split; [|exists qs; auto]. cbn [filter]. destruct (negb (is_eps p)); reflexivity.
    + intros (v & -> & qs & F & ->). exists (p :: qs). split; [now constructor|]. cbn [filter]. destruct (negb (is_eps p)); reflexivity.
Qed.
Lemma spell_symbols : forall a ls u i, spell a ls u -> exists p, as_symbol a (nth i ls 0) p.
Proof.
  intros a ls u i (ps & F & _). revert i. induction F as [|l p ls ps H F IH]; intros i.
  - exists (SChar 0). destruct i; cbn; lia.
  - destruct i; [exists p; exact H|apply IH].
Qed.

(** * Paths of the graph *)
Inductive gpath (T : Z) (g : graph) (a : alphabet) : Z -> list ((symbol * symbol) * Z) -> Z -> Prop :=
| gp_nil n : gpath T g a n [] n
| gp_cons n t p tr n' : garc g n t -> has_type T t -> as_symbols a (tr_tag t) p -> gpath T g a (tr_to t) tr n' -> gpath T g a n ((p, tr_wt t) :: tr) n'.

Lemma section_sound : forall g fins start T t corr a tr f, taken g fins start T t corr -> accepts_trace (as_symbols a) t tr f ->
  exists n', gpath T g a start tr n' /\ zfind n' fins = Some f.
Proof.
  intros g fins start T t corr a tr f K (q & H & F).
  assert (G : forall i tr q, trace (as_symbols a) t i tr q -> forall n, corr n = Some i -> exists n', corr n' = Some q /\ gpath T g a n tr n').
  { clear - K. intros i tr q H. induction H as [i|i tag p w j tr q A D H IH]; intros n Hn.
    - exists n. split; [exact Hn|constructor].
    - destruct (tk_arcs _ _ _ _ _ _ K _ _ _ _ A) as (b & s & Hb & Hg & Ht & <- & Hs & <-). assert (b = n) by (eapply (tk_inj _ _ _ _ _ _ K); eassumption). subst b.
      destruct (IH _ Hs) as (n' & H1 & H2). exists n'. split; [exact H1|]. econstructor; eassumption. }
  destruct (G _ _ _ H start (tk_start _ _ _ _ _ _ K)) as (n' & H1 & H2). exists n'. split; [exact H2|]. now apply (tk_finals _ _ _ _ _ _ K n' q f).
Qed.
Lemma section_complete : forall g fins start T t corr a tr n' f, taken g fins start T t corr -> gpath T g a start tr n' -> zfind n' fins = Some f ->
  exists tr', accepts_trace (as_symbols a) t tr' f /\ map fst tr' = map fst tr
    /\ ((forall n s s', garc g n s -> garc g n s' -> tr_tag s = tr_tag s' -> tr_to s = tr_to s' -> tr_wt s = tr_wt s') -> tr' = tr).
Proof.
  intros g fins start T t corr a tr n' f K P F.
  assert (G : forall n tr n', gpath T g a n tr n' -> forall i, corr n = Some i -> exists j tr', corr n' = Some j /\ trace (as_symbols a) t i tr' j /\ map fst tr' = map fst tr
    /\ ((forall n s s', garc g n s -> garc g n s' -> tr_tag s = tr_tag s' -> tr_to s = tr_to s' -> tr_wt s = tr_wt s') -> tr' = tr)).
  { clear - K. intros n tr n' P. induction P as [n|n s p tr n' A Ht D P IH]; intros i Hi.
    - exists i, []. repeat split; auto. constructor.
    - destruct (tk_all _ _ _ _ _ _ K _ _ _ Hi A Ht) as (j & w & Hj & Ha). destruct (IH j Hj) as (k & tr' & H1 & H2 & H3 & H4).
      exists k, ((p, w) :: tr'). split; [exact H1|]. split; [econstructor; eassumption|]. split; [cbn [map fst]; now f_equal|].
      intros U. rewrite (H4 U). f_equal. f_equal. destruct (tk_arcs _ _ _ _ _ _ K _ _ _ _ Ha) as (b & s' & Hb & Hg & _ & Et & Hs & <-).
      assert (b = n) by (eapply (tk_inj _ _ _ _ _ _ K); eassumption). subst b. apply (U n s' s); auto. eapply (tk_inj _ _ _ _ _ _ K); eassumption. }
  destruct (G _ _ _ P _ (tk_start _ _ _ _ _ _ K)) as (j & tr' & H1 & H2 & H3 & H4). exists tr'. split; [|auto].
  exists j. split; [exact H2|]. now apply (tk_finals _ _ _ _ _ _ K n' j f).
Qed.

(** * Chains as steps *)
Inductive cwalk (a : alphabet) (C : list chain) : Z -> list symbol -> list symbol -> Z -> Z -> Prop :=
| cw_nil n : cwalk a C n [] [] 0 n
| cw_cons c u v x y w n' : In c C -> spell a (c_ls c) u -> spell a (c_rs c) v -> cwalk a C (c_to c) x y w n' ->
    cwalk a C (c_src c) (u ++ x) (v ++ y) (c_w c + w) n'.

Section Chains.
  Context (u_ispunct u_isspace u_islower u_isupper : Z -> bool) (u_toupper u_tolower : Z -> Z).
  Notation built := (built u_ispunct u_isspace u_islower u_isupper u_toupper u_tolower).
  Notation typed := (typed u_ispunct u_isspace).
  Notation chain_arc := (chain_arc u_ispunct u_isspace).
  Context (rl : bool) (x : att) (C : list chain) (L : list line) (S : list Z) (B : built rl x C L S).
  Notation a := (x_alph x).

  Lemma chain_node_neg : forall c i, In c C -> (1 <= i)%nat -> c_node c i < 0.
  Proof using B. intros c [|i] Hc Hi; [lia|]. destruct (b_chain _ _ _ _ _ _ _ _ _ _ _ B c Hc) as (H & _). cbn [c_node]. lia. Qed.
  Lemma chain_node_zero : forall c i, In c C -> 0 <= c_node c i -> i = O.
  Proof using B. intros c [|i] Hc H; [reflexivity|]. assert (K := chain_node_neg c (Datatypes.S i) Hc ltac:(lia)). lia. Qed.
  Lemma chain_node_fun : forall c c' i i', In c C -> In c' C -> (1 <= i < c_len c)%nat -> (i' < c_len c')%nat -> c_node c i = c_node c' i' -> c = c' /\ i = i'.
  Proof using B.
    intros c c' i i' Hc Hc' Hi Hi' E. assert (K := chain_node_neg c i Hc ltac:(lia)). destruct i' as [|i'].
    - destruct (b_chain _ _ _ _ _ _ _ _ _ _ _ B c' Hc') as (_ & _ & _ & P & _). cbn [c_node] in E. lia.
    - apply (b_unique _ _ _ _ _ _ _ _ _ _ _ B); auto; [lia|]. destruct i as [|i]; [lia|]. cbn [c_node] in E. lia.
  Qed.
  Lemma chain_spells : forall c, In c C -> exists u v, spell a (c_ls c) u /\ spell a (c_rs c) v.
  Proof using B.
    intros c Hc. destruct (b_origin _ _ _ _ _ _ _ _ _ _ _ B c Hc) as [(s & s' & u & l & w & _ & _ & (_ & _ & _ & H1 & H2))|(s & _ & (_ & _ & _ & -> & ->))].
    - eexists _, _. split; eapply codes_spell; eassumption.
    - exists [], []. split; apply codes_spell; left; auto.
  Qed.

  Lemma sym_in_cons : forall p w tr, sym_in ((p, w) :: tr) = filter (fun s => negb (is_eps s)) [fst p] ++ sym_in tr.
  Proof. intros p w tr. unfold sym_in. cbn [map filter fst]. destruct (negb (is_eps (fst p))); reflexivity. Qed.
  Lemma sym_out_cons : forall p w tr, sym_out ((p, w) :: tr) = filter (fun s => negb (is_eps s)) [snd p] ++ sym_out tr.
  Proof. intros p w tr. unfold sym_out. cbn [map filter fst]. destruct (negb (is_eps (snd p))); reflexivity. Qed.

  Definition rest_of (c : chain) (i : nat) (tr : list ((symbol * symbol) * Z)) (n' : Z) : Prop :=
    exists u v x y w, spell a (skipn i (c_ls c)) u /\ spell a (skipn i (c_rs c)) v /\ cwalk a C (c_to c) x y w n'
      /\ sym_in tr = u ++ x /\ sym_out tr = v ++ y /\ weight_of tr = c_w c + w.
  Lemma long_skip : forall c i, (c_len c <= i)%nat -> skipn i (c_ls c) = [] /\ skipn i (c_rs c) = [].
  Proof. intros c i H. unfold c_len in H. split; apply skipn_all2; lia. Qed.
  Lemma spell_nil : spell a [] [].
  Proof. exists []. split; [constructor|reflexivity]. Qed.

  Lemma path_chains : forall n tr n', gpath 0 (x_graph x) a n tr n' -> 0 <= n' ->
    (0 <= n -> cwalk a C n (sym_in tr) (sym_out tr) (weight_of tr) n')
    /\ (forall c i, In c C -> (1 <= i < c_len c)%nat -> n = c_node c i -> rest_of c i tr n').
  Proof using B.
    intros n tr n' H Hn'. induction H as [n|n t p tr n' G _ D H IH].
    - split; [intros _; constructor|]. intros c i Hc Hi ->. assert (K := chain_node_neg c i Hc ltac:(lia)). lia.
    - specialize (IH Hn'). destruct IH as [IH1 IH2].
      assert (STEP : forall c i, In c C -> (i < c_len c)%nat -> chain_arc (x_letters x) a c i t -> rest_of c i ((p, tr_wt t) :: tr) n').
      { intros c i Hc Hi (Et & Ed & Ew & _).
        assert (SP : as_symbol a (nth i (c_ls c) 0) (fst p) /\ as_symbol a (nth i (c_rs c) 0) (snd p)).
        { destruct D as (l & r & D & H1 & H2). rewrite Ed in D. injection D as <- <-. auto. }
        destruct SP as [SP1 SP2]. unfold rest_of. rewrite sym_in_cons, sym_out_cons. unfold weight_of. cbn [fold_right snd]. fold (weight_of tr).
        destruct (Nat.eq_dec (Datatypes.S i) (c_len c)) as [El|El].
        - assert (E1 : tr_to t = c_to c) by (rewrite Et; unfold c_next; now rewrite (proj2 (Nat.eqb_eq _ _) El)).
          assert (E2 : tr_wt t = c_w c) by (rewrite Ew; now rewrite (proj2 (Nat.eqb_eq _ _) El)).
          rewrite E1 in IH1. destruct (long_skip c (Datatypes.S i) ltac:(lia)) as [K1 K2].
          assert (P : 0 <= c_to c) by (destruct (b_chain _ _ _ _ _ _ _ _ _ _ _ B c Hc) as (_ & _ & _ & _ & P); lia).
          eexists _, _, _, _, _. split; [|split; [|split; [exact (IH1 P)|]]].
          + apply (spell_step a (c_ls c) i (fst p)); [exact SP1|]. exists []. split; [reflexivity|]. rewrite K1. apply spell_nil.
          + apply (spell_step a (c_rs c) i (snd p)); [exact SP2|]. exists []. split; [reflexivity|]. rewrite K2. apply spell_nil.
          + rewrite !app_nil_r. repeat split. lia.
        - assert (E1 : tr_to t = c_node c (Datatypes.S i)) by (rewrite Et; unfold c_next; now rewrite (proj2 (Nat.eqb_neq _ _) El)).
          assert (E2 : tr_wt t = 0) by (rewrite Ew; now rewrite (proj2 (Nat.eqb_neq _ _) El)).
          destruct (IH2 c (Datatypes.S i) Hc ltac:(lia) E1) as (u & v & x0 & y & w & S1 & S2 & W & I & O & Wt).
          eexists _, _, x0, y, w. split; [|split; [|split; [exact W|]]].
          + apply (spell_step a (c_ls c) i (fst p)); [exact SP1|]. exists u. split; [reflexivity|exact S1].
          + apply (spell_step a (c_rs c) i (snd p)); [exact SP2|]. exists v. split; [reflexivity|exact S2].
          + rewrite I, O, <- !app_assoc. repeat split. lia. }
      destruct (b_arc1 _ _ _ _ _ _ _ _ _ _ _ B n t G) as (c0 & i0 & Hc0 & Hi0 & En & A0).
      specialize (STEP c0 i0 Hc0 Hi0 A0). split.
      + intros Hn. rewrite En in Hn. apply chain_node_zero in Hn; [|exact Hc0]. subst i0. cbn [c_node] in En. subst n.
        destruct STEP as (u & v & x0 & y & w & S1 & S2 & W & -> & -> & ->). now apply cw_cons.
      + intros c i Hc Hi E. rewrite E in En. apply chain_node_fun in En as [<- <-]; auto.
  Qed.

  (** A graph with other types. *)
  Context (T : Z) (g : graph).
  Definition open_chain (c : chain) : Prop := forall i, (i < c_len c)%nat ->
    exists t, garc g (c_node c i) t /\ has_type T t /\ tr_to t = c_next c i /\ decode (tr_tag t) a = Ok (nth i (c_ls c) 0, nth i (c_rs c) 0)
      /\ tr_wt t = (if (Datatypes.S i =? c_len c)%nat then c_w c else 0).
  Lemma chain_run : forall c, open_chain c -> forall k i u v, (k + i = c_len c)%nat -> (1 <= k)%nat ->
    spell a (skipn i (c_ls c)) u -> spell a (skipn i (c_rs c)) v ->
    exists tr, gpath T g a (c_node c i) tr (c_to c) /\ sym_in tr = u /\ sym_out tr = v /\ weight_of tr = c_w c.
  Proof using.
    intros c O. induction k as [|k IH]; intros i u v Ek Hk SU SV; [lia|].
    destruct (O i ltac:(lia)) as (t & G & Ht & Et & Ed & Ew).
    assert (SP : exists p, as_symbol a (nth i (c_ls c) 0) p).
    { replace (nth i (c_ls c) 0) with (nth 0 (skipn i (c_ls c)) 0); [eapply spell_symbols, SU|]. clear. revert i. induction (c_ls c) as [|q r IH]; intros [|i]; cbn; auto. }
    assert (SQ : exists p, as_symbol a (nth i (c_rs c) 0) p).
    { replace (nth i (c_rs c) 0) with (nth 0 (skipn i (c_rs c)) 0); [eapply spell_symbols, SV|]. clear. revert i. induction (c_rs c) as [|q r IH]; intros [|i]; cbn; auto. }
    destruct SP as (p & SP). destruct SQ as (q & SQ).
    apply (proj1 (spell_step a _ i p u SP)) in SU as (u' & -> & SU). apply (proj1 (spell_step a _ i q v SQ)) in SV as (v' & -> & SV).
    assert (D : as_symbols a (tr_tag t) (p, q)) by (exists (nth i (c_ls c) 0), (nth i (c_rs c) 0); auto).
    destruct (Nat.eq_dec (Datatypes.S i) (c_len c)) as [El|El].
    - destruct (long_skip c (Datatypes.S i) ltac:(lia)) as [K1 K2]. rewrite K1 in SU. rewrite K2 in SV.
      rewrite (spell_fun _ _ _ _ SU spell_nil), (spell_fun _ _ _ _ SV spell_nil), !app_nil_r.
      unfold c_next in Et. rewrite (proj2 (Nat.eqb_eq _ _) El) in Et, Ew.
      exists [((p, q), tr_wt t)]. split; [|split; [|split]].
      + econstructor; eauto. rewrite Et. constructor.
      + rewrite sym_in_cons. cbn. apply app_nil_r.
      + rewrite sym_out_cons. cbn. apply app_nil_r.
      + cbn. lia.
    - destruct (IH (Datatypes.S i) u' v' ltac:(lia) ltac:(lia) SU SV) as (tr & P & I & O' & W).
      unfold c_next in Et. rewrite (proj2 (Nat.eqb_neq _ _) El) in Et, Ew.
      exists (((p, q), tr_wt t) :: tr). split; [|split; [|split]].
      + econstructor; eauto. rewrite Et. exact P.
      + rewrite sym_in_cons, I. reflexivity.
      + rewrite sym_out_cons, O'. reflexivity.
      + unfold weight_of. cbn [fold_right snd]. fold (weight_of tr). lia.
  Qed.
  Lemma gpath_app : forall n tr n1, gpath T g a n tr n1 -> forall tr' n', gpath T g a n1 tr' n' -> gpath T g a n (tr ++ tr') n'.
  Proof using. intros n tr n1 H. induction H; intros tr' n2 K; cbn [app]; [exact K|]. econstructor; eauto. Qed.
  Lemma sym_in_app : forall tr tr', sym_in (tr ++ tr') = sym_in tr ++ sym_in tr'.
  Proof using. intros. unfold sym_in. rewrite map_app. apply filter_app. Qed.
  Lemma sym_out_app : forall tr tr', sym_out (tr ++ tr') = sym_out tr ++ sym_out tr'.
  Proof using. intros. unfold sym_out. rewrite map_app. apply filter_app. Qed.
  Lemma weight_app : forall (tr tr' : list ((symbol * symbol) * Z)), weight_of (tr ++ tr') = weight_of tr + weight_of tr'.
  Proof using. intros. unfold weight_of. induction tr as [|p tr IH]; cbn [app fold_right]; lia. Qed.
  Lemma chains_path : forall n u v w n', cwalk a C n u v w n' -> (forall c, In c C -> open_chain c) ->
    exists tr, gpath T g a n tr n' /\ sym_in tr = u /\ sym_out tr = v /\ weight_of tr = w.
  Proof using B.
    intros n u v w n' H O. induction H as [n|c u v x0 y w n' Hc SU SV H IH].
    - exists []. repeat split. constructor.
    - destruct IH as (tr & P & <- & <- & <-).
      destruct (chain_run c (O c Hc) (c_len c) 0 u v ltac:(lia) ltac:(apply (b_chain _ _ _ _ _ _ _ _ _ _ _ B c Hc)) SU SV) as (tr' & P' & <- & <- & Ew).
      exists (tr' ++ tr). split; [eapply gpath_app; eassumption|]. rewrite sym_in_app, sym_out_app, weight_app, Ew. auto.
  Qed.
End Chains.

Section Walks.
  Context (u_ispunct u_isspace u_islower u_isupper : Z -> bool) (u_toupper u_tolower : Z -> Z).
  Notation built := (built u_ispunct u_isspace u_islower u_isupper u_toupper u_tolower).
  Context (rl : bool) (x : att) (C : list chain) (L : list line) (S : list Z) (B : built rl x C L S).
  Notation a := (x_alph x).
  Definition up (u v : list symbol) : list symbol := if rl then v else u.
  Lemma cwalk_walk : forall n u v w n', cwalk a C n u v w n' -> 1 <= n -> walk L n (up u v) (up v u) w n' /\ 1 <= n'.
  Proof using B.
    intros n u v w n' H. induction H as [n|c u v y z w n' Hc SU SV H IH]; intros Hn.
    - split; [unfold up; destruct rl; constructor|exact Hn].
    - destruct (b_chain _ _ _ _ _ _ _ _ _ _ _ B c Hc) as (_ & _ & _ & _ & K). specialize (IH K) as [IH1 IH2]. split; [|exact IH2].
      destruct (b_origin _ _ _ _ _ _ _ _ _ _ _ B c Hc) as [(s & s' & p & q & w' & Hl & _ & (<- & <- & <- & H1 & H2))|(s & _ & (E & _))]; [|lia].
      assert (E1 := spell_fun _ _ _ _ SU (codes_spell _ _ _ H1)). assert (E2 := spell_fun _ _ _ _ SV (codes_spell _ _ _ H2)).
      replace (up (u ++ y) (v ++ z)) with (p ++ up y z) by (unfold up; destruct rl; congruence).
      replace (up (v ++ z) (u ++ y)) with (q ++ up z y) by (unfold up; destruct rl; congruence).
      econstructor; eassumption.
  Qed.
  Lemma walk_cwalk : forall n u v w n', walk L n u v w n' -> cwalk a C n (up u v) (up v u) w n'.
  Proof using B.
    intros n u v w n' H. induction H as [n|s s' p q w u v c n' Hl H IH].
    - unfold up; destruct rl; constructor.
    - destruct (b_line _ _ _ _ _ _ _ _ _ _ _ B _ _ _ _ _ Hl) as (_ & c0 & Hc & (<- & <- & <- & H1 & H2)).
      replace (up (p ++ u) (q ++ v)) with (up p q ++ up u v) by (unfold up; destruct rl; congruence).
      replace (up (q ++ v) (p ++ u)) with (up q p ++ up v u) by (unfold up; destruct rl; congruence).
      constructor; auto; apply codes_spell; unfold up; destruct rl; assumption.
  Qed.
  Lemma cwalk_start : forall u v w n', cwalk a C 0 u v w n' -> n' = 0 \/ exists s, In s S /\ cwalk a C s u v w n'.
  Proof using B.
    intros u v w n' H. remember 0 as n eqn:En. destruct H as [n|c u v y z w n' Hc SU SV H]; [now left|right].
    destruct (b_origin _ _ _ _ _ _ _ _ _ _ _ B c Hc) as [(s & s' & p & q & w' & Hl & P & (E & _))|(s & Hs & (_ & Et & Ew & El & Er))]; [lia|].
    exists s. split; [exact Hs|]. rewrite El in SU. rewrite Er in SV.
    assert (Z0 : spell a [0] []) by (apply codes_spell; left; auto).
    rewrite (spell_fun _ _ _ _ SU Z0), (spell_fun _ _ _ _ SV Z0), Ew, <- Et. exact H.
  Qed.
  Lemma start_cwalk : forall s u v w n', In s S -> cwalk a C s u v w n' -> cwalk a C 0 u v w n'.
  Proof using B.
    intros s u v w n' Hs H. destruct (b_start _ _ _ _ _ _ _ _ _ _ _ B s Hs) as (c & Hc & (E0 & <- & Ew & El & Er)).
    assert (Z0 : spell a [0] []) by (apply codes_spell; left; auto).
    rewrite <- E0. replace w with (c_w c + w) by lia. change u with ([] ++ u). change v with ([] ++ v). constructor; [exact Hc| | |exact H]; rewrite ?El, ?Er; exact Z0.
  Qed.
  (** No arc is given twice with different weights. *)
  Lemma arcs_agree : weights_agree L -> forall n s s', garc (x_graph x) n s -> garc (x_graph x) n s' -> tr_tag s = tr_tag s' -> tr_to s = tr_to s' -> tr_wt s = tr_wt s'.
  Proof using B.
    intros W n s s' G G' Et Eto.
    destruct (b_arc1 _ _ _ _ _ _ _ _ _ _ _ B n s G) as (c & i & Hc & Hi & En & (A1 & A2 & A3 & _)).
    destruct (b_arc1 _ _ _ _ _ _ _ _ _ _ _ B n s' G') as (c' & i' & Hc' & Hi' & En' & (A1' & A2' & A3' & _)).
    rewrite En in En'.
    destruct i as [|i].
    2:{ destruct (chain_node_fun _ _ _ _ _ _ rl x C L S B c c' (Datatypes.S i) i' Hc Hc' ltac:(lia) Hi' En') as [<- <-]. congruence. }
    destruct i' as [|i'].
    2:{ symmetry in En'. destruct (chain_node_fun _ _ _ _ _ _ rl x C L S B c' c (Datatypes.S i') 0%nat Hc' Hc ltac:(lia) Hi En') as [_ K]. discriminate K. }
    cbn [c_node] in En'.
    destruct (b_chain _ _ _ _ _ _ _ _ _ _ _ B c Hc) as (P1 & P2 & _ & _ & P3). destruct (b_chain _ _ _ _ _ _ _ _ _ _ _ B c' Hc') as (P1' & P2' & _ & _ & P3').
    unfold c_next in A1, A1'. destruct (1 =? c_len c)%nat eqn:L1; destruct (1 =? c_len c')%nat eqn:L1'; try lia.
    rewrite A3, A3'. assert (Ed : nth 0 (c_ls c) 0 = nth 0 (c_ls c') 0 /\ nth 0 (c_rs c) 0 = nth 0 (c_rs c') 0).
    { rewrite Et, A2' in A2. injection A2 as -> ->. auto. }
    assert (ONE : forall l l' : list Z, (length l <= 1)%nat -> (length l' <= 1)%nat -> l <> [] -> l' <> [] -> nth 0 l 0 = nth 0 l' 0 -> l = l').
    { intros [|p [|? ?]] [|p' [|? ?]] ? ? ? ? E; cbn [length nth] in *; try congruence; lia. }
    apply Nat.eqb_eq in L1, L1'. unfold c_len in L1, L1'.
    destruct (b_origin _ _ _ _ _ _ _ _ _ _ _ B c Hc) as [(q & q' & p & r & v & Hl & Q & (E1 & E2 & E3 & H1 & H2))|(q & _ & (E1 & E2 & E3 & _))];
    destruct (b_origin _ _ _ _ _ _ _ _ _ _ _ B c' Hc') as [(k & k' & p' & r' & v' & Hl' & Q' & (E1' & E2' & E3' & H1' & H2'))|(k & _ & (E1' & E2' & E3' & _))]; try lia.
    assert (El : c_ls c = c_ls c') by (apply ONE; try tauto; try lia; eapply codes_nonempty; eassumption).
    assert (Er : c_rs c = c_rs c') by (apply ONE; try tauto; try lia; eapply codes_nonempty; eassumption).
    rewrite El in H1. rewrite Er in H2.
    assert (K1 := spell_fun _ _ _ _ (codes_spell _ _ _ H1) (codes_spell _ _ _ H1')). assert (K2 := spell_fun _ _ _ _ (codes_spell _ _ _ H2) (codes_spell _ _ _ H2')).
    assert (p = p' /\ r = r') as [-> ->] by (destruct rl; auto). rewrite E3, E3'. replace k with q in Hl' by lia. replace k' with q' in Hl' by lia.
    exact (W _ _ _ _ _ _ Hl Hl').
  Qed.
End Walks.
