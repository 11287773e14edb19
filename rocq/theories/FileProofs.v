(** The dictionary file format: what is written is read back. *)
From Coq Require Import Sorted.
From Verif Require Import Base CompressionModel CompressionProofs StringCodecProofs
  WeightCodecProofs SerialiserModel AlphabetModel AlphabetProofs FileModel.

Lemma to_uint_small : forall v, 0 <= v < 2 ^ 30 -> to_uint v = v.
Proof.
  intros v H. unfold to_uint. change (2 ^ 30) with 1073741824 in H. change (2 ^ 32) with 4294967296.
  apply Z.mod_small. lia.
Qed.

Lemma Ok_inj : forall {A} (x y : A), Ok x = Ok y -> x = y.
Proof. congruence. Qed.

Lemma Forall_app_2 : forall {A} (P : A -> Prop) l m, Forall P l -> Forall P m -> Forall P (l ++ m).
Proof. intros. apply Forall_app. auto. Qed.

(** ** Weights *)
Definition wt_ok (w : weight) : Prop :=
  match w with WFin m e => is_double m e | _ => True end.
Definition rrd (w : weight) : weight := match w with WFin m e => reread m e | _ => w end.
Definition wt_out (ww : bool) (w : weight) : weight := if ww then rrd w else WFin 0 0.
Definition cur_ok (ww : bool) (w : weight) : Prop := ww = false -> w = WFin 0 0.

Lemma weight_rt : forall ww w, wt_ok w -> exists bs, write_weight ww w = Ok bs /\ bytes bs
  /\ forall cur rest, cur_ok ww cur -> read_weight ww cur (bs ++ rest) = (wt_out ww w, rest).
Proof.
  intros [|] w Hw; unfold write_weight, read_weight, wt_out.
  - destruct w as [m e| |].
    + destruct (weight_fin_roundtrip m e (double_exp_ok _ _ Hw)) as (bs & H1 & HB & H2).
      exists bs. split; [exact H1|]. split; [exact HB|]. intros cur rest _. apply H2.
    + destruct (weight_inf_roundtrip WPInf) as (bs & H1 & HB & H2); [auto|]. exists bs. split; [exact H1|]. split; [exact HB|auto].
    + destruct (weight_inf_roundtrip WNInf) as (bs & H1 & HB & H2); [auto|]. exists bs. split; [exact H1|]. split; [exact HB|auto].
  - exists []. split; [reflexivity|]. split; [constructor|]. intros cur rest H. now rewrite (H eq_refl).
Qed.

Lemma cur_ok_out : forall ww w, cur_ok ww (wt_out ww w).
Proof. intros [|] w H; [discriminate|reflexivity]. Qed.

Lemma mb_rt : forall v, 0 <= v < 2 ^ 30 -> exists bs, multibyte_write (to_uint v) = Ok bs /\ bytes bs
  /\ forall rest, multibyte_read (bs ++ rest) = (v, rest).
Proof.
  intros v H. rewrite to_uint_small by exact H.
  destruct (multibyte_roundtrip v H) as (bs & H1 & HB & _ & H2). eauto.
Qed.

(** ** Final states *)
Lemma ffin_insert_end : forall s w l, Forall (fun f => (fst f < s)%nat) l -> ffin_insert s w l = l ++ [(s, w)].
Proof.
  intros s w l H. induction H as [|[s' w'] l Hs _ IH]; [reflexivity|]. cbn [ffin_insert app]. cbn in Hs.
  destruct (Nat.ltb_spec s s'); [lia|]. destruct (Nat.eqb_spec s s'); [lia|]. now rewrite IH.
Qed.

Definition fin_lt (f g : nat * weight) : Prop := (fst f < fst g)%nat.
Definition fins_out (ww : bool) (l : list (nat * weight)) : list (nat * weight) :=
  map (fun f => (fst f, wt_out ww (snd f))) l.

Lemma finals_rt : forall ww l base, StronglySorted fin_lt l ->
  Forall (fun f => base <= Z.of_nat (fst f) < 2 ^ 30 /\ wt_ok (snd f)) l -> 0 <= base ->
  exists bs, write_finals ww base l = Ok bs /\ bytes bs
  /\ forall cur rest acc, cur_ok ww cur ->
       (forall f g, In f acc -> In g l -> fin_lt f g) ->
       exists cur', cur_ok ww cur'
         /\ read_finals ww (length l) base cur (bs ++ rest) acc = (acc ++ fins_out ww l, cur', rest).
Proof.
  intros ww. induction l as [|[s w] l IH]; intros base S F Hb; cbn [write_finals length read_finals].
  - exists []. split; [reflexivity|]. split; [constructor|]. intros cur rest acc Hc _. exists cur. split; [exact Hc|]. now rewrite app_nil_r.
  - inversion S as [|? ? S' Hs]; subst. inversion F as [|? ? [Hr Hw] F']; subst. cbn [fst snd] in *.
    destruct (mb_rt (Z.of_nat s - base)) as (a & Ea & Ba & Ra); [lia|].
    destruct (weight_rt ww w Hw) as (b & Eb & Bb & Rb).
    destruct (IH (Z.of_nat s) S') as (c & Ec & Bc & Rc); [|lia|].
    { rewrite Forall_forall in *. intros f Hf. split; [|now apply F']. apply Hs in Hf as Hlt. unfold fin_lt in Hlt. cbn in Hlt.
      apply F' in Hf. lia. }
    rewrite Ea. cbn [obind]. rewrite Eb. cbn [obind]. rewrite Ec. cbn [obind]. eexists. split; [reflexivity|].
    split; [now repeat apply Forall_app_2|]. intros cur rest acc Hc Hacc. rewrite <- !app_assoc, Ra. replace (base + (Z.of_nat s - base)) with (Z.of_nat s) by lia.
    rewrite Rb by exact Hc. rewrite Nat2Z.id, ffin_insert_end.
    2: { apply Forall_forall. intros f Hf. apply (Hacc f (s, w)); [exact Hf|now left]. }
    destruct (Rc (wt_out ww w) rest (acc ++ [(s, wt_out ww w)]) (cur_ok_out ww w)) as (cur' & Hc' & ->).
    + intros f g Hf Hg. apply in_app_or in Hf as [Hf|[<-|[]]]; [apply Hacc; [exact Hf|now right]|].
      unfold fin_lt. cbn. rewrite Forall_forall in Hs. now apply Hs in Hg.
    + exists cur'. split; [exact Hc'|]. unfold fins_out. cbn [map fst snd]. now rewrite <- app_assoc.
Qed.

(** ** Arcs *)
Lemma fmm_insert_end : forall (a : farc) l, Forall (fun b => fst b <= fst a) l -> fmm_insert a l = l ++ [a].
Proof.
  intros a l H. induction H as [|b l Hb _ IH]; [reflexivity|]. cbn [fmm_insert app].
  destruct (Z.ltb_spec (fst a) (fst b)); [lia|]. now rewrite IH.
Qed.

Definition arc_le (a b : farc) : Prop := fst a <= fst b.
Definition arcs_out (ww : bool) (l : list farc) : list farc :=
  map (fun a => (fst a, (fst (snd a), wt_out ww (snd (snd a))))) l.

Lemma arcs_rt : forall ww dec n cur l tagbase, StronglySorted arc_le l -> 0 <= cur < n -> n < 2 ^ 30 ->
  (forall tag dst w, In (tag, (dst, w)) l ->
     0 <= tag - tagbase + dec < 2 ^ 30 /\ Z.of_nat dst < n /\ wt_ok w) ->
  (forall tag dst w tag' dst' w', In (tag, (dst, w)) l -> In (tag', (dst', w')) l ->
     tag <= tag' -> 0 <= tag' - tag + dec < 2 ^ 30) ->
  exists bs, write_arcs ww dec n cur tagbase l = Ok bs /\ bytes bs
  /\ forall w0 rest acc, cur_ok ww w0 -> (forall a b, In a acc -> In b l -> arc_le a b) ->
       exists w1, cur_ok ww w1
         /\ read_arcs ww dec n cur (length l) tagbase w0 (bs ++ rest) acc = (acc ++ arcs_out ww l, w1, rest).
Proof.
  intros ww dec n cur. induction l as [|[tag [dst w]] l IH]; intros tagbase S Hcur Hn F G; cbn [write_arcs length read_arcs].
  - exists []. split; [reflexivity|]. split; [constructor|]. intros w0 rest acc Hc _. exists w0. split; [exact Hc|]. now rewrite app_nil_r.
  - inversion S as [|? ? S' Hs]; subst. destruct (F tag dst w (or_introl eq_refl)) as (Ht & Hd & Hw).
    destruct (mb_rt (tag - tagbase + dec)) as (a & Ea & Ba & Ra); [exact Ht|].
    set (v := if Z.of_nat dst >=? cur then Z.of_nat dst - cur else Z.of_nat dst + n - cur).
    assert (Hv : 0 <= v < 2 ^ 30 /\ (cur + v) mod n = Z.of_nat dst).
    { unfold v. rewrite Z.geb_leb. destruct (Z.leb_spec cur (Z.of_nat dst)).
      - split; [lia|]. replace (cur + (Z.of_nat dst - cur)) with (Z.of_nat dst) by lia. apply Z.mod_small. lia.
      - split; [lia|]. replace (cur + (Z.of_nat dst + n - cur)) with (Z.of_nat dst + 1 * n) by lia.
        rewrite Z.mod_add by lia. apply Z.mod_small. lia. }
    destruct Hv as [Hv1 Hv2]. destruct (mb_rt v Hv1) as (b & Eb & Bb & Rb).
    destruct (weight_rt ww w Hw) as (c & Ec & Bc & Rc).
    destruct (IH tag S' Hcur Hn) as (e & Ee & Be & Re).
    { intros tag' dst' w' Hin. split; [|exact (proj2 (F tag' dst' w' (or_intror Hin)))].
      apply (G tag dst w tag' dst' w' (or_introl eq_refl) (or_intror Hin)).
      rewrite Forall_forall in Hs. now apply (Hs (tag', (dst', w'))). }
    { intros t1 d1 w1 t2 d2 w2 H1 H2. apply (G t1 d1 w1 t2 d2 w2 (or_intror H1) (or_intror H2)). }
    rewrite Ea. cbn [obind]. rewrite Eb. cbn [obind]. rewrite Ec. cbn [obind]. rewrite Ee. cbn [obind].
    eexists. split; [reflexivity|]. split; [now repeat apply Forall_app_2|]. intros w0 rest acc Hc Hacc.
    rewrite <- !app_assoc, Ra, Rb. replace (tagbase + (tag - tagbase + dec - dec)) with tag by lia.
    rewrite Hv2, Rc by exact Hc. rewrite Nat2Z.id, fmm_insert_end.
    2: { apply Forall_forall. intros x Hx. apply (Hacc x (tag, (dst, w))); [exact Hx|now left]. }
    destruct (Re (wt_out ww w) rest (acc ++ [(tag, (dst, wt_out ww w))]) (cur_ok_out ww w)) as (w1 & Hw1 & E).
    + intros x y Hx Hy. apply in_app_or in Hx as [Hx|[<-|[]]]; [apply Hacc; [exact Hx|now right]|].
      rewrite Forall_forall in Hs. now apply Hs in Hy.
    + exists w1. split; [exact Hw1|]. etransitivity; [exact E|]. unfold arcs_out. cbn [map fst snd]. now rewrite <- app_assoc.
Qed.

Definition arcs_fit (dec n : Z) (l : list farc) : Prop :=
  StronglySorted arc_le l /\ Z.of_nat (length l) < 2 ^ 30
  /\ forall tag dst w, In (tag, (dst, w)) l ->
       - dec <= tag /\ tag + 2 * dec < 2 ^ 30 /\ Z.of_nat dst < n /\ wt_ok w.

Lemma states_rt : forall ww dec n ts cur, 0 <= dec -> 0 <= cur -> cur + Z.of_nat (length ts) <= n -> n < 2 ^ 30 ->
  Forall (arcs_fit dec n) ts ->
  exists bs, write_states ww dec n cur ts = Ok bs /\ bytes bs
  /\ forall w0 rest, cur_ok ww w0 ->
       read_states ww dec n cur (length ts) w0 (bs ++ rest) = (map (arcs_out ww) ts, rest).
Proof.
  intros ww dec n. induction ts as [|l ts IH]; intros cur Hdec Hcur Hlen Hn F; cbn [write_states length read_states map].
  - exists []. split; [reflexivity|]. split; [constructor|]. auto.
  - inversion F as [|? ? (S & Hl & Hin) F']; subst. cbn [length] in Hlen.
    destruct (mb_rt (Z.of_nat (length l))) as (a & Ea & Ba & Ra); [lia|].
    destruct (arcs_rt ww dec n cur l 0 S) as (b & Eb & Bb & Rb); [lia|exact Hn| | |].
    { intros tag dst w H. apply Hin in H as (H1 & H2 & H3 & H4). split; [lia|auto]. }
    { intros t1 d1 w1 t2 d2 w2 H1 H2 Hle. apply Hin in H1 as (H1 & _). apply Hin in H2 as (_ & H2 & _). lia. }
    destruct (IH (cur + 1)) as (c & Ec & Bc & Rc); [lia|lia|lia|exact Hn|exact F'|].
    rewrite Ea. cbn [obind]. rewrite Eb. cbn [obind]. rewrite Ec. cbn [obind].
    eexists. split; [reflexivity|]. split; [now repeat apply Forall_app_2|]. intros w0 rest Hw0. rewrite <- !app_assoc, Ra, Nat2Z.id.
    destruct (Rb w0 (c ++ rest) [] Hw0) as (w1 & Hw1 & ->); [intros x y []|]. cbn [app].
    now rewrite (Rc w1 rest Hw1).
Qed.

(** ** Transducers *)
Record file_ok (dec : Z) (t : ftrans) : Prop := {
  fo_dec : 0 <= dec;
  fo_initial : Z.of_nat (f_initial t) < 2 ^ 30;
  fo_nonempty : f_trans t <> [];
  fo_size : Z.of_nat (length (f_trans t)) < 2 ^ 30;
  fo_nfinals : Z.of_nat (length (f_finals t)) < 2 ^ 30;
  fo_sorted : StronglySorted fin_lt (f_finals t);
  fo_finals : forall s w, In (s, w) (f_finals t) -> Z.of_nat s < 2 ^ 30 /\ wt_ok w;
  fo_arcs : forall l, In l (f_trans t) -> arcs_fit dec (Z.of_nat (length (f_trans t))) l
}.

Definition file_out (t : ftrans) : ftrans :=
  mkF (f_initial t) (fins_out (weighted t) (f_finals t)) (map (arcs_out (weighted t)) (f_trans t)).

Lemma header_rt : forall f rest, f = 0 \/ f = 1 ->
  read_header HEADER_TRANSDUCER TDF_UNKNOWN (HEADER_TRANSDUCER ++ write_be f ++ rest) = Ok (Some f, rest).
Proof. intros f rest [->| ->]; reflexivity. Qed.

Lemma transducer_rt : forall dec t, file_ok dec t -> exists bs, transducer_write dec t = Ok bs /\ bytes bs
  /\ forall rest, transducer_read dec (bs ++ rest) = Ok (file_out t, rest).
Proof.
  intros dec t [H1 H2 H3 H4 H5 H6 H7 H8]. unfold transducer_write. set (ww := weighted t).
  destruct (mb_rt (Z.of_nat (f_initial t))) as (a & Ea & Ba & Ra); [lia|].
  destruct (mb_rt (Z.of_nat (length (f_finals t)))) as (b & Eb & Bb & Rb); [lia|].
  destruct (finals_rt ww (f_finals t) 0 H6) as (c & Ec & Bc & Rc); [|lia|].
  { apply Forall_forall. intros [s w] Hf. apply H7 in Hf as [Hs Hw]. cbn. split; [lia|exact Hw]. }
  destruct (mb_rt (Z.of_nat (length (f_trans t)))) as (d & Ed & Bd & Rd); [lia|].
  destruct (states_rt ww dec (Z.of_nat (length (f_trans t))) (f_trans t) 0) as (e & Ee & Be & Re); [lia|lia|lia|lia|now apply Forall_forall|].
  rewrite Ea. cbn [obind]. rewrite Eb. cbn [obind]. rewrite Ec. cbn [obind]. rewrite Ed. cbn [obind].
  rewrite Ee. cbn [obind]. eexists. split; [reflexivity|]. split.
  { repeat apply Forall_app_2; auto; destruct ww; vm_compute; repeat constructor; discriminate. }
  intros rest.
  unfold transducer_read. rewrite <- !app_assoc, header_rt by (destruct ww; auto). cbn [obind].
  assert (E : Z.testbit (if ww then TDF_WEIGHTS else 0) 0 = ww) by (destruct ww; reflexivity). rewrite E. clear E.
  rewrite Ra, Rb, Nat2Z.id.
  destruct (Rc (WFin 0 0) (d ++ e ++ rest) []) as (w1 & Hw1 & ->); [intros _; reflexivity|intros f g []|].
  rewrite Rd, Nat2Z.id, (Re w1 rest Hw1), Nat2Z.id. cbn [app]. unfold file_out. fold ww.
  destruct (f_trans t) as [|l ts] eqn:E; [contradiction|]. reflexivity.
Qed.

(** ** The two readers agree *)
Definition arcs_with (alpha : alphabet) (c : Z) (l : list farc) : list dest :=
  flat_map (fun a => match decode (fst a) alpha with
                     | Ok (i, o) => if i =? c then [(o, snd a)] else []
                     | _ => [] end) l.
Definition same_graph (alpha : alphabet) (t : ftrans) (te : texe) : Prop :=
  te_initial te = f_initial t /\ te_finals te = f_finals t
  /\ (forall i c, node_find c (nth i (te_nodes te) []) = arcs_with alpha c (nth i (f_trans t) []))
  /\ (length (te_nodes te) = length (f_trans t) \/ te_nodes te = [] /\ te_finals te = []).

Lemma node_find_add : forall c i d n, node_find c (addTransition i d n) =
  node_find c n ++ (if i =? c then [d] else []).
Proof.
  intros c i d. induction n as [|[j ds] n IH]; cbn [addTransition node_find].
  - rewrite (Z.eqb_sym c i). destruct (i =? c); reflexivity.
  - destruct (Z.eqb_spec i j) as [->|Hij]; cbn [node_find].
    + rewrite (Z.eqb_sym c j). destruct (j =? c); [reflexivity|now rewrite app_nil_r].
    + destruct (Z.eqb_spec c j) as [->|]; [|exact IH].
      destruct (Z.eqb_spec i j); [contradiction|]. now rewrite app_nil_r.
Qed.

Lemma arcs_with_app : forall alpha c l m, arcs_with alpha c (l ++ m) = arcs_with alpha c l ++ arcs_with alpha c m.
Proof. intros. unfold arcs_with. apply flat_map_app. Qed.

Lemma readByte_bytes : forall inp, bytes inp -> is_byte (fst (readByte inp)) /\ bytes (snd (readByte inp)).
Proof.
  intros [|b r] H; cbn; [split; [unfold is_byte; lia|constructor]|]. inversion H; auto.
Qed.

Lemma mbr_bytes : forall inp, bytes inp -> 0 <= fst (multibyte_read inp) /\ bytes (snd (multibyte_read inp)).
Proof.
  assert (L : forall a b, 0 <= a -> 0 <= b -> 0 <= Z.lor a b) by (intros; now apply Z.lor_nonneg).
  assert (U : forall v, 0 <= to_uint v) by (intros; unfold to_uint; apply Z.mod_pos_bound; reflexivity).
  intros inp H. unfold multibyte_read. destruct (readByte_bytes inp H) as [B1 H1].
  destruct (readByte inp) as [up i1]. cbn [fst snd] in *. unfold is_byte in *.
  destruct (up <? 64); [cbn; split; [lia|auto]|].
  destruct (readByte_bytes i1 H1) as [B2 H2].
  destruct (up <? 128).
  { destruct (readByte i1) as [low i2]. cbn [fst snd] in *. split; [apply L; [unfold is_byte in *; lia|apply U]|auto]. }
  destruct (up <? 192).
  { destruct (readByte i1) as [mid i2]. cbn [fst snd] in *. destruct (readByte_bytes i2 H2) as [B3 H3].
    destruct (readByte i2) as [low i3]. cbn [fst snd] in *. split; [apply L; [unfold is_byte in *; lia|apply U]|auto]. }
  destruct (readByte i1) as [mu i2]. cbn [fst snd] in *. destruct (readByte_bytes i2 H2) as [B3 H3].
  destruct (readByte i2) as [ml i3]. cbn [fst snd] in *. destruct (readByte_bytes i3 H3) as [B4 H4].
  destruct (readByte i3) as [low i4]. cbn [fst snd] in *. split; [apply L; [unfold is_byte in *; lia|apply U]|auto].
Qed.

Lemma lwr_bytes : forall inp, bytes inp -> bytes (snd (long_word_read inp)).
Proof.
  intros inp H. unfold long_word_read. destruct (mbr_bytes inp H) as [_ H1].
  destruct (multibyte_read inp) as [up i1]. cbn [fst snd] in *. destruct (up <? 67108864); [exact H1|].
  destruct (mbr_bytes i1 H1) as [_ H2]. destruct (multibyte_read i1) as [low i2]. exact H2.
Qed.
Lemma rw_bytes : forall ww w inp, bytes inp -> bytes (snd (read_weight ww w inp)).
Proof.
  intros [|] w inp H; [|exact H]. unfold read_weight, long_multibyte_read.
  assert (H1 := lwr_bytes inp H). destruct (long_word_read inp) as [m i1]. cbn [snd] in H1.
  assert (H2 := lwr_bytes i1 H1). destruct (long_word_read i1) as [e i2]. cbn [snd] in H2.
  destruct ((m =? _) && _); [destruct (e =? _)|]; exact H2.
Qed.

Lemma te_arcs_agree : forall rw alpha n cur k tagbase w inp nd acc,
  bytes inp -> (forall a, In a acc -> fst a <= tagbase) ->
  (forall c, node_find c nd = arcs_with alpha c acc) ->
  match te_read_arcs rw alpha n cur k tagbase w inp nd with
  | Ok (nd', w', inp') => bytes inp' /\ exists l, read_arcs rw 0 n cur k tagbase w inp acc = (l, w', inp')
      /\ forall c, node_find c nd' = arcs_with alpha c l
  | UB => True
  | _ => False
  end.
Proof.
  intros rw alpha n cur. induction k as [|k IH]; intros tagbase w inp nd acc B T H; cbn [te_read_arcs read_arcs].
  - split; [exact B|]. exists acc. auto.
  - destruct (mbr_bytes inp B) as [D1 B1]. destruct (multibyte_read inp) as [d i1]. cbn [fst snd] in *.
    destruct (mbr_bytes i1 B1) as [D2 B2]. destruct (multibyte_read i1) as [v i2]. cbn [fst snd] in *.
    assert (B3 := rw_bytes rw w i2 B2). destruct (read_weight rw w i2) as [w' i3]. cbn [snd] in B3.
    destruct (decode (tagbase + d) alpha) as [[i o]| | | |] eqn:E; cbn [obind]; auto.
    2: { unfold decode in E. destruct (_ <? 0); [discriminate|]. destruct (nth_error _ _); discriminate. }
    2: { unfold decode in E. destruct (_ <? 0); [discriminate|]. destruct (nth_error _ _); discriminate. }
    2: { unfold decode in E. destruct (_ <? 0); [discriminate|]. destruct (nth_error _ _); discriminate. }
    rewrite Z.sub_0_r. rewrite fmm_insert_end.
    2: { apply Forall_forall. intros a Ha. apply T in Ha. cbn. lia. }
    apply IH; [exact B3| |].
    + intros a Ha. apply in_app_or in Ha as [Ha|[<-|[]]]; [apply T in Ha; lia|cbn; lia].
    + intros c. rewrite node_find_add, arcs_with_app, H. f_equal. unfold arcs_with. cbn [flat_map fst snd].
      rewrite E. destruct (i =? c); reflexivity.
Qed.

Lemma te_states_agree : forall rw alpha n k cur w inp, bytes inp ->
  match te_read_states rw alpha n cur k w inp with
  | Ok (nds, inp') => bytes inp' /\ exists ts, read_states rw 0 n cur k w inp = (ts, inp')
      /\ length nds = length ts
      /\ forall i c, node_find c (nth i nds []) = arcs_with alpha c (nth i ts [])
  | UB => True
  | _ => False
  end.
Proof.
  intros rw alpha n. induction k as [|k IH]; intros cur w inp B; cbn [te_read_states read_states].
  - split; [exact B|]. exists []. split; [reflexivity|]. split; [reflexivity|]. intros i c. destruct i; reflexivity.
  - destruct (mbr_bytes inp B) as [_ B1]. destruct (multibyte_read inp) as [m i1]. cbn [fst snd] in *.
    assert (A := te_arcs_agree rw alpha n cur (Z.to_nat m) 0 w i1 [] [] B1 ltac:(intros a []) ltac:(reflexivity)).
    destruct (te_read_arcs _ _ _ _ _ _ _ _ _) as [[[nd w'] i2]| | | |]; cbn [obind]; try exact A.
    destruct A as (B2 & l & E & Hl). unfold farc in *. rewrite E. specialize (IH (cur + 1) w' i2 B2).
    destruct (te_read_states _ _ _ _ _ _ _) as [[nds i3]| | | |]; cbn [obind]; try exact IH.
    destruct IH as (B3 & ts & -> & Hlen & Hts). split; [exact B3|]. exists (l :: ts). split; [reflexivity|].
    split; [cbn; lia|]. intros [|i] c; cbn [nth]; auto.
Qed.

Lemma read_finals_bytes : forall rw n base w inp acc, bytes inp -> bytes (snd (read_finals rw n base w inp acc)).
Proof.
  intros rw. induction n as [|n IH]; intros base w inp acc B; cbn [read_finals]; [exact B|].
  destruct (mbr_bytes inp B) as [_ B1]. destruct (multibyte_read inp) as [d i1]. cbn [fst snd] in *.
  assert (B2 := rw_bytes rw w i1 B1). destruct (read_weight rw w i1) as [w' i2]. apply IH. exact B2.
Qed.

Lemma Forall_skipn' : forall {A} (P : A -> Prop) n l, Forall P l -> Forall P (skipn n l).
Proof.
  intros A P n l H. rewrite <- (firstn_skipn n l) in H. now apply Forall_app in H.
Qed.

Lemma read_header_bytes : forall magic u inp f r, bytes inp -> read_header magic u inp = Ok (f, r) -> bytes r.
Proof.
  intros magic u inp f r B H. unfold read_header in H. destruct (list_eq_dec _ _ _); [|now injection H as _ <-].
  destruct (read_be (skipn 4 inp)) as [[x r']| | | |] eqn:E; cbn [obind] in H; try discriminate.
  destruct (x >=? u); [discriminate|]. injection H as _ <-.
  assert (B' : bytes (skipn 4 inp)) by now apply Forall_skipn'.
  revert E B'. generalize (skipn 4 inp). intros l E B'. unfold read_be in E.
  do 8 (destruct l as [|? l]; [discriminate|]). injection E as _ <-. 
  do 8 (apply Forall_inv_tail in B'). exact B'.
Qed.

Lemma te_read_states_length : forall rw alpha n k cur w inp nds r,
  te_read_states rw alpha n cur k w inp = Ok (nds, r) -> length nds = k.
Proof.
  intros rw alpha n. induction k as [|k IH]; intros cur w inp nds r H; cbn [te_read_states] in H; [now injection H as <- _|].
  destruct (multibyte_read inp) as [m i1]. destruct (te_read_arcs _ _ _ _ _ _ _ _ _) as [[[nd w'] i2]| | | |]; try discriminate. cbn [obind] in H.
  destruct (te_read_states _ _ _ _ _ _ _) as [[nds' i3]| | | |] eqn:E; try discriminate. cbn [obind] in H. injection H as <- _. cbn [length].
  f_equal. exact (IH _ _ _ _ _ E).
Qed.
Lemma te_read_agrees : forall alpha inp te r, bytes inp -> te_read alpha inp = Ok (te, r) ->
  bytes r /\ exists t, transducer_read 0 inp = Ok (t, r) /\ same_graph alpha t te.
Proof.
  intros alpha inp te r B H. unfold te_read in H. unfold transducer_read.
  destruct (read_header _ _ inp) as [[fe i0]| | | |] eqn:Eh; cbn [obind] in H |- *; try discriminate.
  assert (B0 := read_header_bytes _ _ _ _ _ B Eh).
  set (rw := match fe with Some f => Z.testbit f 0 | None => false end) in *.
  destruct (mbr_bytes i0 B0) as [_ B1]. destruct (multibyte_read i0) as [ini i1]. cbn [snd] in B1.
  destruct (mbr_bytes i1 B1) as [_ B2]. destruct (multibyte_read i1) as [nf i2]. cbn [snd] in B2.
  assert (B3 := read_finals_bytes rw (Z.to_nat nf) 0 (WFin 0 0) i2 [] B2).
  destruct (read_finals _ _ _ _ _ _) as [[fins w] i3]. cbn [snd] in B3.
  destruct (mbr_bytes i3 B3) as [_ B4]. destruct (multibyte_read i3) as [n i4]. cbn [snd] in B4.
  destruct (forallb _ fins) eqn:Ef; [|discriminate].
  assert (A := te_states_agree rw alpha n (Z.to_nat n) 0 w i4 B4).
  assert (Ln := te_read_states_length rw alpha n (Z.to_nat n) 0 w i4).
  destruct (te_read_states _ _ _ _ _ _ _) as [[nds i5]| | | |]; cbn [obind] in H; try discriminate.
  injection H as <- <-. destruct A as (B5 & ts & -> & Hlen & Hts). split; [exact B5|].
  eexists. split; [reflexivity|]. split; [reflexivity|]. split; [reflexivity|]. cbn [te_nodes f_trans].
  split.
  - intros i c. rewrite Hts. destruct ts as [|x ts]; [|reflexivity]. destruct i as [|[|i]]; reflexivity.
  - destruct ts as [|x ts]; [|now left]. right. destruct nds; [|discriminate]. split; [reflexivity|]. cbn [te_finals].
    specialize (Ln _ _ eq_refl). cbn [length] in Ln. destruct fins as [|f fins]; [reflexivity|]. cbn [forallb] in Ef.
    apply andb_prop in Ef as [Ef _]. lia.
Qed.

(** ** Reading never fails after the header *)
Lemma transducer_read_total : forall dec inp, (exists t r, transducer_read dec inp = Ok (t, r))
  <-> exists f r, read_header HEADER_TRANSDUCER TDF_UNKNOWN inp = Ok (f, r).
Proof.
  intros dec inp. unfold transducer_read. split.
  - intros (t & r & H). destruct (read_header _ _ inp) as [[fe i0]| | | |]; try discriminate. eauto.
  - intros (f & r & ->). cbn [obind]. destruct (multibyte_read r) as [ini i1]. destruct (multibyte_read i1) as [nf i2].
    destruct (read_finals _ _ _ _ _ _) as [[fins w] i3]. destruct (multibyte_read i3) as [n i4].
    destruct (read_states _ _ _ _ _ _ _) as [ts i5]. eauto.
Qed.

Lemma header_12 : forall k f l, f = 0 \/ f = 1 ->
  let inp := firstn k (HEADER_TRANSDUCER ++ write_be f ++ l) in
  if ((4 <=? k) && (k <? 12))%nat
  then read_header HEADER_TRANSDUCER TDF_UNKNOWN inp = Throw
  else exists g r, read_header HEADER_TRANSDUCER TDF_UNKNOWN inp = Ok (g, r).
Proof.
  intros k f l Hf.
  do 4 (destruct k as [|k]; [cbn; eexists; eexists; reflexivity|]).
  do 8 (destruct k as [|k]; [destruct Hf as [->| ->]; reflexivity|]).
  destruct Hf as [->| ->]; cbn; eexists; eexists; reflexivity.
Qed.

Lemma transducer_cut : forall dec t bs k, transducer_write dec t = Ok bs ->
  if ((4 <=? k) && (k <? 12))%nat
  then transducer_read dec (firstn k bs) = Throw
  else exists t' r, transducer_read dec (firstn k bs) = Ok (t', r).
Proof.
  intros dec t bs k H.
  assert (E : exists l, bs = HEADER_TRANSDUCER ++ write_be (if weighted t then TDF_WEIGHTS else 0) ++ l).
  { unfold transducer_write in H. cbv zeta in H.
    repeat match type of H with obind ?o _ = _ => destruct o; cbn [obind] in H; try discriminate end.
    apply Ok_inj in H.
    rewrite <- H, <- app_assoc. eexists. reflexivity. }
  destruct E as (l & ->).
  assert (A := header_12 k (if weighted t then TDF_WEIGHTS else 0) l ltac:(destruct (weighted t); auto)).
  cbv zeta in A. destruct (_ && _).
  - unfold transducer_read. now rewrite A.
  - now apply transducer_read_total.
Qed.

(** ** The run-time reader succeeds when every tag is in the alphabet *)
Lemma fmm_insert_in : forall a b l, In b (fmm_insert a l) <-> b = a \/ In b l.
Proof.
  intros a b. induction l as [|c l IH]; cbn [fmm_insert]; [cbn; intuition|].
  destruct (fst a <? fst c); cbn [In]; [intuition|]. rewrite IH. intuition.
Qed.
Lemma read_arcs_incl : forall rw dec n cur k tagbase w inp acc a, In a acc ->
  In a (fst (fst (read_arcs rw dec n cur k tagbase w inp acc))).
Proof.
  intros rw dec n cur. induction k as [|k IH]; intros tagbase w inp acc a H; cbn [read_arcs]; [exact H|].
  destruct (multibyte_read inp) as [d i1]. destruct (multibyte_read i1) as [v i2]. destruct (read_weight rw w i2) as [w' i3].
  apply IH. apply fmm_insert_in. now right.
Qed.

Lemma te_arcs_ub : forall rw alpha n cur k tagbase w inp nd acc,
  te_read_arcs rw alpha n cur k tagbase w inp nd = UB ->
  exists a, In a (fst (fst (read_arcs rw 0 n cur k tagbase w inp acc))) /\ decode (fst a) alpha = UB.
Proof.
  intros rw alpha n cur. induction k as [|k IH]; intros tagbase w inp nd acc H; cbn [te_read_arcs read_arcs] in *; [discriminate|].
  destruct (multibyte_read inp) as [d i1]. destruct (multibyte_read i1) as [v i2]. destruct (read_weight rw w i2) as [w' i3].
  rewrite Z.sub_0_r. destruct (decode (tagbase + d) alpha) as [[i o]| | | |] eqn:E; cbn [obind] in H; try discriminate.
  - exact (IH _ _ _ _ _ H).
  - eexists. split; [apply read_arcs_incl, fmm_insert_in; now left|exact E].
Qed.

Lemma te_states_ub : forall rw alpha n k cur w inp, bytes inp ->
  te_read_states rw alpha n cur k w inp = UB ->
  exists l a, In l (fst (read_states rw 0 n cur k w inp)) /\ In a l /\ decode (fst a) alpha = UB.
Proof.
  intros rw alpha n. induction k as [|k IH]; intros cur w inp B H; cbn [te_read_states read_states] in *; [discriminate|].
  destruct (mbr_bytes inp B) as [_ B1]. destruct (multibyte_read inp) as [m i1]. cbn [fst snd] in *.
  assert (A := te_arcs_agree rw alpha n cur (Z.to_nat m) 0 w i1 [] [] B1 ltac:(intros a []) ltac:(reflexivity)).
  assert (U := te_arcs_ub rw alpha n cur (Z.to_nat m) 0 w i1 [] []).
  unfold farc in *. destruct (te_read_arcs _ _ _ _ _ _ _ _ _) as [[[nd w'] i2]| | | |]; cbn [obind] in H; try discriminate.
  - destruct A as (B2 & l & E & Hl). rewrite E. specialize (IH (cur + 1) w' i2 B2). unfold farc in *.
    destruct (te_read_states _ _ _ _ _ _ _) as [[nds i3]| | | |]; cbn [obind] in H; try discriminate.
    destruct (IH H) as (l' & a & H1 & H2 & H3). destruct (read_states _ _ _ _ _ _ _) as [ls i4]. cbn [fst] in *.
    exists l', a. split; [now right|auto].
  - destruct (U eq_refl) as (a & H1 & H2). destruct (read_arcs _ _ _ _ _ _ _ _ _) as [[l w'] i2]. cbn [fst] in H1.
    destruct (read_states _ _ _ _ _ _ _) as [ls i4]. exists l, a. cbn [fst]. split; [now left|auto].
Qed.

Lemma decode_ub : forall tag alpha, 0 <= tag < Z.of_nat (length (spairinv alpha)) -> decode tag alpha <> UB.
Proof.
  intros tag alpha H. unfold decode. destruct (Z.ltb_spec tag 0); [lia|].
  destruct (nth_error (spairinv alpha) (Z.to_nat tag)) eqn:E; [discriminate|]. apply nth_error_None in E. lia.
Qed.

Definition runnable (alpha : alphabet) (t : ftrans) : Prop :=
  (forall s w, In (s, w) (f_finals t) -> (s < length (f_trans t))%nat)
  /\ forall l tag dw, In l (f_trans t) -> In (tag, dw) l -> 0 <= tag < Z.of_nat (length (spairinv alpha)).

Lemma te_rt : forall alpha t, file_ok 0 t -> runnable alpha t ->
  exists bs, transducer_write 0 t = Ok bs /\ bytes bs
  /\ (forall rest, transducer_read 0 (bs ++ rest) = Ok (file_out t, rest))
  /\ forall rest, bytes rest -> exists te, te_read alpha (bs ++ rest) = Ok (te, rest)
        /\ same_graph alpha (file_out t) te.
Proof.
  intros alpha t F [R1 R2]. destruct (transducer_rt 0 t F) as (bs & E & B & Rd). exists bs. split; [exact E|]. split; [exact B|].
  split; [exact Rd|].
  intros rest Br. assert (Bi : bytes (bs ++ rest)) by now apply Forall_app_2.
  specialize (Rd rest). assert (A := te_read_agrees alpha (bs ++ rest)).
  assert (K : exists te r, te_read alpha (bs ++ rest) = Ok (te, r)).
  2: { destruct K as (te & r & Et). destruct (A te r Bi Et) as (_ & t' & Et' & G). rewrite Rd in Et'. injection Et' as <- <-. eauto. }
  clear A. destruct F as [H1 H2 H3 H4 H5 H6 H7 H8]. unfold transducer_write in E. set (ww := weighted t) in *.
  destruct (mb_rt (Z.of_nat (f_initial t))) as (a & Ea & Ba & Ra); [lia|].
  destruct (mb_rt (Z.of_nat (length (f_finals t)))) as (b & Eb & Bb & Rb); [lia|].
  destruct (finals_rt ww (f_finals t) 0 H6) as (c & Ec & Bc & Rc); [|lia|].
  { apply Forall_forall. intros [s w] Hf. apply H7 in Hf as [Hs Hw]. cbn. split; [lia|exact Hw]. }
  destruct (mb_rt (Z.of_nat (length (f_trans t)))) as (d & Ed & Bd & Rd'); [lia|].
  destruct (states_rt ww 0 (Z.of_nat (length (f_trans t))) (f_trans t) 0) as (e & Ee & Be & Re); [lia|lia|lia|lia|now apply Forall_forall|].
  rewrite Ea in E. cbn [obind] in E. rewrite Eb in E. cbn [obind] in E. rewrite Ec in E. cbn [obind] in E.
  rewrite Ed in E. cbn [obind] in E. rewrite Ee in E. cbn [obind] in E. apply Ok_inj in E. subst bs. clear Rd Bi B.
  unfold te_read. rewrite <- !app_assoc, header_rt by (destruct ww; auto). cbn [obind].
  assert (E : Z.testbit (if ww then TDF_WEIGHTS else 0) 0 = ww) by (destruct ww; reflexivity). rewrite E. clear E.
  rewrite Ra, Rb, Nat2Z.id.
  destruct (Rc (WFin 0 0) (d ++ e ++ rest) []) as (w1 & Hw1 & ->); [intros _; reflexivity|intros f g []|].
  rewrite Rd', Nat2Z.id. cbn [app].
  replace (forallb _ (fins_out ww (f_finals t))) with true.
  2: { symmetry. apply forallb_forall. intros [s w] Hin. unfold fins_out in Hin. apply in_map_iff in Hin as ([s' w'] & E & Hin).
       injection E as <- <-. apply R1 in Hin. cbn [fst]. lia. }
  assert (Bi : bytes (e ++ rest)) by now apply Forall_app_2.
  assert (As := te_states_agree ww alpha (Z.of_nat (length (f_trans t))) (length (f_trans t)) 0 w1 (e ++ rest) Bi).
  assert (Us := te_states_ub ww alpha (Z.of_nat (length (f_trans t))) (length (f_trans t)) 0 w1 (e ++ rest) Bi).
  rewrite (Re w1 rest Hw1) in Us. cbn [fst] in Us.
  destruct (te_read_states _ _ _ _ _ _ _) as [[nds i5]| | | |]; try contradiction; cbn [obind]; [eauto|].
  exfalso. destruct (Us eq_refl) as (l & x & I1 & I2 & I3). apply in_map_iff in I1 as (l' & <- & I1).
  unfold arcs_out in I2. apply in_map_iff in I2 as ([tag dw] & <- & I2). cbn [fst] in I3.
  apply (decode_ub tag alpha); [|exact I3]. exact (R2 l' tag dw I1 I2).
Qed.

(** ** Letters *)
Lemma zset_insert_in : forall x y l, In y (zset_insert x l) <-> y = x \/ In y l.
Proof.
  intros x y. induction l as [|z l IH]; cbn [zset_insert]; [cbn; intuition|].
  destruct (x <? z); cbn [In]; [intuition|]. destruct (Z.eqb_spec x z) as [->|]; cbn [In]; [intuition|].
  rewrite IH. intuition.
Qed.
Lemma zset_insert_sorted : forall x l, StronglySorted Z.lt l -> StronglySorted Z.lt (zset_insert x l).
Proof.
  intros x l S. induction S as [|y l S IH H]; cbn [zset_insert]; [repeat constructor|].
  destruct (Z.ltb_spec x y).
  - constructor; [now constructor|]. constructor; [assumption|].
    eapply Forall_impl; [|exact H]. cbn. intros. lia.
  - destruct (Z.eqb_spec x y); [now constructor|]. constructor; [exact IH|].
    apply Forall_forall. intros z Hz. apply zset_insert_in in Hz as [->|Hz]; [lia|].
    rewrite Forall_forall in H. auto.
Qed.
Lemma zset_insert_end : forall x l, Forall (fun y => y < x) l -> zset_insert x l = l ++ [x].
Proof.
  intros x l H. induction H as [|y l Hy _ IH]; [reflexivity|]. cbn [zset_insert app].
  destruct (Z.ltb_spec x y); [lia|]. destruct (Z.eqb_spec x y); [lia|]. now rewrite IH.
Qed.

Definition insert_all (l acc : list Z) : list Z := fold_left (fun acc c => zset_insert c acc) l acc.
Lemma insert_all_in : forall l acc c, In c (insert_all l acc) <-> In c l \/ In c acc.
Proof.
  unfold insert_all. induction l as [|x l IH]; intros acc c; cbn [fold_left In]; [intuition|].
  rewrite IH, zset_insert_in. intuition.
Qed.
Lemma insert_all_sorted : forall l acc, StronglySorted Z.lt acc -> StronglySorted Z.lt (insert_all l acc).
Proof.
  unfold insert_all. induction l as [|x l IH]; intros acc S; cbn [fold_left]; [exact S|].
  apply IH. now apply zset_insert_sorted.
Qed.
Lemma insert_all_id : forall l acc, StronglySorted Z.lt l -> (forall a b, In a acc -> In b l -> a < b) ->
  insert_all l acc = acc ++ l.
Proof.
  unfold insert_all. induction l as [|x l IH]; intros acc S H; cbn [fold_left]; [now rewrite app_nil_r|].
  inversion S as [|? ? S' Hx]; subst. rewrite zset_insert_end.
  2: { apply Forall_forall. intros y Hy. apply H; [exact Hy|now left]. }
  rewrite IH; [now rewrite <- app_assoc|exact S'|].
  intros a b Ha Hb. apply in_app_or in Ha as [Ha|[<-|[]]]; [apply H; [exact Ha|now right]|].
  rewrite Forall_forall in Hx. now apply Hx.
Qed.

Lemma read_letters_list : forall n inp acc vs rest, multibyte_read_list n inp = (vs, rest) ->
  read_letters n inp acc = (insert_all vs acc, rest).
Proof.
  induction n as [|n IH]; intros inp acc vs rest H.
  - cbn in H. injection H as <- <-. reflexivity.
  - cbn [multibyte_read_list] in H. cbn [read_letters]. destruct (multibyte_read inp) as [v inp'].
    destruct (multibyte_read_list n inp') as [vs' inp''] eqn:E. injection H as <- <-. exact (IH _ _ _ _ E).
Qed.

Lemma letters_rt : forall s, Forall is_unit s -> Z.of_nat (length s) < 2 ^ 30 ->
  exists bs, string_write s = Ok bs
  /\ forall rest, (let '(n, inp) := multibyte_read (bs ++ rest) in read_letters (Z.to_nat n) inp [])
       = (insert_all (ustring_to_vec32 s) [], rest).
Proof.
  intros s Hs Hl.
  destruct (vec32_range (length s) s) as [Hr Hlen]; [lia|assumption|].
  destruct (mb_rt (Z.of_nat (length (ustring_to_vec32 s)))) as (b & Hb & Hbb & Hrd); [lia|].
  destruct (multibyte_list_roundtrip (ustring_to_vec32 s)) as (bs & Hbs & Hbbs & Hrds).
  { eapply Forall_impl; [|exact Hr]. cbn. intros a Ha. change (2 ^ 30) with 1073741824. lia. }
  exists (b ++ bs). unfold string_write. rewrite Hb. cbn [obind]. rewrite Hbs. split; [reflexivity|].
  intros rest. rewrite <- app_assoc, Hrd, Nat2Z.id. apply read_letters_list. apply Hrds.
Qed.

(** ** Sections *)
Lemma section_set_end : forall {T} name (t : T) l, ~ In name (map fst l) -> section_set name t l = l ++ [(name, t)].
Proof.
  intros T name t. induction l as [|[n u] l IH]; intros H; cbn [section_set app]; [reflexivity|].
  cbn in H. destruct (ustr_eq_dec name n) as [->|]; [tauto|]. rewrite IH by tauto. reflexivity.
Qed.

Definition name_ok (s : ustr) : Prop := Forall is_unit s /\ Z.of_nat (length s) < 2 ^ 30.
Definition sections_out (l : list section_) : list section_ := map (fun x => (fst x, file_out (snd x))) l.

Lemma sections_rt : forall alpha l, NoDup (map fst l) ->
  (forall name t, In (name, t) l -> name_ok name /\ file_ok 0 t /\ runnable alpha t) ->
  exists bs, write_sections l = Ok bs /\ bytes bs
  /\ (forall rest acc, (forall name, In name (map fst l) -> ~ In name (map fst acc)) ->
        read_sections (transducer_read 0) (length l) (bs ++ rest) acc = Ok (acc ++ sections_out l, rest))
  /\ (forall rest acc, bytes rest -> (forall name, In name (map fst l) -> ~ In name (map fst acc)) ->
        exists tes, read_sections (te_read alpha) (length l) (bs ++ rest) acc = Ok (acc ++ tes, rest)
          /\ Forall2 (fun x y => fst x = fst y /\ same_graph alpha (snd x) (snd y)) (sections_out l) tes).
Proof.
  intros alpha. induction l as [|[name t] l IH]; intros ND H; cbn [write_sections length read_sections].
  - exists []. split; [reflexivity|]. split; [constructor|]. split.
    + intros. now rewrite app_nil_r.
    + intros. exists []. rewrite app_nil_r. split; [reflexivity|constructor].
  - cbn [map fst] in ND. inversion ND as [|? ? Hnot ND']; subst.
    destruct (H name t (or_introl eq_refl)) as ([U L] & F & R).
    destruct (string_roundtrip name U L) as (a & Ea & Ba & Ra).
    destruct (te_rt alpha t F R) as (b & Eb & Bb & Rb & Tb).
    destruct (IH ND') as (c & Ec & Bc & Rc & Tc); [intros n u Hin; apply H; now right|].
    rewrite Ea. cbn [obind]. rewrite Eb. cbn [obind]. rewrite Ec. cbn [obind].
    eexists. split; [reflexivity|]. split; [now repeat apply Forall_app_2|]. 
    assert (Fr : forall T (x : T) acc, (forall n, In n (map fst ((name, t) :: l)) -> ~ In n (map fst acc)) ->
      forall n, In n (map fst l) -> ~ In n (map fst (acc ++ [(name, x)]))).
    { intros T x acc Hf n Hn. rewrite map_app, in_app_iff. cbn. intros [C|[<-|[]]]; [|now apply Hnot].
      apply (Hf n); [now right|exact C]. }
    split.
    + intros rest acc Hf. rewrite <- !app_assoc, Ra, Rb. cbn [obind].
      rewrite section_set_end by (apply Hf; now left). unfold section_ in *. rewrite Rc by now apply Fr.
      now rewrite <- app_assoc.
    + intros rest acc Br Hf. rewrite <- !app_assoc, Ra.
      destruct (Tb (c ++ rest)) as (te & Et & G); [now apply Forall_app_2|]. rewrite Et. cbn [obind].
      rewrite section_set_end by (apply Hf; now left).
      destruct (Tc rest (acc ++ [(name, te)]) Br) as (tes & Es & F2); [now apply Fr|].
      exists ((name, te) :: tes). split; [rewrite Es, <- app_assoc; reflexivity|].
      unfold sections_out in *. cbn [map]. constructor; [auto|exact F2].
Qed.

(** For any bytes at all, the two readers agree on the sections. *)
Lemma string_read_loop_bytes : forall n inp acc, bytes inp -> bytes (snd (string_read_loop n inp acc)).
Proof.
  induction n as [|n IH]; intros inp acc B; cbn [string_read_loop]; [exact B|].
  destruct (mbr_bytes inp B) as [_ B1]. destruct (multibyte_read inp) as [c i1]. apply IH. exact B1.
Qed.
Lemma string_read_bytes : forall inp, bytes inp -> bytes (snd (string_read inp)).
Proof.
  intros inp B. unfold string_read. destruct (mbr_bytes inp B) as [_ B1].
  destruct (multibyte_read inp) as [c i1]. apply string_read_loop_bytes. exact B1.
Qed.

Definition sections_agree (alpha : alphabet) : list section_ -> list (ustr * texe) -> Prop :=
  Forall2 (fun x y => fst x = fst y /\ same_graph alpha (snd x) (snd y)).

Lemma section_set_agree : forall alpha name t te l m, sections_agree alpha l m -> same_graph alpha t te ->
  sections_agree alpha (section_set name t l) (section_set name te m).
Proof.
  intros alpha name t te l m H G. induction H as [|[n u] [n' v] l m [E Hg] H IH]; cbn [section_set].
  - constructor; [auto|constructor].
  - cbn in E. subst n'. destruct (ustr_eq_dec name n) as [->|]; constructor; auto.
Qed.

Lemma read_sections_agree : forall alpha n inp acc acc' tes r, bytes inp -> sections_agree alpha acc acc' ->
  read_sections (te_read alpha) n inp acc' = Ok (tes, r) ->
  exists ts, read_sections (transducer_read 0) n inp acc = Ok (ts, r) /\ sections_agree alpha ts tes.
Proof.
  intros alpha. induction n as [|n IH]; intros inp acc acc' tes r B A H; cbn [read_sections] in *.
  - injection H as <- <-. eauto.
  - assert (B1 := string_read_bytes inp B). destruct (string_read inp) as [name i1]. cbn [snd] in B1.
    destruct (te_read alpha i1) as [[te i2]| | | |] eqn:E; cbn [obind] in H; try discriminate.
    destruct (te_read_agrees alpha i1 te i2 B1 E) as (B2 & t & -> & G). cbn [obind].
    apply (IH i2 _ (section_set name te acc')); [exact B2|now apply section_set_agree|exact H].
Qed.

(** ** The tool reader needs no alphabet *)
Lemma sections_rt0 : forall l, NoDup (map fst l) ->
  (forall name t, In (name, t) l -> name_ok name /\ file_ok 0 t) ->
  exists bs, write_sections l = Ok bs
  /\ forall rest acc, (forall name, In name (map fst l) -> ~ In name (map fst acc)) ->
        read_sections (transducer_read 0) (length l) (bs ++ rest) acc = Ok (acc ++ sections_out l, rest).
Proof.
  induction l as [|[name t] l IH]; intros ND H; cbn [write_sections length read_sections].
  - exists []. split; [reflexivity|]. intros. now rewrite app_nil_r.
  - cbn [map fst] in ND. inversion ND as [|? ? Hnot ND']; subst.
    destruct (H name t (or_introl eq_refl)) as ([U L] & F).
    destruct (string_roundtrip name U L) as (a & Ea & Ba & Ra).
    destruct (transducer_rt 0 t F) as (b & Eb & Bb & Rb).
    destruct (IH ND') as (c & Ec & Rc); [intros n u Hin; apply H; now right|].
    rewrite Ea. cbn [obind]. rewrite Eb. cbn [obind]. rewrite Ec. cbn [obind].
    eexists. split; [reflexivity|].
    intros rest acc Hf. rewrite <- !app_assoc, Ra, Rb. cbn [obind].
    rewrite section_set_end by (apply Hf; now left). unfold section_ in *. rewrite Rc.
    + now rewrite <- app_assoc.
    + intros n Hn. rewrite map_app, in_app_iff. cbn. intros [C|[<-|[]]]; [|now apply Hnot].
      apply (Hf n); [now right|exact C].
Qed.

(** ** Bytes stay bytes through the shared part *)
Lemma read_letters_bytes : forall n inp acc, bytes inp -> bytes (snd (read_letters n inp acc)).
Proof.
  induction n as [|n IH]; intros inp acc B; cbn [read_letters]; [exact B|].
  destruct (mbr_bytes inp B) as [_ B1]. destruct (multibyte_read inp) as [c i1]. apply IH. exact B1.
Qed.
Lemma read_tags_bytes : forall n inp a, bytes inp -> bytes (snd (read_tags n inp a)).
Proof.
  induction n as [|n IH]; intros inp a B; cbn [read_tags]; [exact B|].
  assert (B1 := string_read_bytes inp B). destruct (string_read inp) as [c i1]. apply IH. exact B1.
Qed.
Lemma read_pairs_bytes : forall bias n inp a, bytes inp -> bytes (snd (read_pairs bias n inp a)).
Proof.
  intros bias. induction n as [|n IH]; intros inp a B; cbn [read_pairs]; [exact B|].
  destruct (mbr_bytes inp B) as [_ B1]. destruct (multibyte_read inp) as [c i1]. cbn [snd] in B1.
  destruct (mbr_bytes i1 B1) as [_ B2]. destruct (multibyte_read i1) as [d i2]. apply IH. exact B2.
Qed.
Lemma alphabet_read_bytes : forall inp, bytes inp -> bytes (snd (alphabet_read inp)).
Proof.
  intros inp B. unfold alphabet_read. destruct (mbr_bytes inp B) as [_ B1].
  destruct (multibyte_read inp) as [n i1]. cbn [snd] in B1.
  assert (B2 := read_tags_bytes (Z.to_nat n) i1 (mkAlphabet [] [] [] []) B1).
  destruct (read_tags _ _ _) as [a i2]. cbn [snd] in B2.
  destruct (mbr_bytes i2 B2) as [_ B3]. destruct (multibyte_read i2) as [m i3]. apply read_pairs_bytes. exact B3.
Qed.
Lemma readShared_bytes : forall inp letters a r, bytes inp -> readShared inp = Ok (letters, a, r) -> bytes r.
Proof.
  intros inp letters a r B H. unfold readShared in H.
  destruct (read_header _ _ inp) as [[fe i0]| | | |] eqn:Eh; cbn [obind] in H; try discriminate.
  assert (B0 := read_header_bytes _ _ _ _ _ B Eh).
  destruct (mbr_bytes i0 B0) as [_ B1]. destruct (multibyte_read i0) as [n i1]. cbn [snd] in B1.
  assert (B2 := read_letters_bytes (Z.to_nat n) i1 [] B1). destruct (read_letters _ _ _) as [ls i2]. cbn [snd] in B2.
  assert (B3 := alphabet_read_bytes i2 B2). destruct (alphabet_read i2) as [al i3]. cbn [snd] in B3.
  injection H as _ _ <-. exact B3.
Qed.

Lemma dict_agree : forall inp letters alpha tes r, bytes inp ->
  readTransducerSet_exe inp = Ok (letters, alpha, tes, r) ->
  exists ts, readTransducerSet inp = Ok (letters, alpha, ts, r) /\ sections_agree alpha ts tes.
Proof.
  intros inp letters alpha tes r B H. unfold readTransducerSet_exe in H. unfold readTransducerSet.
  destruct (readShared inp) as [[[ls al] i0]| | | |] eqn:E; cbn [obind] in *; try discriminate.
  assert (B0 := readShared_bytes _ _ _ _ B E).
  destruct (mbr_bytes i0 B0) as [_ B1]. destruct (multibyte_read i0) as [n i1]. cbn [snd] in B1.
  destruct (read_sections (te_read al) _ _ _) as [[ts' i2]| | | |] eqn:Es; cbn [obind] in *; try discriminate.
  injection H as <- <- <- <-.
  destruct (read_sections_agree al (Z.to_nat n) i1 [] [] ts' i2 B1 ltac:(constructor) Es) as (ts & E' & A).
  unfold section_ in *. rewrite E'. cbn [obind]. eauto.
Qed.

(** ** Whole dictionaries *)
Lemma header_lt : forall rest,
  read_header HEADER_LTTOOLBOX LTF_UNKNOWN (HEADER_LTTOOLBOX ++ write_be 0 ++ rest) = Ok (Some 0, rest).
Proof. reflexivity. Qed.

Lemma shared_rt : forall s alpha, name_ok s -> alph_inv alpha -> alph_ok alpha ->
  exists a b, string_write s = Ok a /\ alphabet_write alpha = Ok b
  /\ forall rest, readShared ((HEADER_LTTOOLBOX ++ write_be 0) ++ a ++ b ++ rest)
       = Ok (insert_all (ustring_to_vec32 s) [], alpha, rest).
Proof.
  intros s alpha [U L] AI AO.
  destruct (letters_rt s U L) as (a & Ea & Ra). destruct (alphabet_roundtrip alpha AI AO) as (b & Eb & Rb).
  exists a, b. split; [exact Ea|]. split; [exact Eb|]. intros rest.
  unfold readShared. rewrite <- app_assoc, header_lt. cbn [obind].
  specialize (Ra (b ++ rest)). destruct (multibyte_read (a ++ b ++ rest)) as [n i1]. rewrite Ra, Rb. reflexivity.
Qed.

Lemma dict_rt : forall s alpha l, name_ok s -> alph_inv alpha -> alph_ok alpha ->
  NoDup (map fst l) -> Z.of_nat (length l) < 2 ^ 30 ->
  (forall name t, In (name, t) l -> name_ok name /\ file_ok 0 t) ->
  exists bs, writeTransducerSet s alpha l = Ok bs
  /\ forall rest, readTransducerSet (bs ++ rest)
       = Ok (insert_all (ustring_to_vec32 s) [], alpha, sections_out l, rest).
Proof.
  intros s alpha l Hs AI AO ND Hl H.
  destruct (shared_rt s alpha Hs AI AO) as (a & b & Ea & Eb & Rab).
  destruct (mb_rt (Z.of_nat (length l))) as (c & Ec & _ & Rc); [lia|].
  destruct (sections_rt0 l ND H) as (d & Ed & Rd).
  unfold writeTransducerSet. unfold section_ in *. rewrite Ea. cbn [obind]. rewrite Eb. cbn [obind]. rewrite Ec. cbn [obind]. rewrite Ed. cbn [obind].
  eexists. split; [reflexivity|]. intros rest. unfold readTransducerSet.
  assert (E : forall h : list Z, (h ++ a ++ b ++ c ++ d) ++ rest = h ++ a ++ b ++ c ++ d ++ rest) by (intros; now rewrite <- !app_assoc).
  rewrite E, Rab. cbn [obind]. rewrite Rc, Nat2Z.id, Rd by (cbn; tauto). reflexivity.
Qed.

Lemma dict_exe_rt : forall s alpha l, name_ok s -> alph_inv alpha -> alph_ok alpha ->
  NoDup (map fst l) -> Z.of_nat (length l) < 2 ^ 30 ->
  (forall name t, In (name, t) l -> name_ok name /\ file_ok 0 t /\ runnable alpha t) ->
  exists bs, writeTransducerSet s alpha l = Ok bs
  /\ forall rest, bytes rest -> exists tes, readTransducerSet_exe (bs ++ rest)
       = Ok (insert_all (ustring_to_vec32 s) [], alpha, tes, rest)
     /\ sections_agree alpha (sections_out l) tes.
Proof.
  intros s alpha l Hs AI AO ND Hl H.
  destruct (shared_rt s alpha Hs AI AO) as (a & b & Ea & Eb & Rab).
  destruct (mb_rt (Z.of_nat (length l))) as (c & Ec & _ & Rc); [lia|].
  destruct (sections_rt alpha l ND H) as (d & Ed & Bd & _ & Td).
  unfold writeTransducerSet. unfold section_ in *. rewrite Ea. cbn [obind]. rewrite Eb. cbn [obind]. rewrite Ec. cbn [obind]. rewrite Ed. cbn [obind].
  eexists. split; [reflexivity|]. intros rest Br. unfold readTransducerSet_exe.
  assert (E : forall h : list Z, (h ++ a ++ b ++ c ++ d) ++ rest = h ++ a ++ b ++ c ++ d ++ rest) by (intros; now rewrite <- !app_assoc).
  rewrite E, Rab. cbn [obind]. rewrite Rc, Nat2Z.id.
  destruct (Td rest [] Br ltac:(cbn; tauto)) as (tes & -> & A). cbn [obind app]. eauto.
Qed.
