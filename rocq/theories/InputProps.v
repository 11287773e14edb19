(** C42 and C43: reading characters and blanks from a stream. *)
From Verif Require Import Base CompressionModel InputModel.

(** * Specification *)
(** Unicode scalar values and their UTF-8 form (Unicode Standard, table 3-6) *)
Definition scalar (c : Z) : Prop := 0 <= c < 1114112 /\ ~ (55296 <= c <= 57343).
Definition utf8 (c : Z) : list Z :=
  if c <? 128 then [c]
  else if c <? 2048 then [192 + c / 64; 128 + c mod 64]
  else if c <? 65536 then [224 + c / 4096; 128 + (c / 64) mod 64; 128 + c mod 64]
  else [240 + c / 262144; 128 + (c / 4096) mod 64; 128 + (c / 64) mod 64; 128 + c mod 64].
Definition utf8_text (l : list Z) : list Z := concat (map utf8 l).

(** A text to be read, with room for three characters put back: [a_held] counts the
    characters held in advance (put back or peeked at), [a_past] says that somebody has
    looked beyond the end. *)
Record tape := mkTape { a_rest : list Z; a_held : nat; a_past : bool }.
Definition a_exec (t : tape) (op : iop) : outcome (iobs * tape) :=
  match op with
  | IGet => match a_rest t with
            | [] => Ok (IChar U_EOF, mkTape [] (pred (a_held t)) true)
            | c :: r => Ok (IChar c, mkTape r (pred (a_held t)) (a_past t))
            end
  | IPeek => match a_rest t with
             | [] => Ok (IChar U_EOF, mkTape [] (max 1 (a_held t)) true)
             | c :: r => Ok (IChar c, mkTape (c :: r) (max 1 (a_held t)) (a_past t))
             end
  | IUnget c => if (a_held t <? 3)%nat
                then Ok (INone, mkTape (c :: a_rest t) (S (a_held t)) (a_past t)) else UB
  | IEof => Ok (IFlag (a_past t), t)
  end.
Fixpoint a_run (t : tape) (ops : list iop) : outcome (list iobs) :=
  match ops with
  | [] => Ok []
  | op :: r => let! (o, t) := a_exec t op in let! l := a_run t r in Ok (o :: l)
  end.

(** * UTF-8 *)
Lemma byte_facts : forall (P : Z -> bool) (a n : nat), forallb P (map Z.of_nat (seq a n)) = true ->
  forall b, Z.of_nat a <= b < Z.of_nat (a + n) -> P b = true.
Proof.
  intros P a n H b Hb. rewrite forallb_forall in H. apply H. apply in_map_iff.
  exists (Z.to_nat b). split; [lia|]. apply in_seq. lia.
Qed.
Lemma cont_facts : forall x, 0 <= x < 64 -> is_cont (128 + x) = true /\ Z.land (128 + x) 63 = x.
Proof.
  intros x Hx.
  assert (H := byte_facts (fun b => is_cont b && (Z.land b 63 =? b - 128)) 128 64 ltac:(vm_compute; reflexivity)
    (128 + x) ltac:(lia)).
  apply andb_true_iff in H as [-> H]. apply Z.eqb_eq in H. split; auto. lia.
Qed.
Lemma lead_facts : forall b,
  (0 < b < 128 -> extra_bytes b = 0%nat /\ (b <? 128) = true)
  /\ (192 <= b < 224 -> extra_bytes b = 1%nat /\ (Z.land b 224 =? 192) = true /\ Z.land b 31 = b - 192)
  /\ (224 <= b < 240 -> extra_bytes b = 2%nat /\ (Z.land b 240 =? 224) = true /\ Z.land b 15 = b - 224)
  /\ (240 <= b < 248 -> extra_bytes b = 3%nat /\ (Z.land b 248 =? 240) = true /\ Z.land b 7 = b - 240).
Proof.
  intros b. repeat split; intros.
  - assert (X := byte_facts (fun b => Nat.eqb (extra_bytes b) 0) 0 128 ltac:(vm_compute; reflexivity) b ltac:(lia)).
    now apply Nat.eqb_eq in X.
  - apply Z.ltb_lt. lia.
  - assert (X := byte_facts (fun b => Nat.eqb (extra_bytes b) 1) 192 32 ltac:(vm_compute; reflexivity) b ltac:(lia)).
    now apply Nat.eqb_eq in X.
  - exact (byte_facts (fun b => Z.land b 224 =? 192) 192 32 ltac:(vm_compute; reflexivity) b ltac:(lia)).
  - assert (X := byte_facts (fun b => Z.land b 31 =? b - 192) 192 32 ltac:(vm_compute; reflexivity) b ltac:(lia)).
    now apply Z.eqb_eq in X.
  - assert (X := byte_facts (fun b => Nat.eqb (extra_bytes b) 2) 224 16 ltac:(vm_compute; reflexivity) b ltac:(lia)).
    now apply Nat.eqb_eq in X.
  - exact (byte_facts (fun b => Z.land b 240 =? 224) 224 16 ltac:(vm_compute; reflexivity) b ltac:(lia)).
  - assert (X := byte_facts (fun b => Z.land b 15 =? b - 224) 224 16 ltac:(vm_compute; reflexivity) b ltac:(lia)).
    now apply Z.eqb_eq in X.
  - assert (X := byte_facts (fun b => Nat.eqb (extra_bytes b) 3) 240 8 ltac:(vm_compute; reflexivity) b ltac:(lia)).
    now apply Nat.eqb_eq in X.
  - exact (byte_facts (fun b => Z.land b 248 =? 240) 240 8 ltac:(vm_compute; reflexivity) b ltac:(lia)).
  - assert (X := byte_facts (fun b => Z.land b 7 =? b - 240) 240 8 ltac:(vm_compute; reflexivity) b ltac:(lia)).
    now apply Z.eqb_eq in X.
Qed.

Lemma utf8_read : forall c r, scalar c ->
  internal_read (mkI (utf8 c ++ r) false []) = Ok (mkI r false [c]).
Proof.
  intros c r [H1 H2]. unfold utf8.
  assert (M : forall x, 0 <= x mod 64 < 64) by (intros; apply Z.mod_pos_bound; lia).
  destruct (c <? 128) eqn:E1; [|apply Z.ltb_ge in E1; destruct (c <? 2048) eqn:E2;
    [|apply Z.ltb_ge in E2; destruct (c <? 65536) eqn:E3; [|apply Z.ltb_ge in E3]]].
  - apply Z.ltb_lt in E1. unfold internal_read. cbn [i_eof i_bytes app].
    destruct (c =? 0) eqn:E0; [apply Z.eqb_eq in E0; now subst|]. apply Z.eqb_neq in E0.
    destruct (lead_facts c) as (L & _). destruct L as [-> L]; [lia|].
    cbn [firstn skipn utf8_decode]. replace (length r <? 0)%nat with false by reflexivity.
    now rewrite L.
  - apply Z.ltb_lt in E2. unfold internal_read. cbn [i_eof i_bytes app].
    assert (Hq : 2 <= c / 64 < 32) by (split; [apply Z.div_le_lower_bound|apply Z.div_lt_upper_bound]; lia).
    destruct (lead_facts (192 + c / 64)) as (_ & L & _). destruct L as (-> & L2 & L3); [lia|].
    replace (192 + c / 64 =? 0) with false by (symmetry; apply Z.eqb_neq; lia).
    cbn [length firstn skipn utf8_decode]. replace (S (length r) <? 1)%nat with false by reflexivity.
    destruct (cont_facts (c mod 64) (M _)) as [C1 C2]. rewrite L2, L3, C1, C2. cbn [andb].
    replace ((192 + c / 64 - 192) * 64 + c mod 64) with c by (pose proof (Z.div_mod c 64); lia).
    replace (c <? 128) with false by (symmetry; apply Z.ltb_ge; lia). reflexivity.
  - apply Z.ltb_lt in E3. unfold internal_read. cbn [i_eof i_bytes app].
    assert (Hq : 0 <= c / 4096 < 16) by (split; [apply Z.div_pos|apply Z.div_lt_upper_bound]; lia).
    destruct (lead_facts (224 + c / 4096)) as (_ & _ & L & _). destruct L as (-> & L2 & L3); [lia|].
    replace (224 + c / 4096 =? 0) with false by (symmetry; apply Z.eqb_neq; lia).
    cbn [length firstn skipn utf8_decode]. replace (S (S (length r)) <? 2)%nat with false by reflexivity.
    destruct (cont_facts (c mod 64) (M _)) as [C1 C2].
    destruct (cont_facts ((c / 64) mod 64) (M _)) as [C3 C4].
    rewrite L2, L3, C1, C2, C3, C4. cbn [andb].
    replace ((224 + c / 4096 - 224) * 4096 + (c / 64) mod 64 * 64 + c mod 64) with c.
    2:{ pose proof (Z.div_mod c 64). pose proof (Z.div_mod (c / 64) 64).
        replace (c / 64 / 64) with (c / 4096) in * by (rewrite Z.div_div by lia; reflexivity). lia. }
    replace (c <? 2048) with false by (symmetry; apply Z.ltb_ge; lia).
    replace ((55296 <=? c) && (c <=? 57343)) with false; [reflexivity|].
    symmetry. destruct (55296 <=? c) eqn:X, (c <=? 57343) eqn:Y; auto. apply Z.leb_le in X, Y. lia.
  - unfold internal_read. cbn [i_eof i_bytes app].
    assert (Hq : 0 <= c / 262144 < 5) by (split; [apply Z.div_pos|apply Z.div_lt_upper_bound]; lia).
    destruct (lead_facts (240 + c / 262144)) as (_ & _ & _ & L). destruct L as (-> & L2 & L3); [lia|].
    replace (240 + c / 262144 =? 0) with false by (symmetry; apply Z.eqb_neq; lia).
    cbn [length firstn skipn utf8_decode]. replace (S (S (S (length r))) <? 3)%nat with false by reflexivity.
    destruct (cont_facts (c mod 64) (M _)) as [C1 C2].
    destruct (cont_facts ((c / 64) mod 64) (M _)) as [C3 C4].
    destruct (cont_facts ((c / 4096) mod 64) (M _)) as [C5 C6].
    rewrite L2, L3, C1, C2, C3, C4, C5, C6. cbn [andb].
    replace ((240 + c / 262144 - 240) * 262144 + (c / 4096) mod 64 * 4096 + (c / 64) mod 64 * 64 + c mod 64) with c.
    2:{ pose proof (Z.div_mod c 64). pose proof (Z.div_mod (c / 64) 64). pose proof (Z.div_mod (c / 4096) 64).
        replace (c / 64 / 64) with (c / 4096) in * by (rewrite Z.div_div by lia; reflexivity).
        replace (c / 4096 / 64) with (c / 262144) in * by (rewrite Z.div_div by lia; reflexivity). lia. }
    replace (c <? 65536) with false by (symmetry; apply Z.ltb_ge; lia).
    replace (1114111 <? c) with false by (symmetry; apply Z.ltb_ge; lia). reflexivity.
Qed.

(** * The file as a tape *)
Definition same (f : inf) (t : tape) : Prop :=
  length (i_buf f) = a_held t /\ i_eof f = a_past t
  /\ ((exists rest, Forall scalar rest /\ a_rest t = i_buf f ++ rest /\ i_bytes f = utf8_text rest
         /\ (a_past t = true -> rest = []))
      \/ (i_buf f = a_rest t ++ [U_EOF] /\ i_bytes f = [] /\ a_past t = true)).

Lemma same_fill : forall f t, same f t -> exists f', fill f = Ok f'
  /\ match a_rest t with
     | [] => same f' (mkTape [] (max 1 (a_held t)) true) /\ exists r, i_buf f' = [U_EOF] ++ r /\ same (mkI (i_bytes f') (i_eof f') r) (mkTape [] (pred (a_held t)) true)
     | c :: r => same f' (mkTape (c :: r) (max 1 (a_held t)) (a_past t))
                 /\ exists b, i_buf f' = c :: b /\ same (mkI (i_bytes f') (i_eof f') b) (mkTape r (pred (a_held t)) (a_past t))
     end.
Proof.
  intros [bs e buf] [rest held past] (Hl & He & H). cbn [i_bytes i_eof i_buf a_rest a_held a_past] in *.
  subst held e. unfold fill. cbn [i_buf].
  destruct H as [(l & Hs & Hr & Hb & Hp)|(Hb & Hbs & Hp)].
  - destruct buf as [|c buf]; cbn [app length] in *.
    + subst rest. destruct l as [|c l].
      * exists (mkI [] true [U_EOF]). cbn in Hb. subst bs.
        split; [destruct past; reflexivity|]. split.
        -- split; [reflexivity|]. split; [reflexivity|]. right. auto.
        -- exists []. split; [reflexivity|]. split; [reflexivity|]. split; [reflexivity|]. left.
           exists []. auto.
      * inversion Hs as [|? ? Hc Hl]; subst. destruct past; [discriminate (Hp eq_refl)|].
        exists (mkI (utf8_text l) false [c]). split; [now apply utf8_read|]. cbn [app]. split.
        -- split; [reflexivity|]. split; [reflexivity|]. left. exists l. cbn. repeat split; auto; discriminate.
        -- exists []. split; [reflexivity|]. split; [reflexivity|]. split; [reflexivity|]. left. exists l. cbn. repeat split; auto; discriminate.
    + subst rest. exists (mkI bs past (c :: buf)). split; [reflexivity|]. cbn [app i_buf i_bytes i_eof]. split.
      * split; [cbn [length i_buf a_held]; lia|]. split; [reflexivity|]. left. exists l. auto.
      * exists buf. split; [reflexivity|]. split; [reflexivity|]. split; [reflexivity|]. left. exists l. auto.
  - subst past bs. destruct rest as [|c rest]; cbn [app] in Hb; subst buf; cbn [length].
    + exists (mkI [] true [U_EOF]). split; [reflexivity|]. split.
      * split; [reflexivity|]. split; [reflexivity|]. right. auto.
      * exists []. split; [reflexivity|]. split; [reflexivity|]. split; [reflexivity|]. left.
        exists []. auto.
    + exists (mkI [] true (c :: rest ++ [U_EOF])). split; [reflexivity|]. cbn [i_buf i_bytes i_eof]. split.
      * split; [cbn [length i_buf a_held]; lia|]. split; [reflexivity|]. right. auto.
      * exists (rest ++ [U_EOF]). split; [reflexivity|]. split; [reflexivity|]. split; [reflexivity|]. right. auto.
Qed.

Lemma iexec_same : forall f t op, same f t ->
  match iexec f op, a_exec t op with
  | Ok (o, f'), Ok (o', t') => o = o' /\ same f' t'
  | UB, UB => True
  | _, _ => False
  end.
Proof.
  intros f t op H. destruct op as [| |c|]; cbn [iexec a_exec].
  - unfold get. destruct (same_fill f t H) as (f' & -> & F). cbn [obind].
    destruct (a_rest t) as [|c r]; destruct F as [_ (b & Eb & S)]; rewrite Eb; cbn [app obind]; auto.
  - unfold peek. destruct (same_fill f t H) as (f' & -> & F). cbn [obind].
    destruct (a_rest t) as [|c r]; destruct F as [S (b & Eb & _)]; rewrite Eb; cbn [app obind]; auto.
  - unfold unget. destruct H as (Hl & He & H). rewrite Hl. unfold UBUF.
    destruct (a_held t <? 3)%nat; cbn [obind]; auto. split; auto.
    split; [cbn; lia|]. split; [exact He|]. cbn [i_buf i_bytes a_rest a_past].
    destruct H as [(l & H1 & H2 & H3 & H4)|(H1 & H2 & H3)].
    + left. exists l. repeat split; auto. cbn. now rewrite H2.
    + right. repeat split; auto. cbn. now rewrite H1.
  - destruct H as (Hl & He & H). cbn. split; [now rewrite <- He|]. split; auto.
Qed.

(** Every program of get, peek, unget and eof over a UTF-8 file sees exactly the code points
    of the file in order, characters put back first, U_EOF from the end on; with three
    characters held a further unget overruns the buffer. *)
Theorem C43_reads : forall text ops, Forall scalar text ->
  irun (open_file (utf8_text text)) ops = a_run (mkTape text 0 false) ops.
Proof.
  intros text ops Ht.
  assert (S : same (open_file (utf8_text text)) (mkTape text 0 false)).
  { split; [reflexivity|]. split; [reflexivity|]. left. exists text. cbn. repeat split; auto. discriminate. }
  revert S. generalize (open_file (utf8_text text)) (mkTape text 0 false). clear.
  induction ops as [|op ops IH]; intros f t S; [reflexivity|]. cbn [irun a_run].
  pose proof (iexec_same f t op S) as H.
  destruct (iexec f op) as [[o f']| | | |], (a_exec t op) as [[o' t']| | | |]; try contradiction; auto.
  destruct H as [-> S']. cbn [obind]. now rewrite (IH _ _ S').
Qed.

(** The code points come out unchanged, then U_EOF. *)
Theorem C43_decoded : forall text n, Forall scalar text ->
  irun (open_file (utf8_text text)) (repeat IGet (length text + n))
  = Ok (map IChar text ++ repeat (IChar U_EOF) n).
Proof.
  intros text n Ht. rewrite C43_reads by auto. clear Ht. generalize false.
  induction text as [|c text IH]; intros b; cbn [length Nat.add].
  - revert b. induction n as [|n IH]; intros b; [reflexivity|]. cbn [repeat a_run a_exec a_rest a_held pred obind].
    rewrite IH. reflexivity.
  - cbn [repeat a_run a_exec a_rest a_held pred obind]. now rewrite IH.
Qed.

(** Bytes that do not begin with the UTF-8 form of a character are refused: a read
    yields a character exactly when its well-formed sequence stands there. *)
Lemma cont_inv : forall b, 0 <= b < 256 -> is_cont b = true -> 128 <= b < 192 /\ Z.land b 63 = b - 128.
Proof.
  intros b Hb H.
  assert (X := byte_facts (fun b => implb (is_cont b) ((128 <=? b) && (b <? 192) && (Z.land b 63 =? b - 128)))
    0 256 ltac:(vm_compute; reflexivity) b ltac:(lia)). cbv beta in X. rewrite H in X. cbn [implb] in X. lia.
Qed.
Lemma lead_inv : forall b, 0 <= b < 256 ->
  ((Z.land b 224 =? 192) = true -> 192 <= b < 224 /\ Z.land b 31 = b - 192)
  /\ ((Z.land b 240 =? 224) = true -> 224 <= b < 240 /\ Z.land b 15 = b - 224)
  /\ ((Z.land b 248 =? 240) = true -> 240 <= b < 248 /\ Z.land b 7 = b - 240).
Proof.
  intros b Hb. split; [|split]; intros H.
  - assert (X := byte_facts (fun b => implb (Z.land b 224 =? 192) ((192 <=? b) && (b <? 224) && (Z.land b 31 =? b - 192)))
      0 256 ltac:(vm_compute; reflexivity) b ltac:(lia)). cbv beta in X. rewrite H in X. cbn [implb] in X. lia.
  - assert (X := byte_facts (fun b => implb (Z.land b 240 =? 224) ((224 <=? b) && (b <? 240) && (Z.land b 15 =? b - 224)))
      0 256 ltac:(vm_compute; reflexivity) b ltac:(lia)). cbv beta in X. rewrite H in X. cbn [implb] in X. lia.
  - assert (X := byte_facts (fun b => implb (Z.land b 248 =? 240) ((240 <=? b) && (b <? 248) && (Z.land b 7 =? b - 240)))
      0 256 ltac:(vm_compute; reflexivity) b ltac:(lia)). cbv beta in X. rewrite H in X. cbn [implb] in X. lia.
Qed.
Lemma decode_inv : forall l c, bytes l -> utf8_decode l = Ok c -> scalar c /\ l = utf8 c.
Proof.
  unfold bytes, is_byte. intros l c Hl H. unfold utf8_decode in H. unfold scalar, utf8.
  destruct l as [|a [|b [|d [|e [|x l]]]]]; try discriminate; inversion_clear Hl as [|? ? Ha Hl'].
  - destruct (a <? 128) eqn:E; [|discriminate]. assert (a = c) by congruence. subst a. rewrite E.
    split; [lia|reflexivity].
  - inversion_clear Hl' as [|? ? Hb _].
    destruct (Z.land a 224 =? 192) eqn:E1; [|discriminate]. destruct (is_cont b) eqn:E2; [|discriminate].
    cbn [andb] in H. apply lead_inv in E1 as [Ra Ea]; [|lia]. apply cont_inv in E2 as [Rb Eb]; [|lia].
    rewrite Ea, Eb in H. cbv zeta in H. destruct (_ <? 128) eqn:E3 in H; [discriminate|].
    assert (c = (a - 192) * 64 + (b - 128)) by congruence. subst c. clear H. rewrite E3.
    destruct (_ <? 2048) eqn:E4; [|lia]. split; [lia|]. f_equal; [lia|]. f_equal. lia.
  - inversion_clear Hl' as [|? ? Hb Hl'']. inversion_clear Hl'' as [|? ? Hd _].
    destruct (Z.land a 240 =? 224) eqn:E1; [|discriminate]. destruct (is_cont b) eqn:E2; [|discriminate].
    destruct (is_cont d) eqn:E3; [|discriminate].
    cbn [andb] in H. apply lead_inv in E1 as [Ra Ea]; [|lia]. apply cont_inv in E2 as [Rb Eb]; [|lia].
    apply cont_inv in E3 as [Rd Ed]; [|lia].
    rewrite Ea, Eb, Ed in H. cbv zeta in H.
    destruct (_ || _) eqn:E4 in H; [discriminate|]. apply orb_false_iff in E4 as [E4 E5].
    assert (c = (a - 224) * 4096 + (b - 128) * 64 + (d - 128)) by congruence. subst c. clear H. rewrite E4.
    destruct (_ <? 128) eqn:E6; [lia|]. destruct (_ <? 65536) eqn:E7; [|lia].
    split; [lia|]. f_equal; [lia|]. f_equal; [lia|]. f_equal. lia.
  - inversion_clear Hl' as [|? ? Hb Hl'']. inversion_clear Hl'' as [|? ? Hd Hm]. inversion_clear Hm as [|? ? He _].
    destruct (Z.land a 248 =? 240) eqn:E1; [|discriminate]. destruct (is_cont b) eqn:E2; [|discriminate].
    destruct (is_cont d) eqn:E3; [|discriminate]. destruct (is_cont e) eqn:E3'; [|discriminate].
    cbn [andb] in H. apply lead_inv in E1 as [Ra Ea]; [|lia]. apply cont_inv in E2 as [Rb Eb]; [|lia].
    apply cont_inv in E3 as [Rd Ed]; [|lia]. apply cont_inv in E3' as [Re Ee]; [|lia].
    rewrite Ea, Eb, Ed, Ee in H. cbv zeta in H.
    destruct (_ || _) eqn:E4 in H; [discriminate|]. apply orb_false_iff in E4 as [E4 E5].
    assert (c = (a - 240) * 262144 + (b - 128) * 4096 + (d - 128) * 64 + (e - 128)) by congruence. subst c. clear H.
    destruct (_ <? 128) eqn:E6; [lia|]. destruct (_ <? 2048) eqn:E7; [lia|]. rewrite E4.
    split; [lia|]. f_equal; [lia|]. f_equal; [lia|]. f_equal; [lia|]. f_equal. lia.
Qed.
Lemma decode_total : forall l, (exists c, utf8_decode l = Ok c) \/ utf8_decode l = Throw.
Proof.
  intros l. unfold utf8_decode. destruct l as [|a [|b [|d [|e [|x l]]]]]; auto; cbv zeta;
    repeat match goal with |- context [if ?c then _ else _] => destruct c end; eauto.
Qed.
Theorem C43_malformed : forall bs, bytes bs -> bs <> [] ->
  match get (open_file bs) with
  | Ok (c, f) => scalar c /\ bs = utf8 c ++ i_bytes f /\ i_buf f = [] /\ i_eof f = false
  | Throw => ~ exists c r, scalar c /\ bs = utf8 c ++ r
  | _ => False
  end.
Proof.
  intros bs Hb Hn.
  destruct bs as [|a r]; [easy|]. unfold get, fill. cbn [i_buf open_file].
  unfold internal_read at 1. cbn [i_eof i_bytes open_file].
  destruct (Z.eqb_spec a 0) as [->|Ha]; [cbn; repeat split; lia|].
  assert (T : forall c q, scalar c -> a :: r = utf8 c ++ q ->
    internal_read (open_file (a :: r)) = Ok (mkI q false [c])).
  { intros c q Hc E. unfold open_file. rewrite E. now apply utf8_read. }
  unfold internal_read in T. cbn [i_eof i_bytes open_file] in T. rewrite (proj2 (Z.eqb_neq a 0) Ha) in T.
  cbv zeta in T |- *.
  destruct (length r <? extra_bytes a)%nat eqn:El.
  { cbn [obind]. intros (c & q & Hc & E). specialize (T c q Hc E). discriminate. }
  destruct (utf8_decode _) as [c| | | |] eqn:D; cbn [obind i_buf i_bytes i_eof] in *.
  - apply decode_inv in D as [Hc E].
    + split; [exact Hc|]. rewrite <- E. cbn [app]. rewrite firstn_skipn. auto.
    + inversion_clear Hb as [|? ? H1 H2]. constructor; [exact H1|]. apply Forall_forall. intros x Hx.
      rewrite Forall_forall in H2. apply H2. rewrite <- (firstn_skipn (extra_bytes a) r). apply in_or_app. now left.
  - exfalso. destruct (decode_total (a :: firstn (extra_bytes a) r)) as [[? X]|X]; congruence.
  - intros (c & q & Hc & E). specialize (T c q Hc E). discriminate.
  - exfalso. destruct (decode_total (a :: firstn (extra_bytes a) r)) as [[? X]|X]; congruence.
  - exfalso. destruct (decode_total (a :: firstn (extra_bytes a) r)) as [[? X]|X]; congruence.
Qed.
Example C43_malformed_example : get (open_file [192; 175]) = Throw /\ get (open_file [237; 160; 128]) = Throw
  /\ get (open_file [244; 144; 128; 128]) = Throw /\ get (open_file [97; 192; 175]) = Ok (97, mkI [192; 175] false []).
Proof. vm_compute. auto. Qed.

(** rewind leaves what has been peeked at in the buffer: it is then read twice. *)
Theorem C43_rewind_refuted :
  exists f1 f2 f3, peek (open_file [97; 98]) = Ok (97, f1)
  /\ get (rewind [97; 98] f1) = Ok (97, f2) /\ get f2 = Ok (97, f3).
Proof. eexists _, _, _. repeat split. Qed.
(** The character U+FFFF of a text cannot be told from its end. *)
Theorem C43_noncharacter_refuted :
  irun (open_file (utf8_text [65535; 97])) [IGet; IGet] = Ok [IChar U_EOF; IChar 97].
Proof. vm_compute. reflexivity. Qed.

(** * Blanks: specification *)
(** [text] is what is still to be read from [f] *)
Definition at_text (f : inf) (text : list Z) : Prop :=
  i_eof f = false /\ exists rest, Forall scalar (i_buf f ++ rest) /\ text = i_buf f ++ rest
    /\ i_bytes f = utf8_text rest /\ (length (i_buf f) <= 3)%nat.
(** The end has been seen: only U_EOF is read from now on *)
Definition ended (f : inf) : Prop := i_eof f = true /\ i_bytes f = [] /\ (i_buf f = [] \/ i_buf f = [U_EOF]).

(** UTF-16 *)
Definition utf16 (c : Z) : list Z :=
  if c <? 65536 then [c] else [55296 + (c - 65536) / 1024; 56320 + (c - 65536) mod 1024].
Definition utf16_text (l : list Z) : list Z := concat (map utf16 l).

(** What may stand before the closing [e] *)
Inductive block_body (e : Z) : list Z -> Prop :=
| bb_nil : block_body e []
| bb_char c r : c <> e -> c <> 92 -> c <> 0 -> block_body e r -> block_body e (c :: r)
| bb_esc c r : block_body e r -> block_body e (92 :: c :: r).
(** ... and before the closing "]]" *)
Inductive wblank_body : list Z -> Prop :=
| wb_nil : wblank_body []
| wb_char c r : c <> 93 -> c <> 92 -> c <> 0 -> wblank_body r -> wblank_body (c :: r)
| wb_esc c r : wblank_body r -> wblank_body (92 :: c :: r)
| wb_single c r : c <> 93 -> wblank_body (c :: r) -> wblank_body (93 :: c :: r).
(** The text between two words: characters, escaped characters, superblanks and (if [w])
    word-bound blanks; 94 is '^', 91 and 93 the square brackets *)
Inductive blank (w : bool) : list Z -> Prop :=
| bl_nil : blank w []
| bl_char c r : c <> 94 -> c <> 0 -> c <> U_EOF -> c <> 91 -> c <> 92 -> blank w r -> blank w (c :: r)
| bl_esc c r : c <> 0 -> blank w r -> blank w (92 :: c :: r)
| bl_block b r : block_body 93 b -> (forall x, hd_error b = Some x -> x <> 91) -> blank w r ->
    blank w (91 :: b ++ 93 :: r)
| bl_wblank b r : w = true -> wblank_body b -> blank w r -> blank w (91 :: 91 :: b ++ 93 :: 93 :: r).
(** Where it ends *)
Definition stops (w : bool) (rest : list Z) : Prop :=
  rest = [] \/ (exists c r, rest = c :: r /\ (c = 94 \/ c = 0 \/ c = U_EOF))
  \/ (w = false /\ exists r, rest = 91 :: 91 :: r).

(** * Blanks: proofs *)
Lemma append_cp_app : forall l c, append_cp l c = l ++ append_cp [] c.
Proof. intros l c. unfold append_cp. destruct (c <=? 65535); reflexivity. Qed.
Lemma append_cp_utf16 : forall l c, scalar c -> append_cp l c = l ++ utf16 c.
Proof.
  intros l c [H _]. rewrite append_cp_app. f_equal. unfold append_cp, utf16.
  destruct (c <=? 65535) eqn:E; [apply Z.leb_le in E|apply Z.leb_gt in E].
  - replace (c <? 65536) with true by (symmetry; apply Z.ltb_lt; lia). rewrite Z.mod_small by lia. reflexivity.
  - replace (c <? 65536) with false by (symmetry; apply Z.ltb_ge; lia). cbn [app].
    change 65536 with (2 ^ 16) at 1. change 1023 with (Z.ones 10).
    rewrite Z.land_ones by lia. rewrite Z.shiftr_div_pow2 by lia.
    change (2 ^ 10) with 1024.
    assert (H1 : 0 <= (c - 65536) / 1024 < 1024) by (split; [apply Z.div_pos|apply Z.div_lt_upper_bound]; lia).
    assert (H2 : 0 <= c mod 1024 < 1024) by (apply Z.mod_pos_bound; lia).
    assert (H3 : (c - 65536) mod 1024 = c mod 1024).
    { replace (c - 65536) with (c + (-64) * 1024) by lia. apply Z.mod_add. lia. }
    change (2 ^ 16) with 65536. rewrite H3. rewrite !(Z.mod_small _ 65536) by lia. reflexivity.
Qed.
Lemma append_eof : forall l, append_cp l U_EOF = l ++ [U_EOF].
Proof. reflexivity. Qed.

Lemma get_at : forall f c l, at_text f (c :: l) -> exists f', get f = Ok (c, f') /\ at_text f' l
  /\ length (i_buf f') = pred (length (i_buf f)) /\ scalar c.
Proof.
  intros [bs e buf] c l (He & rest & Hs & Ht & Hb & Hl). cbn [i_eof i_buf i_bytes] in *. subst e bs.
  unfold get, fill. cbn [i_buf]. destruct buf as [|x buf]; cbn [app] in *.
  - subst rest. inversion Hs; subst. unfold utf8_text. cbn [map concat]. rewrite utf8_read by auto.
    cbn [obind i_buf i_bytes i_eof]. eexists. split; [reflexivity|]. split; [|split; auto]. split; auto.
    exists l. cbn. repeat split; auto.
  - injection Ht as -> ->. inversion Hs; subst. cbn [obind i_buf i_bytes i_eof]. eexists.
    split; [reflexivity|]. split; [|split; auto]. split; auto.
    exists rest. cbn in *. repeat split; auto. lia.
Qed.
Lemma peek_at : forall f c l, at_text f (c :: l) -> exists f', peek f = Ok (c, f') /\ at_text f' (c :: l)
  /\ length (i_buf f') = max 1 (length (i_buf f)) /\ scalar c.
Proof.
  intros [bs e buf] c l (He & rest & Hs & Ht & Hb & Hl). cbn [i_eof i_buf i_bytes] in *. subst e bs.
  unfold peek, fill. cbn [i_buf]. destruct buf as [|x buf]; cbn [app] in *.
  - subst rest. inversion Hs; subst. unfold utf8_text. cbn [map concat]. rewrite utf8_read by auto.
    cbn [obind i_buf i_bytes i_eof]. eexists. split; [reflexivity|]. split; [|split; auto]. split; auto.
    exists l. cbn. repeat split; auto.
  - injection Ht as -> ->. inversion Hs; subst. cbn [obind i_buf i_bytes i_eof]. eexists.
    split; [reflexivity|]. split; [|split; auto]. split; auto.
    exists rest. cbn in *. repeat split; auto.
Qed.
Lemma get_end : forall f, at_text f [] -> get f = Ok (U_EOF, mkI [] true []).
Proof.
  intros [bs e buf] (He & rest & Hs & Ht & Hb & Hl). cbn [i_eof i_buf i_bytes] in *. subst e bs.
  symmetry in Ht. apply app_eq_nil in Ht as [-> ->]. reflexivity.
Qed.
Lemma peek_end : forall f, at_text f [] -> peek f = Ok (U_EOF, mkI [] true [U_EOF]).
Proof.
  intros [bs e buf] (He & rest & Hs & Ht & Hb & Hl). cbn [i_eof i_buf i_bytes] in *. subst e bs.
  symmetry in Ht. apply app_eq_nil in Ht as [-> ->]. reflexivity.
Qed.
Lemma unget_at : forall f c l, at_text f l -> scalar c -> (length (i_buf f) < 3)%nat ->
  exists f', unget c f = Ok f' /\ at_text f' (c :: l) /\ length (i_buf f') = S (length (i_buf f)).
Proof.
  intros [bs e buf] c l (He & rest & Hs & Ht & Hb & Hl) Hc Hr. cbn [i_eof i_buf i_bytes] in *. subst.
  unfold unget. cbn [i_buf]. apply Nat.ltb_lt in Hr as Hr'. unfold UBUF. rewrite Hr'. eexists.
  split; [reflexivity|]. split; [|reflexivity]. split; auto. exists rest. cbn in *. repeat split; auto.
Qed.
Lemma at_text_eof : forall f l, at_text f l -> eof f = false.
Proof. intros f l H. apply H. Qed.
Lemma at_text_size : forall f l, at_text f l -> (length l <= i_size f)%nat.
Proof.
  intros f l (_ & rest & _ & -> & Hb & _). unfold i_size. rewrite app_length, Hb.
  assert (length rest <= length (utf8_text rest))%nat; [|lia].
  clear. induction rest as [|c r IH]; [auto|]. unfold utf8_text in *. cbn [map concat length]. rewrite app_length.
  assert (1 <= length (utf8 c))%nat; [|lia]. unfold utf8.
  repeat match goal with |- context [if ?b then _ else _] => destruct b end; cbn; lia.
Qed.
Lemma at_text_open : forall text, Forall scalar text -> at_text (open_file (utf8_text text)) text.
Proof. intros text H. split; auto. exists text. cbn. repeat split; auto. Qed.

Lemma utf16_text_app : forall a b, utf16_text (a ++ b) = utf16_text a ++ utf16_text b.
Proof. intros a b. unfold utf16_text. now rewrite map_app, concat_app. Qed.
Lemma utf16_text_cons : forall c b, utf16_text (c :: b) = utf16 c ++ utf16_text b.
Proof. reflexivity. Qed.

(** ** Well-formed input *)
Lemma block_loop_body : forall e, e <> 0 -> e <> 92 -> forall body, block_body e body ->
  forall rest c f ret fuel, at_text f (body ++ e :: rest) -> c <> e -> (length body < fuel)%nat ->
  exists f', block_loop fuel c e f ret = Ok (ret ++ utf16_text (body ++ [e]), f') /\ at_text f' rest.
Proof.
  intros e He0 He92 body Hb. induction Hb as [|x r H1 H2 H3 Hb IH|x r Hb IH]; intros rest c f ret fuel Ha Hc Hf;
    cbn [app length] in *; (destruct fuel as [|fuel]; [lia|]); cbn [block_loop];
    rewrite (at_text_eof _ _ Ha); (replace (c =? e) with false by (symmetry; now apply Z.eqb_neq)); cbn [orb];
    destruct (get_at _ _ _ Ha) as (f1 & -> & A1 & L1 & S1); cbn [obind].
  - replace (e =? 0) with false by (symmetry; now apply Z.eqb_neq).
    replace (e =? 92) with false by (symmetry; now apply Z.eqb_neq).
    exists f1. split; [|auto]. rewrite append_cp_utf16 by auto.
    unfold utf16_text. cbn [map concat]. rewrite app_nil_r.
    destruct fuel; cbn [block_loop]; now rewrite Z.eqb_refl.
  - replace (x =? 0) with false by (symmetry; now apply Z.eqb_neq).
    replace (x =? 92) with false by (symmetry; now apply Z.eqb_neq).
    destruct (IH rest x f1 (append_cp ret x) fuel A1 H1 ltac:(lia)) as (f' & -> & A').
    exists f'. rewrite append_cp_utf16, utf16_text_cons, <- app_assoc by auto. auto.
  - replace (92 =? 0) with false by reflexivity. replace (92 =? 92) with true by reflexivity.
    destruct (get_at _ _ _ A1) as (f2 & -> & A2 & L2 & S2). cbn [obind].
    destruct (IH rest 92 f2 (append_cp (append_cp ret 92) x) fuel A2 ltac:(lia) ltac:(lia)) as (f' & -> & A').
    exists f'. rewrite !append_cp_utf16, !utf16_text_cons, <- !app_assoc by auto.
    auto.
Qed.

(** readBlock returns the text up to the closing character and stops behind it. *)
Theorem C42_block : forall f start e body rest, scalar start -> e <> 0 -> e <> 92 ->
  block_body e body -> at_text f (body ++ e :: rest) ->
  exists f', readBlock start e f = Ok (utf16_text (start :: body ++ [e]), f') /\ at_text f' rest.
Proof.
  intros f start e body rest Hs H0 H92 Hb Ha. unfold readBlock.
  pose proof (at_text_size _ _ Ha) as Hl. rewrite app_length in Hl.
  destruct (block_loop_body e H0 H92 body Hb rest 0 f (append_cp [] start) (2 + i_size f) Ha ltac:(auto) ltac:(lia))
    as (f' & -> & A).
  exists f'. rewrite append_cp_utf16 by auto. cbn [app]. rewrite utf16_text_cons. auto.
Qed.

Lemma wblank_loop_body : forall body, wblank_body body ->
  forall rest f ret fuel, at_text f (body ++ 93 :: 93 :: rest) -> (length body < fuel)%nat ->
  exists f', wblank_loop fuel f ret = Ok (ret ++ utf16_text (body ++ [93; 93]), f') /\ at_text f' rest.
Proof.
  intros body Hb. induction Hb as [|x r H1 H2 H3 Hb IH|x r Hb IH|x r Hx Hb IH]; intros rest f ret fuel Ha Hf;
    cbn [app length] in *; (destruct fuel as [|fuel]; [lia|]); cbn [wblank_loop];
    rewrite (at_text_eof _ _ Ha);
    destruct (get_at _ _ _ Ha) as (f1 & -> & A1 & L1 & S1); cbn [obind].
  - replace (93 =? 0) with false by reflexivity. replace (93 =? 92) with false by reflexivity.
    replace (93 =? 93) with true by reflexivity.
    destruct (peek_at _ _ _ A1) as (f2 & -> & A2 & L2 & _). cbn [obind].
    replace (93 =? 93) with true by reflexivity.
    destruct (get_at _ _ _ A2) as (f3 & -> & A3 & L3 & _). cbn [obind].
    exists f3. rewrite !append_cp_utf16, <- !app_assoc by auto. auto.
  - replace (x =? 0) with false by (symmetry; now apply Z.eqb_neq).
    replace (x =? 92) with false by (symmetry; now apply Z.eqb_neq).
    replace (x =? 93) with false by (symmetry; now apply Z.eqb_neq).
    destruct (IH rest f1 (append_cp ret x) fuel A1 ltac:(lia)) as (f' & -> & A').
    exists f'. rewrite append_cp_utf16, utf16_text_cons, <- app_assoc by auto. auto.
  - replace (92 =? 0) with false by reflexivity. replace (92 =? 92) with true by reflexivity.
    destruct (get_at _ _ _ A1) as (f2 & -> & A2 & L2 & S2). cbn [obind].
    destruct (IH rest f2 (append_cp (append_cp ret 92) x) fuel A2 ltac:(lia)) as (f' & -> & A').
    exists f'. rewrite !append_cp_utf16, !utf16_text_cons, <- !app_assoc by auto.
    auto.
  - replace (93 =? 0) with false by reflexivity. replace (93 =? 92) with false by reflexivity.
    replace (93 =? 93) with true by reflexivity.
    destruct (peek_at _ _ _ A1) as (f2 & -> & A2 & L2 & S2). cbn [obind].
    replace (x =? 93) with false by (symmetry; now apply Z.eqb_neq).
    destruct (IH rest f2 (append_cp ret 93) fuel A2 ltac:(lia)) as (f' & -> & A').
    exists f'. rewrite append_cp_utf16, (utf16_text_cons 93), <- app_assoc by auto. auto.
Qed.

(** finishWBlank likewise up to "]]". *)
Theorem C42_wblank : forall f body rest, wblank_body body -> at_text f (body ++ 93 :: 93 :: rest) ->
  exists f', finishWBlank f = Ok (utf16_text (91 :: 91 :: body ++ [93; 93]), f') /\ at_text f' rest.
Proof.
  intros f body rest Hb Ha. unfold finishWBlank.
  pose proof (at_text_size _ _ Ha) as Hl. rewrite app_length in Hl.
  exact (wblank_loop_body body Hb rest f [91; 91] (2 + i_size f) Ha ltac:(lia)).
Qed.

Lemma blank_loop_body : forall w b, blank w b ->
  forall rest f ret fuel, stops w rest -> at_text f (b ++ rest) -> (length b < fuel)%nat ->
  exists f', blank_loop fuel w f ret = Ok (ret ++ utf16_text b, f')
    /\ (rest <> [] -> at_text f' rest) /\ (rest = [] -> ended f').
Proof.
  intros w b Hb. induction Hb as [|x r H1 H2 H3 H4 H5 Hb IH|x r Hx Hb IH|body r Hbb Hh Hb IH|body r Hw Hbb Hb IH];
    intros rest f ret fuel Hs Ha Hf; cbn [app length] in *; (destruct fuel as [|fuel]; [lia|]); cbn [blank_loop];
    rewrite (at_text_eof _ _ Ha).
  - change (utf16_text []) with (@nil Z). rewrite app_nil_r. destruct Hs as [->|[(c & r & -> & Hc)|[-> (r & ->)]]].
    + rewrite (get_end _ Ha). cbn [obind]. replace ((U_EOF =? 94) || (U_EOF =? 0) || (U_EOF =? U_EOF)) with true by reflexivity.
      eexists. split; [reflexivity|]. split; [congruence|]. intros _. split; auto. 
    + destruct (get_at _ _ _ Ha) as (f1 & -> & A1 & L1 & S1). cbn [obind].
      replace ((c =? 94) || (c =? 0) || (c =? U_EOF)) with true
        by (destruct Hc as [->|[->| ->]]; reflexivity).
      destruct (unget_at _ c _ A1 S1) as (f2 & -> & A2 & _).
      { destruct Ha as (_ & _ & _ & _ & _ & Hl). lia. }
      cbn [obind]. exists f2. split; auto. split; auto. discriminate.
    + destruct (get_at _ _ _ Ha) as (f1 & -> & A1 & L1 & S1). cbn [obind].
      replace ((91 =? 94) || (91 =? 0) || (91 =? U_EOF)) with false by reflexivity.
      replace (91 =? 91) with true by reflexivity.
      destruct (get_at _ _ _ A1) as (f2 & -> & A2 & L2 & S2). cbn [obind].
      replace (91 =? 91) with true by reflexivity.
      assert (Hl : (length (i_buf f) <= 3)%nat) by (destruct Ha as (_ & _ & _ & _ & _ & Hl); exact Hl).
      destruct (unget_at _ 91 _ A2 S2) as (f3 & -> & A3 & L3); [lia|]. cbn [obind].
      destruct (unget_at _ 91 _ A3 S2) as (f4 & -> & A4 & _); [lia|]. cbn [obind].
      exists f4. split; auto. split; auto. discriminate.
  - destruct (get_at _ _ _ Ha) as (f1 & -> & A1 & L1 & S1). cbn [obind].
    replace (x =? 94) with false by (symmetry; now apply Z.eqb_neq).
    replace (x =? 0) with false by (symmetry; now apply Z.eqb_neq).
    replace (x =? U_EOF) with false by (symmetry; now apply Z.eqb_neq).
    replace (x =? 91) with false by (symmetry; now apply Z.eqb_neq).
    replace (x =? 92) with false by (symmetry; now apply Z.eqb_neq). cbn [orb].
    destruct (IH rest f1 (append_cp ret x) fuel Hs A1 ltac:(lia)) as (f' & -> & A').
    exists f'. rewrite append_cp_utf16, utf16_text_cons, <- app_assoc by auto. auto.
  - destruct (get_at _ _ _ Ha) as (f1 & -> & A1 & L1 & S1). cbn [obind].
    replace ((92 =? 94) || (92 =? 0) || (92 =? U_EOF)) with false by reflexivity.
    replace (92 =? 91) with false by reflexivity. replace (92 =? 92) with true by reflexivity.
    rewrite (at_text_eof _ _ A1).
    destruct (peek_at _ _ _ A1) as (f2 & -> & A2 & L2 & S2). cbn [obind].
    replace (x =? 0) with false by (symmetry; now apply Z.eqb_neq).
    destruct (get_at _ _ _ A2) as (f3 & -> & A3 & L3 & _). cbn [obind].
    destruct (IH rest f3 (append_cp (append_cp ret 92) x) fuel Hs A3 ltac:(lia)) as (f' & -> & A').
    exists f'. rewrite !append_cp_utf16, !utf16_text_cons, <- !app_assoc by auto. auto.
  - destruct (get_at _ _ _ Ha) as (f1 & -> & A1 & L1 & S1). cbn [obind].
    replace ((91 =? 94) || (91 =? 0) || (91 =? U_EOF)) with false by reflexivity.
    replace (91 =? 91) with true by reflexivity.
    rewrite <- app_assoc in A1. cbn [app] in A1.
    assert (Hc2 : exists c2 r2, body ++ 93 :: r ++ rest = c2 :: r2 /\ c2 <> 91).
    { destruct body as [|c2 body]; [eexists _, _; split; [reflexivity|lia]|].
      eexists _, _. split; [reflexivity|]. now apply Hh. }
    destruct Hc2 as (c2 & r2 & E2 & N2). rewrite E2 in A1.
    destruct (get_at _ _ _ A1) as (f2 & -> & A2 & L2 & S2). cbn [obind].
    replace (c2 =? 91) with false by (symmetry; now apply Z.eqb_neq).
    assert (Hl : (length (i_buf f) <= 3)%nat) by (destruct Ha as (_ & _ & _ & _ & _ & Hl); exact Hl).
    destruct (unget_at _ c2 _ A2 S2) as (f3 & -> & A3 & L3); [lia|]. cbn [obind]. rewrite <- E2 in A3.
    destruct (C42_block f3 91 93 body (r ++ rest) S1 ltac:(lia) ltac:(lia) Hbb A3) as (f4 & -> & A4).
    cbn [obind]. rewrite app_length in Hf. cbn [length] in Hf.
    destruct (IH rest f4 (ret ++ utf16_text (91 :: body ++ [93])) fuel Hs A4 ltac:(lia)) as (f' & -> & A').
    exists f'. split; auto. f_equal. f_equal.
    change (91 :: body ++ 93 :: r) with ((91 :: body) ++ [93] ++ r).
    rewrite app_assoc, (utf16_text_app _ r), app_assoc. reflexivity.
  - destruct (get_at _ _ _ Ha) as (f1 & -> & A1 & L1 & S1). cbn [obind].
    replace ((91 =? 94) || (91 =? 0) || (91 =? U_EOF)) with false by reflexivity.
    replace (91 =? 91) with true by reflexivity.
    destruct (get_at _ _ _ A1) as (f2 & -> & A2 & L2 & S2). cbn [obind].
    replace (91 =? 91) with true by reflexivity. rewrite Hw.
    rewrite <- app_assoc in A2. cbn [app] in A2.
    destruct (C42_wblank f2 body (r ++ rest) Hbb A2) as (f3 & -> & A3). cbn [obind].
    rewrite app_length in Hf. cbn [length] in Hf.
    destruct (IH rest f3 (ret ++ utf16_text (91 :: 91 :: body ++ [93; 93])) fuel Hs A3 ltac:(lia)) as (f' & E & A').
    rewrite Hw in E. rewrite E.
    exists f'. split; auto. f_equal. f_equal.
    change (91 :: 91 :: body ++ 93 :: 93 :: r) with ((91 :: 91 :: body) ++ [93; 93] ++ r).
    rewrite app_assoc, (utf16_text_app _ r), app_assoc. reflexivity.
Qed.

(** readBlank returns exactly the blank in front of a word (or of a NUL, or of the end) and
    stops there. *)
Theorem C42_blank : forall w f b rest, blank w b -> stops w rest -> at_text f (b ++ rest) ->
  exists f', readBlank w f = Ok (utf16_text b, f')
    /\ (rest <> [] -> at_text f' rest) /\ (rest = [] -> ended f').
Proof.
  intros w f b rest Hb Hs Ha. unfold readBlank.
  pose proof (at_text_size _ _ Ha) as Hl. rewrite app_length in Hl.
  exact (blank_loop_body w b Hb rest f [] (2 + i_size f) Hs Ha ltac:(lia)).
Qed.

(** ** Any input *)
(** What has been returned is the text taken from the stream; if the end comes inside a
    bracket or an escape, U_EOF is appended. *)
Definition taken (text ret r : list Z) (f' : inf) : Prop :=
  exists a rest, text = a ++ rest
    /\ (r = ret ++ utf16_text a /\ at_text f' rest
        \/ rest = [] /\ (r = ret ++ utf16_text a \/ r = ret ++ utf16_text a ++ [U_EOF]) /\ ended f').

Lemma taken_cons : forall c text ret r f', scalar c -> taken text (append_cp ret c) r f' -> taken (c :: text) ret r f'.
Proof.
  intros c text ret r f' Hc (a & rest & -> & H). rewrite append_cp_utf16 in H by auto.
  exists (c :: a), rest. split; [reflexivity|]. rewrite utf16_text_cons, <- !app_assoc in *. exact H.
Qed.
Lemma taken_app : forall a text ret r f', taken text (ret ++ utf16_text a) r f' -> taken (a ++ text) ret r f'.
Proof.
  intros a text ret r f' (a' & rest & -> & H). exists (a ++ a'), rest. split; [now rewrite app_assoc|].
  rewrite utf16_text_app, <- !app_assoc in *. exact H.
Qed.
Lemma ended_nil : ended (mkI [] true []).
Proof. split; auto. Qed.

Lemma block_loop_any : forall e fuel text c f ret, at_text f text -> (length text < fuel)%nat ->
  Forall (fun c => c <> 0) text ->
  exists r f', block_loop fuel c e f ret = Ok (r, f') /\ taken text ret r f'.
Proof.
  intros e. induction fuel as [|fuel IH]; intros text c f ret Ha Hf Hn; [lia|]. cbn [block_loop].
  rewrite (at_text_eof _ _ Ha). destruct (c =? e) eqn:Ec; cbn [orb].
  { apply Z.eqb_eq in Ec. eexists _, _. split; [reflexivity|].
    exists [], text. split; auto. left. now rewrite app_nil_r. }
  destruct text as [|x text].
  - rewrite (get_end _ Ha). cbn [obind]. replace (U_EOF =? 0) with false by reflexivity.
    replace (U_EOF =? 92) with false by reflexivity. rewrite append_eof.
    eexists _, _. split; [destruct fuel; cbn [block_loop eof i_eof]; rewrite orb_true_r; reflexivity|].
    exists [], []. split; auto. right. split; auto. split; [|apply ended_nil]. right. reflexivity.
  - destruct (get_at _ _ _ Ha) as (f1 & -> & A1 & L1 & S1). cbn [obind].
    inversion Hn as [|? ? Hx Hn']; subst. cbn [length] in Hf.
    replace (x =? 0) with false by (symmetry; now apply Z.eqb_neq).
    destruct (x =? 92) eqn:E92.
    + destruct text as [|y text].
      * rewrite (get_end _ A1). cbn [obind]. rewrite append_eof.
        eexists _, _. split; [destruct fuel; cbn [block_loop eof i_eof]; rewrite orb_true_r; reflexivity|].
        apply taken_cons; auto. exists [], []. split; auto. right. split; auto. split; [|apply ended_nil].
        right. reflexivity.
      * destruct (get_at _ _ _ A1) as (f2 & -> & A2 & L2 & S2). cbn [obind]. cbn [length] in Hf.
        inversion Hn' as [|? ? Hy Hn'']; subst.
        destruct (IH text x f2 (append_cp (append_cp ret x) y) A2 ltac:(lia) Hn'') as (r & f' & -> & T).
        eexists _, _. split; [reflexivity|]. apply taken_cons; auto. apply taken_cons; auto.
    + destruct (IH text x f1 (append_cp ret x) A1 ltac:(lia) Hn') as (r & f' & -> & T).
      eexists _, _. split; [reflexivity|]. apply taken_cons; auto.
Qed.

Lemma wblank_loop_any : forall fuel text f ret, at_text f text -> (length text < fuel)%nat ->
  Forall (fun c => c <> 0) text ->
  exists r f', wblank_loop fuel f ret = Ok (r, f') /\ taken text ret r f'.
Proof.
  induction fuel as [|fuel IH]; intros text f ret Ha Hf Hn; [lia|]. cbn [wblank_loop].
  rewrite (at_text_eof _ _ Ha).
  destruct text as [|x text].
  - rewrite (get_end _ Ha). cbn [obind]. replace (U_EOF =? 0) with false by reflexivity.
    replace (U_EOF =? 92) with false by reflexivity. replace (U_EOF =? 93) with false by reflexivity.
    rewrite append_eof.
    eexists _, _. split; [destruct fuel; cbn [wblank_loop eof i_eof]; reflexivity|].
    exists [], []. split; auto. right. split; auto. split; [|apply ended_nil]. right. reflexivity.
  - destruct (get_at _ _ _ Ha) as (f1 & -> & A1 & L1 & S1). cbn [obind].
    inversion Hn as [|? ? Hx Hn']; subst. cbn [length] in Hf.
    replace (x =? 0) with false by (symmetry; now apply Z.eqb_neq).
    destruct (x =? 92) eqn:E92; [|destruct (x =? 93) eqn:E93].
    + destruct text as [|y text].
      * rewrite (get_end _ A1). cbn [obind]. rewrite append_eof.
        eexists _, _. split; [destruct fuel; cbn [wblank_loop eof i_eof]; reflexivity|].
        apply taken_cons; auto. exists [], []. split; auto. right. split; auto. split; [|apply ended_nil].
        right. reflexivity.
      * destruct (get_at _ _ _ A1) as (f2 & -> & A2 & L2 & S2). cbn [obind]. cbn [length] in Hf.
        inversion Hn' as [|? ? Hy Hn'']; subst.
        destruct (IH text f2 (append_cp (append_cp ret x) y) A2 ltac:(lia) Hn'') as (r & f' & -> & T).
        eexists _, _. split; [reflexivity|]. apply taken_cons; auto. apply taken_cons; auto.
    + destruct text as [|y text].
      * rewrite (peek_end _ A1). cbn [obind]. replace (U_EOF =? 93) with false by reflexivity.
        eexists _, _. split; [destruct fuel; cbn [wblank_loop eof i_eof]; reflexivity|].
        apply taken_cons; auto. exists [], []. split; auto. right. split; auto.
        split; [left; now rewrite app_nil_r|]. split; auto.
      * destruct (peek_at _ _ _ A1) as (f2 & -> & A2 & L2 & S2). cbn [obind].
        destruct (y =? 93) eqn:Ey.
        -- destruct (get_at _ _ _ A2) as (f3 & -> & A3 & L3 & _). cbn [obind].
           eexists _, _. split; [reflexivity|]. apply taken_cons; auto. apply taken_cons; auto.
           exists [], text. split; auto. left. now rewrite app_nil_r.
        -- destruct (IH (y :: text) f2 (append_cp ret x) A2 ltac:(lia) Hn') as (r & f' & -> & T).
           eexists _, _. split; [reflexivity|]. apply taken_cons; auto.
    + destruct (IH text f1 (append_cp ret x) A1 ltac:(lia) Hn') as (r & f' & -> & T).
      eexists _, _. split; [reflexivity|]. apply taken_cons; auto.
Qed.

Lemma taken_rest : forall text ret r f', taken text ret r f' ->
  (exists a rest, text = a ++ rest /\ r = ret ++ utf16_text a /\ at_text f' rest)
  \/ (exists x, taken text ret r f' /\ eof f' = true /\ r = ret ++ utf16_text text ++ x).
Proof.
  intros text ret r f' T. destruct T as (a & rest & E & [[-> A]|(-> & Hr & En)]); [left; eauto|].
  right. rewrite app_nil_r in E. subst a. destruct En as (En & Eb & Ec).
  assert (T : taken text ret r f').
  { exists text, []. split; [now rewrite app_nil_r|]. right. split; auto. split; auto. split; auto. }
  destruct Hr as [-> | ->]; eexists; (split; [exact T|]); (split; [exact En|]); [|reflexivity].
  rewrite app_nil_r. reflexivity.
Qed.

Lemma blank_loop_any : forall w fuel text f ret, at_text f text -> (length text < fuel)%nat ->
  Forall (fun c => c <> 0) text ->
  exists r f', blank_loop fuel w f ret = Ok (r, f') /\ taken text ret r f'
    /\ (eof f' = false -> exists a rest, text = a ++ rest /\ at_text f' rest /\ rest <> [] /\ stops w rest).
Proof.
  intros w. induction fuel as [|fuel IH]; intros text f ret Ha Hf Hn; [lia|]. cbn [blank_loop].
  rewrite (at_text_eof _ _ Ha).
  assert (Hl : (length (i_buf f) <= 3)%nat) by (destruct Ha as (_ & _ & _ & _ & _ & Hl); exact Hl).
  destruct text as [|x text].
  - rewrite (get_end _ Ha). cbn [obind]. replace ((U_EOF =? 94) || (U_EOF =? 0) || (U_EOF =? U_EOF)) with true by reflexivity.
    eexists _, _. split; [reflexivity|]. split; [|discriminate].
    exists [], []. split; auto. right. split; auto. split; [left; now rewrite app_nil_r|]. split; auto.
  - destruct (get_at _ _ _ Ha) as (f1 & -> & A1 & L1 & S1). cbn [obind].
    inversion Hn as [|? ? Hx Hn']; subst. cbn [length] in Hf.
    assert (Hend : forall r f', eof f' = true -> (eof f' = false -> exists a rest, x :: text = a ++ rest /\ at_text f' rest /\ rest <> [] /\ stops w rest) /\ (r : list Z) = r).
    { intros r f' E. split; auto. congruence. }
    assert (Hlift : forall pre suf f', x :: text = pre ++ suf ->
       (eof f' = false -> exists a rest, suf = a ++ rest /\ at_text f' rest /\ rest <> [] /\ stops w rest) ->
       (eof f' = false -> exists a rest, x :: text = a ++ rest /\ at_text f' rest /\ rest <> [] /\ stops w rest)).
    { intros pre suf f' E K Ef. destruct (K Ef) as (a & rest & -> & K1 & K2). exists (pre ++ a), rest.
      rewrite <- app_assoc. auto. }
    destruct ((x =? 94) || (x =? 0) || (x =? U_EOF)) eqn:Estop.
    + destruct (unget_at _ x _ A1 S1) as (f2 & -> & A2 & _); [lia|]. cbn [obind].
      eexists _, _. split; [reflexivity|]. split.
      * exists [], (x :: text). split; auto. left. now rewrite app_nil_r.
      * intros _. exists [], (x :: text). repeat split; auto; try (apply A2); [discriminate|].
        right. left. exists x, text. split; auto.
        rewrite !orb_true_iff, !Z.eqb_eq in Estop. tauto.
    + destruct (x =? 91) eqn:E91.
      * apply Z.eqb_eq in E91. subst x. destruct text as [|y text].
        -- rewrite (get_end _ A1). cbn [obind]. replace (U_EOF =? 91) with false by reflexivity.
           unfold unget. cbn [i_buf length i_eof i_bytes]. replace (0 <? UBUF)%nat with true by reflexivity. cbn [obind].
           unfold readBlock. cbn [Nat.add block_loop eof i_eof]. rewrite orb_true_r. cbn [obind].
           eexists _, _. split; [destruct fuel; reflexivity|]. split; [|discriminate].
           apply taken_cons; auto. exists [], []. split; auto. right. split; auto.
           split; [left; now rewrite app_nil_r|]. split; auto.
        -- destruct (get_at _ _ _ A1) as (f2 & -> & A2 & L2 & S2). cbn [obind]. cbn [length] in Hf.
           inversion Hn' as [|? ? Hy Hn'']; subst.
           destruct (y =? 91) eqn:Ey.
           ++ apply Z.eqb_eq in Ey. subst y. destruct w.
              ** pose proof (at_text_size _ _ A2) as Hz.
                 destruct (wblank_loop_any (2 + i_size f2) text f2 [91; 91] A2 ltac:(lia) Hn'') as (r & f3 & E3 & T3).
                 unfold finishWBlank. rewrite E3. cbn [obind].
                 destruct (taken_rest _ _ _ _ T3) as [(a & rest & -> & -> & A3)|(z & _ & Ee & ->)].
                 --- apply Forall_app in Hn'' as [_ Hn''].
                     destruct (IH rest f3 (ret ++ [91; 91] ++ utf16_text a) A3 ltac:(rewrite app_length in Hf; lia) Hn'')
                       as (r' & f' & -> & T & K).
                     eexists _, _. split; [reflexivity|]. split.
                     +++ apply (taken_app (91 :: 91 :: a)). exact T.
                     +++ apply (Hlift (91 :: 91 :: a) rest); auto.
                 --- eexists _, _. split; [destruct fuel; cbn [blank_loop]; rewrite Ee; reflexivity|].
                     split; [|congruence].
                     destruct T3 as (a & rest & Et & [[X A3]|(-> & X & En)]); [destruct A3 as [A3 _]; unfold eof in Ee; congruence|].
                     exists (91 :: 91 :: text), []. split; [now rewrite app_nil_r|]. right. split; auto. split; auto.
                     rewrite app_nil_r in Et. subst a.
                     destruct X as [X|X]; [left|right]; rewrite X, <- ?app_assoc; reflexivity.
              ** destruct (unget_at _ 91 _ A2 S2) as (f3 & -> & A3 & L3); [lia|]. cbn [obind].
                 destruct (unget_at _ 91 _ A3 S2) as (f4 & -> & A4 & _); [lia|]. cbn [obind].
                 eexists _, _. split; [reflexivity|]. split.
                 --- exists [], (91 :: 91 :: text). split; auto. left. now rewrite app_nil_r.
                 --- intros _. exists [], (91 :: 91 :: text). repeat split; auto; try (apply A4); [discriminate|].
                     right. right. eauto.
           ++ destruct (unget_at _ y _ A2 S2) as (f3 & -> & A3 & L3); [lia|]. cbn [obind].
              pose proof (at_text_size _ _ A3) as Hz.
              destruct (block_loop_any 93 (2 + i_size f3) (y :: text) 0 f3 (append_cp [] 91) A3 ltac:(lia) Hn')
                as (r & f4 & E4 & T4).
              unfold readBlock. rewrite E4. cbn [obind].
              destruct (taken_rest _ _ _ _ T4) as [(a & rest & Ea & -> & A4)|(z & _ & Ee & ->)].
              ** rewrite Ea in Hn'. apply Forall_app in Hn' as [_ Hr].
                 assert (Hlr : (length rest <= S (length text))%nat).
                 { apply (f_equal (@length _)) in Ea. rewrite app_length in Ea. cbn [length] in Ea. lia. }
                 destruct (IH rest f4 (ret ++ append_cp [] 91 ++ utf16_text a) A4 ltac:(lia) Hr)
                   as (r' & f' & -> & T & K).
                 eexists _, _. split; [reflexivity|]. split.
                 --- rewrite Ea. apply (taken_app (91 :: a)). exact T.
                 --- apply (Hlift (91 :: a) rest); auto. now rewrite Ea.
              ** eexists _, _. split; [destruct fuel; cbn [blank_loop]; rewrite Ee; reflexivity|].
                 split; [|congruence].
                 destruct T4 as (a & rest & Et & [[X A4]|(-> & X & En)]); [destruct A4 as [A4 _]; unfold eof in Ee; congruence|].
                 exists (91 :: y :: text), []. split; [now rewrite app_nil_r|]. right. split; auto. split; auto.
                 rewrite app_nil_r in Et. subst a.
                 destruct X as [X|X]; [left|right]; rewrite X, <- ?app_assoc; reflexivity.
      * destruct (x =? 92) eqn:E92.
        -- rewrite (at_text_eof _ _ A1). destruct text as [|y text].
           ++ rewrite (peek_end _ A1). cbn [obind]. replace (U_EOF =? 0) with false by reflexivity.
              unfold get, fill. cbn [i_buf obind i_bytes i_eof]. rewrite append_eof.
              eexists _, _. split; [destruct fuel; cbn [blank_loop eof i_eof]; reflexivity|].
              split; [|discriminate]. apply taken_cons; auto.
              exists [], []. split; auto. right. split; auto. split; [|apply ended_nil]. right. reflexivity.
           ++ destruct (peek_at _ _ _ A1) as (f2 & -> & A2 & L2 & S2). cbn [obind].
              inversion Hn' as [|? ? Hy Hn'']; subst.
              replace (y =? 0) with false by (symmetry; now apply Z.eqb_neq).
              destruct (get_at _ _ _ A2) as (f3 & -> & A3 & L3 & _). cbn [obind]. cbn [length] in Hf.
              destruct (IH text f3 (append_cp (append_cp ret x) y) A3 ltac:(lia) Hn'') as (r & f' & -> & T & K).
              eexists _, _. split; [reflexivity|]. split.
              ** apply taken_cons; auto. apply taken_cons; auto.
              ** apply (Hlift [x; y] text); auto.
        -- destruct (IH text f1 (append_cp ret x) A1 ltac:(lia) Hn') as (r & f' & -> & T & K).
           eexists _, _. split; [reflexivity|]. split.
           ++ apply taken_cons; auto.
           ++ apply (Hlift [x] text); auto.
Qed.

(** Whatever the input (without NUL), readBlank ends, returns text in its order, leaves the
    rest to be read, and stops only at the end, at a '^' or (if told so) at "[[". *)
Theorem C42_any_input : forall w f text, at_text f text -> Forall (fun c => c <> 0) text ->
  exists r f', readBlank w f = Ok (r, f') /\ taken text [] r f'
    /\ (eof f' = false -> exists a rest, text = a ++ rest /\ at_text f' rest /\ rest <> [] /\ stops w rest).
Proof.
  intros w f text Ha Hn. unfold readBlank. pose proof (at_text_size _ _ Ha).
  apply blank_loop_any; auto. lia.
Qed.

(** An unclosed superblank, and a backslash at the very end, get the mark U+FFFF. *)
Theorem C42_unclosed_refuted :
  (exists f, readBlank true (open_file [91; 97]) = Ok ([91; 97; 65535], f))
  /\ (exists f, readBlank true (open_file [97; 92]) = Ok ([97; 92; 65535], f)).
Proof. split; eexists; vm_compute; reflexivity. Qed.
(** A NUL inside a superblank ends it and disappears. *)
Theorem C42_nul_refuted : exists f, readBlank true (open_file [91; 97; 0; 98; 93]) = Ok ([91; 97; 98; 93], f).
Proof. eexists; vm_compute; reflexivity. Qed.

(** Examples *)
(** "a€𐍈" read, put back and read again *)
Example C43_example :
  irun (open_file [97; 226; 130; 172; 240; 144; 141; 136])
    [IGet; IPeek; IGet; IUnget 8364; IGet; IGet; IEof; IGet; IEof]
  = Ok [IChar 97; IChar 8364; IChar 8364; INone; IChar 8364; IChar 66376; IFlag false; IChar 65535; IFlag true].
Proof. vm_compute. reflexivity. Qed.
Example C42_block_example :
  match readBlock 91 93 (open_file (utf8_text [97; 92; 93; 98; 93; 94; 120])) with
  | Ok (r, f') => r = [91; 97; 92; 93; 98; 93] /\ i_bytes f' = [94; 120]
  | _ => False
  end.
Proof. vm_compute. auto. Qed.
Example C42_wblank_example :
  match finishWBlank (open_file (utf8_text [116; 93; 58; 92; 93; 93; 93; 94])) with
  | Ok (r, f') => r = [91; 91; 116; 93; 58; 92; 93; 93; 93] /\ i_bytes f' = [94]
  | _ => False
  end.
Proof. vm_compute. auto. Qed.
(** "a\^[b\]𐍈][[w]] " before "^x": blank with and without reading the word-bound blank *)
Definition sample : list Z := [97; 92; 94; 91; 98; 92; 93; 66376; 93; 91; 91; 119; 93; 93; 32; 94; 120].
Example C42_blank_example :
  match readBlank true (open_file (utf8_text sample)) with
  | Ok (r, f') => r = [97; 92; 94; 91; 98; 92; 93; 55296; 57160; 93; 91; 91; 119; 93; 93; 32]
                  /\ get f' = Ok (94, mkI [120] false [])
  | _ => False
  end
  /\ match readBlank false (open_file (utf8_text sample)) with
     | Ok (r, f') => r = [97; 92; 94; 91; 98; 92; 93; 55296; 57160; 93] /\ i_buf f' = [91; 91]
     | _ => False
     end.
Proof. vm_compute. auto. Qed.

Print Assumptions C43_reads.
Print Assumptions C43_decoded.
Print Assumptions C43_malformed.
Print Assumptions C43_rewind_refuted.
Print Assumptions C43_noncharacter_refuted.
Print Assumptions C42_block.
Print Assumptions C42_wblank.
Print Assumptions C42_blank.
Print Assumptions C42_any_input.
Print Assumptions C42_unclosed_refuted.
Print Assumptions C42_nul_refuted.
