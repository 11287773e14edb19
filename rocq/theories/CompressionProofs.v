(** Proofs about the codec model. *)
From Verif Require Import Base CompressionModel.

(** Bit operations on small values as arithmetic. *)
Lemma lor_40 : forall x, 0 <= x < 64 -> Z.lor x 64 = x + 64.
Proof.
  intros x Hx. rewrite Z.lor_comm. change 64 with (1 * 2 ^ 6).
  rewrite lor_add_low by (cbn; lia). lia.
Qed.
Lemma lor_80 : forall x, 0 <= x < 64 -> Z.lor x 128 = x + 128.
Proof.
  intros x Hx. rewrite Z.lor_comm. change 128 with (2 * 2 ^ 6).
  rewrite lor_add_low by (cbn; lia). lia.
Qed.
Lemma lor_c0 : forall x, 0 <= x < 64 -> Z.lor x 192 = x + 192.
Proof.
  intros x Hx. rewrite Z.lor_comm. change 192 with (3 * 2 ^ 6).
  rewrite lor_add_low by (cbn; lia). lia.
Qed.
Lemma land_3f : forall x, Z.land x 63 = x mod 64.
Proof. intros x. change 63 with (2 ^ 6 - 1). rewrite land_ones_mod by lia. reflexivity. Qed.
Lemma lor_byte : forall low aux, 0 <= low < 256 -> Z.lor low (aux * 256) = aux * 256 + low.
Proof.
  intros low aux H. rewrite Z.lor_comm. change 256 with (2 ^ 8).
  apply lor_add_low; cbn; lia.
Qed.
Lemma shl8 : forall x, 0 <= x < 16777216 -> to_uint (Z.shiftl x 8) = x * 256.
Proof.
  intros x H. unfold to_uint. rewrite Z.shiftl_mul_pow2 by lia.
  change (2 ^ 8) with 256. change (2 ^ 32) with 4294967296. apply Z.mod_small. lia.
Qed.

(** Arithmetic characterisation of the writer, one lemma per size class. *)
Lemma mbw_1 : forall v, 0 <= v < 0x40 -> multibyte_write v = Ok [v].
Proof.
  intros v H. unfold multibyte_write, to_uchar.
  replace (v <? 64) with true by lia. f_equal. f_equal. lia.
Qed.

Ltac shr := rewrite ?Z.shiftr_div_pow2 by lia;
  change (2 ^ 8) with 256; change (2 ^ 16) with 65536; change (2 ^ 24) with 16777216.

Lemma mbw_2 : forall v, 0x40 <= v < 0x4000 ->
  multibyte_write v = Ok [64 + v / 256; v mod 256].
Proof.
  intros v H. unfold multibyte_write, to_uchar.
  replace (v <? 64) with false by lia. replace (v <? 0x4000) with true by lia.
  shr. rewrite lor_40 by lia. f_equal. f_equal; lia.
Qed.

Lemma mbw_3 : forall v, 0x4000 <= v < 0x400000 ->
  multibyte_write v = Ok [128 + v / 65536; v / 256 mod 256; v mod 256].
Proof.
  intros v H. unfold multibyte_write, to_uchar.
  replace (v <? 64) with false by lia. replace (v <? 0x4000) with false by lia.
  replace (v <? 0x400000) with true by lia.
  shr. rewrite lor_80 by lia. f_equal. f_equal; lia.
Qed.

Lemma mbw_4 : forall v, 0x400000 <= v < 0x40000000 ->
  multibyte_write v
    = Ok [192 + v / 16777216; v / 65536 mod 256; v / 256 mod 256; v mod 256].
Proof.
  intros v H. unfold multibyte_write, to_uchar.
  replace (v <? 64) with false by lia. replace (v <? 0x4000) with false by lia.
  replace (v <? 0x400000) with false by lia. replace (v <? 0x40000000) with true by lia.
  shr. rewrite lor_c0 by lia. f_equal. f_equal; lia.
Qed.

Lemma mbw_exit : forall v, 0x40000000 <= v -> multibyte_write v = Exit.
Proof.
  intros v H. unfold multibyte_write.
  replace (v <? 64) with false by lia. replace (v <? 0x4000) with false by lia.
  replace (v <? 0x400000) with false by lia. replace (v <? 0x40000000) with false by lia.
  reflexivity.
Qed.

(** Arithmetic characterisation of the reader. *)
Lemma mbr_1 : forall a r, 0 <= a < 64 -> multibyte_read (a :: r) = (a, r).
Proof. intros. unfold multibyte_read; cbn [readByte]. replace (a <? 64) with true by lia. reflexivity. Qed.

Lemma mbr_2 : forall a b r, 64 <= a < 128 -> is_byte b ->
  multibyte_read (a :: b :: r) = ((a - 64) * 256 + b, r).
Proof.
  intros a b r Ha Hb. unfold is_byte in Hb. unfold multibyte_read; cbn [readByte].
  replace (a <? 64) with false by lia. replace (a <? 128) with true by lia.
  rewrite land_3f. replace (a mod 64) with (a - 64) by lia.
  rewrite shl8 by lia. rewrite lor_byte by lia. reflexivity.
Qed.

Lemma mbr_3 : forall a b c r, 128 <= a < 192 -> is_byte b -> is_byte c ->
  multibyte_read (a :: b :: c :: r) = (((a - 128) * 256 + b) * 256 + c, r).
Proof.
  intros a b c r Ha Hb Hc. unfold is_byte in *. unfold multibyte_read; cbn [readByte].
  replace (a <? 64) with false by lia. replace (a <? 128) with false by lia.
  replace (a <? 192) with true by lia.
  rewrite land_3f. replace (a mod 64) with (a - 128) by lia.
  rewrite (shl8 (a - 128)) by lia. rewrite (lor_byte b) by lia.
  rewrite (shl8 ((a - 128) * 256 + b)) by lia. rewrite lor_byte by lia. reflexivity.
Qed.

Lemma mbr_4 : forall a b c d r, 192 <= a < 256 -> is_byte b -> is_byte c -> is_byte d ->
  multibyte_read (a :: b :: c :: d :: r)
    = ((((a - 192) * 256 + b) * 256 + c) * 256 + d, r).
Proof.
  intros a b c d r Ha Hb Hc Hd. unfold is_byte in *. unfold multibyte_read; cbn [readByte].
  replace (a <? 64) with false by lia. replace (a <? 128) with false by lia.
  replace (a <? 192) with false by lia.
  rewrite land_3f. replace (a mod 64) with (a - 192) by lia.
  rewrite (shl8 (a - 192)) by lia. rewrite (lor_byte b) by lia.
  rewrite (shl8 ((a - 192) * 256 + b)) by lia. rewrite (lor_byte c) by lia.
  rewrite (shl8 (((a - 192) * 256 + b) * 256 + c)) by lia.
  rewrite lor_byte by lia. reflexivity.
Qed.

(** The four size classes. *)
Lemma size_classes : forall v, 0 <= v < 2 ^ 30 ->
  0 <= v < 0x40 \/ 0x40 <= v < 0x4000 \/ 0x4000 <= v < 0x400000
  \/ 0x400000 <= v < 0x40000000.
Proof. intros v H. change (2 ^ 30) with 0x40000000 in H. lia. Qed.

Lemma multibyte_roundtrip : forall v, 0 <= v < 2 ^ 30 ->
  exists bs, multibyte_write v = Ok bs /\ bytes bs
    /\ (1 <= length bs <= 4)%nat
    /\ forall rest, multibyte_read (bs ++ rest) = (v, rest).
Proof.
  intros v H. destruct (size_classes v H) as [H1|[H1|[H1|H1]]].
  - exists [v]. rewrite mbw_1 by lia. split; [reflexivity|]. split.
    { repeat constructor; unfold is_byte; lia. }
    split; [cbn; lia|]. intros rest. cbn [app]. apply mbr_1; lia.
  - exists [64 + v / 256; v mod 256]. rewrite mbw_2 by lia. split; [reflexivity|]. split.
    { repeat constructor; unfold is_byte; lia. }
    split; [cbn; lia|]. intros rest. cbn [app]. rewrite mbr_2; unfold is_byte; [|lia|lia].
    f_equal. lia.
  - exists [128 + v / 65536; v / 256 mod 256; v mod 256]. rewrite mbw_3 by lia.
    split; [reflexivity|]. split.
    { repeat constructor; unfold is_byte; lia. }
    split; [cbn; lia|]. intros rest. cbn [app]. rewrite mbr_3; unfold is_byte; try lia.
    f_equal. lia.
  - exists [192 + v / 16777216; v / 65536 mod 256; v / 256 mod 256; v mod 256].
    rewrite mbw_4 by lia. split; [reflexivity|]. split.
    { repeat constructor; unfold is_byte; lia. }
    split; [cbn; lia|]. intros rest. cbn [app]. rewrite mbr_4; unfold is_byte; try lia.
    f_equal. lia.
Qed.

Lemma multibyte_len_mono : forall v w bv bw, 0 <= v <= w ->
  multibyte_write v = Ok bv -> multibyte_write w = Ok bw ->
  (length bv <= length bw)%nat.
Proof.
  intros v w bv bw H Hv Hw.
  assert (Hw30 : w < 2 ^ 30).
  { destruct (Z.lt_ge_cases w (2 ^ 30)) as [?|Hge]; [assumption|].
    rewrite mbw_exit in Hw by (cbn in Hge; lia). discriminate. }
  destruct (size_classes v) as [H1|[H1|[H1|H1]]]; [lia| | | |];
  (destruct (size_classes w) as [H2|[H2|[H2|H2]]]; [lia| | | |]);
  try lia;
  (first [rewrite mbw_1 in Hv by lia | rewrite mbw_2 in Hv by lia
         | rewrite mbw_3 in Hv by lia | rewrite mbw_4 in Hv by lia]);
  (first [rewrite mbw_1 in Hw by lia | rewrite mbw_2 in Hw by lia
         | rewrite mbw_3 in Hw by lia | rewrite mbw_4 in Hw by lia]);
  injection Hv as <-; injection Hw as <-; cbn; lia.
Qed.

(** Lists of integers. *)
Lemma multibyte_list_roundtrip : forall vs, Forall (fun v => 0 <= v < 2 ^ 30) vs ->
  exists bs, multibyte_write_list vs = Ok bs /\ bytes bs
    /\ forall rest, multibyte_read_list (length vs) (bs ++ rest) = (vs, rest).
Proof.
  induction vs as [|v vs IH]; intros H.
  - exists []. repeat split. constructor.
  - inversion H as [|? ? Hv Hvs]; subst.
    destruct (multibyte_roundtrip v Hv) as (b & Hb & Hbb & _ & Hr).
    destruct (IH Hvs) as (bs & Hbs & Hbbs & Hrs).
    exists (b ++ bs). cbn [multibyte_write_list]. rewrite Hb. cbn [obind]. rewrite Hbs.
    cbn [obind]. split; [reflexivity|]. split; [apply Forall_app; auto|].
    intros rest. cbn [length multibyte_read_list]. rewrite <- app_assoc, Hr, Hrs. reflexivity.
Qed.

Lemma multibyte_write_list_ok : forall vs bs, multibyte_write_list vs = Ok bs ->
  Forall (fun v => 0 <= v) vs -> Forall (fun v => 0 <= v < 2 ^ 30) vs.
Proof.
  induction vs as [|v vs IH]; intros bs H Hp; [constructor|].
  inversion Hp as [|? ? Hv Hvs]; subst. cbn [multibyte_write_list] in H.
  destruct (Z.lt_ge_cases v (2 ^ 30)) as [Hlt|Hge].
  - constructor; [lia|]. destruct (multibyte_write v); try discriminate. cbn [obind] in H.
    destruct (multibyte_write_list vs) eqn:E; try discriminate. eapply IH; eauto.
  - rewrite mbw_exit in H by (cbn in Hge; lia). discriminate.
Qed.

(** The first byte of an encoding determines its length, so no encoding is a prefix
    of another one. *)
Lemma multibyte_unique : forall vs ws bs,
  Forall (fun v => 0 <= v) vs -> Forall (fun v => 0 <= v) ws ->
  multibyte_write_list vs = Ok bs -> multibyte_write_list ws = Ok bs -> vs = ws.
Proof.
  induction vs as [|v vs IH]; intros ws bs Hv Hw Ev Ew.
  - cbn in Ev. injection Ev as <-. destruct ws as [|w ws]; [reflexivity|].
    assert (Hw' := multibyte_write_list_ok _ _ Ew Hw). inversion Hw' as [|? ? Hw0 Hws]; subst.
    destruct (multibyte_roundtrip w Hw0) as (b & Hb & _ & Hl & _).
    cbn [multibyte_write_list] in Ew. rewrite Hb in Ew. cbn [obind] in Ew.
    destruct (multibyte_write_list ws); try discriminate. cbn [obind] in Ew.
    injection Ew as Ew. destruct b; [cbn in Hl; lia|discriminate].
  - assert (Hv' := multibyte_write_list_ok _ _ Ev Hv). inversion Hv' as [|? ? Hv0 Hvs]; subst.
    destruct (multibyte_roundtrip v Hv0) as (b & Hb & _ & Hl & Hr).
    cbn [multibyte_write_list] in Ev. rewrite Hb in Ev. cbn [obind] in Ev.
    destruct (multibyte_write_list vs) as [bs1| | | |] eqn:E1; try discriminate.
    cbn [obind] in Ev. injection Ev as <-.
    destruct ws as [|w ws].
    + cbn in Ew. injection Ew as Ew. destruct b; [cbn in Hl; lia|discriminate].
    + assert (Hw' := multibyte_write_list_ok _ _ Ew Hw). inversion Hw' as [|? ? Hw0 Hws]; subst.
      destruct (multibyte_roundtrip w Hw0) as (b2 & Hb2 & _ & Hl2 & Hr2).
      cbn [multibyte_write_list] in Ew. rewrite Hb2 in Ew. cbn [obind] in Ew.
      destruct (multibyte_write_list ws) as [bs2| | | |] eqn:E2; try discriminate.
      cbn [obind] in Ew. injection Ew as Ew.
      specialize (Hr bs1). specialize (Hr2 bs2). rewrite Ew, Hr in Hr2.
      injection Hr2 as <- <-. rewrite Hb in Hb2. injection Hb2 as <-.
      f_equal. inversion Hv; inversion Hw; subst. eapply IH; eauto.
Qed.

Lemma multibyte_prefix_free : forall v w bv bw s, 0 <= v -> 0 <= w ->
  multibyte_write v = Ok bv -> multibyte_write w = Ok bw -> bw = bv ++ s -> v = w /\ s = [].
Proof.
  intros v w bv bw s Hv Hw Ev Ew E.
  assert (Hv30 : v < 2 ^ 30).
  { destruct (Z.lt_ge_cases v (2 ^ 30)) as [?|Hge]; [assumption|].
    rewrite mbw_exit in Ev by (cbn in Hge; lia). discriminate. }
  assert (Hw30 : w < 2 ^ 30).
  { destruct (Z.lt_ge_cases w (2 ^ 30)) as [?|Hge]; [assumption|].
    rewrite mbw_exit in Ew by (cbn in Hge; lia). discriminate. }
  destruct (multibyte_roundtrip v) as (b & Hb & _ & _ & Hr); [lia|].
  destruct (multibyte_roundtrip w) as (b2 & Hb2 & _ & _ & Hr2); [lia|].
  rewrite Ev in Hb. injection Hb as <-. rewrite Ew in Hb2. injection Hb2 as <-.
  specialize (Hr s). specialize (Hr2 []). rewrite app_nil_r in Hr2. subst bw.
  rewrite Hr in Hr2. injection Hr2 as -> ->. auto.
Qed.
